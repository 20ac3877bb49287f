(** ArithModel.v -- the numerical part of a run (set-up, initial state, residual,
    time steps) once more, in an arbitrary arithmetic instead of the real
    numbers: every operation of the C++ text is one operation of [arith], in the
    order and association the C++ text gives it, so that the model speaks about
    the rounded numbers ([float], [double], with infinities and NaNs) the program
    holds.

    Library routines (KokkosBatched gemm, LU, scale; KokkosBlas axpy, update) are
    arbitrary functions of what they read ([library]): one entry of a product is
    some function of a row, a column and, if it accumulates, the old entry.  The
    tables of the reference element (quadrature, basis values and gradients),
    which every rank computes by the same serial code from the same input, and
    the initial condition are arbitrary.

    Simplifications.  Accesses are not checked here: they are in bounds by C23,
    C64 and C68.  Loops whose iterations write one entry each of a row of state
    variables are written by the entry.  The reduction for the element volume,
    which no other computation reads, is left out.  Each operation of the text is
    assumed to be the same operation in both runs that are compared (one
    executable: the compiler contracts or reorders the same way each time). *)
From Coq Require Import ZArith List Lia Bool.
From Verif Require Import Base RBase MeshModel ShapeModel CommModel SolverModel SetupModel SolverSpec CommSpec MeshSpec PhysModel LinAlgProof.
From Verif Require SolverFaces.
Import ListNotations.
Local Open Scope Z_scope.

(** The operations of [rtype] (common/defines.h: float or double) the code uses;
    comparisons are booleans, so that a NaN may compare false with everything. *)
Record arith := mkArith {
  num : Type;
  f0 : num; f1 : num; fhalf : num; f2 : num; f6 : num; fm1 : num;
  fadd : num -> num -> num; fsub : num -> num -> num; fmul : num -> num -> num; fdiv : num -> num -> num;
  fneg : num -> num; fsqrt : num -> num; fmaxi : num -> num -> num;
  flt : num -> num -> bool; fle : num -> num -> bool
}.

(** The library: [l_entry m n k i j alpha row col acc old] is entry (i, j) of
    alpha A B (+ C if [acc]) for an [m] x [n] result and inner dimension [k];
    [l_solve n M B]: LU factorisation of M and solution for B; [l_scale c a],
    [l_axpy c a b], [l_update c a b]: one entry of c a, c a + b, c a + 1 b. *)
Record library (N : Type) := mkLibrary {
  l_entry : Z -> Z -> Z -> Z -> Z -> N -> (Z -> N) -> (Z -> N) -> bool -> N -> N;
  l_solve : Z -> (Z -> Z -> N) -> (Z -> Z -> N) -> Z -> Z -> N;
  l_scale : N -> N -> N;
  l_axpy : N -> N -> N -> N;
  l_update : N -> N -> N -> N
}.
Arguments l_entry {N}. Arguments l_solve {N}. Arguments l_scale {N}. Arguments l_axpy {N}. Arguments l_update {N}.

(** A loop over pairs (MDRangePolicy) in the order [order]. *)
Definition sweep {S} (order : list (Z * Z)) (body : Z * Z -> S -> S) (s : S) : S := fold_left (fun s p => body p s) order s.
(** Row (i, j) of a rank-3 view. *)
Definition set2 {A} (a : Z -> Z -> A) (i j : Z) (v : A) : Z -> Z -> A :=
  fun i' j' => if ((i' =? i) && (j' =? j))%bool then v else a i' j'.

(** Node of an element face (shape.cpp 124-152, 430-480), number of nodes. *)
Definition face_node (s : eshape) (k g i : Z) : Z :=
  match s with EQuad => local_nodes_on_face_quad k g (fun _ => 0) i | EHex => local_nodes_on_face_hex k g (fun _ => 0) i end.
Definition face_nodes_count (s : eshape) (g : Z) : Z := match s with EQuad => g + 1 | EHex => (g + 1) * (g + 1) end.

(** Tables of a volume rule: number of points, weights, values and gradients of
    the solution basis, values and gradients of the geometric basis. *)
Record vtable (N : Type) := mkVT {
  vt_nq : Z; vt_wts : Z -> N; vt_val : Z -> Z -> N; vt_grad : Z -> Z -> Z -> N;
  vt_gval : Z -> Z -> N; vt_ggrad : Z -> Z -> Z -> N
}.
Arguments vt_nq {N}. Arguments vt_wts {N}. Arguments vt_val {N}. Arguments vt_grad {N}. Arguments vt_gval {N}. Arguments vt_ggrad {N}.

Inductive skind := StepFE | StepRK4.

Section Arith.
Context (K : arith) (L : library (num K)).
Notation N := (num K).
Declare Scope k_scope.
Delimit Scope k_scope with K.
Local Notation "x + y" := (fadd K x y) : k_scope.
Local Notation "x - y" := (fsub K x y) : k_scope.
Local Notation "x * y" := (fmul K x y) : k_scope.
Local Notation "x / y" := (fdiv K x y) : k_scope.
Local Notation "- x" := (fneg K x) : k_scope.

(** * Linear algebra *)

(** linear_algebra.cpp 178-241 (SerialGemm / TeamGemm): entries of op(A), op(B). *)
Definition kgemm (m n k : Z) (alpha : N) (A B : Z -> Z -> N) (acc : bool) (C : Z -> Z -> N) : Z -> Z -> N :=
  fun i j => if (inb m i && inb n j)%bool then l_entry L m n k i j alpha (A i) (fun p => B p j) acc (C i j) else C i j.

(** linear_algebra.cpp 13-24: dot<2>, dot<3>. *)
Definition kdot (dim : Z) (a b : Z -> N) : N :=
  (if dim =? 2 then (a 0%Z * b 0%Z + a 1%Z * b 1%Z)%K else (a 0%Z * b 0%Z + a 1%Z * b 1%Z + a 2%Z * b 2%Z)%K).

(** linear_algebra.cpp 243-259. *)
Definition kdet (dim : Z) (M : Z -> Z -> N) : N :=
  if dim =? 2 then (M 0%Z 0%Z * M 1%Z 1%Z - M 0%Z 1%Z * M 1%Z 0%Z)%K
  else (M 0%Z 0%Z * M 1%Z 1%Z * M 2%Z 2%Z - M 0%Z 0%Z * M 1%Z 2%Z * M 2%Z 1%Z
    - M 0%Z 1%Z * M 1%Z 0%Z * M 2%Z 2%Z + M 0%Z 1%Z * M 1%Z 2%Z * M 2%Z 0%Z
    + M 0%Z 2%Z * M 1%Z 0%Z * M 2%Z 1%Z - M 0%Z 2%Z * M 1%Z 1%Z * M 2%Z 0%Z)%K.

(** linear_algebra.cpp 43-51, on a view with entries [I]. *)
Definition kidentity (n : Z) (I : Z -> Z -> N) : Z -> Z -> N :=
  fun i j => if (inb n i && inb n j && (i =? j))%bool then f1 K else I i j.

(** linear_algebra.cpp 92-176. *)
Definition kinv (n : Z) (M I : Z -> Z -> N) : Z -> Z -> N :=
  if n =? 1 then set2 I 0 0 (f1 K / M 0%Z 0%Z)%K
  else if n =? 2 then
    let det := kdet 2 M in
    set2 (set2 (set2 (set2 I 0 0 (M 1%Z 1%Z / det)%K) 0 1 (- M 0%Z 1%Z / det)%K) 1 0 (- M 1%Z 0%Z / det)%K) 1 1 (M 0%Z 0%Z / det)%K
  else if n =? 3 then
    let det := kdet 3 M in
    let I := set2 I 0 0 ((M 1%Z 1%Z * M 2%Z 2%Z - M 1%Z 2%Z * M 2%Z 1%Z) / det)%K in
    let I := set2 I 1 0 (- (M 1%Z 0%Z * M 2%Z 2%Z - M 1%Z 2%Z * M 2%Z 0%Z) / det)%K in
    let I := set2 I 2 0 ((M 1%Z 0%Z * M 2%Z 1%Z - M 1%Z 1%Z * M 2%Z 0%Z) / det)%K in
    let I := set2 I 0 1 (- (M 0%Z 1%Z * M 2%Z 2%Z - M 0%Z 2%Z * M 2%Z 1%Z) / det)%K in
    let I := set2 I 1 1 ((M 0%Z 0%Z * M 2%Z 2%Z - M 0%Z 2%Z * M 2%Z 0%Z) / det)%K in
    let I := set2 I 2 1 (- (M 0%Z 0%Z * M 2%Z 1%Z - M 0%Z 1%Z * M 2%Z 0%Z) / det)%K in
    let I := set2 I 0 2 ((M 0%Z 1%Z * M 1%Z 2%Z - M 0%Z 2%Z * M 1%Z 1%Z) / det)%K in
    let I := set2 I 1 2 (- (M 0%Z 0%Z * M 1%Z 2%Z - M 0%Z 2%Z * M 1%Z 0%Z) / det)%K in
    set2 I 2 2 ((M 0%Z 0%Z * M 1%Z 1%Z - M 0%Z 1%Z * M 1%Z 0%Z) / det)%K
  else l_solve L n M (kidentity n I).

(** * Set-up of a rank *)

(** mesh/tools.cpp 5-17; [c]: content of the scratch memory. *)
Definition kcoords (pm : pmesh N) (npe dim e : Z) (c : Z -> Z -> N) : Z -> Z -> N := fun i j =>
  if (inb npe i && inb dim j)%bool then
    match (nd <- rd2 (pm_elem_to_node pm) e i ;; rd2 (pm_node_coords pm) nd j)%res with Ok v => v | Fail _ => f0 K end
  else c i j.

(** basis/tools.cpp 42-66: rows of one element; also (without the inverse) 68-83. *)
Definition kjacobians (nq dim npe : Z) (ggrad : Z -> Z -> Z -> N) (c : Z -> Z -> N)
  (s : (Z -> Z -> Z -> N) * (Z -> N) * (Z -> Z -> Z -> N)) : (Z -> Z -> Z -> N) * (Z -> N) * (Z -> Z -> Z -> N) :=
  zloop nq (fun iq s =>
    let '(jac, djac, ijac) := s in
    let J := kgemm dim dim npe (f1 K) (fun i p => c p i) (ggrad iq) false (jac iq) in
    (setr jac iq J, setr djac iq (kdet dim J), setr ijac iq (kinv dim J (ijac iq)))) s.

(** basis/tools.cpp 85-110; [MM0]: content of the scratch memory. *)
Definition kinv_mass (nq nb : Z) (wts : Z -> N) (bval : Z -> Z -> N) (djac : Z -> N) (MM0 iMM : Z -> Z -> N) : Z -> Z -> N :=
  let sb := fun iq j => l_scale L (wts iq * djac iq)%K (bval iq j) in
  let MM := kgemm nb nb nq (f1 K) (fun i p => bval p i) sb false MM0 in
  kinv nb MM iMM.

(** VolumeHelperFunctor's views that depend on the element. *)
Record kgeom := mkKG { g_jac : Z -> Z -> Z -> Z -> N; g_djac : Z -> Z -> N; g_ijac : Z -> Z -> Z -> Z -> N; g_iMM : Z -> Z -> Z -> N }.
Definition kgeom0 : kgeom := mkKG (fun _ _ _ _ => f0 K) (fun _ _ => f0 K) (fun _ _ _ _ => f0 K) (fun _ _ _ => f0 K).

(** helpers.cpp 71-99 *)
Definition kmass_team (pm : pmesh N) (dim npe nb : Z) (T : vtable N) (junk : Z -> Z -> N) (e : Z) (h : kgeom) : kgeom :=
  let c := kcoords pm npe dim e junk in
  let '(jac, djac, ijac) := kjacobians (vt_nq T) dim npe (vt_ggrad T) c (g_jac h e, g_djac h e, g_ijac h e) in
  mkKG (setr (g_jac h) e jac) (setr (g_djac h) e djac) (setr (g_ijac h) e ijac)
    (setr (g_iMM h) e (kinv_mass (vt_nq T) nb (vt_wts T) (vt_val T) djac junk (g_iMM h e))).

(** helpers.cpp 12-49 *)
Definition kvolume_team (pm : pmesh N) (dim npe : Z) (T : vtable N) (junk : Z -> Z -> N) (e : Z) (h : kgeom) : kgeom :=
  let c := kcoords pm npe dim e junk in
  let '(jac, djac, ijac) := kjacobians (vt_nq T) dim npe (vt_ggrad T) c (g_jac h e, g_djac h e, g_ijac h e) in
  mkKG (setr (g_jac h) e jac) (setr (g_djac h) e djac) (setr (g_ijac h) e ijac) (g_iMM h).

(** helpers.cpp 4-100 as called by base.cpp 83-97: the inverse mass matrices (rule
    [TM] of twice the order), then the volume helpers (rule [TV]). *)
Definition kgeometry (pm : pmesh N) (dim npe nb : Z) (TM TV : vtable N) (junk : Z -> Z -> N) (eo1 eo2 : list Z) : kgeom :=
  ploop eo2 (kvolume_team pm dim npe TV junk) (ploop eo1 (kmass_team pm dim npe nb TM junk) kgeom0).

(** shape.cpp 154-204 and 482-532: the normal at a face point from the nodes [c]
    of an element, face [k] of that element; [fgrad]: gradients of the face's
    geometric basis at the point; [xg0]: scratch memory. *)
Definition knormal (s : eshape) (sign : N) (k g : Z) (fgrad c xg0 : Z -> Z -> N) : Z -> N :=
  let fc := fun i d => c (face_node s k g i) d in
  match s with
  | EQuad => let xg := kgemm 2 1 (face_nodes_count s g) (f1 K) (fun d p => fc p d) fgrad false xg0 in
      fun d => if d =? 0 then (sign * xg 1%Z 0%Z)%K else (fm1 K * sign * xg 0%Z 0%Z)%K
  | EHex => let xg := kgemm 3 2 (face_nodes_count s g) (f1 K) (fun d p => fc p d) fgrad false xg0 in
      fun d => l_scale L sign
        (if d =? 0 then (xg 1%Z 0%Z * xg 2%Z 1%Z - xg 2%Z 0%Z * xg 1%Z 1%Z)%K
         else if d =? 1 then (xg 2%Z 0%Z * xg 0%Z 1%Z - xg 0%Z 0%Z * xg 2%Z 1%Z)%K
         else (xg 0%Z 0%Z * xg 1%Z 1%Z - xg 1%Z 0%Z * xg 0%Z 1%Z)%K)
  end.

(** helpers.cpp 408-499.  (A face of which this rank has neither element, for which
    the code prints a message, does not occur: C04.) *)
Definition knormals_team (s : eshape) (pm : pmesh N) (rank npe g nqf : Z) (fgrad : Z -> Z -> Z -> N) (junk : Z -> Z -> N)
  (iface : Z) (Nn : Z -> Z -> Z -> N) : Z -> Z -> Z -> N :=
  let rows := pm_interior_faces pm in
  match face_side rank (SolverFaces.ent rows iface 0) (SolverFaces.ent rows iface 4) with
  | None => Nn
  | Some onleft =>
    let elem := SolverFaces.ent rows iface (if onleft then 1 else 5) in
    let face := SolverFaces.ent rows iface (if onleft then 2 else 6) in
    let sign := if onleft then f1 K else fm1 K in
    let c := kcoords pm npe (space_dim s) elem junk in
    setr Nn iface (fun ip => if inb nqf ip then knormal s sign face g (fgrad ip) c junk else Nn iface ip)
  end.

(** * Physics *)

(** euler/functions.cpp 10-23 *)
Definition kpressure (dim : Z) (gamma : N) (U : Z -> N) : N :=
  let mom := fun i => U (1 + i) in
  let rKE := (kdot dim mom mom / U 0%Z)%K in
  ((gamma - f1 K) * (U (dim + 1)%Z - fhalf K * rKE))%K.

(** euler/functions.cpp 25-40 *)
Definition kwavespeed (dim : Z) (gamma : N) (U : Z -> N) : N :=
  let mom := fun i => U (1 + i) in
  let rho1 := (f1 K / U 0%Z)%K in
  (fsqrt K (kdot dim mom mom) * rho1 + fsqrt K (gamma * kpressure dim gamma U * rho1))%K.

Definition klist (l : list N) (junk : Z -> N) : Z -> N := fun i => if i <? 0 then junk i else nth (Z.to_nat i) l (junk i).

(** euler/functions.cpp 43-91; [junk]: the output array before. *)
Definition kconv_flux (dim : Z) (gamma : N) (U junk : Z -> N) : Z -> N :=
  let r1 := (f1 K / U 0%Z)%K in
  let P := kpressure dim gamma U in
  if dim =? 2 then
    let ru := U 1 in let rv := U 2 in let rE := U 3 in
    klist [ru; (ru*ru*r1 + P)%K; (ru*rv*r1)%K; ((rE + P)*ru*r1)%K;
           rv; (ru*rv*r1)%K; (rv*rv*r1 + P)%K; ((rE + P)*rv*r1)%K] junk
  else
    let ru := U 1 in let rv := U 2 in let rw := U 3 in let rE := U 4 in
    klist [ru; (ru*ru*r1 + P)%K; (ru*rv*r1)%K; (ru*rw*r1)%K; ((rE + P)*ru*r1)%K;
           rv; (rv*ru*r1)%K; (rv*rv*r1 + P)%K; (rv*rw*r1)%K; ((rE + P)*rv*r1)%K;
           rw; (rw*ru*r1)%K; (rw*rv*r1)%K; (rw*rw*r1 + P)%K; ((rE + P)*rw*r1)%K] junk.

(** base/functions.cpp 34-87; [F0], [Fq0]: the local arrays before. *)
Definition klaxfriedrichs (dim : Z) (gamma : N) (UL UR Nn F0 Fq0 : Z -> N) : Z -> N :=
  let NS := dim + 2 in
  let n_mag := fsqrt K (zloop dim (fun d a => (a + Nn d * Nn d)%K) (f0 K)) in
  let n_hat := fun d => (Nn d / n_mag)%K in
  let FL := kconv_flux dim gamma UL Fq0 in
  let FqL := fun is => zloop dim (fun d a => (a + FL (is + d * NS)%Z * n_hat d)%K) (f0 K) in
  let FR := kconv_flux dim gamma UR FL in
  let FqR := fun is => zloop dim (fun d a => (a + FR (is + d * NS)%Z * n_hat d)%K) (f0 K) in
  let a := kwavespeed dim gamma UL in
  let aR := kwavespeed dim gamma UR in
  let a := if flt K a aR then aR else a in
  fun is => if inb NS is then (n_mag * (fhalf K * (FqL is + FqR is) - fhalf K * a * (UR is - UL is)))%K else F0 is.

(** euler/functions.cpp 196-399.  The energy products of 249 and 255 (and 353,
    359) associate differently. *)
Definition khllc_star (dim : Z) (djac : N) (n U : Z -> N) (rho un P s sStar : N) (F0 : Z -> N) : Z -> N :=
  let c := ((s - un) / (s - sStar))%K in
  let factor1 := (sStar - un)%K in
  let factor2 := (sStar + P / (rho * (s - un)))%K in
  fun is =>
    if is =? 0 then (djac * (rho * un + rho * s * (c - f1 K)))%K
    else if (1 <=? is) && (is <=? dim) then
      (djac * (U is * un + P * n (is - 1)%Z + s * (U is * (c - f1 K) + rho * c * factor1 * n (is - 1)%Z)))%K
    else if is =? dim + 1 then
      (djac * ((U is + P) * un + s * (U is * (c - f1 K) + rho * c * factor1 * factor2)))%K
    else F0 is.

Definition khllc (dim : Z) (gam : N) (UL UR Nn F0 : Z -> N) : res (Z -> N) :=
  let djac := fsqrt K (kdot dim Nn Nn) in
  let djac1 := (f1 K / djac)%K in
  let n := fun i => (Nn i * djac1)%K in
  let rhoL := UL 0 in
  let rhoL1 := (f1 K / rhoL)%K in
  let unL := (kdot dim (fun i => UL (1 + i)%Z) n * rhoL1)%K in
  let PL := kpressure dim gam UL in
  let aL := fsqrt K (gam * PL * rhoL1)%K in
  let rhoR := UR 0 in
  let rhoR1 := (f1 K / rhoR)%K in
  let unR := (kdot dim (fun i => UR (1 + i)%Z) n * rhoR1)%K in
  let PR := kpressure dim gam UR in
  let aR := fsqrt K (gam * PR * rhoR1)%K in
  let rAvg := (fhalf K * (rhoL + rhoR))%K in
  let aAvg := (fhalf K * (aL + aR))%K in
  let pStar := fmaxi K (f0 K) (fhalf K * (PL + PR - (unR - unL) * rAvg * aAvg))%K in
  let q := fun P => if flt K (f1 K) (pStar / P)%K
      then fsqrt K (f1 K + (gam + f1 K) / (f2 K * gam) * (pStar / P - f1 K))%K else f1 K in
  let sL := (unL - aL * q PL)%K in
  let sR := (unR + aR * q PR)%K in
  let sStar := ((PR - PL + rhoL * unL * (sL - unL) - rhoR * unR * (sR - unR)) /
                (rhoL * (sL - unL) - rhoR * (sR - unR)))%K in
  if fle K (f0 K) sL then Ok (fun is =>
    if is =? 0 then (djac * rhoL * unL)%K
    else if (1 <=? is) && (is <=? dim) then (djac * (UL is * unL + PL * n (is - 1)%Z))%K
    else if is =? dim + 1 then (djac * ((UL is + PL) * unL))%K else F0 is)
  else if fle K sR (f0 K) then Ok (fun is =>
    if is =? 0 then (djac * rhoR * unR)%K
    else if (1 <=? is) && (is <=? dim) then (djac * (UR is * unR + PR * n (is - 1)%Z))%K
    else if is =? dim + 1 then (djac * (UR is + PR) * unR)%K else F0 is)
  else if (flt K sL (f0 K) && fle K (f0 K) sStar)%bool then Ok (khllc_star dim djac n UL rhoL unL PL sL sStar F0)
  else if (flt K sStar (f0 K) && flt K (f0 K) sR)%bool then Ok (khllc_star dim djac n UR rhoR unR PR sR sStar F0)
  else Fail Aborted.

(** physics/base/base.cpp 48-62 *)
Definition knumflux (t : flux_type) (dim : Z) (gamma : N) (UL UR Nn F0 Fq0 : Z -> N) : res (Z -> N) :=
  match t with
  | LaxFriedrichs => Ok (klaxfriedrichs dim gamma UL UR Nn F0 Fq0)
  | HLLC => khllc dim gamma UL UR Nn F0
  end.

(** * The residual of one rank *)

(** What the residual evaluation reads; [k_order], [k_porder]: orders of its
    parallel loops; [k_junk]: content of the local arrays. *)
Record kdata := mkKD {
  k_rank : Z; k_shape : eshape; k_gamma : N; k_flux : flux_type;
  k_ne : Z; k_nb : Z; k_nqf : Z; k_nif : Z; k_rows : list (list Z);
  k_T : vtable N; k_geom : kgeom;
  k_fval : Z -> Z -> Z -> N; k_fwts : Z -> N; k_normals : Z -> Z -> Z -> N; k_qL : Z -> Z -> Z; k_qR : Z -> Z -> Z;
  k_order : nat -> list Z; k_porder : nat -> list (Z * Z); k_junk : Z -> N
}.
Definition k_dim (d : kdata) : Z := space_dim (k_shape d).
Definition k_ns (d : kdata) : Z := k_dim d + 2.
Definition k_np (d : kdata) : Z := faces_per_elem (k_shape d) * k_nqf d.

Record kviews := mkKV { kv_Uq : Z -> Z -> Z -> N; kv_UqL : Z -> Z -> Z -> N; kv_UqR : Z -> Z -> Z -> N;
  kv_Fq : Z -> Z -> Z -> N; kv_Fe : Z -> Z -> Z -> N }.

(** helpers.cpp 185-198 *)
Definition kevaluate_state (order : list Z) (np ns nb : Z) (bval : Z -> Z -> N) (Uc Uq : Z -> Z -> Z -> N) : Z -> Z -> Z -> N :=
  ploop order (fun e Uq => setr Uq e (kgemm np ns nb (f1 K) bval (Uc e) false (Uq e))) Uq.

(** flux_functors_impl.h 46-115, one point: entry (is, id) of vgUq. *)
Definition kvolume_flux (d : kdata) (Uq : Z -> Z -> Z -> N) (ie iq : Z) (is id : Z) : N :=
  let dim := k_dim d in
  let F := kconv_flux dim (k_gamma d) (fun is => Uq ie iq is) (k_junk d) in
  zloop dim (fun id2 a => (a + F (id2 * k_ns d + is)%Z * g_ijac (k_geom d) ie iq id id2 * g_djac (k_geom d) ie iq * vt_wts (k_T d) iq)%K) (f0 K).
Definition kvolume_fluxes (d : kdata) (order : list (Z * Z)) (Uq : Z -> Z -> Z -> N) (vg : Z -> Z -> Z -> Z -> N) : Z -> Z -> Z -> Z -> N :=
  sweep order (fun p vg => set2 vg (fst p) (snd p) (kvolume_flux d Uq (fst p) (snd p))) vg.

(** tools.cpp 6-35 *)
Definition kvolume_integral (d : kdata) (order : list Z) (F : Z -> Z -> Z -> Z -> N) (rs : Z -> Z -> Z -> N) : Z -> Z -> Z -> N :=
  ploop order (fun e rs => setr rs e (fun ib is => if (inb (k_nb d) ib && inb (k_ns d) is)%bool then
    zloop (vt_nq (k_T d)) (fun iq a => zloop (k_dim d) (fun id a => (a + vt_grad (k_T d) iq ib id * F e iq is id)%K) a) (rs e ib is)
    else rs e ib is)) rs.

(** base.cpp 401-409, 415-468 *)
Definition kelement_residuals (d : kdata) (Uc rs : Z -> Z -> Z -> N) : Z -> Z -> Z -> N :=
  let rs := (fun e ib is => if (inb (k_ne d) e && inb (k_nb d) ib && inb (k_ns d) is)%bool then f0 K else rs e ib is) in
  let Uq := kevaluate_state (k_order d 0) (vt_nq (k_T d)) (k_ns d) (k_nb d) (vt_val (k_T d)) Uc (fun _ _ _ => f0 K) in
  let vg := kvolume_fluxes d (k_porder d 0) Uq (fun _ _ _ _ => f0 K) in
  kvolume_integral d (k_order d 1) vg rs.

(** base.cpp 470-497: row i nqf + j of the flattened face basis. *)
Definition kflat (nqf : Z) (v : Z -> Z -> Z -> N) : Z -> Z -> N := fun p k => v (p / nqf) (p mod nqf) k.

(** base.cpp 287-327: point [iq] of face [iface]. *)
Definition kface_state (d : kdata) (sd : bool) (Uq : Z -> Z -> Z -> N) (p : Z * Z) (V : Z -> Z -> Z -> N) : Z -> Z -> Z -> N :=
  let '(lf, iq) := p in
  if k_rank d =? SolverFaces.srank (k_rows d) lf sd then
    set2 V lf iq (fun is => if inb (k_ns d) is then
      Uq (SolverFaces.selem (k_rows d) lf sd) (SolverFaces.sface (k_rows d) lf sd * k_nqf d + SolverFaces.qidx (k_qL d) (k_qR d) sd lf iq) is
      else V lf iq is)
  else V.
Definition kface_states (d : kdata) (order : list (Z * Z)) (Uq UL UR : Z -> Z -> Z -> N) : (Z -> Z -> Z -> N) * (Z -> Z -> Z -> N) :=
  sweep order (fun p s => (kface_state d false Uq p (fst s), kface_state d true Uq p (snd s))) (UL, UR).

(** base.cpp 470-509 *)
Definition kface_before (d : kdata) (Uc : Z -> Z -> Z -> N) (v : kviews) : kviews :=
  let Uq := kevaluate_state (k_order d 2) (k_np d) (k_ns d) (k_nb d) (kflat (k_nqf d) (k_fval d)) Uc (kv_Uq v) in
  let s := kface_states d (k_porder d 1) Uq (kv_UqL v) (kv_UqR v) in
  mkKV Uq (fst s) (snd s) (kv_Fq v) (kv_Fe v).

(** flux_functors_impl.h 168-264 *)
Definition kface_flux (d : kdata) (UL UR : Z -> Z -> Z -> N) (p : Z * Z) (Fq : Z -> Z -> Z -> N) : res (Z -> Z -> Z -> N) :=
  let '(lf, iq) := p in
  (F <- knumflux (k_flux d) (k_dim d) (k_gamma d) (UL lf iq) (UR lf iq) (k_normals d lf iq) (k_junk d) (k_junk d) ;;
   Ok (set2 Fq lf iq (fun is => if inb (k_ns d) is then (F is * k_fwts d iq)%K else Fq lf iq is)))%res.

(** base.cpp 329-374: one side of point [iq] of face [lf]. *)
Definition kflux_side (d : kdata) (sd : bool) (Fq : Z -> Z -> Z -> N) (p : Z * Z) (Fe : Z -> Z -> Z -> N) : Z -> Z -> Z -> N :=
  let '(lf, iq) := p in
  if k_rank d =? SolverFaces.srank (k_rows d) lf sd then
    let e := SolverFaces.selem (k_rows d) lf sd in
    let pos := SolverFaces.sface (k_rows d) lf sd * k_nqf d + SolverFaces.qidx (k_qL d) (k_qR d) sd lf iq in
    set2 Fe e pos (fun is => if inb (k_ns d) is then (if sd then Fq lf iq is else (fm1 K * Fq lf iq is)%K) else Fe e pos is)
  else Fe.
Definition kflux_states (d : kdata) (order : list (Z * Z)) (Fq Fe : Z -> Z -> Z -> N) : Z -> Z -> Z -> N :=
  sweep order (fun p Fe => kflux_side d true Fq p (kflux_side d false Fq p Fe)) Fe.

(** tools.cpp 37-63 *)
Definition kface_integral (d : kdata) (order : list Z) (Fe rs : Z -> Z -> Z -> N) : Z -> Z -> Z -> N :=
  ploop order (fun e rs => setr rs e
    (kgemm (k_nb d) (k_ns d) (k_np d) (f1 K) (fun i p => kflat (k_nqf d) (k_fval d) p i) (Fe e) true (rs e))) rs.

(** base.cpp 543-561 *)
Definition kface_after (d : kdata) (UL UR : Z -> Z -> Z -> N) (v : kviews) (rs : Z -> Z -> Z -> N) : res (kviews * (Z -> Z -> Z -> N)) :=
  (Fq <- foreach (k_porder d 2) (kface_flux d UL UR) (kv_Fq v) ;;
   let Fe := kflux_states d (k_porder d 3) Fq (kv_Fe v) in
   Ok (mkKV (kv_Uq v) UL UR Fq Fe, kface_integral d (k_order d 3) Fe rs))%res.

(** base.cpp 401-413 on all ranks: one residual evaluation, with the exchange of
    the face states (CommSpec.exchanged, which every run of the exchange meets
    whatever the interleaving of its messages: C12-C14). *)
Definition kblocks (nif : Z) (a : Z -> Z -> Z -> N) : list (Z -> Z -> N) := map a (zseq nif).
Definition kevaluates (m : gmesh N) (ep : list Z) (pm : Z -> pmesh N) (n : Z) (D : Z -> kdata)
  (Uc : Z -> Z -> Z -> Z -> N) (v : Z -> kviews) (rs : Z -> Z -> Z -> Z -> N) (v' : Z -> kviews) : Prop :=
  exists rs0 (X : Z -> fstate (Z -> Z -> N)) (UL UR : Z -> Z -> Z -> Z -> N),
    CommSpec.exchanged n m ep pm
      (fun r => let w := kface_before (D r) (Uc r) (v r) in mkFS (kblocks (k_nif (D r)) (kv_UqL w)) (kblocks (k_nif (D r)) (kv_UqR w))) X /\
    forall r, 0 <= r < n ->
      kblocks (k_nif (D r)) (UL r) = fs_L (X r) /\ kblocks (k_nif (D r)) (UR r) = fs_R (X r) /\
      kface_after (D r) (UL r) (UR r) (kface_before (D r) (Uc r) (v r)) (kelement_residuals (D r) (Uc r) (rs0 r)) = Ok (v' r, rs r).

(** * Time steps *)

(** tools.cpp 124-139 *)
Definition kmult_inv_mass (order : list Z) (nb ns : Z) (dt : N) (iMM rs dU : Z -> Z -> Z -> N) : Z -> Z -> Z -> N :=
  ploop order (fun e dU => setr dU e (kgemm nb ns nb dt (iMM e) (rs e) false (dU e))) dU.

(** linear_algebra.cpp 75-90 on the entries of the views (each once: C26). *)
Definition kbox (d : kdata) (f : Z -> Z -> Z -> N) (B : Z -> Z -> Z -> N) : Z -> Z -> Z -> N :=
  fun e i s => if (inb (k_ne d) e && inb (k_nb d) i && inb (k_ns d) s)%bool then f e i s else B e i s.
Definition kaxpy (d : kdata) (c : N) (A B : Z -> Z -> Z -> N) : Z -> Z -> Z -> N :=
  kbox d (fun e i s => l_axpy L c (A e i s) (B e i s)) B.
Definition kupdate (d : kdata) (c : N) (A B C : Z -> Z -> Z -> N) : Z -> Z -> Z -> N :=
  kbox d (fun e i s => l_update L c (A e i s) (B e i s)) C.
Definition kcopy (d : kdata) (A C : Z -> Z -> Z -> N) : Z -> Z -> Z -> N := kbox d A C.

Section Step.
Context (m : gmesh N) (ep : list Z) (pm : Z -> pmesh N) (n : Z) (D : Z -> kdata) (dt : N).

(** The increment of a rank from its residual; [w]: previous content. *)
Definition kincrement (o : nat) (r : Z) (rs w : Z -> Z -> Z -> N) : Z -> Z -> Z -> N :=
  kmult_inv_mass (k_order (D r) (4 + o)) (k_nb (D r)) (k_ns (D r)) dt (g_iMM (k_geom (D r))) rs w.

(** stepper.cpp 23-55, all ranks. *)
Definition kstep_FE (U : Z -> Z -> Z -> Z -> N) (v : Z -> kviews) (U' : Z -> Z -> Z -> Z -> N) (v' : Z -> kviews) : Prop :=
  exists rs w, kevaluates m ep pm n D U v rs v' /\
    forall r, 0 <= r < n -> U' r = kaxpy (D r) (f1 K) (kincrement 0 r (rs r) (w r)) (U r).

(** stepper.cpp 71-142, all ranks. *)
Definition kstep_RK4 (U : Z -> Z -> Z -> Z -> N) (v : Z -> kviews) (U' : Z -> Z -> Z -> Z -> N) (v' : Z -> kviews) : Prop :=
  exists (w1 w2 w3 w4 wh rs1 rs2 rs3 rs4 U1 U2 U3 : Z -> Z -> Z -> Z -> N) (v1 v2 v3 : Z -> kviews),
    let Uhold := fun r => kcopy (D r) (U r) (wh r) in
    let dU1 := fun r => kincrement 0 r (rs1 r) (w1 r) in
    let dU2 := fun r => kincrement 1 r (rs2 r) (w2 r) in
    let dU3 := fun r => kincrement 2 r (rs3 r) (w3 r) in
    let dU4 := fun r => kincrement 3 r (rs4 r) (w4 r) in
    kevaluates m ep pm n D U v rs1 v1 /\
    (forall r, 0 <= r < n -> U1 r = kupdate (D r) (fhalf K) (dU1 r) (Uhold r) (U r)) /\
    kevaluates m ep pm n D U1 v1 rs2 v2 /\
    (forall r, 0 <= r < n -> U2 r = kupdate (D r) (fhalf K) (dU2 r) (Uhold r) (U1 r)) /\
    kevaluates m ep pm n D U2 v2 rs3 v3 /\
    (forall r, 0 <= r < n -> U3 r = kupdate (D r) (f1 K) (dU3 r) (Uhold r) (U2 r)) /\
    kevaluates m ep pm n D U3 v3 rs4 v' /\
    forall r, 0 <= r < n ->
      let s := kaxpy (D r) (f2 K) (dU3 r) (dU4 r) in
      let s := kaxpy (D r) (f2 K) (dU2 r) s in
      let s := kaxpy (D r) (f1 K) (dU1 r) s in
      U' r = kcopy (D r) (kaxpy (D r) (f1 K / f6 K)%K s (Uhold r)) (U3 r).

(** base.cpp 388-394: [k] steps. *)
Inductive kmarch (kind : skind) : nat -> (Z -> Z -> Z -> Z -> N) -> (Z -> kviews) -> (Z -> Z -> Z -> Z -> N) -> Prop :=
| km_done U v : kmarch kind 0 U v U
| km_step k U v U1 v1 U2 :
    match kind with StepFE => kstep_FE | StepRK4 => kstep_RK4 end U v U1 v1 -> kmarch kind k U1 v1 U2 -> kmarch kind (S k) U v U2.
End Step.

(** * A run *)

(** What the input determines, the same on every rank: shape, geometric order,
    sizes, tables (volume rule, rule of twice the order for the mass matrices,
    rule of the initial projection, face rule), gas, flux, time step, initial
    condition ([c_ic x old]: the state at point [x]; [old]: the array before). *)
Record kcase := mkKC {
  c_shape : eshape; c_g : Z; c_nb : Z; c_gnb : Z; c_nqf : Z;
  c_TV : vtable N; c_TM : vtable N; c_TI : vtable N;
  c_fval : Z -> Z -> Z -> N; c_fwts : Z -> N; c_fgrad : Z -> Z -> Z -> N;
  c_gamma : N; c_flux : flux_type; c_kind : skind; c_dt : N; c_ic : (Z -> N) -> (Z -> N) -> Z -> N
}.

(** base.cpp 113-223 and tools.cpp 66-122: the coefficients of one element. *)
Definition kinit_team (C : kcase) (pm : pmesh N) (npe : Z) (iMM : Z -> Z -> Z -> N) (junk : Z -> Z -> N) (e : Z) (Uc : Z -> Z -> Z -> N) : Z -> Z -> Z -> N :=
  let dim := space_dim (c_shape C) in
  let ns := dim + 2 in
  let T := c_TI C in
  let nq := vt_nq T in
  let c := kcoords pm npe dim e junk in
  let x := kgemm nq dim (c_gnb C) (f1 K) (vt_gval T) c false junk in
  let f := fun iq => c_ic C (x iq) (junk iq) in
  let djac := snd (fst (kjacobians nq dim npe (vt_ggrad T) c ((fun _ => junk), junk 0, (fun _ => junk)))) in
  let f := fun iq s => l_scale L (vt_wts T iq * djac iq)%K (f iq s) in
  let rhs := kgemm (c_nb C) ns nq (f1 K) (fun i p => vt_val T p i) f false junk in
  setr Uc e (kgemm (c_nb C) ns (c_nb C) (f1 K) (iMM e) rhs false (Uc e)).

(** Rank [r] of the run is set up (base.cpp 69-111): its tables come from its
    part of the mesh, in any order of the loops and whatever the scratch memory
    holds; its later loops run every iteration once. *)
Definition kset_up (C : kcase) (m : gmesh N) (pm : pmesh N) (r : Z) (d : kdata) : Prop :=
  exists junk eo1 eo2 fo qL qR ord pord junk1,
    Permutation.Permutation eo1 (zseq (pm_num_elems_part pm)) /\ Permutation.Permutation eo2 (zseq (pm_num_elems_part pm)) /\
    Permutation.Permutation fo (zseq (pm_num_ifaces_part pm)) /\
    (forall k, Permutation.Permutation (ord k) (zseq (pm_num_elems_part pm))) /\
    each_once (pord 0%nat) (pm_num_elems_part pm) (vt_nq (c_TV C)) /\
    (forall k, each_once (pord (S k)) (pm_num_ifaces_part pm) (c_nqf C)) /\
    face_quadrature_lookup (face_order (c_shape C)) (pm_interior_faces pm) (pm_num_ifaces_part pm) (c_nqf C) = Ok (qL, qR) /\
    let dim := space_dim (c_shape C) in
    d = mkKD r (c_shape C) (c_gamma C) (c_flux C) (pm_num_elems_part pm) (c_nb C) (c_nqf C) (pm_num_ifaces_part pm) (pm_interior_faces pm)
      (c_TV C) (kgeometry pm dim (gm_npe m) (c_nb C) (c_TM C) (c_TV C) junk eo1 eo2)
      (c_fval C) (c_fwts C) (ploop fo (knormals_team (c_shape C) pm r (gm_npe m) (c_g C) (c_nqf C) (c_fgrad C) junk) (fun _ _ _ => f0 K))
      qL qR ord pord junk1.

Definition kinit (C : kcase) (m : gmesh N) (pm : pmesh N) (d : kdata) (U : Z -> Z -> Z -> N) : Prop :=
  exists junk eo U0, Permutation.Permutation eo (zseq (pm_num_elems_part pm)) /\
    U = ploop eo (kinit_team C pm (gm_npe m) (g_iMM (k_geom d)) junk) U0.

(** A run of [n] ranks on mesh [m] with the elements assigned by [ep]: partition,
    set-up, initial state, [steps] time steps; [U r]: the final coefficients of
    rank [r].  The face buffer Fe is zero filled by its allocation
    (base.cpp 563-598). *)
Definition computes (C : kcase) (iter : Z -> list Z -> list Z) (n : Z) (m : gmesh N) (ep : list Z) (steps : nat)
  (pm : Z -> pmesh N) (U : Z -> Z -> Z -> Z -> N) : Prop :=
  run_wf iter n m ep /\ partitioned (f0 K) iter n m ep pm /\
  exists D U0 v0,
    (forall r, 0 <= r < n -> kset_up C m (pm r) r (D r) /\ kinit C m (pm r) (D r) (U0 r) /\
       forall e p s, kv_Fe (v0 r) e p s = f0 K) /\
    kmarch m ep pm n D (c_dt C) (c_kind C) steps U0 v0 U.
End Arith.
