(** TeamKernels.v -- the device kernels of the residual evaluation as thread
    programs (single loads and stores, team loops, barriers): the same code as
    in SolverModel.v, at the granularity of TeamModel.v.

    [own], [own0], [own1]: which thread of the team runs which iteration of a
    TeamThreadRange loop. *)
From Coq Require Import ZArith List Lia Reals Bool.
From Verif Require Import Base RBase LinAlgModel PhysModel ShapeModel MeshModel CommModel SolverModel TeamModel.
Import ListNotations.
Local Open Scope R_scope.

(** The views written by the residual evaluation. *)
Definition vUc := 0%Z.   (* solution coefficients *)
Definition vUv := 1%Z.   (* Uq of get_element_residuals *)
Definition vG := 2%Z.    (* vgUq *)
Definition vRes := 3%Z.  (* res *)
Definition vUf := 4%Z.   (* Uq of get_interior_face_residuals *)
Definition vUL := 5%Z.   (* UqL *)
Definition vUR := 6%Z.   (* UqR *)
Definition vFq := 7%Z.   (* Fq *)
Definition vFe := 8%Z.   (* Fq_elem *)
Definition vdU := 9%Z.   (* dU of mult_inv_mass_matrix *)

Definition at3 (v i j k : Z) : loc := At v i j k 0.
Definition view3 (v : Z) (m : mem) : arr3 := fun i j k => m (at3 v i j k).
Definition view4 (v : Z) (m : mem) : arr4 := fun i j k l => m (At v i j k l).

(** An operand of a library kernel: a table that is not written, or a view. *)
Definition operand := Z -> Z -> (R -> prog) -> prog.
Definition table (a : arr2) : operand := fun i j k => k (a i j).
Definition inmem (l : Z -> Z -> loc) : operand := fun i j k => Load (l i j) k.
Definition flip (o : operand) : operand := fun i j => o j i.

(** Library (KokkosBatched TeamGemm, Unblocked): TeamSet of C to zero when
    beta = 0, followed by a team barrier, then a TeamThreadRange over the m * n
    entries; no barrier at the end.  Not part of /repo; trusted description. *)
Definition gemm_set (m n : Z) (C : Z -> Z -> loc) (own : Z -> Z) : tloop :=
  mkTL (m * n) own (fun ij => Store (C (ij / n)%Z (ij mod n)%Z) 0 Done).
Definition gemm_dot (k : Z) (alpha : R) (At Bt : operand) (C : Z -> Z -> loc) (i j : Z) : prog :=
  pacc k (fun p c cont => At i p (fun a => Bt p j (fun b => cont (c + a * b)))) 0
    (fun c => Load (C i j) (fun c0 => Store (C i j) (c0 + alpha * c) Done)).
Definition gemm_add (m n k : Z) (alpha : R) (At Bt : operand) (C : Z -> Z -> loc) (own : Z -> Z) : tloop :=
  mkTL (m * n) own (fun ij => gemm_dot k alpha At Bt C (ij / n)%Z (ij mod n)%Z).
(** beta = 0. *)
Definition team_gemm (m n k : Z) (alpha : R) (At Bt : operand) (C : Z -> Z -> loc) (own0 own1 : Z -> Z) : list tloop :=
  [gemm_set m n C own0; gemm_add m n k alpha At Bt C own1].
(** beta = 1. *)
Definition team_gemm_acc (m n k : Z) (alpha : R) (At Bt : operand) (C : Z -> Z -> loc) (own : Z -> Z) : list tloop :=
  [gemm_add m n k alpha At Bt C own].

(** helpers.cpp 185-198 (team barrier at 195); [vin], [vout]: Uc and Uq. *)
Definition evaluate_state_k (np ns nb : Z) (basis_val : arr2) (vin vout : Z) (own0 own1 : Z -> Z -> Z) : Z -> list tloop :=
  fun e => team_gemm np ns nb 1 (table basis_val) (inmem (at3 vin e)) (at3 vout e) (own0 e) (own1 e).

(** tools.cpp 37-63 *)
Definition face_flux_integral_k (np nb ns : Z) (basis_val : arr2) (own : Z -> Z -> Z) : Z -> list tloop :=
  fun e => team_gemm_acc nb ns np 1 (flip (table basis_val)) (inmem (at3 vFe e)) (at3 vRes e) (own e).

(** tools.cpp 124-139 *)
Definition mult_inv_mass_k (nb ns : Z) (dt : R) (iMM : arr3) (own0 own1 : Z -> Z -> Z) : Z -> list tloop :=
  fun e => team_gemm nb ns nb dt (table (iMM e)) (inmem (at3 vRes e)) (at3 vdU e) (own0 e) (own1 e).

(** tools.cpp 6-35: one iteration per element; res += ... loads and stores the
    entry in every pass of the innermost loop. *)
Definition volume_flux_integral_k (nq nb ns ndims : Z) (basis_ref_grad : arr3) : Z -> list tloop :=
  flat (fun e =>
    pfor nb (fun ib => pfor ns (fun is => pfor nq (fun iq => pfor ndims (fun id =>
      Load (at3 vRes e ib is) (fun r =>
      Load (At vG e iq is id) (fun f =>
      Store (at3 vRes e ib is) (r + basis_ref_grad iq ib id * f) Done))))))).

(** linear_algebra.cpp 64-68 applied to res (base.cpp 403-405): one iteration
    per entry. *)
Definition zero_res_k (nb ns : Z) : Z -> list tloop :=
  flat (fun g => Store (at3 vRes (g / (nb * ns)) ((g / ns) mod nb) (g mod ns))%Z 0 Done).

(** A thread whose table look-up fails stops (shown not to happen). *)
Definition lift (p : res prog) : prog := match p with Ok p => p | Fail _ => Done end.

(** The two-dimensional range {n0, n1} of an MDRangePolicy: iteration (i, j) is
    league entry i * n1 + j; every iteration is independent of the others (the
    tiling and its order are not fixed). *)
Definition mdrange (n1 : Z) (body : Z -> Z -> prog) : Z -> list tloop := flat (fun g => body (g / n1) (g mod n1))%Z.

Open Scope res_scope.
(** base.cpp 287-327 *)
Definition face_states_body (rank : Z) (rows : list (list Z)) (nqf ns : Z) (qL qR : Z -> Z -> Z) (iface iq : Z) : res prog :=
  rankL <- rd2 rows iface 0 ;;
  rankR <- rd2 rows iface 4 ;;
  p <- (if (rank =? rankL)%Z then
     elemL <- rd2 rows iface 1 ;;
     faceL <- rd2 rows iface 2 ;;
     let startL := (faceL * nqf)%Z in
     Ok (pfor ns (fun is => Load (at3 vUf elemL (startL + qL iface iq) is) (fun v => Store (at3 vUL iface iq is) v Done)))
   else Ok Done) ;;
  q <- (if (rank =? rankR)%Z then
     elemR <- rd2 rows iface 5 ;;
     faceR <- rd2 rows iface 6 ;;
     let startR := (faceR * nqf)%Z in
     Ok (pfor ns (fun is => Load (at3 vUf elemR (startR + qR iface iq) is) (fun v => Store (at3 vUR iface iq is) v Done)))
   else Ok Done) ;;
  Ok (seq p q).
Definition face_states_k (rank : Z) (rows : list (list Z)) (nqf ns : Z) (qL qR : Z -> Z -> Z) : Z -> list tloop :=
  mdrange nqf (fun iface iq => lift (face_states_body rank rows nqf ns qL qR iface iq)).

(** base.cpp 329-374 *)
Definition flux_state_body (rank : Z) (rows : list (list Z)) (nqf ns : Z) (qL qR : Z -> Z -> Z) (iface iq : Z) : res prog :=
  rankL <- rd2 rows iface 0 ;;
  rankR <- rd2 rows iface 4 ;;
  p <- (if (rank =? rankL)%Z then
     elemL <- rd2 rows iface 1 ;;
     faceL <- rd2 rows iface 2 ;;
     let startL := (faceL * nqf)%Z in
     Ok (pfor ns (fun is => Load (at3 vFq iface iq is) (fun v => Store (at3 vFe elemL (startL + qL iface iq) is) (-1 * v) Done)))
   else Ok Done) ;;
  q <- (if (rank =? rankR)%Z then
     elemR <- rd2 rows iface 5 ;;
     faceR <- rd2 rows iface 6 ;;
     let startR := (faceR * nqf)%Z in
     Ok (pfor ns (fun is => Load (at3 vFq iface iq is) (fun v => Store (at3 vFe elemR (startR + qR iface iq) is) v Done)))
   else Ok Done) ;;
  Ok (seq p q).
Definition flux_state_k (rank : Z) (rows : list (list Z)) (nqf ns : Z) (qL qR : Z -> Z -> Z) : Z -> list tloop :=
  mdrange nqf (fun iface iq => lift (flux_state_body rank rows nqf ns qL qR iface iq)).

(** rtype U[n]; for (is) U[is] = view(..., is); [junk]: previous content. *)
Definition load_row (n : Z) (l : Z -> loc) (junk : arr1) (k : arr1 -> prog) : prog :=
  pacc n (fun i U cont => Load (l i) (fun v => cont (upd1 U i v))) junk k.

(** flux_functors_impl.h 46-115.  Simplification: the running index idx of the
    last loop is written id * NS + is.  A failing flux evaluation (division by
    zero) ends the thread. *)
Definition volume_flux_body (dim : Z) (gamma : R) (djac : arr2) (ijac : arr4) (wts : arr1) (junk gF1 gF2 : arr1) (ie iq : Z) : prog :=
  let NS := (dim + 2)%Z in
  load_row NS (at3 vUv ie iq) junk (fun U =>
  match conv_flux_interior dim gamma U gF1 with
  | Fail _ => Done
  | Ok gF1 =>
    let gF2 := zloop (dim * NS) (fun i g => upd1 g i 0) gF2 in
    let gF2 := zloop dim (fun id1 g => zloop dim (fun id2 g => zloop NS (fun is g =>
        upd1 g (id1 * NS + is) (g (id1 * NS + is)%Z + gF1 (id2 * NS + is)%Z * ijac ie iq id1 id2 * djac ie iq * wts iq)) g) g) gF2 in
    seq (pfor NS (fun is => Store (at3 vUv ie iq is) 0 Done))
        (pfor dim (fun id => pfor NS (fun is => Store (At vG ie iq is id) (gF2 (id * NS + is)%Z) Done)))
  end).
Definition volume_fluxes_k (dim nq : Z) (gamma : R) (djac : arr2) (ijac : arr4) (wts junk gF1 gF2 : arr1) : Z -> list tloop :=
  mdrange nq (volume_flux_body dim gamma djac ijac wts junk gF1 gF2).

(** flux_functors_impl.h 168-264.  Simplification: UL is loaded before UR. *)
Definition face_flux_body (ft : flux_type) (dim : Z) (gamma : R) (normals : arr3) (wts junk F0 Fq0 : arr1) (iface iq : Z) : prog :=
  let NS := (dim + 2)%Z in
  load_row NS (at3 vUL iface iq) junk (fun UL =>
  load_row NS (at3 vUR iface iq) junk (fun UR =>
  match get_conv_flux_numerical ft dim gamma UL UR (fun d => normals iface iq d) F0 Fq0 with
  | Fail _ => Done
  | Ok F => pfor NS (fun is => Store (at3 vFq iface iq is) (F is * wts iq) Done)
  end)).
Definition face_fluxes_k (ft : flux_type) (dim nqf : Z) (gamma : R) (normals : arr3) (wts junk F0 Fq0 : arr1) : Z -> list tloop :=
  mdrange nqf (face_flux_body ft dim gamma normals wts junk F0 Fq0).

(** * The launches of one residual evaluation

    [T]: team size chosen by Kokkos::AUTO; [own k e i]: the thread of team [e] that
    runs iteration [i] of the k-th TeamThreadRange loop. *)
Definition ns_of (d : rdata) : Z := (d_dim d + 2)%Z.

(** base.cpp 401-409 and 415-468 *)
Definition element_tasks (d : rdata) (T : Z) (own : nat -> Z -> Z -> Z) : list task :=
  let ns := ns_of d in
  [ Launch (d_ne d * d_nb d * ns) 1 (kernel (zero_res_k (d_nb d) ns));
    Alloc vUv; Alloc vG;
    Launch (d_ne d) T (kernel (evaluate_state_k (d_nq d) ns (d_nb d) (d_basis_val d) vUc vUv (own 0%nat) (own 1%nat)));
    Launch (d_ne d * d_nq d) 1 (kernel (volume_fluxes_k (d_dim d) (d_nq d) (d_gamma d) (d_djac d) (d_ijac d) (d_wts d)
       (d_garbage d) (d_garbage d) (d_garbage d)));
    Launch (d_ne d) 1 (kernel (volume_flux_integral_k (d_nq d) (d_nb d) ns (d_dim d) (d_basis_ref_grad d))) ].

(** base.cpp 470-509 *)
Definition face_tasks_before (d : rdata) (T : Z) (own : nat -> Z -> Z -> Z) : list task :=
  let ns := ns_of d in
  let fb := flat_face_basis (d_NFACE d) (d_nqf d) (d_nb d) (d_face_basis d) in
  [ Launch (d_ne d) T (kernel (evaluate_state_k (d_NFACE d * d_nqf d) ns (d_nb d) fb vUc vUf (own 2%nat) (own 3%nat)));
    Launch (d_nif d * d_nqf d) 1 (kernel (face_states_k (d_rank d) (d_rows d) (d_nqf d) ns (d_qL d) (d_qR d))) ].

(** base.cpp 543-561 *)
Definition face_tasks_after (d : rdata) (T : Z) (own : nat -> Z -> Z -> Z) : list task :=
  let ns := ns_of d in
  let fb := flat_face_basis (d_NFACE d) (d_nqf d) (d_nb d) (d_face_basis d) in
  [ Launch (d_nif d * d_nqf d) 1 (kernel (face_fluxes_k (d_flux d) (d_dim d) (d_nqf d) (d_gamma d) (d_normals d) (d_face_wts d)
       (d_garbage d) (d_garbage d) (d_garbage d)));
    Launch (d_nif d * d_nqf d) 1 (kernel (flux_state_k (d_rank d) (d_rows d) (d_nqf d) ns (d_qL d) (d_qR d)));
    Launch (d_ne d) T (kernel (face_flux_integral_k (d_NFACE d * d_nqf d) (d_nb d) ns fb (own 4%nat))) ].

(** tools.cpp 124-139, called by the steppers *)
Definition mass_tasks (d : rdata) (T : Z) (own : nat -> Z -> Z -> Z) (dt : R) (iMM : arr3) : list task :=
  [ Launch (d_ne d) T (kernel (mult_inv_mass_k (d_nb d) (ns_of d) dt iMM (own 5%nat) (own 6%nat))) ].
