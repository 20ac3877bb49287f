(** SolverModel.v -- model of the residual evaluation: src/solver/base.cpp
    287-374 and 401-598, src/solver/tools.cpp, VolumeHelpers::evaluate_state and
    precompute_facequadrature_lookup (src/solver/helpers.cpp 185-198, 326-378)
    and the flux functors (src/solver/flux_functors_impl.h).

    Views of reals are functions of their indices together with their extents;
    an access with an index outside the extents is [Fail OutOfBounds] where the
    index comes from a table (face tables, quadrature lookup).  parallel_for
    loops take the order in which their iterations run as an argument.  Views
    passed by handle are returned.  The gradients gUqL, gUqR, which the Euler
    fluxes do not use, are left out. *)
From Coq Require Import ZArith List Lia Reals Lra Bool.
From Verif Require Import Base RBase LinAlgModel PhysModel ShapeModel MeshModel CommModel.
Import ListNotations.
Local Open Scope R_scope.
Open Scope res_scope.

(** A checked read / write of a rank-3 view with extents (e0, e1, e2). *)
Definition ext3 := (Z * Z * Z)%type.
Definition within3 (x : ext3) (i j k : Z) : bool :=
  (let '(e0, e1, e2) := x in
   (0 <=? i) && (i <? e0) && (0 <=? j) && (j <? e1) && (0 <=? k) && (k <? e2))%Z%bool.
Definition rd3 (x : ext3) (a : arr3) (i j k : Z) : res R :=
  if within3 x i j k then Ok (a i j k) else Fail OutOfBounds.
Definition wr3 (x : ext3) (a : arr3) (i j k : Z) (v : R) : res arr3 :=
  if within3 x i j k then Ok (upd3 a i j k v) else Fail OutOfBounds.

Definition upd4 (a : arr4) (i j k l : Z) (v : R) : arr4 :=
  fun i' j' k' l' => if ((i' =? i) && (j' =? j) && (k' =? k) && (l' =? l))%Z%bool then v else a i' j' k' l'.

(** Kokkos::subview(a, e, ALL, ALL) as the target of a kernel. *)
Definition setrow (a : arr3) (e : Z) (m : arr2) : arr3 := fun e' => if (e' =? e)%Z then m else a e'.

(** helpers.cpp 185-198; [order]: order of the elements. *)
Definition evaluate_state (order : list Z) (np ns nb : Z) (basis_val : arr2) (Uc Uq : arr3) : arr3 :=
  ploop order (fun e Uq => setrow Uq e (cAxB_to_C np ns nb 1 basis_val (Uc e) (Uq e))) Uq.

(** base.cpp 287-327.  [rows]: mesh.interior_faces; [nif], [nqf]: extents of UqL
    and UqR; [uext]: extents of Uq. *)
Definition construct_face_states (rank : Z) (rows : list (list Z)) (nif nqf ns : Z) (uext : ext3)
  (qL qR : Z -> Z -> Z) (order : list (Z * Z)) (Uq UqL UqR : arr3) : res (arr3 * arr3) :=
  foreach order (fun p s =>
    let '(iface, iq) := p in
    let '(UqL, UqR) := s in
    rankL <- rd2 rows iface 0 ;;
    rankR <- rd2 rows iface 4 ;;
    UqL <- (if (rank =? rankL)%Z then
       elemL <- rd2 rows iface 1 ;;
       faceL <- rd2 rows iface 2 ;;
       let startL := (faceL * nqf)%Z in
       zfor ns (fun is UqL => v <- rd3 uext Uq elemL (startL + qL iface iq) is ;;
                              wr3 (nif, nqf, ns) UqL iface iq is v) UqL
     else Ok UqL) ;;
    UqR <- (if (rank =? rankR)%Z then
       elemR <- rd2 rows iface 5 ;;
       faceR <- rd2 rows iface 6 ;;
       let startR := (faceR * nqf)%Z in
       zfor ns (fun is UqR => v <- rd3 uext Uq elemR (startR + qR iface iq) is ;;
                              wr3 (nif, nqf, ns) UqR iface iq is v) UqR
     else Ok UqR) ;;
    Ok (UqL, UqR)) (UqL, UqR).

(** base.cpp 329-374; [fext]: extents of Fq_elem. *)
Definition construct_flux_state (rank : Z) (rows : list (list Z)) (nif nqf ns : Z) (fext : ext3)
  (qL qR : Z -> Z -> Z) (order : list (Z * Z)) (Fq Fq_elem : arr3) : res arr3 :=
  foreach order (fun p Fe =>
    let '(iface, iq) := p in
    rankL <- rd2 rows iface 0 ;;
    rankR <- rd2 rows iface 4 ;;
    Fe <- (if (rank =? rankL)%Z then
       elemL <- rd2 rows iface 1 ;;
       faceL <- rd2 rows iface 2 ;;
       let startL := (faceL * nqf)%Z in
       zfor ns (fun is Fe => v <- rd3 (nif, nqf, ns) Fq iface iq is ;;
                             wr3 fext Fe elemL (startL + qL iface iq) is (-1 * v)) Fe
     else Ok Fe) ;;
    (if (rank =? rankR)%Z then
       elemR <- rd2 rows iface 5 ;;
       faceR <- rd2 rows iface 6 ;;
       let startR := (faceR * nqf)%Z in
       zfor ns (fun is Fe => v <- rd3 (nif, nqf, ns) Fq iface iq is ;;
                             wr3 fext Fe elemR (startR + qR iface iq) is v) Fe
     else Ok Fe)) Fq_elem.

(** helpers.cpp 326-378.  [shape_order orient npts o]: the shape's
    get_face_pts_order_wrt_orient0 (shape.cpp 42-66 or 326-428).  The buffers
    orderL, orderR are allocated once and reused from face to face. *)
Definition face_quadrature_lookup (shape_order : Z -> Z -> iarr -> iarr) (rows : list (list Z)) (nif nqf : Z) :
  res ((Z -> Z -> Z) * (Z -> Z -> Z)) :=
  s <- zfor nif (fun iface (s : iarr * iarr * (Z -> Z -> Z) * (Z -> Z -> Z)) =>
    let '(orderL, orderR, qL, qR) := s in
    orientL <- rd2 rows iface 3 ;;
    orientR <- rd2 rows iface 7 ;;
    let orderL := shape_order orientL nqf orderL in
    let orderR := shape_order orientR nqf orderR in
    let q := zloop nqf (fun iq q =>
      let '(qL, qR) := q in
      ((fun i j => if ((i =? iface) && (j =? iq))%Z%bool then orderL iq else qL i j),
       (fun i j => if ((i =? iface) && (j =? iq))%Z%bool then orderR iq else qR i j))) (qL, qR) in
    Ok (orderL, orderR, fst q, snd q))
    ((fun _ => 0%Z), (fun _ => 0%Z), (fun _ _ => 0%Z), (fun _ _ => 0%Z)) ;;
  let '(_, _, qL, qR) := s in Ok (qL, qR).

(** base.cpp 470-497: the flattened copy of the face basis values. *)
Definition flat_face_basis (NFACE nqf nb : Z) (bv : arr3) : arr2 :=
  zloop NFACE (fun i h => zloop nqf (fun j h => zloop nb (fun k h =>
    upd2 h (i * nqf + j) k (bv i j k)) h) h) (fun _ _ => 0).

(** flux_functors_impl.h 46-115, one point; [gF1], [gF2]: previous content of
    the local arrays. *)
Definition volume_flux_point (dim : Z) (gamma : R) (djac : arr2) (ijac : arr4) (wts : arr1) (gF1 gF2 : arr1)
  (p : Z * Z) (s : arr3 * arr4) : res (arr3 * arr4) :=
  let '(ie, iq) := p in
  let '(Uq, vgUq) := s in
  let NS := (dim + 2)%Z in
  let U := fun is => Uq ie iq is in
  gF1 <- conv_flux_interior dim gamma U gF1 ;;
  let gF2 := zloop (dim * NS) (fun i g => upd1 g i 0) gF2 in
  let gF2 := zloop dim (fun id1 g => zloop dim (fun id2 g => zloop NS (fun is g =>
      upd1 g (id1 * NS + is) (g (id1 * NS + is)%Z + gF1 (id2 * NS + is)%Z * ijac ie iq id1 id2 * djac ie iq * wts iq)) g) g) gF2 in
  let Uq := zloop NS (fun is Uq => upd3 Uq ie iq is 0) Uq in
  let vgUq := fst (zloop dim (fun id s => zloop NS (fun is s =>
      let '(v, idx) := s in (upd4 v ie iq is id (gF2 idx), (idx + 1)%Z)) s) (vgUq, 0%Z)) in
  Ok (Uq, vgUq).

Definition volume_fluxes (dim : Z) (gamma : R) (djac : arr2) (ijac : arr4) (wts : arr1) (gF1 gF2 : arr1)
  (order : list (Z * Z)) (s : arr3 * arr4) : res (arr3 * arr4) :=
  foreach order (volume_flux_point dim gamma djac ijac wts gF1 gF2) s.

(** flux_functors_impl.h 168-264, one point. *)
Definition face_flux_point (ft : flux_type) (dim : Z) (gamma : R) (UqL UqR normals : arr3) (wts : arr1) (F0 Fq0 : arr1)
  (p : Z * Z) (Fq : arr3) : res arr3 :=
  let '(iface, iq) := p in
  let NS := (dim + 2)%Z in
  F <- get_conv_flux_numerical ft dim gamma (fun is => UqL iface iq is) (fun is => UqR iface iq is)
         (fun d => normals iface iq d) F0 Fq0 ;;
  Ok (zloop NS (fun is Fq => upd3 Fq iface iq is (F is * wts iq)) Fq).

Definition face_fluxes (ft : flux_type) (dim : Z) (gamma : R) (UqL UqR normals : arr3) (wts : arr1) (F0 Fq0 : arr1)
  (order : list (Z * Z)) (Fq : arr3) : res arr3 :=
  foreach order (face_flux_point ft dim gamma UqL UqR normals wts F0 Fq0) Fq.

(** tools.cpp 6-35 *)
Definition volume_flux_integral (order : list Z) (nq nb ns ndims : Z) (basis_ref_grad : arr3) (F_quad : arr4) (rs : arr3) : arr3 :=
  ploop order (fun e rs =>
    zloop nb (fun ib rs => zloop ns (fun is rs => zloop nq (fun iq rs => zloop ndims (fun id rs =>
      upd3 rs e ib is (rs e ib is + basis_ref_grad iq ib id * F_quad e iq is id)) rs) rs) rs) rs) rs.

(** tools.cpp 37-63; [np]: rows of basis_val and of F_quad of one element. *)
Definition face_flux_integral (order : list Z) (np nb ns : Z) (basis_val : arr2) (F_quad rs : arr3) : arr3 :=
  ploop order (fun e rs => setrow rs e (cATxBpC_to_C nb ns np 1 basis_val (F_quad e) (rs e))) rs.

(** tools.cpp 66-122; [rhs0]: previous content of the scratch memory. *)
Definition L2_projection (order : list Z) (nq nb ns : Z) (iMM basis_val : arr2) (djac wts : arr1) (f U rhs0 : arr2) : arr2 :=
  let f := ploop order (fun iq f => fun i j =>
      if (i =? iq)%Z then cA_to_A1 ns (wts iq * djac iq) (f iq) j else f i j) f in
  let rhs := cATxB_to_C nb ns nq 1 basis_val f rhs0 in
  cAxB_to_C nb ns nb 1 iMM rhs U.

(** tools.cpp 124-139 *)
Definition mult_inv_mass_matrix (order : list Z) (nb ns : Z) (dt : R) (iMM rs dU : arr3) : arr3 :=
  ploop order (fun e dU => setrow dU e (cAxB_to_C nb ns nb dt (iMM e) (rs e) (dU e))) dU.

(** * The residual of one rank *)

(** What a rank's residual evaluation reads: sizes, helper tables
    (vol_helpers, iface_helpers), the partitioned faces, and the order in which
    its parallel loops run.  [d_order k]: order of the k-th parallel loop over
    elements, [d_porder k n m]: of the k-th loop over pairs. *)
Record rdata := mkRD {
  d_rank : Z; d_dim : Z; d_gamma : R; d_flux : flux_type;
  d_ne : Z; d_nb : Z; d_nq : Z; d_NFACE : Z; d_nqf : Z; d_nif : Z;
  d_rows : list (list Z);
  d_basis_val : arr2; d_basis_ref_grad : arr3; d_wts : arr1; d_djac : arr2; d_ijac : arr4;
  d_face_basis : arr3; d_face_wts : arr1; d_normals : arr3; d_qL : Z -> Z -> Z; d_qR : Z -> Z -> Z;
  d_order : nat -> list Z; d_porder : nat -> Z -> Z -> list (Z * Z);
  d_garbage : arr1
}.

(** Views that persist between two residual evaluations (allocated by
    allocate_face_residual_views, base.cpp 563-598). *)
Record rviews := mkRV { v_Uq : arr3; v_UqL : arr3; v_UqR : arr3; v_Fq : arr3; v_Fe : arr3 }.

Definition zero3 : arr3 := fun _ _ _ => 0.
Definition zero4 : arr4 := fun _ _ _ _ => 0.

(** base.cpp 401-409 and 415-468: zero the residual, add the element terms. *)
Definition element_residuals (d : rdata) (Uc rs : arr3) : res arr3 :=
  let ns := (d_dim d + 2)%Z in
  let rs := (fun e ib is => if within3 (d_ne d, d_nb d, ns) e ib is then 0 else rs e ib is) in
  let Uq := evaluate_state (d_order d 0) (d_nq d) ns (d_nb d) (d_basis_val d) Uc zero3 in
  s <- volume_fluxes (d_dim d) (d_gamma d) (d_djac d) (d_ijac d) (d_wts d) (d_garbage d) (d_garbage d)
         (d_porder d 0 (d_ne d) (d_nq d)) (Uq, zero4) ;;
  Ok (volume_flux_integral (d_order d 1) (d_nq d) (d_nb d) ns (d_dim d) (d_basis_ref_grad d) (snd s) rs).

(** base.cpp 470-509: up to the communication. *)
Definition face_residuals_before (d : rdata) (Uc : arr3) (v : rviews) : res rviews :=
  let ns := (d_dim d + 2)%Z in
  let fb := flat_face_basis (d_NFACE d) (d_nqf d) (d_nb d) (d_face_basis d) in
  let Uq := evaluate_state (d_order d 2) (d_NFACE d * d_nqf d) ns (d_nb d) fb Uc (v_Uq v) in
  s <- construct_face_states (d_rank d) (d_rows d) (d_nif d) (d_nqf d) ns (d_ne d, (d_NFACE d * d_nqf d)%Z, ns)
         (d_qL d) (d_qR d) (d_porder d 1 (d_nif d) (d_nqf d)) Uq (v_UqL v) (v_UqR v) ;;
  Ok (mkRV Uq (fst s) (snd s) (v_Fq v) (v_Fe v)).

(** base.cpp 543-561: after the communication, which left UqL, UqR. *)
Definition face_residuals_after (d : rdata) (UqL UqR : arr3) (v : rviews) (rs : arr3) : res (rviews * arr3) :=
  let ns := (d_dim d + 2)%Z in
  let fb := flat_face_basis (d_NFACE d) (d_nqf d) (d_nb d) (d_face_basis d) in
  Fq <- face_fluxes (d_flux d) (d_dim d) (d_gamma d) UqL UqR (d_normals d) (d_face_wts d) (d_garbage d) (d_garbage d)
         (d_porder d 2 (d_nif d) (d_nqf d)) (v_Fq v) ;;
  Fe <- construct_flux_state (d_rank d) (d_rows d) (d_nif d) (d_nqf d) ns (d_ne d, (d_NFACE d * d_nqf d)%Z, ns)
         (d_qL d) (d_qR d) (d_porder d 3 (d_nif d) (d_nqf d)) Fq (v_Fe v) ;;
  Ok (mkRV (v_Uq v) UqL UqR Fq Fe,
      face_flux_integral (d_order d 3) (d_NFACE d * d_nqf d) (d_nb d) ns fb Fe rs).

(** The blocks of the face-state views, as exchanged by
    communicate_face_solution (CommModel.v). *)
Definition blocks (nif : Z) (a : arr3) : list arr2 := map a (zseq nif).
Definition face_blocks (nif : Z) (v : rviews) : fstate arr2 := mkFS (blocks nif (v_UqL v)) (blocks nif (v_UqR v)).
