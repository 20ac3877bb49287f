(** SetupModel.v -- model of the solver's set-up: the volume and interior-face
    helpers (src/solver/helpers.cpp 1-325, 380-500), the geometry kernels they
    use (src/mesh/tools.cpp, src/numerics/basis/tools.cpp 42-110),
    Solver::precompute_matrix_helpers and Solver::init_state_from_fcn
    (src/solver/base.cpp 69-222).

    Simplifications: the loops over the quadrature points of one element
    (TeamThreadRange), whose iterations touch disjoint entries, run in index
    order; the loops over elements and faces take their order as an argument.
    Kokkos::resize keeps the entries of a view, so a resized view is the same
    function.  The warning printed for a non-positive Jacobian is left out.  The
    mesh dimension equals the dimension of the basis' shape. *)
From Coq Require Import ZArith List Lia Reals Lra Bool.
From Verif Require Import Base RBase LinAlgModel QuadModel BasisModel PhysModel ShapeModel MeshModel SolverModel SolverSpec.
Import ListNotations.
Local Open Scope R_scope.
Open Scope res_scope.

(** Kokkos::subview(a, e, ALL, ...) as the target of a kernel, any rank. *)
Definition setr {A} (a : Z -> A) (e : Z) (m : A) : Z -> A := fun e' => if (e' =? e)%Z then m else a e'.

Definition zero1 : arr1 := fun _ => 0.
Definition zero2 : arr2 := fun _ _ => 0.

(** Basis::shape.get_quadrature_order of a volume and of a face shape: the
    function pointers set in shape.h for quadrilateral and hexahedron (volume),
    segment and quadrilateral (face). *)
Definition volume_quadrature_order (s : eshape) (order : Z) : Z :=
  match s with EQuad => quadrilateral_gl_order order | EHex => get_gausslegendre_quadrature_order order end.
Definition face_quadrature_order (s : eshape) (order : Z) : Z :=
  match s with EQuad => segment_gl_order order | EHex => quadrilateral_gl_order order end.

(** The geometric basis of the shape (numerics_data.cpp: LagrangeQuad or
    LagrangeHex). *)
Definition geom_basis (s : eshape) : basis_type := match s with EQuad => LagrangeQuad | EHex => LagrangeHex end.

(** helpers.cpp 116-140 (and base.cpp 127-140).  [pts], [wts]: the views before. *)
Definition volume_quadrature (s : eshape) (order : Z) (pts : arr2) (wts : arr1) : res (Z * arr2 * arr1) :=
  let qorder := volume_quadrature_order s order in
  let n := get_number_of_quadrature_points qorder (space_dim s) 0 in
  q <- (match s with EQuad => quadrilateral_quadrature qorder (fst n) pts wts
                   | EHex => hexahedron_quadrature qorder (fst n) pts wts end) ;;
  Ok (snd n, fst q, snd q).

(** mesh/tools.cpp 5-17.  [npe]: mesh.num_nodes_per_elem, [dim]: mesh.dim. *)
Definition elem_coords_from_elem_ID (pm : pmesh R) (npe dim elem_ID : Z) (c : arr2) : res arr2 :=
  zfor npe (fun i c => zfor dim (fun j c =>
    nd <- rd2 (pm_elem_to_node pm) elem_ID i ;;
    v <- rd2 (pm_node_coords pm) nd j ;;
    Ok (upd2 c i j v)) c) c.

(** mesh/tools.cpp 19-25; the inner dimension of the product is the number of
    columns of basis_val. *)
Definition ref_to_phys (nq dim gnb : Z) (gval coords xphys : arr2) : arr2 := cAxB_to_C nq dim gnb 1 gval coords xphys.

(** basis/tools.cpp 42-66; the inner dimension is the number of rows of
    elem_coords.  [jac], [djac], [ijac]: the rows of one element. *)
Definition get_element_jacobian (nq dim npe : Z) (ggrad : arr3) (coords : arr2) (s : arr3 * arr1 * arr3) : arr3 * arr1 * arr3 :=
  zloop nq (fun iq s =>
    let '(jac, djac, ijac) := s in
    let jac := setr jac iq (cATxB_to_C dim dim npe 1 coords (ggrad iq) (jac iq)) in
    let djac := upd1 djac iq (det dim (jac iq) (djac iq)) in
    let ijac := setr ijac iq (invA dim (jac iq) (ijac iq)) in
    (jac, djac, ijac)) s.

(** basis/tools.cpp 68-83: the variant without the inverse. *)
Definition get_element_jacobian_det (nq dim npe : Z) (ggrad : arr3) (coords : arr2) (s : arr3 * arr1) : arr3 * arr1 :=
  zloop nq (fun iq s =>
    let '(jac, djac) := s in
    let jac := setr jac iq (cATxB_to_C dim dim npe 1 coords (ggrad iq) (jac iq)) in
    let djac := upd1 djac iq (det dim (jac iq) (djac iq)) in
    (jac, djac)) s.

(** basis/tools.cpp 85-110.  [MM0], [sb0]: previous content of the scratch
    memory; [iMM]: the element's block of iMM_elems. *)
Definition get_inv_mass_matrices (nq nb : Z) (wts : arr1) (bval : arr2) (djac : arr1) (MM0 sb0 iMM : arr2) : arr2 :=
  let sb := copy_A_to_B nq nb bval sb0 in
  let sb := zloop nq (fun iq sb => fun i j => if (i =? iq)%Z then cA_to_A1 nb (wts iq * djac iq) (sb iq) j else sb i j) sb in
  let MM := cATxB_to_C nb nb nq 1 bval sb MM0 in
  invA nb MM iMM.

(** mesh/tools.cpp 27-36: a reduction, which starts from zero. *)
Definition get_element_volume (nq : Z) (wts djac : arr1) : R := zloop nq (fun iq v => v + wts iq * djac iq) 0.
(** mesh/tools.cpp 38-47 *)
Definition get_total_volume (ne : Z) (vol : arr1) : R := zloop ne (fun j v => v + vol j) 0.

(** VolumeHelperFunctor (helpers.h): the views. *)
Record vhelpers := mkVH {
  vh_nq : Z; vh_pts : arr2; vh_wts : arr1;
  vh_val : arr2; vh_grad : arr3; vh_gval : arr2; vh_ggrad : arr3;
  vh_jac : arr4; vh_djac : arr2; vh_ijac : arr4; vh_x : arr3; vh_vol : arr1; vh_iMM : arr3
}.
Definition vh_empty : vhelpers := mkVH 0 zero2 zero1 zero2 zero3 zero2 zero3 zero4 zero2 zero4 zero3 zero1 zero3.

(** helpers.cpp 116-183 applied in sequence: get_quadrature(basis, qo) and
    get_reference_data(basis, mesh.gbasis, order). *)
Definition reference_data (s : eshape) (bt : basis_type) (order g qo : Z) (h : vhelpers) : res vhelpers :=
  q <- volume_quadrature s qo (vh_pts h) (vh_wts h) ;;
  let '(nq, pts, wts) := q in
  let gb := geom_basis s in
  Ok (mkVH nq pts wts
        (get_values bt order nq (num_basis_coeff bt order) pts (vh_val h)) (get_grads bt order nq pts (vh_grad h))
        (get_values gb g nq (num_basis_coeff gb g) pts (vh_gval h)) (get_grads gb g nq pts (vh_ggrad h))
        (vh_jac h) (vh_djac h) (vh_ijac h) (vh_x h) (vh_vol h) (vh_iMM h)).

(** The body of the team of one element in helpers.cpp 71-99; [junk]: content of
    the scratch memory. *)
Definition inv_mass_team (s : eshape) (pm : pmesh R) (npe nb : Z) (junk : arr2) (e : Z) (h : vhelpers) : res vhelpers :=
  let dim := space_dim s in
  c <- elem_coords_from_elem_ID pm npe dim e junk ;;
  let '(jac, djac, ijac) := get_element_jacobian (vh_nq h) dim npe (vh_ggrad h) c (vh_jac h e, vh_djac h e, vh_ijac h e) in
  let iMM := get_inv_mass_matrices (vh_nq h) nb (vh_wts h) (vh_val h) djac junk junk (vh_iMM h e) in
  Ok (mkVH (vh_nq h) (vh_pts h) (vh_wts h) (vh_val h) (vh_grad h) (vh_gval h) (vh_ggrad h)
        (setr (vh_jac h) e jac) (setr (vh_djac h) e djac) (setr (vh_ijac h) e ijac) (vh_x h) (vh_vol h) (setr (vh_iMM h) e iMM)).

(** helpers.cpp 53-100.  The quadrature is the one of twice the order. *)
Definition compute_inv_mass_matrices (s : eshape) (bt : basis_type) (order g : Z) (pm : pmesh R) (npe : Z) (junk : arr2)
  (eorder : list Z) (h : vhelpers) : res vhelpers :=
  h <- reference_data s bt order g (2 * order) h ;;
  foreach eorder (inv_mass_team s pm npe (num_basis_coeff bt order) junk) h.

(** The body of one team in helpers.cpp 12-49. *)
Definition volume_team (s : eshape) (pm : pmesh R) (npe gnb : Z) (junk : arr2) (e : Z) (h : vhelpers) : res vhelpers :=
  let dim := space_dim s in
  c <- elem_coords_from_elem_ID pm npe dim e junk ;;
  let x := ref_to_phys (vh_nq h) dim gnb (vh_gval h) c (vh_x h e) in
  let '(jac, djac, ijac) := get_element_jacobian (vh_nq h) dim npe (vh_ggrad h) c (vh_jac h e, vh_djac h e, vh_ijac h e) in
  let vol := get_element_volume (vh_nq h) (vh_wts h) djac in
  Ok (mkVH (vh_nq h) (vh_pts h) (vh_wts h) (vh_val h) (vh_grad h) (vh_gval h) (vh_ggrad h)
        (setr (vh_jac h) e jac) (setr (vh_djac h) e djac) (setr (vh_ijac h) e ijac) (setr (vh_x h) e x) (upd1 (vh_vol h) e vol) (vh_iMM h)).

(** helpers.cpp 4-51. *)
Definition compute_volume_helpers (s : eshape) (bt : basis_type) (order g : Z) (pm : pmesh R) (npe : Z) (junk : arr2)
  (eorder : list Z) (h : vhelpers) : res vhelpers :=
  h <- reference_data s bt order g order h ;;
  foreach eorder (volume_team s pm npe (num_basis_coeff (geom_basis s) g) junk) h.

(** InteriorFaceHelperFunctor (helpers.h): the views (gradients and geometric
    values on faces, which nothing reads, are left out). *)
Record fhelpers := mkFH {
  fh_nq : Z; fh_pts : arr3; fh_wts : arr1; fh_val : arr3;
  fh_qL : Z -> Z -> Z; fh_qR : Z -> Z -> Z; fh_normals : arr3
}.

(** basis.face_shape.get_quadrature_data, helpers.cpp 224-237: fresh views. *)
Definition face_quadrature (s : eshape) (order : Z) : res (Z * arr2 * arr1) :=
  let qorder := face_quadrature_order s order in
  let n := get_number_of_quadrature_points qorder (space_dim s - 1) 0 in
  match s with
  | EQuad => q <- segment_quadrature qorder (vec (snd n) 0%Z) (vec (snd n) 0%Z) ;;
             Ok (snd n, (fun i d => if (d =? 0)%Z then arr_of (fst q) i else 0), arr_of (snd q))
  | EHex => q <- quadrilateral_quadrature qorder (fst n) zero2 zero1 ;; Ok (snd n, fst q, snd q)
  end.

Definition points_on_face (s : eshape) (face nq : Z) (fp e : arr2) : res arr2 :=
  match (match s with EQuad => points_on_face_quad face 0 nq fp e | EHex => points_on_face_hex face 0 nq fp e end) with
  | Some P => Ok P
  | None => Fail Thrown
  end.

(** helpers.cpp 244-248: orientation 0 of every face. *)
Definition all_face_points (s : eshape) (nq : Z) (fp : arr2) : res arr3 :=
  zfor (faces_per_elem s) (fun ifa P => Q <- points_on_face s ifa nq fp (P ifa) ;; Ok (setr P ifa Q)) zero3.

(** helpers.cpp 288-301 *)
Definition all_face_values (s : eshape) (bt : basis_type) (order nq nb : Z) (pts : arr3) : arr3 :=
  zloop (faces_per_elem s) (fun ifa v => setr v ifa (get_values bt order nq nb (pts ifa) (v ifa))) zero3.

(** The body of one team in helpers.cpp 408-499: the element this rank has of
    the face, its nodes, the normals at the points. *)
Definition normals_team (s : eshape) (pm : pmesh R) (rank npe g nqf : Z) (pts0 : arr2) (junk : arr2) (iface : Z) (N : arr3) : res arr3 :=
  rankL <- rd2 (pm_interior_faces pm) iface 0 ;;
  rankR <- rd2 (pm_interior_faces pm) iface 4 ;;
  match face_side rank rankL rankR with
  | None => Fail Uninitialised
  | Some onleft =>
    elem <- rd2 (pm_interior_faces pm) iface (if onleft then 1 else 5) ;;
    face <- rd2 (pm_interior_faces pm) iface (if onleft then 2 else 6) ;;
    let sign := if onleft then 1 else -1 in
    c <- elem_coords_from_elem_ID pm npe (space_dim s) elem junk ;;
    Ok (setr N iface (zloop nqf (fun ip row => fun i d => if ((i =? ip) && (0 <=? d) && (d <? space_dim s))%Z%bool
          then (match s with EQuad => face_normal_quad | EHex => face_normal_hex end) sign face g nqf c pts0 ip d else row i d) (N iface)))
  end.

(** helpers.cpp 205-213 *)
Definition compute_interior_face_helpers (s : eshape) (bt : basis_type) (order g : Z) (pm : pmesh R) (rank npe : Z) (junk : arr2)
  (forder : list Z) : res fhelpers :=
  q <- face_quadrature s order ;;
  let '(nqf, fp, fw) := q in
  pts <- all_face_points s nqf fp ;;
  let val := all_face_values s bt order nqf (num_basis_coeff bt order) pts in
  lk <- face_quadrature_lookup (face_order s) (pm_interior_faces pm) (pm_num_ifaces_part pm) nqf ;;
  N <- foreach forder (normals_team s pm rank npe g nqf (pts 0%Z) junk) zero3 ;;
  Ok (mkFH nqf pts fw val (fst lk) (snd lk) N).

(** base.cpp 69-111; [eorder1], [eorder2], [forder]: orders of the three parallel
    loops. *)
Definition precompute_matrix_helpers (s : eshape) (bt : basis_type) (order g : Z) (pm : pmesh R) (rank npe : Z) (junk : arr2)
  (eorder1 eorder2 forder : list Z) : res (vhelpers * fhelpers) :=
  h <- compute_inv_mass_matrices s bt order g pm npe junk eorder1 vh_empty ;;
  h <- compute_volume_helpers s bt order g pm npe junk eorder2 h ;;
  f <- compute_interior_face_helpers s bt order g pm rank npe junk forder ;;
  Ok (h, f).

(** The helper tables as the residual evaluation reads them (SolverModel.v). *)
Definition residual_data (s : eshape) (bt : basis_type) (order : Z) (pm : pmesh R) (rank : Z) (gamma : R) (ft : flux_type)
  (h : vhelpers) (f : fhelpers) (ord : nat -> list Z) (pord : nat -> Z -> Z -> list (Z * Z)) (junk : arr1) : rdata :=
  mkRD rank (space_dim s) gamma ft (pm_num_elems_part pm) (num_basis_coeff bt order) (vh_nq h) (faces_per_elem s) (fh_nq f)
    (pm_num_ifaces_part pm) (pm_interior_faces pm) (vh_val h) (vh_grad h) (vh_wts h) (vh_djac h) (vh_ijac h)
    (fh_val f) (fh_wts f) (fh_normals f) (fh_qL f) (fh_qR f) ord pord junk.

(** base.cpp 113-223.  [t]: the solver's time; [eorder]: the order of the loop
    over elements, [porder]: of the point loop of the projection; [junk1],
    [junk2], [junk3]: content of the scratch memory. *)
Definition init_state_from_fcn (s : eshape) (bt : basis_type) (order g : Z) (pm : pmesh R) (npe ns : Z) (ic : ic_type) (ph : phys) (t : R)
  (iMM : arr3) (junk2 : arr2) (junk3 : arr3) (junk1 : arr1) (eorder porder : list Z) (Uc : arr3) : res arr3 :=
  let dim := space_dim s in
  let order_ := Z.max order 1 in
  q <- volume_quadrature s (2 * order_) zero2 zero1 ;;
  let '(nq, pts, wts) := q in
  let gb := geom_basis s in
  let nb := num_basis_coeff bt order in
  let gnb := num_basis_coeff gb g in
  let bval := get_values bt order nq nb pts zero2 in
  let gval := get_values gb g nq gnb pts zero2 in
  let ggrad := get_grads gb g nq pts zero3 in
  foreach eorder (fun e Uc =>
    c <- elem_coords_from_elem_ID pm npe dim e junk2 ;;
    let x := ref_to_phys nq dim gnb gval c junk2 in
    f <- zfor nq (fun iq f => U <- call_IC dim ic ph (x iq) t (f iq) ;; Ok (setr f iq U)) junk2 ;;
    let djac := snd (get_element_jacobian_det nq dim npe ggrad c (junk3, junk1)) in
    Ok (setr Uc e (L2_projection porder nq nb ns (iMM e) bval djac wts f (Uc e) junk2))) Uc.
