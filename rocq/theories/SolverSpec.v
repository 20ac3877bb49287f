(** SolverSpec.v -- vocabulary in which the properties of the residual
    evaluation are stated. *)
From Coq Require Import ZArith List Lia Reals Lra Bool Permutation.
From Verif Require Import Base RBase MeshModel MeshSpec ShapeModel.
Import ListNotations.
Local Open Scope Z_scope.

(** The two element shapes of the solver (2D and 3D). *)
Inductive eshape := EQuad | EHex.
Definition faces_per_elem (s : eshape) : Z := match s with EQuad => 4 | EHex => 6 end.
Definition face_orientations (s : eshape) : Z := match s with EQuad => 2 | EHex => 8 end.
Definition space_dim (s : eshape) : Z := match s with EQuad => 2 | EHex => 3 end.

(** Number of quadrature points of a face: any on an edge, a square number on a
    quadrilateral face. *)
Definition face_points (s : eshape) (nqf : Z) : Prop :=
  match s with EQuad => 0 <= nqf | EHex => exists n, 0 < n /\ nqf = n * n end.

(** The code's point order of an oriented face (C17, C18). *)
Definition face_order (s : eshape) : Z -> Z -> iarr -> iarr :=
  match s with EQuad => face_pts_order_quad | EHex => face_pts_order_hex end.

(** On its left ([false]) or right ([true]) side, interior face [f] of the mesh
    has element [e], face number [k] of that element, orientation [o]. *)
Definition has_side {A} (m : gmesh A) (f : Z) (sd : bool) (e k o : Z) : Prop :=
  let c := if sd then 3 else 0 in
  rd2 (gm_IF m) f c = Ok e /\ rd2 (gm_IF m) f (c + 1) = Ok k /\ rd2 (gm_IF m) f (c + 2) = Ok o.

(** Face numbers and orientations are ones of the shape. *)
Definition faces_valid {A} (s : eshape) (m : gmesh A) : Prop :=
  forall f sd e k o, has_side m f sd e k o -> k < faces_per_elem s /\ o < face_orientations s.

(** No face of an element is used by two sides of interior faces. *)
Definition faces_distinct {A} (m : gmesh A) : Prop :=
  forall f sd e k o f' sd' o', has_side m f sd e k o -> has_side m f' sd' e k o' -> f = f' /\ sd = sd'.

(** Left elements receive minus the flux, right elements the flux. *)
Definition side_sign (sd : bool) : R := if sd then 1%R else (-1)%R.

(** A parallel loop over the pairs (i, j), i < n, j < m, runs each once. *)
Definition each_once (order : list (Z * Z)) (n m : Z) : Prop :=
  Permutation order (list_prod (zseq n) (zseq m)).

(** The slot (local element, position) of the per-element face buffer that
    belongs to point [iq] of the [sd] side of local face [lf] of rank [r]: the
    element on that side lives on [r], and the position is the one of the point
    in the orientation the mesh gives. *)
Definition slot_of {A} (s : eshape) (m : gmesh A) (pm : Z -> pmesh A) (nqf r lf iq : Z) (sd : bool) (le pos : Z) : Prop :=
  0 <= iq < nqf /\
  exists f e k o, rd (pm_l2g_iface (pm r)) lf = Ok f /\ has_side m f sd e k o /\
    rd (pm_l2g_elem (pm r)) le = Ok e /\ pos = k * nqf + face_order s o nqf (fun _ => 0) iq.

(** ** Numerical fluxes through a face with normal N (not a unit vector) *)
From Verif Require Import PhysModel PhysSpec.
Local Open Scope R_scope.
(** Fastest wave relative to the frame. *)
Definition max_speed (dim : Z) (gamma : R) (U : arr1) : R := vlen dim (velocity U) + sound dim gamma U.
Definition numflux (t : flux_type) (dim : Z) (gamma : R) (UL UR N : arr1) (k : Z) : R :=
  match t with
  | LaxFriedrichs => (euler_flux dim gamma UL N k + euler_flux dim gamma UR N k) / 2
      - vlen dim N * Rmax (max_speed dim gamma UL) (max_speed dim gamma UR) * (UR k - UL k) / 2
  | HLLC => vlen dim N * toro_hllc dim gamma UL UR (fun i => N i / vlen dim N) k
  end.

(** ** A residual evaluation *)
From Verif Require Import CommModel CommSpec SolverModel.
(** Parallel loops run each iteration once, in any order. *)
Definition orders_ok (d : rdata) : Prop :=
  (forall k, Permutation (d_order d k) (zseq (d_ne d))) /\ (forall k a b, each_once (d_porder d k a b) a b).

(** The state the coefficients of element [e] give at volume point [q]. *)
Definition vol_state (d : rdata) (Uc : arr3) (e q : Z) : arr1 :=
  fun k => rsum (d_nb d) (fun j => d_basis_val d q j * Uc e j k).

(** Gradient of basis function [i] at point [q] of element [e] with respect to
    physical coordinate [j]: chain rule with the inverse Jacobian. *)
Definition phys_grad (d : rdata) (e q i j : Z) : R :=
  rsum (d_dim d) (fun c => d_basis_ref_grad d q i c * d_ijac d e q c j).

(** In range for (element, basis function, state variable). *)
Definition in_res (d : rdata) (e i k : Z) : Prop :=
  (0 <= e < d_ne d)%Z /\ (0 <= i < d_nb d)%Z /\ (0 <= k < d_dim d + 2)%Z.

(** All ranks [0 .. n-1] of a run evaluate the residual of the same partitioned
    mesh with the same basis, quadrature, gas and numerical flux; [fb]: values of
    the basis functions at the face points, [fw]: face quadrature weights. *)
Record same_setup {A} (s : eshape) (m : gmesh A) (pm : Z -> pmesh A) (n nqf nb : Z) (gamma : R) (ft : flux_type)
  (fb : arr3) (fw : arr1) (D : Z -> rdata) : Prop := {
  ss_sizes : forall r, (0 <= r < n)%Z -> d_rank (D r) = r /\ d_dim (D r) = space_dim s /\
     d_ne (D r) = pm_num_elems_part (pm r) /\ d_nb (D r) = nb /\ d_NFACE (D r) = faces_per_elem s /\
     d_nqf (D r) = nqf /\ d_nif (D r) = pm_num_ifaces_part (pm r) /\ d_rows (D r) = pm_interior_faces (pm r);
  ss_lookup : forall r, (0 <= r < n)%Z ->
     face_quadrature_lookup (face_order s) (d_rows (D r)) (d_nif (D r)) nqf = Ok (d_qL (D r), d_qR (D r));
  ss_orders : forall r, (0 <= r < n)%Z -> orders_ok (D r);
  ss_phys : forall r, (0 <= r < n)%Z -> d_gamma (D r) = gamma /\ d_flux (D r) = ft /\ d_face_wts (D r) = fw;
  ss_face : forall r f q b, (0 <= r < n)%Z -> (0 <= f < faces_per_elem s)%Z -> (0 <= q < nqf)%Z -> (0 <= b < nb)%Z ->
     d_face_basis (D r) f q b = fb f q b
}.

(** The two ranks of a face use the same, non-zero, normals. *)
Definition normals_agree {A} (s : eshape) (pm : Z -> pmesh A) (n nqf : Z) (D : Z -> rdata) : Prop :=
  (forall r lf iq, (0 <= r < n)%Z -> (0 <= lf < pm_num_ifaces_part (pm r))%Z -> (0 <= iq < nqf)%Z ->
     vdot (space_dim s) (d_normals (D r) lf iq) (d_normals (D r) lf iq) <> 0) /\
  forall r r' lf lf' f iq j, (0 <= r < n)%Z -> (0 <= r' < n)%Z ->
    rd (pm_l2g_iface (pm r)) lf = Ok f -> rd (pm_l2g_iface (pm r')) lf' = Ok f ->
    (0 <= iq < nqf)%Z -> (0 <= j < space_dim s)%Z -> d_normals (D r) lf iq j = d_normals (D r') lf' iq j.

(** [c]: coefficients of the constant function 1 -- value 1 at the face points,
    gradient 0 at the volume points. *)
Definition constant_one (s : eshape) (n nqf nb : Z) (fb : arr3) (D : Z -> rdata) (c : arr1) : Prop :=
  (forall f q, (0 <= f < faces_per_elem s)%Z -> (0 <= q < nqf)%Z -> rsum nb (fun i => c i * fb f q i) = 1) /\
  (forall r q j, (0 <= r < n)%Z -> (0 <= q < d_nq (D r))%Z -> (0 <= j < space_dim s)%Z ->
     rsum nb (fun i => c i * d_basis_ref_grad (D r) q i j) = 0).

(** One residual evaluation of all ranks: element terms, face states, exchange
    (with the outcome UL, UR), face terms.  [v0], [v2]: the work arrays before
    and after, [rs0], [rs2]: the residual. *)
Definition evaluates {A} (m : gmesh A) (ep : list Z) (pm : Z -> pmesh A) (n : Z) (D : Z -> rdata)
  (Uc rs0 : Z -> arr3) (v0 : Z -> rviews) (UL UR : Z -> arr3) (v2 : Z -> rviews) (rs2 : Z -> arr3) : Prop :=
  exists rs1 v1 X,
    (forall r, (0 <= r < n)%Z -> element_residuals (D r) (Uc r) (rs0 r) = Ok (rs1 r) /\
       face_residuals_before (D r) (Uc r) (v0 r) = Ok (v1 r)) /\
    CommSpec.exchanged n m ep pm (fun r => face_blocks (d_nif (D r)) (v1 r)) X /\
    forall r, (0 <= r < n)%Z ->
      blocks (d_nif (D r)) (UL r) = CommModel.fs_L (X r) /\ blocks (d_nif (D r)) (UR r) = CommModel.fs_R (X r) /\
      face_residuals_after (D r) (UL r) (UR r) (v1 r) (rs1 r) = Ok (v2 r, rs2 r).

(** The part of the per-element face buffer that no interior face point owns
    (boundary faces) is zero, as the view's constructor leaves it. *)
Definition boundary_zero {A} (s : eshape) (m : gmesh A) (pm : Z -> pmesh A) (n nqf : Z) (v : Z -> rviews) : Prop :=
  forall r le pos k, (0 <= r < n)%Z -> (forall lf iq sd, ~ slot_of s m pm nqf r lf iq sd le pos) -> v_Fe (v r) le pos k = 0.

(** Sum over all elements of all ranks of a quantity tested with [c]. *)
Definition total {A} (pm : Z -> pmesh A) (n nb : Z) (c : arr1) (k : Z) (rs : Z -> arr3) : R :=
  rsum n (fun r => rsum (pm_num_elems_part (pm r)) (fun e => rsum nb (fun i => c i * rs r e i k))).

(** The state the coefficients of local element [e] give at point [q] of its face [f]. *)
Definition face_trace (nb : Z) (fb Uc : arr3) (e f q : Z) : arr1 := fun k => rsum nb (fun j => fb f q j * Uc e j k).
