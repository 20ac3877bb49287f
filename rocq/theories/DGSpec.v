(** DGSpec.v -- the discontinuous Galerkin scheme on the whole mesh, written with
    the numbering of the mesh file: no ranks, no partition, no exchange.  Used by
    C77, C78 (PropDG.v). *)
From Coq Require Import ZArith List Lia Reals Lra Bool.
From Verif Require Import Base RBase MeshModel MeshSpec PhysModel PhysSpec SolverSpec SolverModel.
Import ListNotations.
Local Open Scope R_scope.

(** Discretisation data: basis functions ([sc_nb]) with their values and reference
    gradients at the volume points and their values at the points of each face of
    the reference element, quadrature weights, and the geometry of the mesh:
    Jacobian determinant and inverse at the volume points of each element, normal
    (pointing from the left element to the right, scaled by the face element) at
    the points of each interior face. *)
Record scheme := mkScheme {
  sc_shape : eshape; sc_nb : Z; sc_gamma : R; sc_flux : flux_type;
  sc_nq : Z; sc_val : arr2; sc_grad : arr3; sc_wts : arr1;
  sc_nqf : Z; sc_fval : arr3; sc_fwts : arr1;
  sc_det : arr2; sc_inv : arr4; sc_normal : arr3
}.

Section Scheme.
Context (S : scheme) (m : gmesh R).
Let dim := space_dim (sc_shape S).

(** Solution at volume point [q] of element [e] / at point [q] of its face [f];
    [c e j k]: coefficient of basis function [j], state variable [k]. *)
Definition dg_state (c : arr3) (e q : Z) : arr1 := fun k => rsum (sc_nb S) (fun j => sc_val S q j * c e j k).
Definition dg_trace (c : arr3) (e f q : Z) : arr1 := fun k => rsum (sc_nb S) (fun j => sc_fval S f q j * c e j k).

(** Element term: integral of flux times gradient of the test function. *)
Definition dg_volume (c : arr3) (e i k : Z) : R :=
  rsum (sc_nq S) (fun q => sc_wts S q * sc_det S e q *
    rsum dim (fun j => euler_flux dim (sc_gamma S) (dg_state c e q) (axis j) k *
      rsum dim (fun d => sc_grad S q i d * sc_inv S e q d j))).

(** Element, its face number and its orientation on a side of interior face [f],
    as the mesh file gives them. *)
Definition face_entry (f j : Z) : Z := match rd2 (gm_IF m) f j with Ok x => x | Fail _ => (-1)%Z end.
Definition side_elem (f : Z) (sd : bool) : Z := face_entry f (if sd then 3 else 0)%Z.
Definition side_face (f : Z) (sd : bool) : Z := face_entry f (if sd then 4 else 1)%Z.
(** Point [iq] of the face, in the numbering of the element on side [sd]. *)
Definition side_point (f : Z) (sd : bool) (iq : Z) : Z :=
  face_order (sc_shape S) (face_entry f (if sd then 5 else 2)%Z) (sc_nqf S) (fun _ => 0%Z) iq.

(** Numerical flux at a point of an interior face. *)
Definition dg_flux (c : arr3) (f iq k : Z) : R :=
  numflux (sc_flux S) dim (sc_gamma S)
    (dg_trace c (side_elem f false) (side_face f false) (side_point f false iq))
    (dg_trace c (side_elem f true) (side_face f true) (side_point f true iq))
    (sc_normal S f iq) k.

(** What an interior face adds to element [e] if that is its element on side
    [sd]: the left element loses what the right one gains. *)
Definition dg_side (c : arr3) (f : Z) (sd : bool) (e i k : Z) : R :=
  if (side_elem f sd =? e)%Z then
    side_sign sd * rsum (sc_nqf S) (fun iq => sc_fwts S iq * dg_flux c f iq k * sc_fval S (side_face f sd) (side_point f sd iq) i)
  else 0.

Definition dg_residual (c : arr3) (e i k : Z) : R :=
  dg_volume c e i k + rsum (gm_nIF m) (fun f => dg_side c f false e i k + dg_side c f true e i k).

(** Time derivative of the coefficients; [iM e]: inverse mass matrix of element
    [e].  The two steppers. *)
Definition dg_rate (iM : arr3) (c : arr3) : arr3 := fun e j k => rsum (sc_nb S) (fun b => iM e j b * dg_residual c e b k).

Inductive stepper := ForwardEuler | RungeKutta4.
Definition shift (c : arr3) (a : R) (d : arr3) : arr3 := fun e j k => c e j k + a * d e j k.
Definition dg_step (iM : arr3) (st : stepper) (dt : R) (c : arr3) : arr3 :=
  match st with
  | ForwardEuler => shift c dt (dg_rate iM c)
  | RungeKutta4 =>
    let k1 := dg_rate iM c in
    let k2 := dg_rate iM (shift c (dt / 2) k1) in
    let k3 := dg_rate iM (shift c (dt / 2) k2) in
    let k4 := dg_rate iM (shift c dt k3) in
    shift c (dt / 6) (fun e j k => k1 e j k + 2 * k2 e j k + 2 * k3 e j k + k4 e j k)
  end.
Definition dg_march (iM : arr3) (steps : list (stepper * R)) (c : arr3) : arr3 :=
  fold_left (fun c st => dg_step iM (fst st) (snd st) c) steps c.
End Scheme.
