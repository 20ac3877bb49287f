(** SetupSpec.v -- vocabulary in which the properties of the solver's set-up are
    stated: the elements as images of the reference element. *)
From Coq Require Import ZArith List Lia Reals Lra Bool Permutation.
From Coquelicot Require Import Coquelicot.
From Verif Require Import Base RBase LinAlgModel PropLinAlg QuadModel PropQuad BasisModel PropBasis PropNormals MeshModel MeshSpec SolverSpec SetupModel.
Import ListNotations.
Local Open Scope R_scope.

(** Coordinates of the nodes of element [e] of the mesh file, in the file's order. *)
Definition elem_nodes (m : gmesh R) (e : Z) : arr2 := fun i d =>
  match rd (gm_eind m) (e * gm_npe m + i) with
  | Ok g => match rd2 (gm_coord m) g d with Ok v => v | _ => 0 end
  | _ => 0
  end.

(** The map from the reference element, and its partial derivatives
    (d physical coordinate j / d reference coordinate d). *)
Definition place (s : eshape) (g : Z) (X : arr2) (y : Z -> R) (j : Z) : R := elem_map (geom_basis s) g X y j.
Definition jacobian (s : eshape) (g : Z) (X : arr2) (y : Z -> R) : arr2 :=
  fun j d => Derive (fun t => place s g X (with_coord y d t) j) (y d).
Definition jac_det (s : eshape) (g : Z) (X : arr2) (y : Z -> R) : R := small_det (space_dim s) (jacobian s g X y).

(** A point inside the reference element. *)
Definition inside (s : eshape) (y : Z -> R) : Prop := forall d, (0 <= d < space_dim s)%Z -> -1 < y d < 1.

(** The mesh has elements of shape [s] and geometric order [g]; no element is
    folded over. *)
Definition mesh_fits (s : eshape) (g : Z) (m : gmesh R) : Prop :=
  gm_dim m = space_dim s /\ gm_npe m = nfun (geom_basis s) g.
Definition untangled (s : eshape) (g : Z) (m : gmesh R) : Prop :=
  forall e y, (0 <= e < gm_num_elems m)%Z -> inside s y -> 0 < jac_det s g (elem_nodes m e) y.

(** A solution basis of the shape. *)
Definition basis_for (s : eshape) (bt : basis_type) : Prop :=
  match s with EQuad => bt = LagrangeQuad \/ bt = LegendreQuad | EHex => bt = LagrangeHex \/ bt = LegendreHex end.

(** [P], [W]: points and weights of the tensor product, in [k] directions, of a
    one-dimensional rule with [n] points. *)
Definition tensor_rule (k n : Z) (x w : arr1) (P : arr2) (W : arr1) : Prop :=
  forall q, (0 <= q < n ^ k)%Z ->
    (forall d, (0 <= d < k)%Z -> P q d = x (digit n d q)) /\ W q = rprod k (fun d => w (digit n d q)).

(** Quadrature orders for which the tables have a rule (C36, C37). *)
Definition tabulated (o : Z) : Prop := (0 <= o <= 23)%Z /\ o <> 17%Z.

(** Points of a face rule per direction: p+1 on an edge, p+2 on a quadrilateral
    face; the point of face [k] with face coordinates [y]. *)
Definition face_rule_points (s : eshape) (p : Z) : Z := match s with EQuad => (p + 1)%Z | EHex => (p + 2)%Z end.
Definition face_at (s : eshape) (k : Z) (y : Z -> R) : Z -> R :=
  match s with EQuad => PropShape.quad_face k (y 0%Z) | EHex => PropShape.hex_face k (y 0%Z) (y 1%Z) end.

(** Orders the set-up can handle: all rules it uses are tabulated. *)
Definition order_ok (p : Z) : Prop := (0 <= p <= 11)%Z.
