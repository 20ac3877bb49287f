(** C96, second half: the scheme of order zero that the program runs on
    quadrilaterals and hexahedra is the one of PropPositive, with the areas and
    lengths of the mesh. *)
From Coq Require Import ZArith List Lia Reals Lra String Bool Permutation.
From Coquelicot Require Import Coquelicot.
From Flocq Require Import BinarySingleNaN.
From Verif Require Import Base RBase QuadModel QuadProof PropQuad MeshModel MeshSpec MeshProof PropMesh IOModel PropIO PropOutput.
From Verif Require Import ReadModel PropRead PropCtor UtilModel TimeModel ProgramModel PropProgram.
From Verif Require Import LinAlgModel PropLinAlg BasisModel ShapeModel PropShape SolverModel SolverSpec SolverMesh SolverFlux PhysModel PhysSpec PhysProof PropPhys PropBasis MassProof PropSolver PropNormals StepModel PropIntegral PropStep SetupModel SetupSpec SetupProof SetupFaces PropSetup PropMeshRun PropInit PropPost PropResidual DGSpec DGProof PropDG PropHex PropFree PropHexFree PropTime PropWhole PropTotal PropRenumber PropPositive.
Import ListNotations.
Open Scope string_scope.
Open Scope Z_scope.
Open Scope R_scope.

(** * Specification: areas and lengths *)

(** Area of a quadrilateral: half the cross product of its diagonals. *)
Definition quad_area (m : gmesh R) (e : Z) : R :=
  let X := elem_nodes m e in
  cross2 (X 3%Z 0%Z - X 0%Z 0%Z) (X 3%Z 1%Z - X 0%Z 1%Z) (X 2%Z 0%Z - X 1%Z 0%Z) (X 2%Z 1%Z - X 1%Z 1%Z) / 2.

(** Length of an interior edge. *)
Definition edge_length (m : gmesh R) (f : Z) : R :=
  let X := elem_nodes m (side_elem m f false) in let k := side_face m f false in
  sqrt ((X (ccw (k + 1)) 0%Z - X (ccw k) 0%Z) ^ 2 + (X (ccw (k + 1)) 1%Z - X (ccw k) 1%Z) ^ 2).

(** Area of an interior face of a hexahedral mesh, a parallelogram. *)
Definition parallelogram_area (m : gmesh R) (f : Z) : R :=
  let T := face_surface m (side_elem m f false) (side_face m f false) in
  vlen 3 (vprod (fun d => T 1 (-1) d - T (-1) (-1) d) (fun d => T (-1) 1 d - T (-1) (-1) d)).

(** Volume of a hexahedron by the Gauss rule with two points per direction (exact
    if the Jacobian is constant, see [gauss_volume_exact]). *)
Definition gauss2 : R := 577350269189625764509148780501960000 / 10 ^ 36.
Definition corner (a b c : bool) : Z -> R := fun d =>
  let sg := fun x : bool => if x then gauss2 else - gauss2 in if (d =? 0)%Z then sg a else if (d =? 1)%Z then sg b else sg c.
Definition gauss_volume (m : gmesh R) (e : Z) : R :=
  let D := fun a b c => jac_det EHex 1 (elem_nodes m e) (corner a b c) in
  D false false false + D true false false + D false true false + D true true false +
  D false false true + D true false true + D false true true + D true true true.

Lemma gauss_volume_exact m e d : (forall y, inside EHex y -> jac_det EHex 1 (elem_nodes m e) y = d) -> gauss_volume m e = 8 * d.
Proof.
  intros H. unfold gauss_volume.
  assert (I : forall a b c, inside EHex (corner a b c)).
  { intros a b c i Hi. assert (G : -1 < gauss2 < 1 /\ -1 < - gauss2 < 1) by (unfold gauss2; split; split; lra). unfold corner.
    destruct (i =? 0)%Z, (i =? 1)%Z, a, b, c; tauto. }
  rewrite !H by apply I. ring.
Qed.

(** * The basis of order zero *)
Lemma nfun0 bt : nfun bt 0 = 1%Z.
Proof. unfold nfun. change (0 + 1)%Z with 1%Z. apply Z.pow_1_l. destruct bt; cbn; lia. Qed.

Lemma basis0 bt y : basis_fn bt 0 0 y = 1.
Proof.
  unfold basis_fn. assert (F : forall d t, fn1 bt 0 (digit (0 + 1) d 0) t = 1).
  { intros d t. unfold digit. change (0 + 1)%Z with 1%Z. rewrite Z.mod_1_r. unfold fn1. destruct (is_lagrange bt); [|reflexivity].
    unfold lagrange_poly. change (0 + 1)%Z with 1%Z. cbv -[IZR Rplus Rmult Rminus Rdiv]. ring. }
  transitivity (rprod (PropBasis.dim bt) (fun _ => 1)); [apply rprod_ext; intros; apply F|].
  destruct bt; cbv -[IZR Rmult]; ring.
Qed.

Lemma grad0 bt (y : Z -> R) d t0 : Derive (fun t => basis_fn bt 0 0 (with_coord y d t)) t0 = 0.
Proof. rewrite (Derive_ext _ (fun _ => 1)) by (intros; apply basis0). apply Derive_const. Qed.

(** * The rules of order zero *)
Lemma lit36 : lit (10 ^ 36) = 1.
Proof. unfold lit. rewrite pow_IZR. change (IZR (10 ^ 36)) with (IZR (10 ^ Z.of_nat 36)). apply Rinv_r. apply not_0_IZR. discriminate. Qed.

Lemma segment3 : segment_quadrature 3 (vec 2 0%Z) (vec 2 0%Z) =
  Ok ([-577350269189625764509148780501960000; 577350269189625764509148780501960000]%Z, [10 ^ 36; 10 ^ 36]%Z).
Proof. reflexivity. Qed.

Lemma two_points : let x := arr_of [-577350269189625764509148780501960000; 577350269189625764509148780501960000]%Z in let w := arr_of [10 ^ 36; 10 ^ 36]%Z in
  x 0%Z = - gauss2 /\ x 1%Z = gauss2 /\ w 0%Z = 1 /\ w 1%Z = 1.
Proof.
  cbv zeta. unfold arr_of. change (Z.to_nat 0) with O. change (Z.to_nat 1) with 1%nat. cbn [nth]. rewrite lit36.
  split; [unfold lit, gauss2; lra|]. split; [reflexivity|]. auto.
Qed.

Lemma quad_rule0 : exists P W, volume_quadrature EQuad 0 zero2 zero1 = Ok (4%Z, P, W) /\
  forall q, (0 <= q < 4)%Z -> P q 0%Z = (if (q mod 2 =? 0)%Z then - gauss2 else gauss2) /\ P q 1%Z = (if (q / 2 =? 0)%Z then - gauss2 else gauss2) /\ W q = 1.
Proof.
  destruct two_points as (x0 & x1 & w0 & w1).
  unfold volume_quadrature. change (get_number_of_quadrature_points (volume_quadrature_order EQuad 0) (space_dim EQuad) 0) with (2, 4)%Z.
  change (volume_quadrature_order EQuad 0) with 3%Z. cbn [fst snd]. unfold quadrilateral_quadrature. rewrite segment3. cbn [bind fst snd].
  do 2 eexists. split; [reflexivity|]. intros q Hq.
  pose proof (quad_tensor_spec 2 (arr_of [-577350269189625764509148780501960000; 577350269189625764509148780501960000]%Z) (arr_of [10 ^ 36; 10 ^ 36]%Z) zero2 zero1 q ltac:(lia)) as Q. cbv zeta in Q.
  set (x := arr_of [-577350269189625764509148780501960000; _]%Z) in *. set (w := arr_of [10 ^ 36; _]%Z) in *. clearbody x w.
  replace ((0 <=? q) && (q <? 2 * 2))%Z%bool with true in Q by (symmetry; apply andb_true_intro; split; [apply Z.leb_le|apply Z.ltb_lt]; lia).
  assert (X : forall i, (0 <= i < 2)%Z -> x i = (if (i =? 0)%Z then - gauss2 else gauss2)).
  { intros i Hi. assert (C : (i = 0 \/ i = 1)%Z) by lia. destruct C as [-> | ->]; cbn [Z.eqb]; auto. }
  assert (Wt : forall i, (0 <= i < 2)%Z -> w i = 1).
  { intros i Hi. assert (C : (i = 0 \/ i = 1)%Z) by lia. destruct C as [-> | ->]; auto. }
  assert (R0 : (0 <= q mod 2 < 2)%Z) by (apply Z.mod_pos_bound; lia). assert (R1 : (0 <= q / 2 < 2)%Z) by (split; [apply Z.div_pos; lia|apply Z.div_lt_upper_bound; lia]).
  set (T := quad_tensor 2 x w zero2 zero1) in *. clearbody T. injection Q as Q0 Q1 Q2. rewrite Q0, Q1, Q2, !X, !Wt by assumption. split; [reflexivity|]. split; [reflexivity|]. ring.
Qed.

Lemma edge_rule0 : exists fp fw, face_quadrature EQuad 0 = Ok (1%Z, fp, fw) /\ fw 0%Z = 2.
Proof.
  unfold face_quadrature. change (get_number_of_quadrature_points (face_quadrature_order EQuad 0) (space_dim EQuad - 1) 0) with (1, 1)%Z.
  change (face_quadrature_order EQuad 0) with 1%Z. cbn [fst snd].
  replace (segment_quadrature 1 (vec 1 0%Z) (vec 1 0%Z)) with (@Ok (list Z * list Z) ([0]%Z, [2000000000000000000000000000000000000]%Z)) by reflexivity.
  cbn [bind fst snd]. do 2 eexists. split; [reflexivity|]. unfold arr_of. change (Z.to_nat 0) with O. cbn [nth]. unfold lit. lra.
Qed.

Lemma hex_rule0 : exists P W, volume_quadrature EHex 0 zero2 zero1 = Ok (8%Z, P, W) /\
  forall q, (0 <= q < 8)%Z -> (forall d, (0 <= d < 3)%Z -> P q d = (if (digit 2 d q =? 0)%Z then - gauss2 else gauss2)) /\ W q = 1.
Proof.
  destruct two_points as (x0 & x1 & w0 & w1).
  unfold volume_quadrature. change (get_number_of_quadrature_points (volume_quadrature_order EHex 0) (space_dim EHex) 0) with (2, 8)%Z.
  change (volume_quadrature_order EHex 0) with 3%Z. cbn [fst snd]. unfold hexahedron_quadrature. rewrite segment3. cbn [bind fst snd].
  do 2 eexists. split; [reflexivity|]. intros q Hq.
  pose proof (hex_tensor_spec 2 (arr_of [-577350269189625764509148780501960000; 577350269189625764509148780501960000]%Z) (arr_of [10 ^ 36; 10 ^ 36]%Z) zero2 zero1 q ltac:(lia)) as Q. cbv zeta in Q.
  set (x := arr_of [-577350269189625764509148780501960000; _]%Z) in *. set (w := arr_of [10 ^ 36; _]%Z) in *. clearbody x w.
  replace ((0 <=? q) && (q <? 2 * 2 * 2))%Z%bool with true in Q by (symmetry; apply andb_true_intro; split; [apply Z.leb_le|apply Z.ltb_lt]; lia).
  assert (X : forall i, (0 <= i < 2)%Z -> x i = (if (i =? 0)%Z then - gauss2 else gauss2)).
  { intros i Hi. assert (C : (i = 0 \/ i = 1)%Z) by lia. destruct C as [-> | ->]; cbn [Z.eqb]; auto. }
  assert (Wt : forall i, (0 <= i < 2)%Z -> w i = 1).
  { intros i Hi. assert (C : (i = 0 \/ i = 1)%Z) by lia. destruct C as [-> | ->]; auto. }
  assert (R0 : (0 <= q mod 2 < 2)%Z) by (apply Z.mod_pos_bound; lia). assert (R1 : (0 <= (q / 2) mod 2 < 2)%Z) by (apply Z.mod_pos_bound; lia).
  assert (R2 : (0 <= q / (2 * 2) < 2)%Z) by (change (2 * 2)%Z with 4%Z; split; [apply Z.div_pos; lia|apply Z.div_lt_upper_bound; lia]).
  set (T := hex_tensor 2 x w zero2 zero1) in *. clearbody T. injection Q as Q0 Q1 Q2 Q3. split.
  - intros d Hd. assert (C : (d = 0 \/ d = 1 \/ d = 2)%Z) by lia. destruct C as [-> | [-> | ->]].
    + rewrite Q0, X by exact R0. unfold digit. change (2 ^ 0)%Z with 1%Z. now rewrite Z.div_1_r.
    + rewrite Q1, X by exact R1. unfold digit. now change (2 ^ 1)%Z with 2%Z.
    + rewrite Q2, X by exact R2. unfold digit. change (2 ^ 2)%Z with (2 * 2)%Z. now rewrite (Z.mod_small (q / (2 * 2)) 2) by exact R2.
  - rewrite Q3, !Wt by assumption. ring.
Qed.

Lemma square_rule0 : exists fp fw, face_quadrature EHex 0 = Ok (4%Z, fp, fw) /\ forall q, (0 <= q < 4)%Z -> fw q = 1.
Proof.
  destruct quad_rule0 as (P & W & E & H). exists P, W. split; [|intros q Hq; apply (H q Hq)].
  unfold face_quadrature. unfold volume_quadrature in E.
  change (get_number_of_quadrature_points (volume_quadrature_order EQuad 0) (space_dim EQuad) 0) with (2, 4)%Z in E. change (volume_quadrature_order EQuad 0) with 3%Z in E.
  change (get_number_of_quadrature_points (face_quadrature_order EHex 0) (space_dim EHex - 1) 0) with (2, 4)%Z. change (face_quadrature_order EHex 0) with 3%Z. exact E.
Qed.

(** * Specification: what a run delivers *)

(** [c]: state after the run, [c0]: projection of the initial state.  Every element
    is in a physical state, mass, momentum and energy are those of the projection,
    and no element has more of them than the mesh has. *)
Definition sound_result (dim : Z) (gamma : R) (m : gmesh R) (vol : Z -> R) (c0 c : arr3) : Prop :=
  all_admissible dim gamma m c /\
  (forall k, (0 <= k < dim + 2)%Z -> in_total m vol c k = in_total m vol c0 k) /\
  forall e, (0 <= e < gm_num_elems m)%Z ->
    vol e * density (c e 0%Z) <= in_total m vol c0 0 /\ vol e * energy dim (c e 0%Z) <= in_total m vol c0 (dim + 1) /\
    forall i, (0 <= i < dim)%Z -> momentum (c e 0%Z) i * momentum (c e 0%Z) i <= 2 * density (c e 0%Z) * energy dim (c e 0%Z).

(** The initial state is physical at all points inside elements. *)
Definition physical_start (s : eshape) (gamma : R) (m : gmesh R) (u : (Z -> R) -> Z -> R) : Prop :=
  forall e y, (0 <= e < gm_num_elems m)%Z -> inside s y -> admissible (space_dim s) gamma (u (place s 1 (elem_nodes m e) y)).

(** * Runs *)
Lemma cfl_ext speed m vol ar ar' dt : (forall f, (0 <= f < gm_nIF m)%Z -> ar f = ar' f) -> cfl_by speed m vol ar dt -> cfl_by speed m vol ar' dt.
Proof.
  intros HA C e He. specialize (C e He). unfold around in *. erewrite rsum_ext; [exact C|].
  intros f Hf. cbv beta. now rewrite <- HA by exact Hf.
Qed.

Section Run.
Context (s : eshape) (m : gmesh R) (bt : basis_type) (S : scheme) (nq2 : Z) (P2 : arr2) (W2 : arr1) (P : arr2) (fp : arr2) (vol ar : Z -> R) (u : (Z -> R) -> Z -> R) (dt : R) (n : nat).
Context (RD : ready s bt 0 1 m).
Context (E1 : sc_shape S = s) (E2 : sc_nb S = nfun bt 0) (E3 : sc_val S = (fun q i => basis_fn bt 0 i (P q))) (E4 : sc_fval S = (fun k q i => basis_fn bt 0 i (face_at s k (fp q)))).
Context (E5 : sc_grad S = (fun q i d => Derive (fun t => basis_fn bt 0 i (with_coord (P q) d t)) (P q d))).
Context (FW : forall q, (0 <= q < sc_nqf S)%Z -> 0 <= sc_fwts S q).
Context (lam : arr3 -> Z -> R).
Context (GL : forall c f q, (0 <= f < gm_nIF m)%Z -> (0 <= q < sc_nqf S)%Z -> all_admissible (space_dim s) (sc_gamma S) m c ->
  cone (space_dim s) (sc_gamma S) (fun k => - flux0 S m c f q k + vlen (space_dim s) (sc_normal S f q) * lam c f * c (side_elem m f false) 0%Z k)).
Context (GR : forall c f q, (0 <= f < gm_nIF m)%Z -> (0 <= q < sc_nqf S)%Z -> all_admissible (space_dim s) (sc_gamma S) m c ->
  cone (space_dim s) (sc_gamma S) (fun k => flux0 S m c f q k + vlen (space_dim s) (sc_normal S f q) * lam c f * c (side_elem m f true) 0%Z k)).
Context (RG : forall f sd, (0 <= f < gm_nIF m)%Z -> (0 <= side_elem m f sd < gm_num_elems m)%Z).
Context (Gm : 1 < sc_gamma S) (Hdt : 0 <= dt).
Context (EQ2 : volume_quadrature s 0 zero2 zero1 = Ok (nq2, P2, W2)).
Context (EV : forall e, (0 <= e < gm_num_elems m)%Z -> rsum nq2 (fun q => W2 q * jac_det s 1 (elem_nodes m e) (P2 q)) = vol e).
Context (EA : forall f, (0 <= f < gm_nIF m)%Z -> area S f = ar f).
Context (AD : physical_start s (sc_gamma S) m u).
Let M (e i j : Z) : R := rsum nq2 (fun q => W2 q * jac_det s 1 (elem_nodes m e) (P2 q) * basis_fn bt 0 i (P2 q) * basis_fn bt 0 j (P2 q)).

Lemma mass0 e : (0 <= e < gm_num_elems m)%Z -> M e 0 0 = vol e.
Proof. intros He. unfold M. rewrite <- EV by exact He. apply rsum_ext. intros q Hq. rewrite !basis0. ring. Qed.

Lemma vol_pos e : (0 <= e < gm_num_elems m)%Z -> 0 < vol e.
Proof.
  intros He. destruct RD as [Hg Fit Un BF Op Sup].
  destruct (volume_rule s 0 ltac:(split; lia)) as (x & w & G & A). destruct (A zero2 zero1) as (P' & W' & EQ' & TR).
  change ((0 + 2) ^ space_dim s)%Z with (2 ^ space_dim s)%Z in *. set (np := (2 ^ space_dim s)%Z) in *. rewrite EQ2 in EQ'. injection EQ' as En -> ->.
  rewrite <- EV by exact He. rewrite En. apply rsum_pos; [unfold np; destruct s; reflexivity|]. intros q Hq.
  destruct (rule_inside s 2 x w P' W' _ _ G ltac:(lia) TR q Hq) as (I1 & I2). apply Rmult_lt_0_compat; [exact I2|now apply Un].
Qed.

Lemma inverse0 iM e : (0 <= e < gm_num_elems m)%Z -> inverse_of (nfun bt 0) (M e) (iM e) <-> iM e 0%Z 0%Z * vol e = 1.
Proof.
  intros He. rewrite nfun0. split.
  - intros H. destruct (H 0%Z 0%Z ltac:(lia) ltac:(lia)) as (_ & K). rewrite rsum_1, mass0 in K by exact He. exact K.
  - intros H i j Hi Hj. replace i with 0%Z by lia. replace j with 0%Z by lia. rewrite !rsum_1, mass0 by exact He. cbn [Z.eqb]. split; lra.
Qed.

(** The projection of a physical state is physical. *)
Lemma start0 : exists nq' P' W', volume_quadrature s 2 zero2 zero1 = Ok (nq', P', W') /\
  (forall e, (0 <= e < gm_num_elems m)%Z -> admissible (space_dim s) (sc_gamma S) (fun k => rsum nq' (fun q => W' q * jac_det s 1 (elem_nodes m e) (P' q) * u (place s 1 (elem_nodes m e) (P' q)) k))).
Proof.
  destruct RD as [Hg Fit Un BF Op Sup].
  destruct (volume_rule s 2 ltac:(split; lia)) as (x & w & G & A). destruct (A zero2 zero1) as (P' & W' & EQ' & TR).
  exists ((2 + 2) ^ space_dim s)%Z, P', W'. split; [exact EQ'|]. intros e He. set (np := ((2 + 2) ^ space_dim s)%Z) in *.
  assert (Np : (0 < np)%Z) by (unfold np; destruct s; reflexivity). assert (D : (space_dim s = 2 \/ space_dim s = 3)%Z) by (destruct s; cbn; lia).
  assert (C : forall q, (0 <= q < np)%Z -> admissible (space_dim s) (sc_gamma S) (vscale (W' q * jac_det s 1 (elem_nodes m e) (P' q)) (u (place s 1 (elem_nodes m e) (P' q))))).
  { intros q Hq. destruct (rule_inside s 4 x w P' W' _ _ G ltac:(lia) TR q Hq) as (I1 & I2).
    apply admissible_scale; [exact Gm| |now apply AD]. apply Rmult_lt_0_compat; [exact I2|now apply Un]. }
  set (F := fun q => vscale (W' q * jac_det s 1 (elem_nodes m e) (P' q)) (u (place s 1 (elem_nodes m e) (P' q)))) in *.
  change (admissible (space_dim s) (sc_gamma S) (fun k => rsum np (fun q => F q k))).
  replace np with (1 + (np - 1))%Z by lia. set (r := (np - 1)%Z) in *. assert (Hr : (0 <= r)%Z) by lia.
  apply (admissible_ext _ _ (vadd (F r) (fun k => rsum r (fun q => F q k)))); [exact D| |].
  - intros k Hk. unfold vadd. rewrite Z.add_comm, rsum_S by exact Hr. ring.
  - apply admissible_cone; [exact D|exact Gm|apply C; lia|]. apply cone_sum; [exact D|exact Gm|]. intros q Hq. right. apply C. lia.
Qed.

Lemma projects0 c0 : projects s m bt 0 M u c0 -> all_admissible (space_dim s) (sc_gamma S) m c0.
Proof.
  intros (nq & Pq & Wq & EQ & H). change (2 * Z.max 0 1)%Z with 2%Z in EQ. destruct start0 as (nq' & P' & W' & EQ' & A). rewrite EQ in EQ'. injection EQ' as <- <- <-.
  intros e He. pose proof (vol_pos e He) as V. rewrite nfun0 in H.
  apply (admissible_ext _ _ (vscale (/ vol e) (fun k => rsum nq (fun q => Wq q * jac_det s 1 (elem_nodes m e) (Pq q) * u (place s 1 (elem_nodes m e) (Pq q)) k)))); [clear; unfold dim23; destruct s; cbn; lia| |].
  - intros k Hk. specialize (H e 0%Z k He ltac:(lia) Hk). rewrite rsum_1, mass0 in H by exact He. unfold vscale.
    rewrite (rsum_ext nq _ (fun q => Wq q * jac_det s 1 (elem_nodes m e) (Pq q) * basis_fn bt 0 0 (Pq q) * u (place s 1 (elem_nodes m e) (Pq q)) k)) by (intros; rewrite basis0; ring).
    rewrite <- H. field. lra.
  - apply admissible_scale; [exact Gm|now apply Rinv_0_lt_compat|now apply A].
Qed.

Lemma projection_total c0 c1 k : projects s m bt 0 M u c0 -> projects s m bt 0 M u c1 -> (0 <= k < space_dim s + 2)%Z -> in_total m vol c0 k = in_total m vol c1 k.
Proof.
  intros (nq & Pq & Wq & EQ & H) (nq' & P' & W' & EQ' & H') Hk. rewrite EQ in EQ'. injection EQ' as <- <- <-. rewrite nfun0 in H, H'.
  apply rsum_ext. intros e He. specialize (H e 0%Z k He ltac:(lia) Hk). specialize (H' e 0%Z k He ltac:(lia) Hk). rewrite rsum_1, mass0 in H, H' by exact He. congruence.
Qed.

Lemma projection_exists : exists c0, projects s m bt 0 M u c0.
Proof.
  destruct start0 as (nq' & P' & W' & EQ' & _).
  exists (fun e _ k => rsum nq' (fun q => W' q * jac_det s 1 (elem_nodes m e) (P' q) * basis_fn bt 0 0 (P' q) * u (place s 1 (elem_nodes m e) (P' q)) k) / vol e), nq', P', W'.
  split; [exact EQ'|]. intros e i k He Hi Hk. rewrite nfun0 in *. replace i with 0%Z by lia. rewrite rsum_1, mass0 by exact He. pose proof (vol_pos e He). field. lra.
Qed.

Theorem positive_run : let steps := repeat (ForwardEuler, dt) n in
  (forall k c, (k < n)%nat -> dg_solution s m bt 0 S M u (repeat (ForwardEuler, dt) k) c -> cfl_by (lam c) m vol ar dt) ->
  dg_physical s m bt 0 S M u steps /\
  exists c0, dg_solution s m bt 0 S M u [] c0 /\ forall c, dg_solution s m bt 0 S M u steps c -> sound_result (space_dim s) (sc_gamma S) m vol c0 c.
Proof.
  intros steps CF.
  assert (MA : forall iM c0, (forall e, (0 <= e < gm_num_elems m)%Z -> inverse_of (nfun bt 0) (M e) (iM e)) -> projects s m bt 0 M u c0 ->
    stays_physical S m iM steps c0 /\ all_admissible (space_dim s) (sc_gamma S) m (dg_march S m iM steps c0) /\
    forall k, in_total m vol (dg_march S m iM steps c0) k = in_total m vol c0 k).
  { intros iM c0 HI PJ. rewrite <- E1. apply (positive_march S m iM vol lam).
    - now rewrite E2, nfun0.
    - intros q. rewrite E3. apply basis0.
    - intros k q. rewrite E4. apply basis0.
    - intros q d. rewrite E5. apply grad0.
    - exact FW.
    - exact RG.
    - exact vol_pos.
    - intros e He. apply inverse0; [exact He|now apply HI].
    - exact Gm.
    - rewrite E1. exact GL.
    - rewrite E1. exact GR.
    - exact Hdt.
    - rewrite E1. now apply projects0.
    - intros k Hk. apply (cfl_ext _ m vol ar (area S)); [intros; symmetry; now apply EA|]. apply (CF k); [exact Hk|].
      exists iM, c0. split; [exact HI|]. split; [exact PJ|]. reflexivity. }
  destruct projection_exists as (c0 & PJ). pose (iM := fun e (_ _ : Z) => / vol e).
  assert (HI : forall e, (0 <= e < gm_num_elems m)%Z -> inverse_of (nfun bt 0) (M e) (iM e)).
  { intros e He. apply inverse0; [exact He|]. unfold iM. pose proof (vol_pos e He). field. lra. }
  split; [exists iM, c0; split; [exact HI|]; split; [exact PJ|now apply MA]|].
  exists c0. split; [exists iM, c0; split; [exact HI|]; split; [exact PJ|reflexivity]|].
  intros c (iM' & c1 & HI' & PJ' & Hc). rewrite nfun0 in Hc. destruct (MA iM' c1 HI' PJ') as (_ & A & T).
  assert (D : (space_dim s = 2 \/ space_dim s = 3)%Z) by (destruct s; cbn; lia).
  assert (AC : all_admissible (space_dim s) (sc_gamma S) m c).
  { intros e He. apply (admissible_ext _ _ (dg_march S m iM' steps c1 e 0%Z)); [exact D| |now apply A]. intros k Hk. symmetry. apply Hc; auto; lia. }
  assert (TC : forall k, (0 <= k < space_dim s + 2)%Z -> in_total m vol c k = in_total m vol c0 k).
  { intros k Hk. rewrite <- (projection_total c1 c0 k PJ' PJ Hk), <- T. apply rsum_ext. intros e He. f_equal. apply Hc; auto; lia. }
  split; [exact AC|]. split; [exact TC|]. intros e He. pose proof (vol_pos e He) as V.
  assert (AC' : all_admissible (space_dim (sc_shape S)) (sc_gamma S) m c) by now rewrite E1.
  destruct (bounded0 S m vol vol_pos Gm c e He AC') as (B1 & B2 & B3). rewrite E1 in B2, B3.
  assert (Q : forall a b, a <= b / vol e -> vol e * a <= b).
  { intros a b L. apply (Rmult_le_compat_l (vol e)) in L; [|lra]. replace (vol e * (b / vol e)) with b in L by (field; lra). exact L. }
  rewrite <- !TC by (destruct D; lia). split; [now apply Q|]. split; [now apply Q|exact B3].
Qed.
End Run.

(** * The two shapes *)
Lemma shoelace m e nq P W : volume_quadrature EQuad 0 zero2 zero1 = Ok (nq, P, W) ->
  rsum nq (fun q => W q * jac_det EQuad 1 (elem_nodes m e) (P q)) = quad_area m e.
Proof.
  destruct quad_rule0 as (P' & W' & E & H). intros E'. rewrite E in E'. injection E' as <- <- <-. rewrite rsum_4.
  destruct (H 0%Z ltac:(lia)) as (a0 & b0 & ->). destruct (H 1%Z ltac:(lia)) as (a1 & b1 & ->).
  destruct (H 2%Z ltac:(lia)) as (a2 & b2 & ->). destruct (H 3%Z ltac:(lia)) as (a3 & b3 & ->).
  cbn in a0, a1, a2, a3, b0, b1, b2, b3. unfold jac_det, small_det. cbn [space_dim Z.eqb Pos.eqb]. unfold det2, minor2.
  set (X := elem_nodes m e). assert (J0 : forall y j, _) by (intros y j; exact (proj1 (jacobian_bilinear X y j))). assert (J1 : forall y j, _) by (intros y j; exact (proj2 (jacobian_bilinear X y j))).
  rewrite !J0, !J1, a0, a1, a2, a3, b0, b1, b2, b3. unfold quad_area, cross2. fold X. field.
Qed.

Lemma eight m e nq P W : volume_quadrature EHex 0 zero2 zero1 = Ok (nq, P, W) ->
  rsum nq (fun q => W q * jac_det EHex 1 (elem_nodes m e) (P q)) = gauss_volume m e.
Proof.
  destruct hex_rule0 as (P' & W' & E & H). intros E'. rewrite E in E'. injection E' as <- <- <-.
  assert (K : forall q a b c, (0 <= q < 8)%Z -> digit 2 0 q = (if a : bool then 1 else 0)%Z -> digit 2 1 q = (if b : bool then 1 else 0)%Z -> digit 2 2 q = (if c : bool then 1 else 0)%Z ->
    W' q * jac_det EHex 1 (elem_nodes m e) (P' q) = jac_det EHex 1 (elem_nodes m e) (corner a b c)).
  { intros q a b c Hq A B C. destruct (H q Hq) as (HP & ->). rewrite Rmult_1_l. apply jac_det_point. intros d Hd. cbn [space_dim] in Hd. rewrite HP by exact Hd.
    assert (K : (d = 0 \/ d = 1 \/ d = 2)%Z) by lia. unfold corner. destruct K as [-> | [-> | ->]]; cbn [Z.eqb Pos.eqb]; [rewrite A|rewrite B|rewrite C]; destruct a, b, c; reflexivity. }
  change 8%Z with (4 + 4)%Z. rewrite (rsum_S 7), (rsum_S 6), (rsum_S 5), (rsum_S 4), rsum_4 by lia. cbn [Z.add].
  unfold gauss_volume. cbv zeta.
  rewrite (K 0%Z false false false), (K 1%Z true false false), (K 2%Z false true false), (K 3%Z true true false), (K 4%Z false false true), (K 5%Z true false true), (K 6%Z false true true), (K 7%Z true true true) by (try reflexivity; lia).
  ring.
Qed.

Lemma edge_area m f : 2 * vlen 2 (edge_normal m f) = edge_length m f.
Proof.
  unfold edge_length, vlen, vdot, edge_normal. rewrite rsum_2. cbn [Z.eqb]. set (X := elem_nodes m (side_elem m f false)). set (k := side_face m f false).
  set (a := X (ccw (k + 1)) 0%Z - X (ccw k) 0%Z). set (b := X (ccw (k + 1)) 1%Z - X (ccw k) 1%Z).
  replace (a ^ 2 + b ^ 2) with (2 * 2 * (b / 2 * (b / 2) + - a / 2 * (- a / 2))) by field. rewrite sqrt_mult by (try lra; assert (0 <= b / 2 * (b / 2)) by apply Rle_0_sqr; assert (0 <= - a / 2 * (- a / 2)) by apply Rle_0_sqr; lra).
  rewrite sqrt_square by lra. reflexivity.
Qed.

Lemma flat_area m f : flat_hexes m -> (exists k o, has_side m f false (side_elem m f false) k o /\ side_face m f false = k) -> 4 * vlen 3 (flat_normal m f) = parallelogram_area m f.
Proof.
  intros FH (k & o & HS & EK). destruct FH as (_ & _ & PF). destruct (PF _ _ _ _ _ HS) as (P & A & B & PG & _).
  unfold parallelogram_area, flat_normal. rewrite EK. set (T := face_surface m (side_elem m f false) k) in *.
  assert (E : forall d, vprod (fun d => T 1 (-1) d - T (-1) (-1) d) (fun d => T (-1) 1 d - T (-1) (-1) d) d = 4 * vprod (fun d => T 1 0 d - T 0 0 d) (fun d => T 0 1 d - T 0 0 d) d).
  { intros d. rewrite (vprod_ext _ _ (fun d => 2 * A d) (fun d => 2 * B d)) by (intros d' Hd'; rewrite !PG by exact Hd'; split; ring).
    rewrite (vprod_ext (fun d => T 1 0 d - T 0 0 d) _ A B) by (intros d' Hd'; rewrite !PG by exact Hd'; split; ring). unfold vprod. destruct (d =? 0)%Z; [ring|]. destruct (d =? 1)%Z; ring. }
  unfold vlen. unfold vdot at 2. rewrite (rsum_ext 3 _ (fun d => 16 * (vprod (fun d => T 1 0 d - T 0 0 d) (fun d => T 0 1 d - T 0 0 d) d * vprod (fun d => T 1 0 d - T 0 0 d) (fun d => T 0 1 d - T 0 0 d) d))) by (intros; rewrite !E; ring).
  rewrite rsum_scal. fold (vdot 3 (vprod (fun d => T 1 0 d - T 0 0 d) (fun d => T 0 1 d - T 0 0 d)) (vprod (fun d => T 1 0 d - T 0 0 d) (fun d => T 0 1 d - T 0 0 d))).
  replace 16 with (4 * 4) by ring. rewrite sqrt_mult by (try lra; apply vdot_nonneg). rewrite sqrt_square by lra. reflexivity.
Qed.

(** ** C96, quadrilaterals.  Order zero, Lax-Friedrichs fluxes, forward Euler: while
    the time step respects the CFL condition, the run stays physical, conserves, and
    is bounded by the totals of the initial state. *)
Theorem C96_positive_quads : forall m bt gamma u dt n,
  mesh_wf m -> good_quads m -> basis_for EQuad bt -> 1 < gamma -> 0 <= dt -> physical_start EQuad gamma m u ->
  (forall k c, (k < n)%nat -> quad_solution m bt 0 gamma LaxFriedrichs u (repeat (ForwardEuler, dt) k) c -> cfl 2 gamma m (quad_area m) (edge_length m) dt c) ->
  quad_physical m bt 0 gamma LaxFriedrichs u (repeat (ForwardEuler, dt) n) /\
  exists c0, quad_solution m bt 0 gamma LaxFriedrichs u [] c0 /\
  forall c, quad_solution m bt 0 gamma LaxFriedrichs u (repeat (ForwardEuler, dt) n) c -> sound_result 2 gamma m (quad_area m) c0 c.
Proof.
  intros m bt gamma u dt n MW [FV FD SQ CF Hne Hall] BF Gm Hdt AD CFL.
  assert (RD : ready EQuad bt 0 1 m) by (constructor; auto; [lia|apply SQ|now apply convex_untangled|unfold order_ok; lia|right; lia]).
  destruct (volume_rule EQuad 0 ltac:(split; lia)) as (x & xw & _ & A). destruct (A zero2 zero1) as (P & W & EQ & _). set (nq := ((0 + 2) ^ space_dim EQuad)%Z) in *.
  destruct edge_rule0 as (fp & fw & EF & F2).
  assert (SOL : forall steps c, dg_solution EQuad m bt 0 (quad_scheme bt 0 m gamma LaxFriedrichs nq P W (0 + 1) fp fw) (PropDG.mass_matrix bt 0 m nq P W) u steps c <->
    quad_solution m bt 0 gamma LaxFriedrichs u steps c).
  { intros steps c. split.
    - intros H. exists nq, P, W, fp, fw, nq, P, W. split; [exact EQ|]. split; [exact EF|]. split; [exact EQ|exact H].
    - intros (nq' & P' & W' & fp' & fw' & nq2 & P2 & W2 & EQ' & EF' & EQ2 & H). rewrite EQ in EQ'. injection EQ' as <- <- <-.
      change (2 * 0)%Z with 0%Z in EQ2. rewrite EQ in EQ2. injection EQ2 as <- <- <-. change (0 + 1)%Z with 1%Z in *. rewrite EF in EF'. injection EF' as <- <-. exact H. }
  assert (RG : forall f sd, (0 <= f < gm_nIF m)%Z -> (0 <= side_elem m f sd < gm_num_elems m)%Z).
  { intros f sd Hf. pose proof (sides_of _ _ m _ (one_rank m MW) f sd Hf) as HS. exact (proj2 (proj2 (side_nonneg _ _ m _ (one_rank m MW) _ _ _ _ _ HS))). }
  destruct (positive_run EQuad m bt (quad_scheme bt 0 m gamma LaxFriedrichs nq P W (0 + 1) fp fw) nq P W P fp (quad_area m) (edge_length m) u dt n RD
    eq_refl eq_refl eq_refl eq_refl eq_refl) with (lam := fun c => face_speed 2 gamma m c) as (R1 & c0 & R2 & R3).
  - intros q Hq. cbn [sc_nqf sc_fwts quad_scheme] in *. replace q with 0%Z by lia. rewrite F2. lra.
  - intros c f q Hf _ AA. apply gain_cone; [now left|exact Gm|exact (edge_normal_nonzero _ _ m _ (one_rank m MW) FV SQ f Hf)|apply AA; now apply RG|apply AA; now apply RG|reflexivity].
  - intros c f q Hf _ AA. apply gain_cone_R; [now left|exact Gm|exact (edge_normal_nonzero _ _ m _ (one_rank m MW) FV SQ f Hf)|apply AA; now apply RG|apply AA; now apply RG|reflexivity].
  - exact RG.
  - exact Gm.
  - exact Hdt.
  - exact EQ.
  - intros e He. now apply shoelace.
  - intros f Hf. unfold area. cbn [sc_nqf sc_fwts sc_normal sc_shape quad_scheme space_dim]. change (0 + 1)%Z with 1%Z. rewrite rsum_1, F2. apply edge_area.
  - exact AD.
  - intros k c Hk H. apply (CFL k c Hk). now apply SOL.
  - split.
    + exists nq, P, W, fp, fw, nq, P, W. split; [exact EQ|]. split; [exact EF|]. split; [exact EQ|exact R1].
    + exists c0. split; [now apply SOL|]. intros c Hc. apply R3. now apply SOL.
Qed.
Print Assumptions C96_positive_quads.

(** ** C96, hexahedra. *)
Theorem C96_positive_hexahedra : forall m bt gamma u dt n,
  mesh_wf m -> good_hexes m -> basis_for EHex bt -> 1 < gamma -> 0 <= dt -> physical_start EHex gamma m u ->
  (forall k c, (k < n)%nat -> hex_solution m bt 0 gamma LaxFriedrichs u (repeat (ForwardEuler, dt) k) c -> cfl 3 gamma m (gauss_volume m) (parallelogram_area m) dt c) ->
  hex_physical m bt 0 gamma LaxFriedrichs u (repeat (ForwardEuler, dt) n) /\
  exists c0, hex_solution m bt 0 gamma LaxFriedrichs u [] c0 /\
  forall c, hex_solution m bt 0 gamma LaxFriedrichs u (repeat (ForwardEuler, dt) n) c -> sound_result 3 gamma m (gauss_volume m) c0 c.
Proof.
  intros m bt gamma u dt n MW [FV FD FH CF Hne Hall] BF Gm Hdt AD CFL.
  assert (RD : ready EHex bt 0 1 m) by (constructor; auto; [lia|apply FH|apply FH|unfold order_ok; lia|right; lia]).
  destruct (volume_rule EHex 0 ltac:(split; lia)) as (x & xw & _ & A). destruct (A zero2 zero1) as (P & W & EQ & _). set (nq := ((0 + 2) ^ space_dim EHex)%Z) in *.
  destruct square_rule0 as (fp & fw & EF & F1).
  assert (SOL : forall steps c, dg_solution EHex m bt 0 (hex_scheme bt 0 m gamma LaxFriedrichs nq P W ((0 + 2) * (0 + 2)) fp fw) (mass_matrix3 bt 0 m nq P W) u steps c <->
    hex_solution m bt 0 gamma LaxFriedrichs u steps c).
  { intros steps c. split.
    - intros H. exists nq, P, W, fp, fw, nq, P, W. split; [exact EQ|]. split; [exact EF|]. split; [exact EQ|exact H].
    - intros (nq' & P' & W' & fp' & fw' & nq2 & P2 & W2 & EQ' & EF' & EQ2 & H). rewrite EQ in EQ'. injection EQ' as <- <- <-.
      change (2 * 0)%Z with 0%Z in EQ2. rewrite EQ in EQ2. injection EQ2 as <- <- <-. change ((0 + 2) * (0 + 2))%Z with 4%Z in *. rewrite EF in EF'. injection EF' as <- <-. exact H. }
  assert (RG : forall f sd, (0 <= f < gm_nIF m)%Z -> (0 <= side_elem m f sd < gm_num_elems m)%Z).
  { intros f sd Hf. pose proof (sides_of _ _ m _ (one_rank m MW) f sd Hf) as HS. exact (proj2 (proj2 (side_nonneg _ _ m _ (one_rank m MW) _ _ _ _ _ HS))). }
  destruct (positive_run EHex m bt (hex_scheme bt 0 m gamma LaxFriedrichs nq P W ((0 + 2) * (0 + 2)) fp fw) nq P W P fp (gauss_volume m) (parallelogram_area m) u dt n RD
    eq_refl eq_refl eq_refl eq_refl eq_refl) with (lam := fun c => face_speed 3 gamma m c) as (R1 & c0 & R2 & R3).
  - intros q Hq. cbn [sc_nqf sc_fwts hex_scheme] in *. rewrite F1 by lia. lra.
  - intros c f q Hf _ AA. pose proof (sides_of _ _ m _ (one_rank m MW) f false Hf) as HS. apply gain_cone; [now right|exact Gm|exact (flat_nonzero m FH f _ _ _ HS)|apply AA; now apply RG|apply AA; now apply RG|reflexivity].
  - intros c f q Hf _ AA. pose proof (sides_of _ _ m _ (one_rank m MW) f false Hf) as HS. apply gain_cone_R; [now right|exact Gm|exact (flat_nonzero m FH f _ _ _ HS)|apply AA; now apply RG|apply AA; now apply RG|reflexivity].
  - exact RG.
  - exact Gm.
  - exact Hdt.
  - exact EQ.
  - intros e He. now apply eight.
  - intros f Hf. unfold area. cbn [sc_nqf sc_fwts sc_normal sc_shape hex_scheme space_dim]. change ((0 + 2) * (0 + 2))%Z with 4%Z. rewrite rsum_4, !F1 by lia.
    pose proof (sides_of _ _ m _ (one_rank m MW) f false Hf) as HS. rewrite <- (flat_area m f FH); [ring|]. eexists _, _. split; [exact HS|reflexivity].
  - exact AD.
  - intros k c Hk H. apply (CFL k c Hk). now apply SOL.
  - split.
    + exists nq, P, W, fp, fw, nq, P, W. split; [exact EQ|]. split; [exact EF|]. split; [exact EQ|exact R1].
    + exists c0. split; [now apply SOL|]. intros c Hc. apply R3. now apply SOL.
Qed.
Print Assumptions C96_positive_hexahedra.

(** ** The program: under the same conditions, for input files asking for order
    zero, Lax-Friedrichs and forward Euler, it runs to the end on any number of ranks,
    and the file it writes holds such a state. *)
Theorem C96_program_quads : forall inputs meshes argv metis n inp m cfg N u ep,
  (1 <= n)%Z -> reads inputs meshes argv inp m -> asks_for inp cfg -> enough_data inp cfg -> cf_dim cfg = 2%Z -> cf_physics cfg = Euler -> quadrature_known inp ->
  parts_asked inp n -> metis_valid metis m n -> intended metis n m ep -> enough_faces m ep n -> num_iterations (cf_end cfg) (cf_dt cfg) = Ok N ->
  let bt := cf_basis cfg in let gamma := ph_gamma (cf_phys cfg) in let dt := B2R (cf_dt cfg) in
  cf_order cfg = 0%Z -> cf_flux cfg = LaxFriedrichs -> cf_stepper cfg = ForwardEuler ->
  good_quads m -> basis_for EQuad bt -> 1 < gamma -> 0 <= dt ->
  starts_as 2 (cf_ic cfg) (cf_phys cfg) 0 u -> small m 1 4 -> physical_start EQuad gamma m u ->
  (forall k c, (k < Z.to_nat N)%nat -> quad_solution m bt 0 gamma LaxFriedrichs u (repeat (ForwardEuler, dt) k) c -> cfl 2 gamma m (quad_area m) (edge_length m) dt c) ->
  exists g, program inputs meshes argv metis n g /\
  exists c0, quad_solution m bt 0 gamma LaxFriedrichs u [] c0 /\
  forall g, program inputs meshes argv metis n g ->
  exists c, g = Ok (solution_file m 1 4 (INR (Z.to_nat N) * dt) c) /\ sound_result 2 gamma m (quad_area m) c0 c.
Proof.
  intros inputs meshes argv metis n inp m cfg N u ep Hn RE AF ED D2 EU QK PA MV IN EF EN bt gamma dt O0 FL FE GQ BF Gm Hdt SA SM AD CFL.
  destruct (C96_positive_quads m bt gamma u dt (Z.to_nat N) (reads_wf _ _ _ _ _ RE) GQ BF Gm Hdt AD CFL) as (QP & c0 & S0 & SR).
  assert (SP : supported bt 0) by (right; lia). assert (OP : order_ok 0) by (unfold order_ok; lia).
  pose proof (C86_completes inputs meshes argv metis n inp m cfg N u ep Hn RE AF ED EU QK PA IN EF EN) as C. cbv zeta in C. rewrite O0, FL, FE, D2 in C.
  destruct C as (g0 & P0); [left; split; [reflexivity|]; split; [exact GQ|]; split; [exact BF|exact QP]|exact SP|exact OP|exact Gm|exact SA|rewrite nfun0; exact SM|].
  exists g0. split; [exact P0|]. exists c0. split; [exact S0|]. intros g PG.
  pose proof (C84_solution_quads inputs meshes argv metis n inp m cfg N u g Hn RE AF ED D2 EU PA MV EN) as K. cbv zeta in K. rewrite O0, FL, FE in K.
  destruct (K GQ BF SP OP Gm SA ltac:(rewrite nfun0; exact SM) PG) as (c & Hc & ->). rewrite nfun0. exists c. split; [reflexivity|now apply SR].
Qed.
Print Assumptions C96_program_quads.

Theorem C96_program_hexahedra : forall inputs meshes argv metis n inp m cfg N u ep,
  (1 <= n)%Z -> reads inputs meshes argv inp m -> asks_for inp cfg -> enough_data inp cfg -> cf_dim cfg = 3%Z -> cf_physics cfg = Euler -> quadrature_known inp ->
  parts_asked inp n -> metis_valid metis m n -> intended metis n m ep -> enough_faces m ep n -> num_iterations (cf_end cfg) (cf_dt cfg) = Ok N ->
  let bt := cf_basis cfg in let gamma := ph_gamma (cf_phys cfg) in let dt := B2R (cf_dt cfg) in
  cf_order cfg = 0%Z -> cf_flux cfg = LaxFriedrichs -> cf_stepper cfg = ForwardEuler ->
  good_hexes m -> basis_for EHex bt -> 1 < gamma -> 0 <= dt ->
  starts_as 3 (cf_ic cfg) (cf_phys cfg) 0 u -> small m 1 5 -> physical_start EHex gamma m u ->
  (forall k c, (k < Z.to_nat N)%nat -> hex_solution m bt 0 gamma LaxFriedrichs u (repeat (ForwardEuler, dt) k) c -> cfl 3 gamma m (gauss_volume m) (parallelogram_area m) dt c) ->
  exists g, program inputs meshes argv metis n g /\
  exists c0, hex_solution m bt 0 gamma LaxFriedrichs u [] c0 /\
  forall g, program inputs meshes argv metis n g ->
  exists c, g = Ok (solution_file m 1 5 (INR (Z.to_nat N) * dt) c) /\ sound_result 3 gamma m (gauss_volume m) c0 c.
Proof.
  intros inputs meshes argv metis n inp m cfg N u ep Hn RE AF ED D2 EU QK PA MV IN EF EN bt gamma dt O0 FL FE GQ BF Gm Hdt SA SM AD CFL.
  destruct (C96_positive_hexahedra m bt gamma u dt (Z.to_nat N) (reads_wf _ _ _ _ _ RE) GQ BF Gm Hdt AD CFL) as (QP & c0 & S0 & SR).
  assert (SP : supported bt 0) by (right; lia). assert (OP : order_ok 0) by (unfold order_ok; lia).
  pose proof (C86_completes inputs meshes argv metis n inp m cfg N u ep Hn RE AF ED EU QK PA IN EF EN) as C. cbv zeta in C. rewrite O0, FL, FE, D2 in C.
  destruct C as (g0 & P0); [right; split; [reflexivity|]; split; [exact GQ|]; split; [exact BF|exact QP]|exact SP|exact OP|exact Gm|exact SA|rewrite nfun0; exact SM|].
  exists g0. split; [exact P0|]. exists c0. split; [exact S0|]. intros g PG.
  pose proof (C84_solution_hexahedra inputs meshes argv metis n inp m cfg N u g Hn RE AF ED D2 EU PA MV EN) as K. cbv zeta in K. rewrite O0, FL, FE in K.
  destruct (K GQ BF SP OP Gm SA ltac:(rewrite nfun0; exact SM) PG) as (c & Hc & ->). rewrite nfun0. exists c. split; [reflexivity|now apply SR].
Qed.
Print Assumptions C96_program_hexahedra.
