(** PropHexFree.v -- C92: uniform flow in three dimensions.  In an element whose
    six faces are parallelograms the residual of a uniform state is the flux
    through the faces that have no neighbour, and nothing else, up to the error of
    the tabulated rules. *)
From Coq Require Import ZArith List Lia Reals Lra Bool Permutation.
From Coquelicot Require Import Coquelicot.
From Verif Require Import Base RBase LinAlgModel LinAlgProof PropLinAlg QuadModel QuadProof PropQuad BasisModel BasisProof PropBasis PropSolver PropNormals.
From Verif Require Import ShapeModel ShapeProof PropShape MeshModel MeshSpec MeshProof PropMesh PhysModel PhysSpec PhysProof PropPhys SolverModel SolverSpec SolverProof SolverMesh.
From Verif Require Import StepModel StepProof PropStep PropConserve PropResidual PropIntegral.
From Verif Require CommProof.
From Verif Require Import SetupModel SetupSpec MassProof SetupProof SetupPass SetupFaces PropSetup PropVortex PropMeshRun PropInit PropPost DGSpec DGProof PropDG PolySize PropHex PropFree.
Import ListNotations.
Local Open Scope R_scope.
Open Scope res_scope.

(** ** Vocabulary *)

(** Face [k] of element [e] as a vector: the vector product of its half edges;
    points out of the element (C19). *)
Definition face_vector (m : gmesh R) (e k : Z) : arr1 :=
  let T := face_surface m e k in vprod (fun d => T 1 0 d - T 0 0 d) (fun d => T 0 1 d - T 0 0 d).

(** The six faces of element [e] are parallelograms. *)
Definition flat_element (m : gmesh R) (e : Z) : Prop := forall k, (0 <= k < 6)%Z -> exists P A B, parallelogram m e k P A B.

(** Integral, by the rule, of test function [i] over face [k] of the reference
    cube. *)
Definition face_integral3 (bt : basis_type) (p nqf : Z) (fp : arr2) (fw : arr1) (i k : Z) : R :=
  rsum nqf (fun q => fw q * basis_fn bt p i (face_at EHex k (fp q))).

Definition free_stream_eps3 (p : Z) : R := 100 * 64 ^ Z.to_nat p / 10 ^ 30.

(** The ranks hold the state [u], at every point of every element. *)
Definition everywhere3 (bt : basis_type) (p : Z) (pm : Z -> pmesh R) (n : Z) (u : arr1) (U : Z -> arr3) : Prop :=
  forall r le k y, (0 <= r < n)%Z -> (0 <= le < pm_num_elems_part (pm r))%Z -> (0 <= k < 5)%Z ->
    rsum (nfun bt p) (fun j => basis_fn bt p j y * U r le j k) = u k.

(** ** Size of the basis functions *)

Definition size4 (p i : Z) : bool :=
  (zprod (p + 1) (fun j => if i =? j then 1 else p) <=? 4 ^ p * zprod (p + 1) (fun j => if i =? j then 1 else Z.max 1 (Z.abs (i - j))))%Z.
Lemma all_size4 : forallb (fun p => forallb (size4 p) (zseq (p + 1))) (zseq 12) = true.
Proof. vm_compute. reflexivity. Qed.

Lemma fn1_size bt p i : (0 <= p <= 11)%Z -> supported bt p -> (0 <= i <= p)%Z -> sized (p + 2) (IZR (4 ^ p)) (fn1 bt p i).
Proof.
  intros Hp Sup Hi. unfold fn1. destruct (is_lagrange bt) eqn:EL.
  - set (G j := IZR p / IZR (Z.max 1 (Z.abs (i - j)))).
    apply (sized_le _ (rprod (p + 1) (fun j => if (i =? j)%Z then 1 else G j))).
    + destruct (zprod_ratio (p + 1) i (fun _ => p) (fun j => Z.max 1 (Z.abs (i - j))) ltac:(intros; lia)) as (P & E).
      pose proof all_size4 as A. rewrite forallb_forall in A. specialize (A p (proj2 (In_zseq 12 p) ltac:(lia))). rewrite forallb_forall in A.
      specialize (A i (proj2 (In_zseq (p + 1) i) ltac:(lia))). unfold size4 in A. apply Z.leb_le in A.
      apply IZR_lt in P. apply IZR_le in A. rewrite mult_IZR, <- E in A. fold (G) in A. unfold G.
      set (D := IZR (zprod (p + 1) (fun j => if (i =? j)%Z then 1 else Z.max 1 (Z.abs (i - j))))%Z) in *. nra.
    + replace (p + 2)%Z with (p + 1 + 1)%Z by lia. apply lagrange_sized; [lia|]. intros j Hj N. unfold even_node.
      assert (P0 : (p <> 0)%Z) by lia. destruct (Z.eqb_spec p 0); [lia|].
      assert (Pp : 0 < IZR p) by (apply IZR_lt; lia).
      assert (ED : -1 + 2 * IZR i / IZR p - (-1 + 2 * IZR j / IZR p) = 2 * IZR (i - j) / IZR p) by (rewrite minus_IZR; field; lra).
      assert (ND : IZR (i - j) <> 0) by (apply IZR_neq; lia).
      assert (DN : 2 * IZR (i - j) / IZR p <> 0) by (unfold Rdiv; apply Rmult_integral_contrapositive_currified; [lra|apply Rinv_neq_0_compat; lra]).
      split; [lra|]. rewrite ED. unfold G. rewrite Z.max_r by lia.
      assert (EA : Rabs (2 * IZR (i - j) / IZR p) = 2 * IZR (Z.abs (i - j)) / IZR p).
      { unfold Rdiv. rewrite !Rabs_mult, Rabs_inv, (Rabs_pos_eq 2), (Rabs_pos_eq (IZR p)) by lra. rewrite abs_IZR. reflexivity. }
      assert (PA : 0 < IZR (Z.abs (i - j))) by (apply IZR_lt; lia).
      rewrite EA. apply (Rle_trans _ (2 / (2 * IZR (Z.abs (i - j)) / IZR p))); [|right; field; lra].
      unfold Rdiv. apply Rmult_le_compat_r; [left; apply Rinv_0_lt_compat; apply Rmult_lt_0_compat; [lra|now apply Rinv_0_lt_compat]|].
      assert (Rabs (-1 + 2 * IZR j * / IZR p) <= 1); [|lra]. apply Rabs_le.
      assert (0 <= IZR j * / IZR p <= 1). { assert (0 <= IZR j <= IZR p) by (split; apply IZR_le; lia). split; [apply Rmult_le_pos; [lra|left; now apply Rinv_0_lt_compat]|].
        apply (Rmult_le_reg_r (IZR p)); [lra|]. rewrite Rmult_assoc, Rinv_l by lra. lra. } lra.
  - destruct Sup as [C|L7]; [congruence|]. unfold legendre_poly.
    assert (K : forall k, sized (Z.of_nat k + 1) (3 ^ k) (fun t => fst (legendre_pair k t)) /\ sized (Z.of_nat k + 2) (3 ^ (Datatypes.S k)) (fun t => snd (legendre_pair k t))).
    { induction k as [|k (IH1 & IH2)].
      - cbn. split; [rewrite <- Rabs_R1 at 1; apply sized_const; lia|]. apply (sized_le _ 1); [lra|]. apply (sized_ext _ _ (fun t => t ^ Z.to_nat 1)); [intros; apply pow_1|]. apply sized_mono. lia.
      - assert (Q : forall t, legendre_pair (Datatypes.S k) t = (snd (legendre_pair k t), ((2 * INR k + 3) * t * snd (legendre_pair k t) - (INR k + 1) * fst (legendre_pair k t)) / (INR k + 2))).
        { intros t. cbn [legendre_pair]. destruct (legendre_pair k t). reflexivity. }
        split.
        + apply (sized_ext _ _ (fun t => snd (legendre_pair k t))); [intros; now rewrite Q|]. replace (Z.of_nat (Datatypes.S k) + 1)%Z with (Z.of_nat k + 2)%Z by lia. exact IH2.
        + pose proof (pos_INR k) as Pk.
          apply (sized_ext _ _ (fun t => (2 * INR k + 3) / (INR k + 2) * (t * snd (legendre_pair k t)) + - ((INR k + 1) / (INR k + 2)) * fst (legendre_pair k t))); [intros t; rewrite Q; cbn [snd]; field; lra|].
          apply (sized_le _ (Rabs ((2 * INR k + 3) / (INR k + 2)) * 3 ^ (Datatypes.S k) + Rabs (- ((INR k + 1) / (INR k + 2))) * 3 ^ k)).
          * rewrite Rabs_Ropp, !Rabs_pos_eq; try (apply Rdiv_le_0_compat; lra). cbn [pow].
            assert (0 < 3 ^ k) by (apply pow_lt; lra). set (T := 3 ^ k) in *.
            apply (Rmult_le_reg_r (INR k + 2)); [lra|].
            replace (((2 * INR k + 3) / (INR k + 2) * (3 * T) + (INR k + 1) / (INR k + 2) * T) * (INR k + 2)) with ((7 * INR k + 10) * T) by (field; lra). nra.
          * replace (Z.of_nat (Datatypes.S k) + 2)%Z with (Z.of_nat k + 2 + 1)%Z by lia. apply sized_plus; apply sized_scal.
            -- apply sized_mulx; [lia|exact IH2].
            -- apply (sized_weaken (Z.of_nat k + 1)); [lia|lia|exact IH1]. }
    destruct (K (Z.to_nat i)) as (K1 & _). apply (sized_weaken (Z.of_nat (Z.to_nat i) + 1)); [lia|lia|].
    apply (sized_le _ (3 ^ Z.to_nat i)); [|exact K1].
    replace (4 ^ p)%Z with (4 ^ Z.of_nat (Z.to_nat p))%Z by (f_equal; lia). rewrite <- pow_IZR.
    apply (Rle_trans _ (4 ^ Z.to_nat i)); [apply pow_incr; lra|]. apply Rle_pow; [lra|lia].
Qed.

(** ** Three factors *)

Lemma triple_error e B q1 q2 q3 i1 i2 i3 : 0 <= e <= / 10 ^ 6 -> 0 <= B ->
  Rabs (q1 - i1) <= e * (12 * B) -> Rabs (q2 - i2) <= e * B -> Rabs (q3 - i3) <= e * B ->
  Rabs i1 <= 2 * B -> Rabs i2 <= 2 * B -> Rabs i3 <= 2 * B ->
  Rabs (q1 * (q2 * q3) - i1 * (i2 * i3)) <= 60 * e * (B * B * B).
Proof.
  intros He HB H1 H2 H3 M1 M2 M3.
  pose proof (prod_error _ _ _ _ _ _ _ _ H2 H3 M2 M3) as P.
  assert (MM : Rabs (i2 * i3) <= 2 * B * (2 * B)) by (rewrite Rabs_mult; apply Rmult_le_compat; auto using Rabs_pos).
  pose proof (prod_error _ _ _ _ _ _ _ _ H1 P M1 MM) as Q. eapply Rle_trans; [exact Q|].
  replace (e * (12 * B) * (2 * B * (2 * B) + (e * B * (2 * B + e * B) + 2 * B * (e * B))) + 2 * B * (e * B * (2 * B + e * B) + 2 * B * (e * B)))
    with (e * (B * B * B) * (56 + 50 * e + 12 * (e * e))) by ring.
  replace (60 * e * (B * B * B)) with (e * (B * B * B) * 60) by ring.
  apply Rmult_le_compat_l; [repeat apply Rmult_le_pos; lra|]. nra.
Qed.

Lemma pair_error e B v q2 q3 i2 i3 : 0 <= e <= / 10 ^ 6 -> 0 <= B -> Rabs v <= B ->
  Rabs (q2 - i2) <= e * B -> Rabs (q3 - i3) <= e * B -> Rabs i2 <= 2 * B -> Rabs i3 <= 2 * B ->
  Rabs (v * (q2 * q3) - v * (i2 * i3)) <= 5 * e * (B * B * B).
Proof.
  intros He HB HV H2 H3 M2 M3. pose proof (prod_error _ _ _ _ _ _ _ _ H2 H3 M2 M3) as P.
  replace (v * (q2 * q3) - v * (i2 * i3)) with (v * (q2 * q3 - i2 * i3)) by ring. rewrite Rabs_mult.
  apply (Rle_trans _ (B * (e * B * (2 * B + e * B) + 2 * B * (e * B)))); [apply Rmult_le_compat; auto using Rabs_pos|].
  replace (B * (e * B * (2 * B + e * B) + 2 * B * (e * B))) with (e * (B * B * B) * (4 + e)) by ring.
  replace (5 * e * (B * B * B)) with (e * (B * B * B) * 5) by ring.
  apply Rmult_le_compat_l; [repeat apply Rmult_le_pos; lra|]. lra.
Qed.

(** ** Elements with flat faces are parallelepipeds *)

Lemma place_trilinear X y d : place EHex 1 X y d =
  ((1 - y 2%Z) * ((1 - y 1%Z) * ((1 - y 0%Z) * X 0%Z d + (1 + y 0%Z) * X 1%Z d) + (1 + y 1%Z) * ((1 - y 0%Z) * X 2%Z d + (1 + y 0%Z) * X 3%Z d)) +
   (1 + y 2%Z) * ((1 - y 1%Z) * ((1 - y 0%Z) * X 4%Z d + (1 + y 0%Z) * X 5%Z d) + (1 + y 1%Z) * ((1 - y 0%Z) * X 6%Z d + (1 + y 0%Z) * X 7%Z d))) / 8.
Proof.
  unfold place, geom_basis. rewrite map_hex by lia. change (1 + 1)%Z with 2%Z. rewrite !rsum_2. rewrite !LL1 by lia. cbn [Z.eqb Z.add Z.mul Pos.add Pos.mul]. field.
Qed.

(** Half the edge of element [e] along reference axis [d]. *)
Definition half_edge (m : gmesh R) (e d : Z) : arr1 := fun j =>
  (elem_nodes m e (if (d =? 0)%Z then 1 else if (d =? 1)%Z then 2 else 4)%Z j - elem_nodes m e 0%Z j) / 2.

Section Element.
Context (m : gmesh R) (e : Z) (FE : flat_element m e).
Let X := elem_nodes m e.
Let E := half_edge m e.

Lemma flat_place y j : (0 <= j < 3)%Z -> place EHex 1 X y j = X 0%Z j + (1 + y 0%Z) * E 0%Z j + (1 + y 1%Z) * E 1%Z j + (1 + y 2%Z) * E 2%Z j.
Proof.
  intros Hj.
  assert (C : forall k, (0 <= k < 6)%Z -> face_surface m e k 1 1 j + face_surface m e k (-1) (-1) j = face_surface m e k 1 (-1) j + face_surface m e k (-1) 1 j).
  { intros k Hk. destruct (FE k Hk) as (P & A & B & (PG & _)). rewrite !PG by exact Hj. ring. }
  pose proof (C 0%Z ltac:(lia)) as C0. pose proof (C 1%Z ltac:(lia)) as C1. pose proof (C 2%Z ltac:(lia)) as C2.
  pose proof (C 3%Z ltac:(lia)) as C3. pose proof (C 4%Z ltac:(lia)) as C4. pose proof (C 5%Z ltac:(lia)) as C5. clear C.
  unfold face_surface in C0, C1, C2, C3, C4, C5. rewrite place_trilinear. rewrite !place_trilinear in C0. rewrite !place_trilinear in C1. rewrite !place_trilinear in C2. rewrite !place_trilinear in C3. rewrite !place_trilinear in C4. rewrite !place_trilinear in C5. fold X in C0, C1, C2, C3, C4, C5. unfold hex_face, vec3 in C0, C1, C2, C3, C4, C5. cbn [Z.eqb Pos.eqb] in C0, C1, C2, C3, C4, C5.
  unfold E, half_edge. cbn [Z.eqb Pos.eqb]. fold X.
  generalize dependent (X 0%Z j). generalize dependent (X 1%Z j). generalize dependent (X 2%Z j). generalize dependent (X 3%Z j).
  generalize dependent (X 4%Z j). generalize dependent (X 5%Z j). generalize dependent (X 6%Z j). generalize dependent (X 7%Z j).
  intros x7 x6 x5 x4 x3 x2 x1 x0 C0 C1 C2 C3 C4 C5.
  assert (x3 = x1 + x2 - x0) as -> by lra. assert (x5 = x1 + x4 - x0) as -> by lra. assert (x6 = x2 + x4 - x0) as -> by lra. assert (x7 = x1 + x2 + x4 - 2 * x0) as -> by lra. field.
Qed.

Lemma flat_jacobian y j d : (0 <= j < 3)%Z -> (0 <= d < 3)%Z -> jacobian EHex 1 X y j d = E d j.
Proof.
  intros Hj Hd. unfold jacobian. apply is_derive_unique.
  assert (Cd : (d = 0 \/ d = 1 \/ d = 2)%Z) by lia.
  apply (is_derive_ext (fun t => X 0%Z j + (1 + with_coord y d t 0%Z) * E 0%Z j + (1 + with_coord y d t 1%Z) * E 1%Z j + (1 + with_coord y d t 2%Z) * E 2%Z j)); [intros t; now rewrite flat_place|].
  unfold with_coord. destruct Cd as [-> | [-> | ->]]; cbn [Z.eqb Pos.eqb]; generalize (X 0%Z j) (E 0%Z j) (E 1%Z j) (E 2%Z j); intros; auto_derive; auto; ring.
Qed.

(** The faces across reference axis [d] are plus and minus this vector. *)
Definition across (d : Z) : arr1 := vprod (E ((d + 1) mod 3)%Z) (E ((d + 2) mod 3)%Z).

Definition face_axis (k : Z) : Z := match k with 0 => 2 | 1 => 1 | 2 => 0 | 3 => 1 | 4 => 0 | _ => 2 end%Z.
Definition face_dir (k : Z) : R := match k with 0%Z | 1%Z | 4%Z => -1 | _ => 1 end.

Lemma flat_vector k j : (0 <= k < 6)%Z -> (0 <= j < 3)%Z -> face_vector m e k j = face_dir k * across (face_axis k) j.
Proof.
  intros Hk Hj. unfold face_vector, vprod, face_surface. fold X. rewrite !flat_place by lia.
  unfold across, vprod. assert (Cj : (j = 0 \/ j = 1 \/ j = 2)%Z) by lia.
  assert (Ck : (k = 0 \/ k = 1 \/ k = 2 \/ k = 3 \/ k = 4 \/ k = 5)%Z) by lia.
  destruct Ck as [-> | [-> | [-> | [-> | [-> | ->]]]]]; unfold hex_face, vec3, face_axis, face_dir; cbn [Z.eqb Pos.eqb];
  change ((0 + 1) mod 3)%Z with 1%Z; change ((1 + 1) mod 3)%Z with 2%Z; change ((2 + 1) mod 3)%Z with 0%Z;
  change ((0 + 2) mod 3)%Z with 2%Z; change ((1 + 2) mod 3)%Z with 0%Z; change ((2 + 2) mod 3)%Z with 1%Z;
  destruct Cj as [-> | [-> | ->]]; cbn [Z.eqb Pos.eqb]; ring.
Qed.
End Element.

(** ** The discrete divergence theorem on the reference cube *)

Section Rule.
Context (bt : basis_type) (p : Z) (Hbt : basis_for EHex bt) (Hp : (0 <= p <= 11)%Z) (Sup : supported bt p).

Lemma fn_digits3 i : (0 <= i < nfun bt p)%Z -> let a := digit (p + 1) 0 i in let b := digit (p + 1) 1 i in let c := digit (p + 1) 2 i in
  (0 <= a <= p)%Z /\ (0 <= b <= p)%Z /\ (0 <= c <= p)%Z /\ forall y, basis_fn bt p i y = fn1 bt p a (y 0%Z) * fn1 bt p b (y 1%Z) * fn1 bt p c (y 2%Z).
Proof.
  intros Hi a b c. assert (D : dim bt = 3%Z) by (destruct Hbt as [-> | ->]; reflexivity).
  assert (B : forall d, (0 <= digit (p + 1) d i <= p)%Z) by (intros d; unfold digit; pose proof (Z.mod_pos_bound (i / (p + 1) ^ d) (p + 1) ltac:(lia)); lia).
  split; [apply B|]. split; [apply B|]. split; [apply B|]. intros y. unfold basis_fn. rewrite D, rprod_3. reflexivity.
Qed.

(** One axis. *)
Lemma metric_terms3 i P W x w fp fw x1 w1 : (0 <= i < nfun bt p)%Z ->
  good_rule (p + 2) (2 * p + 3) (/ 10 ^ 30) x w -> tensor_rule 3 (p + 2) x w P W ->
  good_rule (p + 2) (2 * p + 3) (/ 10 ^ 30) x1 w1 -> tensor_rule 2 (p + 2) x1 w1 fp fw ->
  let V := fun d => rsum ((p + 2) ^ 3) (fun q => W q * Derive (fun t => basis_fn bt p i (with_coord (P q) d t)) (P q d)) in
  let FI := face_integral3 bt p ((p + 2) * (p + 2)) fp fw i in
  Rabs (V 0%Z - (FI 2%Z - FI 4%Z)) <= free_stream_eps3 p /\ Rabs (V 1%Z - (FI 3%Z - FI 1%Z)) <= free_stream_eps3 p /\ Rabs (V 2%Z - (FI 5%Z - FI 0%Z)) <= free_stream_eps3 p.
Proof.
  intros Hi GR TR GF TF V FI. set (np := (p + 2)%Z) in *.
  destruct (fn_digits3 i Hi) as (Ha & Hb & Hc & FN). set (a0 := digit (p + 1) 0 i) in *. set (b0 := digit (p + 1) 1 i) in *. set (c0 := digit (p + 1) 2 i) in *.
  set (f := fn1 bt p a0) in *. set (g := fn1 bt p b0) in *. set (h := fn1 bt p c0) in *.
  set (B := IZR (4 ^ p)).
  assert (EB : B * B * B = 64 ^ Z.to_nat p).
  { unfold B. replace (4 ^ p)%Z with (4 ^ Z.of_nat (Z.to_nat p))%Z by (f_equal; lia). rewrite <- pow_IZR, <- !Rpow_mult_distr. f_equal. lra. }
  pose proof (fn1_size bt p a0 Hp Sup Ha) as Sf. pose proof (fn1_size bt p b0 Hp Sup Hb) as Sg. pose proof (fn1_size bt p c0 Hp Sup Hc) as Sh. fold f B in Sf. fold g B in Sg. fold h B in Sh.
  fold np in Sf, Sg, Sh.
  set (Q k := rsum np (fun i => w i * k (x i))). set (K k := rsum np (fun i => w1 i * k (x1 i))).
  assert (B0 : 0 <= B) by exact (sized_nonneg _ _ _ Sf).
  assert (EP : 0 <= / 10 ^ 30 <= / 10 ^ 6) by lra.
  assert (QE : forall k I, sized np B k -> is_RInt k (-1) 1 I -> Rabs (Q k - I) <= / 10 ^ 30 * B).
  { intros k I0 Sk HI. apply (rule_error np (2 * p + 3) (/ 10 ^ 30) x w np); [exact GR|lra|exact Sk|unfold np; lia|exact HI]. }
  assert (KE : forall k I, sized np B k -> is_RInt k (-1) 1 I -> Rabs (K k - I) <= / 10 ^ 30 * B).
  { intros k I0 Sk HI. apply (rule_error np (2 * p + 3) (/ 10 ^ 30) x1 w1 np); [exact GF|lra|exact Sk|unfold np; lia|exact HI]. }
  (* one axis, for a factor [k] along it and factors [k2], [k3] along the others *)
  assert (AX : forall k k2 k3 kp k2' k3', sized np B k -> sized np B k2 -> sized np B k3 -> (forall t, is_derive k t (kp t)) -> sized (np - 1) (IZR (np - 1) * B) kp ->
     (k2' = k2 \/ k2' = fun t => k2 (- t)) -> (k3' = k3 \/ k3' = fun t => k3 (- t)) ->
     forall k2'' k3'', (k2'' = k2 \/ k2'' = fun t => k2 (- t)) -> (k3'' = k3 \/ k3'' = fun t => k3 (- t)) ->
     Rabs (Q kp * (Q k2 * Q k3) - (k 1 * (K k2' * K k3') - k (-1) * (K k2'' * K k3''))) <= free_stream_eps3 p).
  { intros k k2 k3 kp k2' k3' S1 S2 S3 D1 S1' C2 C3 k2'' k3'' C2' C3'.
    destruct (sized_integral np _ k2 ltac:(unfold np; lia) S2) as (I2 & HI2 & M2). destruct (sized_integral np _ k3 ltac:(unfold np; lia) S3) as (I3 & HI3 & M3).
    assert (FL : forall (k4 k5 : R -> R) I, sized np B k4 -> is_RInt k4 (-1) 1 I -> (k5 = k4 \/ k5 = fun t => k4 (- t)) -> Rabs (K k5 - I) <= / 10 ^ 30 * B).
    { intros k4 k5 I4 S4 H4 [-> | ->]; apply KE; auto; [now apply sized_opp|now apply RInt_opp]. }
    assert (CP : forall t, continuous kp t) by (intros t; eapply sized_continuous; exact S1').
    assert (HI1 : is_RInt kp (-1) 1 (k 1 - k (-1))).
    { apply (is_RInt_derive (V := R_CompleteNormedModule) k kp); intros; auto. }
    assert (S1'' : sized np (12 * B) kp).
    { apply (sized_weaken (np - 1)); [unfold np; lia|lia|]. apply (sized_le _ (IZR (np - 1) * B)); [|exact S1'].
      apply Rmult_le_compat_r; [exact B0|]. apply IZR_le. unfold np. lia. }
    pose proof (rule_error np (2 * p + 3) (/ 10 ^ 30) x w np (12 * B) kp _ GR ltac:(lra) S1'' ltac:(unfold np; lia) HI1) as E1.
    change (rsum np (fun i => w i * kp (x i))) with (Q kp) in E1.
    assert (V1 : Rabs (k 1) <= B /\ Rabs (k (-1)) <= B) by (split; eapply sized_value; eauto; lra). destruct V1 as (V1 & V2).
    assert (M1 : Rabs (k 1 - k (-1)) <= 2 * B).
    { unfold Rminus. eapply Rle_trans; [apply Rabs_triang|]. rewrite Rabs_Ropp. lra. }
    pose proof (triple_error _ _ _ _ _ _ _ _ EP B0 E1 (QE k2 I2 S2 HI2) (QE k3 I3 S3 HI3) M1 M2 M3) as T.
    pose proof (pair_error _ _ _ _ _ _ _ EP B0 V1 (FL k2 k2' I2 S2 HI2 C2) (FL k3 k3' I3 S3 HI3 C3) M2 M3) as T1.
    pose proof (pair_error _ _ _ _ _ _ _ EP B0 V2 (FL k2 k2'' I2 S2 HI2 C2') (FL k3 k3'' I3 S3 HI3 C3') M2 M3) as T2.
    set (q1 := Q kp * (Q k2 * Q k3)) in *. set (q2 := k 1 * (K k2' * K k3')) in *. set (q3 := k (-1) * (K k2'' * K k3'')) in *.
    replace (q1 - (q2 - q3)) with ((q1 - (k 1 - k (-1)) * (I2 * I3)) - ((q2 - k 1 * (I2 * I3)) - (q3 - k (-1) * (I2 * I3)))) by ring.
    unfold free_stream_eps3. rewrite <- EB. apply Rabs_le_between in T, T1, T2.
    assert (0 <= / 10 ^ 30 * (B * B * B)) by (repeat apply Rmult_le_pos; lra).
    apply Rabs_le. unfold Rdiv. set (e30 := / 10 ^ 30) in *. clearbody e30. split; lra. }
  (* the volume sums and the face sums as products *)
  assert (VP : forall k1 k2 k3, rsum (np ^ 3) (fun q => W q * (k1 (P q 0%Z) * k2 (P q 1%Z) * k3 (P q 2%Z))) = Q k1 * (Q k2 * Q k3)).
  { intros k1 k2 k3. replace (np ^ 3)%Z with (np * np * np)%Z by ring.
    set (G3 := fun s t u => w s * k1 (x s) * (w t * k2 (x t) * (w u * k3 (x u)))).
    rewrite (rsum_ext _ _ (fun q => G3 (q mod np)%Z ((q / np) mod np)%Z (q / np / np)%Z)).
    - rewrite (rsum_flat np (np * np) (fun s r => G3 s (r mod np)%Z (r / np)%Z)) by (unfold np; lia).
      unfold G3. rewrite (rsum_ext _ _ (fun r => Q k1 * ((fun t u => w t * k2 (x t) * (w u * k3 (x u))) (r mod np)%Z (r / np)%Z))).
      + rewrite rsum_scal. f_equal. rewrite (rsum_flat np np (fun t u => w t * k2 (x t) * (w u * k3 (x u)))) by (unfold np; lia).
        unfold Q. rewrite <- rsum_scal. apply rsum_ext. intros u _. now rewrite rsum_scal_r.
      + intros r _. cbv beta. now rewrite rsum_scal_r.
    - intros q Hq. destruct (TR q ltac:(replace (np ^ 3)%Z with (np * np * np)%Z by ring; exact Hq)) as (T1 & T2).
      rewrite rprod_3 in T2. rewrite (T1 0%Z), (T1 1%Z), (T1 2%Z), T2 by lia. rewrite !digit0, !digit1, !digit2_top by (unfold np in *; lia).
      rewrite Z.div_div by (unfold np; lia). unfold G3. ring. }
  assert (FP : forall k2 k3, rsum (np * np) (fun q => fw q * (k2 (fp q 0%Z) * k3 (fp q 1%Z))) = K k2 * K k3).
  { intros k2 k3. rewrite (rsum_ext _ _ (fun q => (fun t u => w1 t * k2 (x1 t) * (w1 u * k3 (x1 u))) (q mod np)%Z (q / np)%Z)).
    - rewrite (rsum_flat np np (fun t u => w1 t * k2 (x1 t) * (w1 u * k3 (x1 u)))) by (unfold np; lia). unfold K. rewrite <- rsum_scal. apply rsum_ext. intros u _. now rewrite rsum_scal_r.
    - intros q Hq. destruct (TF q ltac:(rewrite Z.pow_2_r; exact Hq)) as (T1 & T2). rewrite rprod_2 in T2. rewrite (T1 0%Z), (T1 1%Z), T2 by lia.
      rewrite !digit0, !digit1_top by (unfold np in *; lia). ring. }
  assert (FF : forall k v k2 k3, (forall s t, basis_fn bt p i (hex_face k s t) = v * (k2 s * k3 t)) -> FI k = v * (K k2 * K k3)).
  { intros k v k2 k3 H. unfold FI, face_integral3. rewrite <- FP, <- rsum_scal. apply rsum_ext. intros q _. cbn [face_at]. rewrite H. ring. }
  destruct (sized_derive np _ f ltac:(unfold np; lia) Sf) as (f' & Df & Sf'). destruct (sized_derive np _ g ltac:(unfold np; lia) Sg) as (g' & Dg & Sg').
  destruct (sized_derive np _ h ltac:(unfold np; lia) Sh) as (h' & Dh & Sh').
  assert (V0 : V 0%Z = Q f' * (Q g * Q h)).
  { unfold V. rewrite <- VP. apply rsum_ext. intros q _. f_equal. apply is_derive_unique.
    apply (is_derive_ext (fun t => g (P q 1%Z) * h (P q 2%Z) * f t)); [intros t; rewrite FN; unfold with_coord; cbn [Z.eqb Pos.eqb]; match goal with |- @eq _ ?u ?v => change (@eq R u v) end; ring|].
    replace (f' (P q 0%Z) * g (P q 1%Z) * h (P q 2%Z)) with (g (P q 1%Z) * h (P q 2%Z) * f' (P q 0%Z)) by ring. apply is_derive_scal_R. apply Df. }
  assert (V1 : V 1%Z = Q f * (Q g' * Q h)).
  { unfold V. rewrite <- VP. apply rsum_ext. intros q _. f_equal. apply is_derive_unique.
    apply (is_derive_ext (fun t => f (P q 0%Z) * h (P q 2%Z) * g t)); [intros t; rewrite FN; unfold with_coord; cbn [Z.eqb Pos.eqb]; match goal with |- @eq _ ?u ?v => change (@eq R u v) end; ring|].
    replace (f (P q 0%Z) * g' (P q 1%Z) * h (P q 2%Z)) with (f (P q 0%Z) * h (P q 2%Z) * g' (P q 1%Z)) by ring. apply is_derive_scal_R. apply Dg. }
  assert (V2 : V 2%Z = Q f * (Q g * Q h')).
  { unfold V. rewrite <- VP. apply rsum_ext. intros q _. f_equal. apply is_derive_unique.
    apply (is_derive_ext (fun t => f (P q 0%Z) * g (P q 1%Z) * h t)); [intros t; rewrite FN; unfold with_coord; cbn [Z.eqb Pos.eqb]; match goal with |- @eq _ ?u ?v => change (@eq R u v) end; ring|].
    apply is_derive_scal_R. apply Dh. }
  split; [|split].
  - rewrite (FF 2%Z (f 1) g h), (FF 4%Z (f (-1)) (fun t => g (- t)) h) by (intros s t; rewrite FN; unfold hex_face, vec3; cbn [Z.eqb Pos.eqb]; ring).
    rewrite V0. apply AX; auto.
  - rewrite (FF 3%Z (g 1) (fun t => f (- t)) h), (FF 1%Z (g (-1)) f h) by (intros s t; rewrite FN; unfold hex_face, vec3; cbn [Z.eqb Pos.eqb]; ring).
    rewrite V1. replace (Q f * (Q g' * Q h)) with (Q g' * (Q f * Q h)) by ring. apply AX; auto.
  - rewrite (FF 5%Z (h 1) f g), (FF 0%Z (h (-1)) g f) by (intros s t; rewrite FN; unfold hex_face, vec3; cbn [Z.eqb Pos.eqb]; ring).
    rewrite V2. replace (Q f * (Q g * Q h')) with (Q h' * (Q f * Q g)) by ring. replace (K g * K f) with (K f * K g) by ring. apply AX; auto.
Qed.
End Rule.

(** ** The sides of an element *)

Section Sides.
Context (iter : Z -> list Z -> list Z) (n : Z) (m : gmesh R) (ep : list Z) (WF : run_wf iter n m ep).
Context (FV : faces_valid EHex m) (FD : faces_distinct m).

Lemma side_face_range3 f sd : (0 <= f < gm_nIF m)%Z -> (0 <= side_face m f sd < 6)%Z.
Proof.
  intros Hf. pose proof (sides_of iter n m ep WF f sd Hf) as HS. pose proof (FV _ _ _ _ _ HS) as (H & _). cbn in H.
  destruct (side_nonneg iter n m ep WF _ _ _ _ _ HS) as (H' & _). lia.
Qed.

Lemma sum_sides3 e (g : Z -> R) :
  rsum (gm_nIF m) (fun f => (if (side_elem m f false =? e)%Z then g (side_face m f false) else 0) + (if (side_elem m f true =? e)%Z then g (side_face m f true) else 0)) =
  rsum 6 (fun k => if exposed m e k then 0 else g k).
Proof.
  assert (ONE : forall f sd, (0 <= f < gm_nIF m)%Z -> (if (side_elem m f sd =? e)%Z then g (side_face m f sd) else 0) = rsum 6 (fun k => if on_side m e k f sd then g k else 0)).
  { intros f sd Hf. unfold on_side. destruct (side_elem m f sd =? e)%Z; cbn [andb].
    - rewrite <- (rsum_delta 6 (side_face m f sd) g (side_face_range3 f sd Hf)). apply rsum_ext. intros k _. now rewrite Z.eqb_sym.
    - symmetry. now apply rsum_zero. }
  rewrite (rsum_ext _ _ (fun f => rsum 6 (fun k => (if on_side m e k f false then g k else 0) + (if on_side m e k f true then g k else 0)))).
  2: { intros f Hf. now rewrite !ONE, rsum_plus by assumption. }
  rewrite rsum_swap. apply rsum_ext. intros k Hk. unfold exposed.
  pose proof (on_side_unique iter n m ep WF FD e k) as UNI.
  destruct (existsb (fun f => on_side m e k f false || on_side m e k f true) (zseq (gm_nIF m))) eqn:EX; cbn [negb].
  - apply existsb_exists in EX. destruct EX as (f0 & Hf0 & ON). apply In_zseq in Hf0.
    rewrite (rsum_ext _ _ (fun f => if (f =? f0)%Z then g k else 0)); [exact (rsum_delta (gm_nIF m) f0 (fun _ => g k) Hf0)|].
    intros f Hf. destruct (on_side m e k f0 false) eqn:O1.
    + assert (O2 : on_side m e k f true = false).
      { destruct (on_side m e k f true) eqn:O2; [|reflexivity]. destruct (UNI f0 false f true Hf0 Hf O1 O2). discriminate. }
      rewrite O2. destruct (Z.eqb_spec f f0) as [->|Hne]; [rewrite O1; ring|].
      destruct (on_side m e k f false) eqn:O3; [|ring]. destruct (UNI f0 false f false Hf0 Hf O1 O3). congruence.
    + cbn [orb] in ON.
      assert (O2 : on_side m e k f false = false).
      { destruct (on_side m e k f false) eqn:O2; [|reflexivity]. destruct (UNI f0 true f false Hf0 Hf ON O2). discriminate. }
      rewrite O2. destruct (Z.eqb_spec f f0) as [->|Hne]; [rewrite ON; ring|].
      destruct (on_side m e k f true) eqn:O3; [|ring]. destruct (UNI f0 true f true Hf0 Hf ON O3). congruence.
  - apply rsum_zero. intros f Hf.
    assert (O : (on_side m e k f false || on_side m e k f true)%bool = false).
    { destruct (on_side m e k f false || on_side m e k f true)%bool eqn:O; [|reflexivity]. rewrite <- EX. symmetry. apply existsb_exists. exists f. split; [now apply In_zseq|exact O]. }
    apply orb_false_iff in O. destruct O as (-> & ->). ring.
Qed.

Context (FH : flat_hexes m) (CF : conforming_hexes m).

(** The normal of a face is its vector as a face of the left element and minus
    its vector as a face of the right element. *)
Lemma flat_normal_side f sd d : (0 <= f < gm_nIF m)%Z -> (0 <= d < 3)%Z ->
  flat_normal m f d = - side_sign sd * face_vector m (side_elem m f sd) (side_face m f sd) d.
Proof.
  intros Hf Hd. pose proof (sides_of iter n m ep WF f false Hf) as HL. pose proof (sides_of iter n m ep WF f true Hf) as HR.
  destruct sd; cbn [side_sign].
  - destruct (CF _ _ _ _ _ _ _ HL HR) as (a & v & Ha & Cv). destruct FH as (_ & _ & PF). destruct (PF _ _ _ _ _ HR) as (P & A & B & PG).
    set (eL := side_elem m f false) in *. set (kL := side_face m f false) in *. set (eR := side_elem m f true) in *. set (kR := side_face m f true) in *.
    assert (EV : face_vector m eR kR d = vprod A B d) by (unfold face_vector; apply vprod_ext; intros d' Hd'; apply (para_edges _ _ _ _ _ _ PG d' Hd')).
    rewrite EV. unfold flat_normal. fold eL kL. destruct PG as (PG & _).
    assert (T : forall s t d, (0 <= d < 3)%Z -> face_surface m eL kL s t d = (let '(s', t') := hex_turn a s t in P d + s' * A d + t' * B d) - v d).
    { intros s t d' Hd'. specialize (Cv s t d' Hd'). destruct (hex_turn a s t) as [s' t']. rewrite PG in Cv by exact Hd'. lra. }
    unfold vprod. rewrite !T by lia.
    destruct (hex_turn_table 1 0) as (_ & _ & _ & _ & S4 & S5 & S6 & S7). destruct (hex_turn_table 0 0) as (_ & _ & _ & _ & O4 & O5 & O6 & O7).
    destruct (hex_turn_table 0 1) as (_ & _ & _ & _ & T4 & T5 & T6 & T7).
    assert (Ca : (a = 4 \/ a = 5 \/ a = 6 \/ a = 7)%Z) by lia. assert (Cd : (d = 0 \/ d = 1 \/ d = 2)%Z) by lia.
    destruct Ca as [-> | [-> | [-> | ->]]]; rewrite ?S4, ?S5, ?S6, ?S7, ?O4, ?O5, ?O6, ?O7, ?T4, ?T5, ?T6, ?T7;
      destruct Cd as [-> | [-> | ->]]; cbn [Z.eqb Pos.eqb]; ring.
  - unfold flat_normal, face_vector. ring.
Qed.

Lemma flat_normal_nonzero f : (0 <= f < gm_nIF m)%Z -> vdot 3 (flat_normal m f) (flat_normal m f) <> 0.
Proof. intros Hf. pose proof (sides_of iter n m ep WF f false Hf) as HL. exact (flat_nonzero m FH f _ _ _ HL). Qed.

(** ** The residual of a uniform state *)
Context (bt : basis_type) (p : Z) (BF : basis_for EHex bt) (Op : order_ok p) (Sup : supported bt p).
Context (gamma : R) (Gm : 1 < gamma) (ft : flux_type).
Context (nq : Z) (P : arr2) (W : arr1) (fp : arr2) (fw : arr1).
Context (EQ : volume_quadrature EHex p zero2 zero1 = Ok (nq, P, W)) (EF : face_quadrature EHex p = Ok (((p + 2) * (p + 2))%Z, fp, fw)).
Let S := hex_scheme bt p m gamma ft nq P W ((p + 2) * (p + 2)) fp fw.
Context (u : arr1) (AD : admissible 3 gamma u) (c : arr3).
Context (UF : forall e k y, (0 <= e < gm_num_elems m)%Z -> (0 <= k < 5)%Z -> rsum (nfun bt p) (fun j => basis_fn bt p j y * c e j k) = u k).

Lemma numflux_uniform3 N k : vdot 3 N N <> 0 -> (0 <= k < 5)%Z -> numflux ft 3 gamma u u N k = euler_flux 3 gamma u N k.
Proof.
  intros HN Hk. destruct ft; cbn [numflux].
  - field.
  - rewrite toro_equal by (assumption || lia). pose proof (vlen_pos 3 N HN).
    rewrite <- euler_flux_scal by lia. apply PhysProof.euler_flux_ext; [lia|]. intros i _. field. lra.
Qed.

Let FI := face_integral3 bt p ((p + 2) * (p + 2)) fp fw.

Lemma side_uniform3 f sd e i k : (0 <= f < gm_nIF m)%Z -> (0 <= i < nfun bt p)%Z -> (0 <= k < 5)%Z ->
  dg_side S m c f sd e i k =
  if (side_elem m f sd =? e)%Z then - (FI i (side_face m f sd) * euler_flux 3 gamma u (face_vector m e (side_face m f sd)) k) else 0.
Proof.
  intros Hf Hi Hk. unfold dg_side. destruct (Z.eqb_spec (side_elem m f sd) e) as [<-|]; [|reflexivity].
  assert (RG : forall sd, (0 <= side_elem m f sd < gm_num_elems m)%Z).
  { intros sd'. pose proof (sides_of iter n m ep WF f sd' Hf) as HS. now destruct (side_nonneg iter n m ep WF _ _ _ _ _ HS) as (_ & _ & He). }
  assert (FL : forall iq, dg_flux S m c f iq k = - side_sign sd * euler_flux 3 gamma u (face_vector m (side_elem m f sd) (side_face m f sd)) k).
  { intros iq. unfold dg_flux. cbn [S hex_scheme sc_flux sc_shape sc_gamma sc_normal space_dim].
    rewrite (numflux_state 3 gamma ltac:(now right) _ u _ u) by (lia || (intros j Hj; unfold dg_trace; cbn [S hex_scheme sc_nb sc_fval]; apply UF; [apply RG|lia])).
    rewrite numflux_uniform3 by (assumption || now apply flat_normal_nonzero).
    rewrite <- euler_flux_scal by lia. apply PhysProof.euler_flux_ext; [lia|]. intros d Hd. now apply flat_normal_side. }
  rewrite (rsum_ext _ _ (fun iq => - side_sign sd * euler_flux 3 gamma u (face_vector m (side_elem m f sd) (side_face m f sd)) k *
     (sc_fwts S iq * sc_fval S (side_face m f sd) (side_point S m f sd iq) i))) by (intros iq _; rewrite FL; ring).
  rewrite rsum_scal.
  assert (E : rsum (sc_nqf S) (fun iq => sc_fwts S iq * sc_fval S (side_face m f sd) (side_point S m f sd iq) i) = FI i (side_face m f sd)).
  { cbn [S hex_scheme sc_nqf sc_fwts sc_fval]. unfold FI, face_integral3, order_ok in *.
    destruct (face_rule EHex p ltac:(lia) ltac:(lia) ltac:(lia)) as (x1 & w1 & fp' & fw' & GF & TF & EF'). cbv zeta in *.
    rewrite hex_points in EF'. rewrite EF in EF'. injection EF' as <- <-.
    cbn [face_rule_points space_dim] in *. change (3 - 1)%Z with 2%Z in *. set (np := (p + 2)%Z) in *.
    pose proof (sides_of iter n m ep WF f sd Hf) as HS. pose proof (FV _ _ _ _ _ HS) as (_ & HO). cbn in HO.
    destruct (side_nonneg iter n m ep WF _ _ _ _ _ HS) as (_ & HO' & _).
    set (o := face_entry m f (if sd then 5 else 2)%Z) in *.
    set (src := fun q => hex_src o np (q mod np) (q / np)).
    assert (PT : forall q, (0 <= q < np * np)%Z -> side_point S m f sd q = src q).
    { intros q Hq. unfold side_point. fold o. cbn [S hex_scheme sc_shape sc_nqf face_order]. rewrite face_pts_order_hex_spec by (unfold np; lia).
      rewrite (proj2 (andb_true_iff _ _)); [reflexivity|]. split; [apply Z.leb_le|apply Z.ltb_lt]; unfold np in *; lia. }
    assert (PM : permutes (np * np) src).
    { apply permutes_intro.
      - intros q Hq. destruct (divmod_range np q ltac:(unfold np; lia) Hq) as (R1 & R2 & _). unfold src.
        destruct (hex_src_pair o np (q mod np) (q / np) ltac:(lia) R1 R2) as (i' & j' & -> & I1 & I2 & _). nia.
      - intros q q' Hq Hq'. destruct (divmod_range np q ltac:(unfold np; lia) Hq) as (R1 & R2 & E1). destruct (divmod_range np q' ltac:(unfold np; lia) Hq') as (R1' & R2' & E1').
        unfold src. intros H. apply hex_src_inj in H; auto; [|lia]. destruct H as [H1 H2]. rewrite E1, E1', H1, H2. reflexivity. }
    assert (WT : forall i j, (0 <= i < np)%Z -> (0 <= j < np)%Z -> fw (j * np + i)%Z = w1 i * w1 j).
    { intros i0 j0 Hi0 Hj0. destruct (TF (j0 * np + i0)%Z ltac:(rewrite Z.pow_2_r; nia)) as (_ & T). rewrite T, rprod_2, digit0, digit1_top by nia.
      now rewrite idx2_mod, idx2_div by lia. }
    assert (SW : forall j, (0 <= j < np)%Z -> w1 (np - 1 - j)%Z = w1 j) by (intros j Hj; now apply GF).
    assert (SY : forall q, (0 <= q < np * np)%Z -> fw q = fw (src q)).
    { intros q Hq. destruct (divmod_range np q ltac:(unfold np; lia) Hq) as (R1 & R2 & E1). unfold src. set (i0 := (q mod np)%Z) in *. set (j0 := (q / np)%Z) in *.
      rewrite E1, WT by assumption. unfold hex_src.
      repeat match goal with |- context [(o =? ?v)%Z] => destruct (o =? v)%Z end; rewrite WT by lia; rewrite ?SW by lia; ring. }
    rewrite <- (rsum_permutes (np * np) src (fun q => fw q * basis_fn bt p i (face_at EHex (side_face m f sd) (fp q)))) by exact PM.
    apply rsum_ext. intros q Hq. rewrite PT, (SY q) by assumption. reflexivity. }
  rewrite E. destruct sd; cbn [side_sign]; ring.
Qed.

Let V i d := rsum nq (fun q => W q * Derive (fun t => basis_fn bt p i (with_coord (P q) d t)) (P q d)).

Lemma volume_uniform3 e i k : (0 <= e < gm_num_elems m)%Z -> flat_element m e -> (0 <= i < nfun bt p)%Z -> (0 <= k < 5)%Z ->
  dg_volume S c e i k = rsum 3 (fun d => euler_flux 3 gamma u (across m e d) k * V i d).
Proof.
  intros He FE Hi Hk. unfold dg_volume. cbn [S hex_scheme sc_shape sc_nq sc_wts sc_det sc_gamma sc_grad sc_inv space_dim].
  unfold order_ok in Op. destruct (volume_rule EHex p ltac:(split; lia)) as (x & w & GR & A). destruct (A zero2 zero1) as (P' & W' & EQ' & TR).
  rewrite EQ in EQ'. injection EQ' as EN <- <-.
  rewrite (rsum_ext 3 _ (fun d => rsum nq (fun q => euler_flux 3 gamma u (across m e d) k * (W q * Derive (fun t => basis_fn bt p i (with_coord (P q) d t)) (P q d))))) by (intros d _; unfold V; now rewrite rsum_scal).
  rewrite rsum_swap. apply rsum_ext. intros q Hq.
  assert (ST : forall j, euler_flux 3 gamma (dg_state S c e q) (axis j) k = euler_flux 3 gamma u (axis j) k).
  { intros j. apply euler_flux_extU; [now right| |exact Hk]. intros d Hd. unfold dg_state. apply UF; [exact He|lia]. }
  rewrite EN in Hq. destruct (rule_inside EHex (p + 2) x w P W _ _ GR ltac:(lia) TR q Hq) as (IN & _).
  destruct FH as (_ & UT & _). pose proof (UT e (P q) He IN) as DP. apply Rgt_not_eq in DP.
  set (G := fun d => Derive (fun t => basis_fn bt p i (with_coord (P q) d t)) (P q d)).
  symmetry. rewrite (rsum_ext 3 _ (fun d => (rsum 3 (fun j => euler_flux 3 gamma u (axis j) k * across m e d j)) * (W q * G d))) by (intros d _; cbv beta; rewrite (euler_flux_axes 3 gamma u (across m e d) k) by lia; reflexivity). symmetry.
  rewrite !rsum_3. fold S. rewrite !ST. fold (G 0%Z) (G 1%Z) (G 2%Z).
  unfold jac_det, small_det in *. cbn [space_dim] in *. change (3 =? 1)%Z with false in *. change (3 =? 2)%Z with false in *. cbv iota in *.
  unfold inverse3. cbv zeta.
  change ((0 + 1) mod 3)%Z with 1%Z; change ((1 + 1) mod 3)%Z with 2%Z; change ((2 + 1) mod 3)%Z with 0%Z;
  change ((0 + 2) mod 3)%Z with 2%Z; change ((1 + 2) mod 3)%Z with 0%Z; change ((2 + 2) mod 3)%Z with 1%Z.
  set (D := det3 (jacobian EHex 1 (elem_nodes m e) (P q))) in *. rewrite !(flat_jacobian m e FE) by lia.
  unfold across, vprod. 
  change ((0 + 1) mod 3)%Z with 1%Z; change ((1 + 1) mod 3)%Z with 2%Z; change ((2 + 1) mod 3)%Z with 0%Z;
  change ((0 + 2) mod 3)%Z with 2%Z; change ((1 + 2) mod 3)%Z with 0%Z; change ((2 + 2) mod 3)%Z with 1%Z. cbn [Z.eqb Pos.eqb].
  clearbody D. field. exact DP.
Qed.

Lemma residual_uniform3 e i k : (0 <= e < gm_num_elems m)%Z -> flat_element m e -> (0 <= i < nfun bt p)%Z -> (0 <= k < 5)%Z ->
  Rabs (dg_residual S m c e i k - rsum 6 (fun kk => if exposed m e kk then FI i kk * euler_flux 3 gamma u (face_vector m e kk) k else 0))
  <= free_stream_eps3 p * rsum 6 (fun kk => Rabs (euler_flux 3 gamma u (face_vector m e kk) k)).
Proof.
  intros He FE Hi Hk. unfold dg_residual.
  rewrite (rsum_ext (gm_nIF m) _ (fun f => (if (side_elem m f false =? e)%Z then (fun kk => - (FI i kk * euler_flux 3 gamma u (face_vector m e kk) k)) (side_face m f false) else 0) +
     (if (side_elem m f true =? e)%Z then (fun kk => - (FI i kk * euler_flux 3 gamma u (face_vector m e kk) k)) (side_face m f true) else 0))).
  2: { intros f Hf. now rewrite !side_uniform3. }
  rewrite (sum_sides3 e (fun kk => - (FI i kk * euler_flux 3 gamma u (face_vector m e kk) k))).
  rewrite (volume_uniform3 e i k He FE Hi Hk).
  unfold order_ok in Op.
  destruct (volume_rule EHex p ltac:(split; lia)) as (x & w & GR & A). destruct (A zero2 zero1) as (P' & W' & EQ' & TR).
  destruct (face_rule EHex p ltac:(lia) ltac:(lia) ltac:(lia)) as (x1 & w1 & fp' & fw' & GF & TF & EF'). cbv zeta in *.
  rewrite hex_points in EF'. rewrite EF in EF'. injection EF' as <- <-. rewrite EQ in EQ'. injection EQ' as EN <- <-.
  cbn [face_rule_points space_dim] in GF, TF, TR. change (3 - 1)%Z with 2%Z in TF. replace (2 * (p + 2) - 1)%Z with (2 * p + 3)%Z in GF by lia.
  destruct (metric_terms3 bt p BF ltac:(lia) Sup i P W x w fp fw x1 w1 Hi GR TR GF TF) as (M0 & M1 & M2).
  change (face_integral3 bt p ((p + 2) * (p + 2)) fp fw i) with (FI i) in M0, M1, M2.
  assert (EV : forall d, rsum ((p + 2) ^ 3) (fun q => W q * Derive (fun t => basis_fn bt p i (with_coord (P q) d t)) (P q d)) = V i d) by (intros d; unfold V; rewrite EN; reflexivity).
  rewrite EV in M0, M1, M2.
  set (F d := euler_flux 3 gamma u (across m e d) k).
  assert (FN : forall kk, (0 <= kk < 6)%Z -> euler_flux 3 gamma u (face_vector m e kk) k = face_dir kk * F (face_axis kk)).
  { intros kk Hkk. unfold F. rewrite <- euler_flux_scal by lia. apply PhysProof.euler_flux_ext; [lia|]. intros j Hj. now apply flat_vector. }
  assert (N0 := FN 0%Z ltac:(lia)). assert (N1 := FN 1%Z ltac:(lia)). assert (N2 := FN 2%Z ltac:(lia)).
  assert (N3 := FN 3%Z ltac:(lia)). assert (N4 := FN 4%Z ltac:(lia)). assert (N5 := FN 5%Z ltac:(lia)). clear FN. unfold face_dir, face_axis in *.
  assert (R6 : forall g, rsum 6 g = g 0%Z + g 1%Z + g 2%Z + g 3%Z + g 4%Z + g 5%Z).
  { intros g. rewrite (rsum_S 5) by lia. now rewrite rsum_5. }
  rewrite !R6, rsum_3. cbv beta. rewrite N0, N1, N2, N3, N4, N5. fold (F 0%Z) (F 1%Z) (F 2%Z).
  set (f0 := F 0%Z) in *. set (f1 := F 1%Z) in *. set (f2 := F 2%Z) in *. clearbody f0 f1 f2.
  set (V0 := V i 0%Z) in *. set (V1 := V i 1%Z) in *. set (V2 := V i 2%Z) in *. clearbody V0 V1 V2.
  set (E0 := FI i 0%Z) in *. set (E1 := FI i 1%Z) in *. set (E2 := FI i 2%Z) in *. set (E3 := FI i 3%Z) in *. set (E4 := FI i 4%Z) in *. set (E5 := FI i 5%Z) in *. clearbody E0 E1 E2 E3 E4 E5.
  match goal with |- Rabs ?z <= _ => replace z with (f0 * (V0 - (E2 - E4)) + f1 * (V1 - (E3 - E1)) + f2 * (V2 - (E5 - E0))) end.
  2: { destruct (exposed m e 0), (exposed m e 1), (exposed m e 2), (exposed m e 3), (exposed m e 4), (exposed m e 5); ring. }
  replace (-1 * f0) with (- f0) by ring. replace (-1 * f1) with (- f1) by ring. replace (-1 * f2) with (- f2) by ring. rewrite !Rmult_1_l, !Rabs_Ropp.
  eapply Rle_trans; [apply Rabs_triang|]. eapply Rle_trans; [apply Rplus_le_compat_r, Rabs_triang|]. rewrite !Rabs_mult.
  pose proof (Rabs_pos f0). pose proof (Rabs_pos f1). pose proof (Rabs_pos f2). pose proof (Rabs_pos (V0 - (E2 - E4))).
  set (EPS := free_stream_eps3 p) in *. clearbody EPS. nra.
Qed.
End Sides.

(** ** C92 *)

(** The uniform initial condition puts its state on the ranks. *)
Theorem C92_uniform_initial : forall zero iter n m ep pm bt p h f ph t U,
  run_wf iter n m ep -> partitioned zero iter n m ep pm -> flat_hexes m ->
  basis_for EHex bt -> supported bt p -> (1 <= p <= 11)%Z ->
  all_set_up EHex bt p 1 m pm n h f -> hexes_initialised m bt p Uniform ph t n pm h U ->
  everywhere3 bt p pm n (ph_IC ph) U.
Proof.
  intros zero iter n m ep pm bt p h f ph t U WF PT FH BF Sup Hp AS IN r le k y Hr Hle Hk.
  assert (RD : ready EHex bt p 1 m) by (constructor; auto; [lia|apply FH|apply FH|unfold order_ok; lia]).
  destruct (AS r Hr) as (jk & eo1 & eo2 & fo & LO & E0). destruct (IN r Hr) as (j2 & j3 & j1 & eo & po & Uc0 & Pe & Po & EI).
  destruct (volume_rule EHex (2 * p) ltac:(split; lia)) as (x & xw & _ & A). destruct (A zero2 zero1) as (P & W & EQ & _).
  replace (Z.max p 1) with p in Po by lia.
  exact (C73_uniform_state zero iter n m ep pm EHex bt p 1 r jk eo1 eo2 fo (h r) (f r) ph t j2 j3 j1 eo po Uc0 _ P W (U r) WF PT RD ltac:(lia) Hr LO E0 Pe EQ Po EI le k y Hle Hk).
Qed.
Print Assumptions C92_uniform_initial.

(** From an admissible uniform state the residual can be evaluated, whatever the
    work arrays contain. *)
Theorem C92_uniform_evaluates : forall zero iter n m ep pm bt p h f gamma ft ord pord junk u U w,
  run_wf iter n m ep -> partitioned zero iter n m ep pm -> faces_valid EHex m -> faces_distinct m ->
  flat_hexes m -> conforming_hexes m -> basis_for EHex bt -> supported bt p -> order_ok p -> 1 < gamma ->
  all_set_up EHex bt p 1 m pm n h f -> inner_loops_ok pm n ord pord ->
  admissible 3 gamma u -> everywhere3 bt p pm n u U ->
  exists rs w1, evaluation EHex m ep pm n ((p + 2) * (p + 2)) gamma (tables EHex bt p pm gamma ft h f ord pord junk) U w rs w1.
Proof.
  intros zero iter n m ep pm bt p h f gamma ft ord pord junk u U w WF PT FV FD FH CF BF Sup Op Gm AS IL AD EU.
  assert (RD : ready EHex bt p 1 m) by (constructor; auto; [lia|apply FH|apply FH]).
  set (D := tables EHex bt p pm gamma ft h f ord pord junk).
  destruct (C70_setup_consistent zero iter n m ep pm EHex bt p 1 h f gamma ft ord pord junk WF PT RD AS IL) as (fp & fw & _ & FP & SS & _).
  pose proof (flat_normals_agree zero iter n m ep pm WF PT FV FH CF bt p h f gamma ft ord pord junk RD AS) as NA.
  rewrite hex_points in *. fold D in SS, NA.
  destruct (C64_residual_well_defined R zero iter n m ep pm EHex ((p + 2) * (p + 2)) (nfun bt p) gamma ft _ fw D U (snd w) (fst w) WF PT FV FD FP Gm SS NA) as (UL & UR & v2 & rs2 & E & _ & ADS).
  - intros r e q Hr He Hq. unfold density, vol_state. destruct (ss_sizes _ _ _ _ _ _ _ _ _ _ _ SS r Hr) as (_ & _ & _ & -> & _).
    destruct (AS r Hr) as (jk & eo1 & eo2 & fo & LO & E0).
    destruct (C68_setup_geometry zero iter n m ep pm EHex bt p 1 r jk eo1 eo2 fo WF PT RD Hr LO) as (h' & f' & x' & w' & E & _ & _ & _ & _ & V & _).
    rewrite E in E0. injection E0 as -> ->.
    rewrite (rsum_ext _ _ (fun j => basis_fn bt p j (vh_pts (h r) q) * U r e j 0%Z)).
    + rewrite EU by (assumption || lia). destruct AD as (AD & _). unfold density in AD. lra.
    + intros i Hi. f_equal. apply (V q i); assumption.
  - intros r e k q Hr He Hk Hq. cbn [space_dim]. apply (admissible_ext 3 gamma u); [now right| |exact AD].
    intros j Hj. unfold face_trace. symmetry. apply EU; [assumption|assumption|lia].
  - exists rs2, (v2, rs2), UL, UR. split; [exact E|]. split; [reflexivity|exact ADS].
Qed.
Print Assumptions C92_uniform_evaluates.

(** Its residual in an element with flat faces: what the flux of the state through
    the faces without neighbour would be, and nothing else, up to the error of the
    tabulated rules. *)
Theorem C92_uniform_residual : forall zero iter n m ep pm bt p h f gamma ft ord pord junk u U w rs w1,
  run_wf iter n m ep -> partitioned zero iter n m ep pm -> faces_valid EHex m -> faces_distinct m ->
  flat_hexes m -> conforming_hexes m -> basis_for EHex bt -> supported bt p -> order_ok p -> 1 < gamma ->
  all_set_up EHex bt p 1 m pm n h f -> inner_loops_ok pm n ord pord ->
  admissible 3 gamma u -> everywhere3 bt p pm n u U -> boundary_zero EHex m pm n ((p + 2) * (p + 2)) (fst w) ->
  evaluation EHex m ep pm n ((p + 2) * (p + 2)) gamma (tables EHex bt p pm gamma ft h f ord pord junk) U w rs w1 ->
  exists fp fw, face_quadrature EHex p = Ok (((p + 2) * (p + 2))%Z, fp, fw) /\
  forall r le e i k, (0 <= r < n)%Z -> rd (pm_l2g_elem (pm r)) le = Ok e -> flat_element m e -> (0 <= i < nfun bt p)%Z -> (0 <= k < 5)%Z ->
    Rabs (rs r le i k -
          rsum 6 (fun kk => if exposed m e kk then face_integral3 bt p ((p + 2) * (p + 2)) fp fw i kk * euler_flux 3 gamma u (face_vector m e kk) k else 0))
    <= free_stream_eps3 p * rsum 6 (fun kk => Rabs (euler_flux 3 gamma u (face_vector m e kk) k)).
Proof.
  intros zero iter n m ep pm bt p h f gamma ft ord pord junk u U w rs w1 WF PT FV FD FH CF BF Sup Op Gm AS IL AD EU BZ EV.
  destruct (gather zero iter n m ep pm U WF PT) as (c & Hc).
  assert (HU : holds_solution pm n (nfun bt p) 5 c U) by (intros r le e j k Hr He _ _; now apply Hc).
  destruct (C77_residual_is_dg_hexahedra zero iter n m ep pm bt p h f gamma ft ord pord junk c U w rs w1 WF PT FV FD FH CF BF Sup Op Gm AS IL HU BZ EV)
    as (nq & P & W & fp & fw & EQ & EF & RR).
  exists fp, fw. split; [exact EF|]. intros r le e i k Hr He FE Hi Hk.
  rewrite (RR r le e i k Hr He Hi Hk).
  apply (residual_uniform3 iter n m ep WF FV FD FH CF bt p BF Op Sup gamma Gm ft nq P W fp fw EQ EF u AD c); auto.
  - intros e' k' y He' Hk'. destruct (owner_of zero iter n m ep pm e' WF PT He') as (r' & le' & Hr' & Hle').
    rewrite <- (EU r' le' k' y Hr'); [|destruct (C01_element_ownership R zero iter n m ep pm WF PT) as (_ & _ & CN & _); destruct (CN r' Hr') as (_ & ->); now apply rd_in_range in Hle'|exact Hk'].
    apply rsum_ext. intros j Hj. f_equal. symmetry. now apply Hc.
  - exact (owned_elem zero iter n m ep pm WF PT r le e Hr He).
Qed.
Print Assumptions C92_uniform_residual.

(** Free stream: in an element with a neighbour on every face a uniform state has
    no residual (up to the error of the rules), whatever the partition, the
    numerical flux and the basis. *)
Theorem C92_free_stream : forall zero iter n m ep pm bt p h f gamma ft ord pord junk u U w rs w1,
  run_wf iter n m ep -> partitioned zero iter n m ep pm -> faces_valid EHex m -> faces_distinct m ->
  flat_hexes m -> conforming_hexes m -> basis_for EHex bt -> supported bt p -> order_ok p -> 1 < gamma ->
  all_set_up EHex bt p 1 m pm n h f -> inner_loops_ok pm n ord pord ->
  admissible 3 gamma u -> everywhere3 bt p pm n u U -> boundary_zero EHex m pm n ((p + 2) * (p + 2)) (fst w) ->
  evaluation EHex m ep pm n ((p + 2) * (p + 2)) gamma (tables EHex bt p pm gamma ft h f ord pord junk) U w rs w1 ->
  forall r le e i k, (0 <= r < n)%Z -> rd (pm_l2g_elem (pm r)) le = Ok e -> (0 <= i < nfun bt p)%Z -> (0 <= k < 5)%Z ->
    (forall kk, (0 <= kk < 6)%Z -> exists f sd o, has_side m f sd e kk o) ->
    Rabs (rs r le i k) <= free_stream_eps3 p * rsum 6 (fun kk => Rabs (euler_flux 3 gamma u (face_vector m e kk) k)).
Proof.
  intros zero iter n m ep pm bt p h f gamma ft ord pord junk u U w rs w1 WF PT FV FD FH CF BF Sup Op Gm AS IL AD EU BZ EV r le e i k Hr He Hi Hk IN.
  destruct (C92_uniform_residual zero iter n m ep pm bt p h f gamma ft ord pord junk u U w rs w1 WF PT FV FD FH CF BF Sup Op Gm AS IL AD EU BZ EV) as (fp & fw & _ & B).
  assert (FE : flat_element m e).
  { intros kk Hkk. destruct (IN kk Hkk) as (fc & sd & o & HS). destruct FH as (_ & _ & PF). exact (PF _ _ _ _ _ HS). }
  specialize (B r le e i k Hr He FE Hi Hk). rewrite (rsum_zero 6) in B; [now rewrite Rminus_0_r in B|].
  intros kk Hkk. destruct (IN kk Hkk) as (fc & sd & o & HS).
  destruct (face_of_side iter n m ep WF (quad_scheme LagrangeQuad 0 m 2 HLLC 0 zero2 zero1 0 zero2 zero1) fc sd e kk o HS) as (Hf & Ee & Ek & _).
  assert (EX : exposed m e kk = false).
  { unfold exposed. apply negb_false_iff. apply existsb_exists. exists fc. split; [now apply In_zseq|]. unfold on_side.
    destruct sd; rewrite Ee, Ek, !Z.eqb_refl; cbn [andb]; [apply orb_true_r|reflexivity]. }
  now rewrite EX.
Qed.
Print Assumptions C92_free_stream.
