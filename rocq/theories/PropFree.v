(** PropFree.v -- C80: uniform flow.  On a mesh of straight-sided quadrilaterals
    the residual of a uniform state vanishes, up to the error of the tabulated
    rules, in every element all of whose faces have a neighbour; in the others it
    is the flux through the faces that have none. *)
From Coq Require Import ZArith List Lia Reals Lra Bool Permutation Classical_Prop.
From Coquelicot Require Import Coquelicot.
From Verif Require Import Base RBase LinAlgModel LinAlgProof PropLinAlg QuadModel QuadProof PropQuad BasisModel BasisProof PropBasis PropSolver PropNormals.
From Verif Require Import ShapeModel ShapeProof PropShape MeshModel MeshSpec MeshProof PropMesh PhysModel PhysSpec PhysProof PropPhys SolverModel SolverSpec SolverProof SolverMesh.
From Verif Require Import StepModel StepProof PropStep PropConserve PropResidual PropIntegral.
From Verif Require CommProof.
From Verif Require Import SetupModel SetupSpec MassProof SetupProof SetupPass SetupFaces PropSetup PropVortex PropMeshRun PropInit PropPost DGSpec DGProof PropDG PolySize.
Import ListNotations.
Local Open Scope R_scope.
Open Scope res_scope.

(** Half of edge [k] of element [e], turned clockwise by a right angle: normal to
    the edge, pointing out of the element. *)
Definition outward (m : gmesh R) (e k : Z) : arr1 :=
  let X := elem_nodes m e in
  fun d => if (d =? 0)%Z then (X (ccw (k + 1)) 1%Z - X (ccw k) 1%Z) / 2 else - (X (ccw (k + 1)) 0%Z - X (ccw k) 0%Z) / 2.

(** Edge [k] of element [e] is on no interior face of the mesh file. *)
Definition on_side (m : gmesh R) (e k f : Z) (sd : bool) : bool := (side_elem m f sd =? e)%Z && (side_face m f sd =? k)%Z.
Definition exposed (m : gmesh R) (e k : Z) : bool :=
  negb (existsb (fun f => on_side m e k f false || on_side m e k f true) (zseq (gm_nIF m))).

(** The coefficients are those of the state [u], everywhere. *)
Definition uniform (bt : basis_type) (p : Z) (m : gmesh R) (u : arr1) (c : arr3) : Prop :=
  forall e k y, (0 <= e < gm_num_elems m)%Z -> (0 <= k < 4)%Z -> rsum (nfun bt p) (fun j => basis_fn bt p j y * c e j k) = u k.

(** Integral, by the rule, of test function [i] over edge [k] of the reference
    square. *)
Definition edge_integral (bt : basis_type) (p nqf : Z) (fp : arr2) (fw : arr1) (i k : Z) : R :=
  rsum nqf (fun q => fw q * basis_fn bt p i (face_at EQuad k (fp q))).

Definition free_stream_eps : R := 2 / 10 ^ 15.

Section Rule.
Context (bt : basis_type) (p : Z) (Hbt : basis_for EQuad bt) (Hp : (0 <= p <= 11)%Z) (Sup : supported bt p).

Lemma fn_digits i : (0 <= i < nfun bt p)%Z -> let a := (i mod (p + 1))%Z in let b := (i / (p + 1))%Z in
  (0 <= a <= p)%Z /\ (0 <= b <= p)%Z /\ forall y, basis_fn bt p i y = fn1 bt p a (y 0%Z) * fn1 bt p b (y 1%Z).
Proof.
  intros Hi a b. assert (D : dim bt = 2%Z) by (destruct Hbt as [-> | ->]; reflexivity).
  unfold nfun in Hi. rewrite D, Z.pow_2_r in Hi.
  destruct (divmod_range (p + 1) i ltac:(lia) Hi) as (A & B & _). fold a in A. fold b in B.
  split; [lia|]. split; [lia|]. intros y. unfold basis_fn. rewrite D, rprod_2, digit0, digit1_top by lia. reflexivity.
Qed.

(** One coordinate of the metric terms: the discrete divergence theorem. *)
Lemma metric_terms i X j (N : Z) P W x w fp fw x1 w1 H : (0 <= i < nfun bt p)%Z ->
  good_rule (p + 2) (2 * p + 3) (/ 10 ^ 30) x w -> tensor_rule 2 (p + 2) x w P W ->
  good_rule (p + 1) (2 * p + 1) (/ 10 ^ 30) x1 w1 -> tensor_rule 1 (p + 1) x1 w1 fp fw ->
  (forall a b, (0 <= a < 4)%Z -> (0 <= b < 4)%Z -> Rabs (X a j - X b j) <= H) ->
  let J := fun q => jacobian EQuad 1 X (P q) j in
  let G := fun q d => Derive (fun t => basis_fn bt p i (with_coord (P q) d t)) (P q d) in
  Rabs (rsum ((p + 2) ^ 2) (fun q => W q * (G q 0%Z * J q 1%Z - G q 1%Z * J q 0%Z)) -
        rsum 4 (fun k => edge_integral bt p (p + 1) fp fw i k * ((X (ccw (k + 1)) j - X (ccw k) j) / 2))) <= free_stream_eps * H.
Proof.
  intros Hi GR TR GF TF HX J G.
  destruct (fn_digits i Hi) as (Ha & Hb & FN). set (a0 := (i mod (p + 1))%Z) in *. set (b0 := (i / (p + 1))%Z) in *.
  set (f := fn1 bt p a0) in *. set (g := fn1 bt p b0) in *.
  pose proof (fn1_sized bt p a0 Hp Sup Ha) as Sf. pose proof (fn1_sized bt p b0 Hp Sup Hb) as Sg. fold f in Sf. fold g in Sg.
  destruct (sized_derive (p + 2) _ f ltac:(lia) Sf) as (f' & Df & Sf'). destruct (sized_derive (p + 2) _ g ltac:(lia) Sg) as (g' & Dg & Sg').
  destruct (sized_integral (p + 2) _ f ltac:(lia) Sf) as (If & HIf & _). destruct (sized_integral (p + 2) _ g ltac:(lia) Sg) as (Ig & HIg & _).
  set (a := (X 3%Z j - X 1%Z j - X 2%Z j + X 0%Z j) / 4). set (b := (X 3%Z j - X 1%Z j + X 2%Z j - X 0%Z j) / 4).
  set (c := (X 3%Z j - X 2%Z j + X 1%Z j - X 0%Z j) / 4).
  set (Q h := rsum (p + 2) (fun i => w i * h (x i))).
  set (K h := rsum (p + 1) (fun i => w1 i * h (x1 i))).
  assert (E1 : rsum ((p + 2) ^ 2) (fun q => W q * (G q 0%Z * J q 1%Z - G q 1%Z * J q 0%Z)) =
               Q g * Q (fun t => (a * t + b) * f' t) - Q f * Q (fun t => (a * t + c) * g' t)).
  { rewrite Z.pow_2_r.
    set (V := fun s t => w s * w t * (f' (x s) * g (x t) * (a * x s + b) - f (x s) * g' (x t) * (a * x t + c))).
    rewrite (rsum_ext _ _ (fun q => V (q mod (p + 2))%Z (q / (p + 2))%Z)).
    - rewrite (rsum_flat (p + 2) (p + 2) V) by lia. unfold Q, V.
      rewrite (rsum_ext _ _ (fun t => w t * g (x t) * Q (fun t => (a * t + b) * f' t) - Q f * (w t * ((a * x t + c) * g' (x t))))).
      + rewrite rsum_minus, rsum_scal_r, rsum_scal. reflexivity.
      + intros t Ht. unfold Q. rewrite <- rsum_scal, <- rsum_scal_r, <- rsum_minus. apply rsum_ext. intros s Hs. ring.
    - intros q Hq. destruct (TR q ltac:(rewrite Z.pow_2_r; exact Hq)) as (T1 & T2).
      pose proof (T1 0%Z ltac:(lia)) as P0. pose proof (T1 1%Z ltac:(lia)) as P1. rewrite rprod_2 in T2.
      rewrite digit0, digit1_top in * by lia. unfold V.
      assert (G0 : G q 0%Z = f' (P q 0%Z) * g (P q 1%Z)).
      { unfold G. apply is_derive_unique. apply (is_derive_ext (fun t => g (P q 1%Z) * f t)); [intros t; rewrite FN; unfold with_coord; cbn [Z.eqb Pos.eqb]; match goal with |- @eq _ ?u ?v => change (@eq R u v) end; ring|].
        rewrite Rmult_comm. apply is_derive_scal_R. apply Df. }
      assert (G1 : G q 1%Z = f (P q 0%Z) * g' (P q 1%Z)).
      { unfold G. apply is_derive_unique. apply (is_derive_ext (fun t => f (P q 0%Z) * g t)); [intros t; rewrite FN; unfold with_coord; cbn [Z.eqb Pos.eqb]; match goal with |- @eq _ ?u ?v => change (@eq R u v) end; ring|].
        apply is_derive_scal_R. apply Dg. }
      destruct (jacobian_bilinear X (P q) j) as (J0 & J1). unfold J. rewrite J0, J1, G0, G1, T2, P0, P1. unfold a, b, c. field. }
  assert (FP : forall h, rsum (p + 1) (fun q => fw q * h (fp q 0%Z)) = K h).
  { intros h. apply rsum_ext. intros q Hq. destruct (TF q ltac:(rewrite Z.pow_1_r; exact Hq)) as (T1 & T2).
    rewrite (T1 0%Z) by lia. rewrite T2, rprod_1, digit0, Z.mod_small by lia. reflexivity. }
  assert (E2 : rsum 4 (fun k => edge_integral bt p (p + 1) fp fw i k * ((X (ccw (k + 1)) j - X (ccw k) j) / 2)) =
     f 1 * (b + a) * K g - f (-1) * (b - a) * K (fun t => g (- t)) - g 1 * (c + a) * K (fun t => f (- t)) + g (-1) * (c - a) * K f).
  { rewrite rsum_4. change (ccw (0 + 1)) with 1%Z. change (ccw 0) with 0%Z. change (ccw (1 + 1)) with 3%Z. change (ccw 1) with 1%Z.
    change (ccw (2 + 1)) with 2%Z. change (ccw 2) with 3%Z. change (ccw (3 + 1)) with 0%Z. change (ccw 3) with 2%Z.
    assert (F0 : edge_integral bt p (p + 1) fp fw i 0 = g (-1) * K f).
    { unfold edge_integral. rewrite (rsum_ext _ _ (fun q => fw q * ((fun t => g (-1) * f t) (fp q 0%Z)))).
      - rewrite (FP (fun t => g (-1) * f t)). unfold K. rewrite <- rsum_scal. apply rsum_ext. intros; ring.
      - intros q Hq. rewrite FN. cbn [face_at quad_face vec2]. cbn. ring. }
    assert (F1 : edge_integral bt p (p + 1) fp fw i 1 = f 1 * K g).
    { unfold edge_integral. rewrite (rsum_ext _ _ (fun q => fw q * ((fun t => f 1 * g t) (fp q 0%Z)))).
      - rewrite (FP (fun t => f 1 * g t)). unfold K. rewrite <- rsum_scal. apply rsum_ext. intros; ring.
      - intros q Hq. rewrite FN. cbn. ring. }
    assert (F2 : edge_integral bt p (p + 1) fp fw i 2 = g 1 * K (fun t => f (- t))).
    { unfold edge_integral. rewrite (rsum_ext _ _ (fun q => fw q * ((fun t => g 1 * f (- t)) (fp q 0%Z)))).
      - rewrite (FP (fun t => g 1 * f (- t))). unfold K. rewrite <- rsum_scal. apply rsum_ext. intros; ring.
      - intros q Hq. rewrite FN. cbn. ring. }
    assert (F3 : edge_integral bt p (p + 1) fp fw i 3 = f (-1) * K (fun t => g (- t))).
    { unfold edge_integral. rewrite (rsum_ext _ _ (fun q => fw q * ((fun t => f (-1) * g (- t)) (fp q 0%Z)))).
      - rewrite (FP (fun t => f (-1) * g (- t))). unfold K. rewrite <- rsum_scal. apply rsum_ext. intros; ring.
      - intros q Hq. rewrite FN. cbn. ring. }
    rewrite F0, F1, F2, F3. unfold a, b, c. field. }
  rewrite E1, E2.
  assert (EP : 0 <= / 10 ^ 30 <= 1) by lra.
  assert (H0 : 0 <= H) by (specialize (HX 0%Z 0%Z ltac:(lia) ltac:(lia)); pose proof (Rabs_pos (X 0%Z j - X 0%Z j)); lra).
  assert (KE : forall h I, sized (p + 2) (IZR basis_bound) h -> is_RInt h (-1) 1 I -> Rabs (K h - I) <= / 10 ^ 30 * IZR basis_bound).
  { intros h I0 Sh HI. apply (rule_error (p + 1) (2 * p + 1) (/ 10 ^ 30) x1 w1 (p + 2)); [exact GF|lra|exact Sh|lia|exact HI]. }
  pose proof (HX 3%Z 1%Z ltac:(lia) ltac:(lia)) as X31. pose proof (HX 2%Z 0%Z ltac:(lia) ltac:(lia)) as X20.
  pose proof (HX 3%Z 2%Z ltac:(lia) ltac:(lia)) as X32. pose proof (HX 1%Z 0%Z ltac:(lia) ltac:(lia)) as X10.
  pose proof (HX 0%Z 3%Z ltac:(lia) ltac:(lia)) as X03. pose proof (HX 1%Z 2%Z ltac:(lia) ltac:(lia)) as X12.
  apply Rabs_le_between in X31, X20, X32, X10.
  assert (Mb : Rabs a + Rabs b <= H) by (unfold a, b; unfold Rabs; destruct Rcase_abs, Rcase_abs; lra).
  assert (Mc : Rabs a + Rabs c <= H) by (unfold a, c; unfold Rabs; destruct Rcase_abs, Rcase_abs; lra).
  pose proof (discrete_parts (p + 2) (2 * p + 3) (/ 10 ^ 30) x w (p + 2) (IZR basis_bound) f f' g g' a b c H If Ig
     (K g) (K (fun t => g (- t))) (K (fun t => f (- t))) (K f) GR EP ltac:(lia) Sf Df Sf' Sg Dg Sg' Mb Mc HIf HIg
     (KE g Ig Sg HIg) (KE _ Ig (sized_opp _ _ _ Sg) (RInt_opp _ _ HIg)) (KE _ If (sized_opp _ _ _ Sf) (RInt_opp _ _ HIf)) (KE f If Sf HIf)) as DP.
  cbv zeta in DP. fold Q in DP. eapply Rle_trans; [exact DP|].
  assert (L : IZR (p + 2 - 1) <= 12) by (apply IZR_le; lia). unfold free_stream_eps, basis_bound.
  replace (/ 10 ^ 30 * ((10 * IZR (p + 2 - 1) + 4) * 4000000 * 4000000 * H)) with ((10 * IZR (p + 2 - 1) + 4) * (16 / 10 ^ 18) * H) by (field).
  apply Rmult_le_compat_r; [exact H0|]. lra.
Qed.
End Rule.

(** ** The sides of an element *)

Section Sides.
Context (iter : Z -> list Z -> list Z) (n : Z) (m : gmesh R) (ep : list Z) (WF : run_wf iter n m ep).
Context (FV : faces_valid EQuad m) (FD : faces_distinct m).

Lemma sides_of f sd : (0 <= f < gm_nIF m)%Z -> has_side m f sd (side_elem m f sd) (side_face m f sd) (face_entry m f (if sd then 5 else 2)%Z).
Proof. exact (side_has iter n m ep WF (quad_scheme LagrangeQuad 0 m 2 HLLC 0 zero2 zero1 0 zero2 zero1) f sd). Qed.

Lemma side_face_range f sd : (0 <= f < gm_nIF m)%Z -> (0 <= side_face m f sd < 4)%Z.
Proof.
  intros Hf. pose proof (sides_of f sd Hf) as HS. pose proof (FV _ _ _ _ _ HS) as (H & _). cbn in H.
  destruct (side_nonneg iter n m ep WF _ _ _ _ _ HS) as (H' & _). lia.
Qed.

Lemma on_side_unique e k f sd f' sd' : (0 <= f < gm_nIF m)%Z -> (0 <= f' < gm_nIF m)%Z ->
  on_side m e k f sd = true -> on_side m e k f' sd' = true -> f = f' /\ sd = sd'.
Proof.
  unfold on_side. intros Hf Hf' H H'. rewrite andb_true_iff, !Z.eqb_eq in H, H'. destruct H as (H1 & H2), H' as (H1' & H2').
  pose proof (sides_of f sd Hf) as HS. pose proof (sides_of f' sd' Hf') as HS'.
  rewrite H1, H2 in HS. rewrite H1', H2' in HS'. eapply FD; eassumption.
Qed.

Lemma sum_sides e (g : Z -> R) :
  rsum (gm_nIF m) (fun f => (if (side_elem m f false =? e)%Z then g (side_face m f false) else 0) + (if (side_elem m f true =? e)%Z then g (side_face m f true) else 0)) =
  rsum 4 (fun k => if exposed m e k then 0 else g k).
Proof.
  assert (ONE : forall f sd, (0 <= f < gm_nIF m)%Z -> (if (side_elem m f sd =? e)%Z then g (side_face m f sd) else 0) = rsum 4 (fun k => if on_side m e k f sd then g k else 0)).
  { intros f sd Hf. unfold on_side. destruct (side_elem m f sd =? e)%Z; cbn [andb].
    - rewrite <- (rsum_delta 4 (side_face m f sd) g (side_face_range f sd Hf)). apply rsum_ext. intros k _. now rewrite Z.eqb_sym.
    - symmetry. now apply rsum_zero. }
  rewrite (rsum_ext _ _ (fun f => rsum 4 (fun k => (if on_side m e k f false then g k else 0) + (if on_side m e k f true then g k else 0)))).
  2: { intros f Hf. now rewrite !ONE, rsum_plus by assumption. }
  rewrite rsum_swap. apply rsum_ext. intros k Hk. unfold exposed.
  destruct (existsb (fun f => on_side m e k f false || on_side m e k f true) (zseq (gm_nIF m))) eqn:EX; cbn [negb].
  - apply existsb_exists in EX. destruct EX as (f0 & Hf0 & ON). apply In_zseq in Hf0.
    rewrite (rsum_ext _ _ (fun f => if (f =? f0)%Z then g k else 0)); [exact (rsum_delta (gm_nIF m) f0 (fun _ => g k) Hf0)|].
    intros f Hf. destruct (on_side m e k f0 false) eqn:O1.
    + assert (O2 : on_side m e k f true = false).
      { destruct (on_side m e k f true) eqn:O2; [|reflexivity]. destruct (on_side_unique e k f0 false f true Hf0 Hf O1 O2). discriminate. }
      rewrite O2. destruct (Z.eqb_spec f f0) as [->|Hne]; [rewrite O1; ring|].
      destruct (on_side m e k f false) eqn:O3; [|ring]. destruct (on_side_unique e k f0 false f false Hf0 Hf O1 O3). congruence.
    + cbn [orb] in ON.
      assert (O2 : on_side m e k f false = false).
      { destruct (on_side m e k f false) eqn:O2; [|reflexivity]. destruct (on_side_unique e k f0 true f false Hf0 Hf ON O2). discriminate. }
      rewrite O2. destruct (Z.eqb_spec f f0) as [->|Hne]; [rewrite ON; ring|].
      destruct (on_side m e k f true) eqn:O3; [|ring]. destruct (on_side_unique e k f0 true f true Hf0 Hf ON O3). congruence.
  - apply rsum_zero. intros f Hf.
    assert (O : (on_side m e k f false || on_side m e k f true)%bool = false).
    { destruct (on_side m e k f false || on_side m e k f true)%bool eqn:O; [|reflexivity]. rewrite <- EX. symmetry. apply existsb_exists. exists f. split; [now apply In_zseq|exact O]. }
    apply orb_false_iff in O. destruct O as (-> & ->). ring.
Qed.

Context (SQ : straight_quads m) (CF : conforming m).

Lemma edge_normal_nonzero f : (0 <= f < gm_nIF m)%Z -> vdot 2 (edge_normal m f) (edge_normal m f) <> 0.
Proof.
  intros Hf. pose proof (sides_of f false Hf) as HS. destruct (side_nonneg iter n m ep WF _ _ _ _ _ HS) as (_ & _ & He).
  pose proof (proj2 SQ _ He (side_face m f false) (side_face_range f false Hf)) as C. cbv zeta in C. unfold cross2 in C.
  unfold vdot, edge_normal. rewrite rsum_2. cbn [Z.eqb].
  set (X := elem_nodes m (side_elem m f false)) in *. set (k := side_face m f false) in *.
  set (dx := X (ccw (k + 1)) 0%Z - X (ccw k) 0%Z) in *. set (dy := X (ccw (k + 1)) 1%Z - X (ccw k) 1%Z) in *.
  intros Z0. assert (dx = 0 /\ dy = 0) as (-> & ->) by (split; nra). lra.
Qed.

(** The normal of a face is the outward normal of its left element and minus that
    of its right element. *)
Lemma edge_normal_side f sd d : (0 <= f < gm_nIF m)%Z -> (0 <= d < 2)%Z ->
  edge_normal m f d = - side_sign sd * outward m (side_elem m f sd) (side_face m f sd) d.
Proof.
  intros Hf Hd. pose proof (sides_of f false Hf) as HL. pose proof (sides_of f true Hf) as HR.
  destruct sd; cbn [side_sign].
  - destruct (CF _ _ _ _ _ _ _ HL HR) as (v & V). unfold edge_normal, outward. cbv zeta in V.
    destruct (V 0%Z ltac:(lia)) as (V1 & V2), (V 1%Z ltac:(lia)) as (V3 & V4). rewrite V1, V2, V3, V4. destruct (d =? 0)%Z; field.
  - unfold edge_normal, outward. destruct (d =? 0)%Z; field.
Qed.

(** ** The residual of a uniform state *)
Context (bt : basis_type) (p : Z) (BF : basis_for EQuad bt) (Op : order_ok p) (Sup : supported bt p).
Context (gamma : R) (Gm : 1 < gamma) (ft : flux_type).
Context (nq : Z) (P : arr2) (W : arr1) (fp : arr2) (fw : arr1).
Context (EQ : volume_quadrature EQuad p zero2 zero1 = Ok (nq, P, W)) (EF : face_quadrature EQuad p = Ok ((p + 1)%Z, fp, fw)).
Let S := quad_scheme bt p m gamma ft nq P W (p + 1) fp fw.
Context (u : arr1) (AD : admissible 2 gamma u) (c : arr3) (UF : uniform bt p m u c).

Lemma numflux_uniform N k : vdot 2 N N <> 0 -> (0 <= k < 4)%Z -> numflux ft 2 gamma u u N k = euler_flux 2 gamma u N k.
Proof.
  intros HN Hk. destruct ft; cbn [numflux].
  - field.
  - rewrite toro_equal by (assumption || lia). pose proof (vlen_pos 2 N HN).
    rewrite <- euler_flux_scal by lia. apply PhysProof.euler_flux_ext; [lia|]. intros i _. field. lra.
Qed.

Lemma side_uniform f sd e i k : (0 <= f < gm_nIF m)%Z -> (0 <= i < nfun bt p)%Z -> (0 <= k < 4)%Z ->
  dg_side S m c f sd e i k =
  if (side_elem m f sd =? e)%Z then - (edge_integral bt p (p + 1) fp fw i (side_face m f sd) * euler_flux 2 gamma u (outward m e (side_face m f sd)) k) else 0.
Proof.
  intros Hf Hi Hk. unfold dg_side. destruct (Z.eqb_spec (side_elem m f sd) e) as [<-|]; [|reflexivity].
  assert (RG : forall sd, (0 <= side_elem m f sd < gm_num_elems m)%Z).
  { intros sd'. pose proof (sides_of f sd' Hf) as HS. now destruct (side_nonneg iter n m ep WF _ _ _ _ _ HS) as (_ & _ & He). }
  assert (FL : forall iq, dg_flux S m c f iq k = - side_sign sd * euler_flux 2 gamma u (outward m (side_elem m f sd) (side_face m f sd)) k).
  { intros iq. unfold dg_flux. cbn [S quad_scheme sc_flux sc_shape sc_gamma sc_normal space_dim].
    rewrite (numflux_state 2 gamma ltac:(now left) _ u _ u) by (lia || (intros j Hj; unfold dg_trace; cbn [S quad_scheme sc_nb sc_fval]; apply UF; [apply RG|lia])).
    rewrite numflux_uniform by (assumption || now apply edge_normal_nonzero).
    rewrite <- euler_flux_scal by lia. apply PhysProof.euler_flux_ext; [lia|]. intros d Hd. now apply edge_normal_side. }
  rewrite (rsum_ext _ _ (fun iq => - side_sign sd * euler_flux 2 gamma u (outward m (side_elem m f sd) (side_face m f sd)) k *
     (sc_fwts S iq * sc_fval S (side_face m f sd) (side_point S m f sd iq) i))) by (intros iq _; rewrite FL; ring).
  rewrite rsum_scal.
  assert (E : rsum (sc_nqf S) (fun iq => sc_fwts S iq * sc_fval S (side_face m f sd) (side_point S m f sd iq) i) = edge_integral bt p (p + 1) fp fw i (side_face m f sd)).
  { cbn [S quad_scheme sc_nqf sc_fwts sc_fval]. unfold edge_integral, order_ok in *.
    destruct (face_rule EQuad p ltac:(lia) ltac:(lia) ltac:(lia)) as (x1 & w1 & fp' & fw' & GF & TF & EF'). cbv zeta in *.
    cbn [face_rule_points space_dim] in *. change (2 - 1)%Z with 1%Z in *. rewrite Z.pow_1_r in EF'. rewrite EF in EF'. injection EF' as <- <-.
    pose proof (sides_of f sd Hf) as HS. pose proof (FV _ _ _ _ _ HS) as (_ & HO). cbn in HO.
    destruct (side_nonneg iter n m ep WF _ _ _ _ _ HS) as (_ & HO' & _).
    set (o := face_entry m f (if sd then 5 else 2)%Z) in *.
    assert (PT : forall iq, (0 <= iq < p + 1)%Z -> side_point S m f sd iq = (if (o =? 0)%Z then iq else p + 1 - 1 - iq)%Z).
    { intros iq Hq. unfold side_point. fold o. cbn [S quad_scheme sc_shape sc_nqf face_order]. rewrite face_pts_order_quad_spec by lia.
      rewrite (proj2 (andb_true_iff _ _)); [reflexivity|]. split; [apply Z.leb_le|apply Z.ltb_lt]; lia. }
    assert (SY : forall q, (0 <= q < p + 1)%Z -> fw (p + 1 - 1 - q)%Z = fw q).
    { intros q Hq. destruct (TF q ltac:(rewrite Z.pow_1_r; exact Hq)) as (_ & T). destruct (TF (p + 1 - 1 - q)%Z ltac:(rewrite Z.pow_1_r; lia)) as (_ & T').
      rewrite T, T', !rprod_1, !digit0, !Z.mod_small by lia. now apply GF. }
    destruct (Z.eqb_spec o 0) as [->|Ho].
    - apply rsum_ext. intros q Hq. now rewrite PT.
    - rewrite <- (rsum_permutes (p + 1) (fun j => p + 1 - 1 - j)%Z (fun q => fw q * basis_fn bt p i (face_at EQuad (side_face m f sd) (fp q)))) by apply permutes_rev.
      apply rsum_ext. intros q Hq. now rewrite PT, SY by assumption. }
  rewrite E. destruct sd; cbn [side_sign]; ring.
Qed.

(** What the volume term of a uniform state is. *)
Lemma volume_uniform e i k : (0 <= e < gm_num_elems m)%Z -> (0 <= i < nfun bt p)%Z -> (0 <= k < 4)%Z ->
  let G := fun q d => Derive (fun t => basis_fn bt p i (with_coord (P q) d t)) (P q d) in
  let J := fun j q => jacobian EQuad 1 (elem_nodes m e) (P q) j in
  let B := fun j => rsum nq (fun q => W q * (G q 0%Z * J j q 1%Z - G q 1%Z * J j q 0%Z)) in
  dg_volume S c e i k = euler_flux 2 gamma u (axis 0) k * B 1%Z - euler_flux 2 gamma u (axis 1) k * B 0%Z.
Proof.
  intros He Hi Hk G J B. unfold dg_volume, B. cbn [S quad_scheme sc_shape sc_nq sc_wts sc_det sc_gamma sc_grad sc_inv space_dim].
  unfold order_ok in Op. destruct (volume_rule EQuad p ltac:(split; lia)) as (x & w & GR & A). destruct (A zero2 zero1) as (P' & W' & EQ' & TR).
  rewrite EQ in EQ'. injection EQ' as -> -> ->.
  rewrite <- !rsum_scal, <- rsum_minus. apply rsum_ext. intros q Hq.
  assert (ST : forall j, euler_flux 2 gamma (dg_state S c e q) (axis j) k = euler_flux 2 gamma u (axis j) k).
  { intros j. apply euler_flux_extU; [now left| |exact Hk]. intros d Hd. unfold dg_state. apply UF; [exact He|lia]. }
  rewrite !rsum_2. fold S. rewrite !ST.
  destruct (rule_inside EQuad (p + 2) x w P' W' _ _ GR ltac:(lia) TR q Hq) as (IN & _).
  pose proof (convex_untangled m SQ e (P' q) He IN) as DP. apply Rgt_not_eq in DP.
  unfold jac_det, small_det in *. cbn [space_dim] in *. change (2 =? 1)%Z with false in *. change (2 =? 2)%Z with true in *. cbv iota in *.
  unfold inverse2. change (0 =? 0)%Z with true. change (0 =? 1)%Z with false. change (1 =? 0)%Z with false. change (1 =? 1)%Z with true. cbv iota.
  change (1 - 0)%Z with 1%Z. change (1 - 1)%Z with 0%Z. fold (G q 0%Z). fold (G q 1%Z).
  fold (J 0%Z q). fold (J 1%Z q) in DP |- *.
  change (jacobian EQuad 1 (elem_nodes m e) (P' q) 0%Z 1%Z) with (J 0%Z q 1%Z). change (jacobian EQuad 1 (elem_nodes m e) (P' q) 0%Z 0%Z) with (J 0%Z q 0%Z).
  change (jacobian EQuad 1 (elem_nodes m e) (P' q) 1%Z 1%Z) with (J 1%Z q 1%Z). change (jacobian EQuad 1 (elem_nodes m e) (P' q) 1%Z 0%Z) with (J 1%Z q 0%Z).
  field. exact DP.
Qed.

Lemma residual_uniform e i k H : (0 <= e < gm_num_elems m)%Z -> (0 <= i < nfun bt p)%Z -> (0 <= k < 4)%Z ->
  (forall a b d, (0 <= a < 4)%Z -> (0 <= b < 4)%Z -> (0 <= d < 2)%Z -> Rabs (elem_nodes m e a d - elem_nodes m e b d) <= H) ->
  Rabs (dg_residual S m c e i k -
        rsum 4 (fun kk => if exposed m e kk then edge_integral bt p (p + 1) fp fw i kk * euler_flux 2 gamma u (outward m e kk) k else 0))
  <= free_stream_eps * H * (Rabs (euler_flux 2 gamma u (axis 0) k) + Rabs (euler_flux 2 gamma u (axis 1) k)).
Proof.
  intros He Hi Hk HX. unfold dg_residual.
  rewrite (rsum_ext (gm_nIF m) _ (fun f => (if (side_elem m f false =? e)%Z then (fun kk => - (edge_integral bt p (p + 1) fp fw i kk * euler_flux 2 gamma u (outward m e kk) k)) (side_face m f false) else 0) +
     (if (side_elem m f true =? e)%Z then (fun kk => - (edge_integral bt p (p + 1) fp fw i kk * euler_flux 2 gamma u (outward m e kk) k)) (side_face m f true) else 0))).
  2: { intros f Hf. now rewrite !side_uniform. }
  rewrite (sum_sides e (fun kk => - (edge_integral bt p (p + 1) fp fw i kk * euler_flux 2 gamma u (outward m e kk) k))).
  rewrite (volume_uniform e i k He Hi Hk). cbv zeta.
  set (G := fun q d => Derive (fun t => basis_fn bt p i (with_coord (P q) d t)) (P q d)).
  set (F0 := euler_flux 2 gamma u (axis 0) k). set (F1 := euler_flux 2 gamma u (axis 1) k).
  set (X := elem_nodes m e) in *.
  set (EI := edge_integral bt p (p + 1) fp fw i).
  assert (FN : forall kk, euler_flux 2 gamma u (outward m e kk) k = F0 * ((X (ccw (kk + 1)) 1%Z - X (ccw kk) 1%Z) / 2) - F1 * ((X (ccw (kk + 1)) 0%Z - X (ccw kk) 0%Z) / 2)).
  { intros kk. rewrite (euler_flux_axes 2 gamma u (outward m e kk) k) by lia. rewrite rsum_2. fold F0 F1. unfold outward. cbn [Z.eqb]. fold X. lra. }
  unfold order_ok in Op. 
  destruct (volume_rule EQuad p ltac:(split; lia)) as (x & w & GR & A). destruct (A zero2 zero1) as (P' & W' & EQ' & TR).
  destruct (face_rule EQuad p ltac:(lia) ltac:(lia) ltac:(lia)) as (x1 & w1 & fp' & fw' & GF & TF & EF'). cbv zeta in *.
  cbn [face_rule_points space_dim] in *. change (2 - 1)%Z with 1%Z in *. rewrite Z.pow_1_r in EF'. rewrite EF in EF'. injection EF' as <- <-.
  rewrite EQ in EQ'. injection EQ' as EN <- <-. rewrite EN. change (Z.pow_pos (p + 2) 2) with ((p + 2) ^ 2)%Z.
  replace (2 * (p + 1) - 1)%Z with (2 * p + 1)%Z in GF by lia.
  pose proof (metric_terms bt p BF ltac:(lia) Sup i X 0%Z nq P W x w fp fw x1 w1 H Hi GR TR GF TF ltac:(intros; apply HX; lia)) as M0.
  pose proof (metric_terms bt p BF ltac:(lia) Sup i X 1%Z nq P W x w fp fw x1 w1 H Hi GR TR GF TF ltac:(intros; apply HX; lia)) as M1.
  cbv zeta in M0, M1. fold EI in M0, M1. unfold G.
  match type of M0 with Rabs (?B - ?D) <= _ => set (B0 := B) in *; set (D0 := D) in * end.
  match type of M1 with Rabs (?B - ?D) <= _ => set (B1 := B) in *; set (D1 := D) in * end.
  match goal with |- Rabs ?z <= _ => replace z with (F0 * (B1 - D1) - F1 * (B0 - D0)) end.
  - unfold Rminus at 1. eapply Rle_trans; [apply Rabs_triang|]. rewrite Rabs_Ropp, !Rabs_mult.
    pose proof (Rabs_pos F0). pose proof (Rabs_pos F1). nra.
  - assert (SP : F0 * D1 - F1 * D0 = rsum 4 (fun kk => EI kk * euler_flux 2 gamma u (outward m e kk) k)).
    { unfold D0, D1. rewrite <- !rsum_scal, <- rsum_minus. apply rsum_ext. intros kk _. rewrite FN. ring. }
    assert (SS : rsum 4 (fun kk => EI kk * euler_flux 2 gamma u (outward m e kk) k) =
      rsum 4 (fun kk => if exposed m e kk then EI kk * euler_flux 2 gamma u (outward m e kk) k else 0) -
      rsum 4 (fun kk => if exposed m e kk then 0 else - (EI kk * euler_flux 2 gamma u (outward m e kk) k))).
    { rewrite <- rsum_minus. apply rsum_ext. intros kk _. destruct (exposed m e kk); ring. }
    fold EI. rewrite <- SP in SS. lra.
Qed.
End Sides.

(** ** C80 *)

(** The ranks hold the state [u], at every point of every element. *)
Definition everywhere (bt : basis_type) (p : Z) (pm : Z -> pmesh R) (n : Z) (u : arr1) (U : Z -> arr3) : Prop :=
  forall r le k y, (0 <= r < n)%Z -> (0 <= le < pm_num_elems_part (pm r))%Z -> (0 <= k < 4)%Z ->
    rsum (nfun bt p) (fun j => basis_fn bt p j y * U r le j k) = u k.

(** Largest difference of coordinates of two corners of element [e]. *)
Definition extent_at_most (m : gmesh R) (e : Z) (H : R) : Prop :=
  forall a b d, (0 <= a < 4)%Z -> (0 <= b < 4)%Z -> (0 <= d < 2)%Z -> Rabs (elem_nodes m e a d - elem_nodes m e b d) <= H.

(** The uniform initial condition puts this state on the ranks. *)
Theorem C80_uniform_initial : forall zero iter n m ep pm bt p h f ph t U,
  run_wf iter n m ep -> partitioned zero iter n m ep pm -> straight_quads m ->
  basis_for EQuad bt -> supported bt p -> (1 <= p <= 11)%Z ->
  all_set_up EQuad bt p 1 m pm n h f -> initialised m bt p Uniform ph t n pm h U ->
  everywhere bt p pm n (ph_IC ph) U.
Proof.
  intros zero iter n m ep pm bt p h f ph t U WF PT SQ BF Sup Hp AS IN r le k y Hr Hle Hk.
  assert (RD : ready EQuad bt p 1 m) by (constructor; auto; [lia|apply SQ|now apply convex_untangled|unfold order_ok; lia]).
  destruct (AS r Hr) as (jk & eo1 & eo2 & fo & LO & E0). destruct (IN r Hr) as (j2 & j3 & j1 & eo & po & Uc0 & Pe & Po & EI).
  destruct (volume_rule EQuad (2 * p) ltac:(split; lia)) as (x & xw & _ & A). destruct (A zero2 zero1) as (P & W & EQ & _).
  replace (Z.max p 1) with p in Po by lia.
  exact (C73_uniform_state zero iter n m ep pm EQuad bt p 1 r jk eo1 eo2 fo (h r) (f r) ph t j2 j3 j1 eo po Uc0 _ P W (U r) WF PT RD ltac:(lia) Hr LO E0 Pe EQ Po EI le k y Hle Hk).
Qed.
Print Assumptions C80_uniform_initial.

(** From an admissible uniform state the residual can be evaluated, whatever the
    work arrays contain. *)
Theorem C80_uniform_evaluates : forall zero iter n m ep pm bt p h f gamma ft ord pord junk u U w,
  run_wf iter n m ep -> partitioned zero iter n m ep pm -> faces_valid EQuad m -> faces_distinct m ->
  straight_quads m -> conforming m -> basis_for EQuad bt -> supported bt p -> order_ok p -> 1 < gamma ->
  all_set_up EQuad bt p 1 m pm n h f -> inner_loops_ok pm n ord pord ->
  admissible 2 gamma u -> everywhere bt p pm n u U ->
  exists rs w1, evaluation EQuad m ep pm n (p + 1) gamma (tables EQuad bt p pm gamma ft h f ord pord junk) U w rs w1.
Proof.
  intros zero iter n m ep pm bt p h f gamma ft ord pord junk u U w WF PT FV FD SQ CF BF Sup Op Gm AS IL AD EU.
  assert (RD : ready EQuad bt p 1 m) by (constructor; auto; [lia|apply SQ|now apply convex_untangled]).
  set (D := tables EQuad bt p pm gamma ft h f ord pord junk).
  destruct (C70_setup_consistent zero iter n m ep pm EQuad bt p 1 h f gamma ft ord pord junk WF PT RD AS IL) as (fp & fw & _ & FP & SS & _).
  pose proof (straight_normals_agree zero iter n m ep pm WF PT FV SQ CF bt p h f gamma ft ord pord junk RD AS) as NA.
  assert (E1 : (face_rule_points EQuad p ^ (space_dim EQuad - 1))%Z = (p + 1)%Z) by (cbn [face_rule_points space_dim]; change (2 - 1)%Z with 1%Z; apply Z.pow_1_r).
  rewrite E1 in *. fold D in SS, NA.
  destruct (C64_residual_well_defined R zero iter n m ep pm EQuad (p + 1) (nfun bt p) gamma ft _ fw D U (snd w) (fst w) WF PT FV FD FP Gm SS NA) as (UL & UR & v2 & rs2 & E & _ & ADS).
  - intros r e q Hr He Hq. unfold density, vol_state. destruct (ss_sizes _ _ _ _ _ _ _ _ _ _ _ SS r Hr) as (_ & _ & _ & -> & _).
    destruct (AS r Hr) as (jk & eo1 & eo2 & fo & LO & E0).
    destruct (C68_setup_geometry zero iter n m ep pm EQuad bt p 1 r jk eo1 eo2 fo WF PT RD Hr LO) as (h' & f' & x' & w' & E & _ & _ & _ & _ & V & _).
    rewrite E in E0. injection E0 as -> ->.
    rewrite (rsum_ext _ _ (fun j => basis_fn bt p j (vh_pts (h r) q) * U r e j 0%Z)).
    + rewrite EU by (assumption || lia). destruct AD as (AD & _). unfold density in AD. lra.
    + intros i Hi. f_equal. apply (V q i); assumption.
  - intros r e k q Hr He Hk Hq. cbn [space_dim]. apply (admissible_ext 2 gamma u); [now left| |exact AD].
    intros j Hj. unfold face_trace. symmetry. apply EU; [assumption|assumption|lia].
  - exists rs2, (v2, rs2), UL, UR. split; [exact E|]. split; [reflexivity|exact ADS].
Qed.
Print Assumptions C80_uniform_evaluates.

(** Its residual: what the flux of the state through the edges without neighbour
    would be, and nothing else, up to the error of the tabulated rules. *)
Theorem C80_uniform_residual : forall zero iter n m ep pm bt p h f gamma ft ord pord junk u U w rs w1,
  run_wf iter n m ep -> partitioned zero iter n m ep pm -> faces_valid EQuad m -> faces_distinct m ->
  straight_quads m -> conforming m -> basis_for EQuad bt -> supported bt p -> order_ok p -> 1 < gamma ->
  all_set_up EQuad bt p 1 m pm n h f -> inner_loops_ok pm n ord pord ->
  admissible 2 gamma u -> everywhere bt p pm n u U -> boundary_zero EQuad m pm n (p + 1) (fst w) ->
  evaluation EQuad m ep pm n (p + 1) gamma (tables EQuad bt p pm gamma ft h f ord pord junk) U w rs w1 ->
  exists fp fw, face_quadrature EQuad p = Ok ((p + 1)%Z, fp, fw) /\
  forall r le e i k H, (0 <= r < n)%Z -> rd (pm_l2g_elem (pm r)) le = Ok e -> (0 <= i < nfun bt p)%Z -> (0 <= k < 4)%Z -> extent_at_most m e H ->
    Rabs (rs r le i k -
          rsum 4 (fun kk => if exposed m e kk then edge_integral bt p (p + 1) fp fw i kk * euler_flux 2 gamma u (outward m e kk) k else 0))
    <= free_stream_eps * H * (Rabs (euler_flux 2 gamma u (axis 0) k) + Rabs (euler_flux 2 gamma u (axis 1) k)).
Proof.
  intros zero iter n m ep pm bt p h f gamma ft ord pord junk u U w rs w1 WF PT FV FD SQ CF BF Sup Op Gm AS IL AD EU BZ EV.
  destruct (gather zero iter n m ep pm U WF PT) as (c & Hc).
  assert (HU : holds_solution pm n (nfun bt p) 4 c U) by (intros r le e j k Hr He _ _; now apply Hc).
  destruct (C77_residual_is_dg zero iter n m ep pm bt p h f gamma ft ord pord junk c U w rs w1 WF PT FV FD SQ CF BF Sup Op Gm AS IL HU BZ EV)
    as (nq & P & W & fp & fw & EQ & EF & RR).
  exists fp, fw. split; [exact EF|]. intros r le e i k H Hr He Hi Hk HX.
  rewrite (RR r le e i k Hr He Hi Hk).
  apply (residual_uniform iter n m ep WF FV FD SQ CF bt p BF Op Sup gamma Gm ft nq P W fp fw EQ EF u AD c); auto.
  - intros e' k' y He' Hk'. destruct (owner_of zero iter n m ep pm e' WF PT He') as (r' & le' & Hr' & Hle').
    rewrite <- (EU r' le' k' y Hr'); [|destruct (C01_element_ownership R zero iter n m ep pm WF PT) as (_ & _ & CN & _); destruct (CN r' Hr') as (_ & ->); now apply rd_in_range in Hle'|exact Hk'].
    apply rsum_ext. intros j Hj. f_equal. symmetry. now apply Hc.
  - exact (owned_elem zero iter n m ep pm WF PT r le e Hr He).
Qed.
Print Assumptions C80_uniform_residual.

(** Free stream: in an element with a neighbour on every edge a uniform state has
    no residual (up to the error of the rules), whatever the partition, the
    numerical flux and the basis. *)
Theorem C80_free_stream : forall zero iter n m ep pm bt p h f gamma ft ord pord junk u U w rs w1,
  run_wf iter n m ep -> partitioned zero iter n m ep pm -> faces_valid EQuad m -> faces_distinct m ->
  straight_quads m -> conforming m -> basis_for EQuad bt -> supported bt p -> order_ok p -> 1 < gamma ->
  all_set_up EQuad bt p 1 m pm n h f -> inner_loops_ok pm n ord pord ->
  admissible 2 gamma u -> everywhere bt p pm n u U -> boundary_zero EQuad m pm n (p + 1) (fst w) ->
  evaluation EQuad m ep pm n (p + 1) gamma (tables EQuad bt p pm gamma ft h f ord pord junk) U w rs w1 ->
  forall r le e i k H, (0 <= r < n)%Z -> rd (pm_l2g_elem (pm r)) le = Ok e -> (0 <= i < nfun bt p)%Z -> (0 <= k < 4)%Z -> extent_at_most m e H ->
    (forall kk, (0 <= kk < 4)%Z -> exists f sd o, has_side m f sd e kk o) ->
    Rabs (rs r le i k) <= free_stream_eps * H * (Rabs (euler_flux 2 gamma u (axis 0) k) + Rabs (euler_flux 2 gamma u (axis 1) k)).
Proof.
  intros zero iter n m ep pm bt p h f gamma ft ord pord junk u U w rs w1 WF PT FV FD SQ CF BF Sup Op Gm AS IL AD EU BZ EV r le e i k H Hr He Hi Hk HX IN.
  destruct (C80_uniform_residual zero iter n m ep pm bt p h f gamma ft ord pord junk u U w rs w1 WF PT FV FD SQ CF BF Sup Op Gm AS IL AD EU BZ EV) as (fp & fw & _ & B).
  specialize (B r le e i k H Hr He Hi Hk HX). rewrite rsum_zero in B; [now rewrite Rminus_0_r in B|].
  intros kk Hkk. destruct (IN kk Hkk) as (fc & sd & o & HS).
  destruct (face_of_side iter n m ep WF (quad_scheme LagrangeQuad 0 m 2 HLLC 0 zero2 zero1 0 zero2 zero1) fc sd e kk o HS) as (Hf & Ee & Ek & _).
  assert (EX : exposed m e kk = false).
  { unfold exposed. apply negb_false_iff. apply existsb_exists. exists fc. split; [now apply In_zseq|]. unfold on_side.
    destruct sd; rewrite Ee, Ek, !Z.eqb_refl; cbn [andb]; [apply orb_true_r|reflexivity]. }
  now rewrite EX.
Qed.
Print Assumptions C80_free_stream.

(** The mesh of C71 closed periodically in both directions: every edge has a
    neighbour. *)
Definition demo_torus : gmesh R :=
  mkGMesh 2 4 9 8 4 [0;1;3;4; 1;2;4;5; 3;4;6;7; 4;5;7;8]%Z
    [[0;0];[10;0];[20;0];[0;10];[11;9];[20;10];[0;20];[10;20];[20;20]]
    [[0;1;0;1;3;1]; [2;1;0;3;3;1]; [0;2;0;2;0;1]; [1;2;0;3;0;1]; [1;1;0;0;3;1]; [3;1;0;2;3;1]; [2;2;0;0;0;1]; [3;2;0;1;0;1]]%Z.

Ltac eight e := let C := fresh in assert (C : (e = 0 \/ e = 1 \/ e = 2 \/ e = 3 \/ e = 4 \/ e = 5 \/ e = 6 \/ e = 7)%Z) by lia;
  destruct C as [-> | [-> | [-> | [-> | [-> | [-> | [-> | ->]]]]]]].

Lemma torus_run : run_wf (fun _ l => rev l) 3 demo_torus demo_ep.
Proof.
  constructor.
  - constructor; try (cbn -[IZR]; unfold UINT_MAX; lia); try reflexivity.
    + repeat constructor; cbn; lia.
    + repeat (apply Forall_cons; [reflexivity|]). apply Forall_nil.
    + repeat (apply Forall_cons; [do 6 eexists; split; [reflexivity|]; cbn; lia|]). apply Forall_nil.
  - split; [reflexivity|]. repeat constructor; cbn; lia.
  - intros r l. symmetry. apply Permutation_rev.
Qed.

Lemma torus_sides f sd e k o : has_side demo_torus f sd e k o ->
  (0 <= f < 8)%Z /\ [e; k; o] = (if sd then skipn 3 else firstn 3) (nth (Z.to_nat f) (gm_IF demo_torus) []).
Proof.
  intros (H1 & H2 & H3). unfold rd2 in *. destruct (rd (gm_IF demo_torus) f) as [row|] eqn:E; [|discriminate].
  pose proof (rd_in_range _ _ _ E) as Rg. change (zlen (gm_IF demo_torus)) with 8%Z in Rg. split; [exact Rg|].
  cbn [bind] in *. eight f; injection E as <-; destruct sd; injection H1 as <-; injection H2 as <-; injection H3 as <-; reflexivity.
Qed.

Example torus_straight : straight_quads demo_torus /\ conforming demo_torus /\ faces_valid EQuad demo_torus /\ faces_distinct demo_torus /\
  (forall e kk, (0 <= e < 4)%Z -> (0 <= kk < 4)%Z -> exists f sd o, has_side demo_torus f sd e kk o) /\
  forall e, (0 <= e < 4)%Z -> extent_at_most demo_torus e 20.
Proof.
  split; [|split; [|split; [|split; [|split]]]].
  - split; [split; reflexivity|]. intros e He k Hk. change (gm_num_elems demo_torus) with 4%Z in He. four e; four k; cbv -[IZR Rminus Rmult Rlt]; lra.
  - intros f eL kL oL eR kR oR HL HR XL XR. apply torus_sides in HL, HR. destruct HL as (Hf & HL), HR as (_ & HR). subst XL XR.
    exists (fun d => elem_nodes demo_torus eR (ccw kR) d - elem_nodes demo_torus eL (ccw (kL + 1)) d).
    eight f; injection HL as -> -> ->; injection HR as -> -> ->; intros d Hd;
      (assert (C : (d = 0 \/ d = 1)%Z) by lia); destruct C as [-> | ->]; cbv -[IZR Rplus Rminus]; lra.
  - intros f sd e k o H. apply torus_sides in H. destruct H as (Hf & H). eight f; destruct sd; injection H as -> -> ->; cbn; lia.
  - intros f sd e k o f' sd' o' H H'. apply torus_sides in H, H'. destruct H as (Hf & H), H' as (Hf' & H').
    eight f; destruct sd; cbn in H; injection H as -> -> ->; eight f'; destruct sd'; cbn in H'; try discriminate; auto.
  - intros e k He Hk.
    assert (T : forall f sd o, has_side demo_torus f sd e k o -> exists f sd o, has_side demo_torus f sd e k o) by eauto.
    four e; four k;
      first [apply (T 0%Z false 0%Z); repeat split; reflexivity|apply (T 0%Z true 1%Z); repeat split; reflexivity
            |apply (T 1%Z false 0%Z); repeat split; reflexivity|apply (T 1%Z true 1%Z); repeat split; reflexivity
            |apply (T 2%Z false 0%Z); repeat split; reflexivity|apply (T 2%Z true 1%Z); repeat split; reflexivity
            |apply (T 3%Z false 0%Z); repeat split; reflexivity|apply (T 3%Z true 1%Z); repeat split; reflexivity
            |apply (T 4%Z false 0%Z); repeat split; reflexivity|apply (T 4%Z true 1%Z); repeat split; reflexivity
            |apply (T 5%Z false 0%Z); repeat split; reflexivity|apply (T 5%Z true 1%Z); repeat split; reflexivity
            |apply (T 6%Z false 0%Z); repeat split; reflexivity|apply (T 6%Z true 1%Z); repeat split; reflexivity
            |apply (T 7%Z false 0%Z); repeat split; reflexivity|apply (T 7%Z true 1%Z); repeat split; reflexivity].
  - intros e He a b d Ha Hb Hd. assert (C : (d = 0 \/ d = 1)%Z) by lia.
    assert (B : forall i, (0 <= i < 4)%Z -> 0 <= elem_nodes demo_torus e i d <= 20).
    { intros i Hi. four e; four i; destruct C as [-> | ->]; cbv -[IZR Rle]; lra. }
    pose proof (B a Ha). pose proof (B b Hb). apply Rabs_le. lra.
Qed.

(** Any such mesh can be partitioned, set up and initialised uniformly. *)
Lemma uniform_setup iter n m ep bt p ph t : run_wf iter n m ep -> straight_quads m ->
  basis_for EQuad bt -> supported bt p -> (1 <= p <= 11)%Z ->
  exists pm h f U, partitioned 0 iter n m ep pm /\ all_set_up EQuad bt p 1 m pm n h f /\
    inner_loops_ok pm n (fun r _ => zseq (pm_num_elems_part (pm r))) (fun _ _ a b => list_prod (zseq a) (zseq b)) /\
    initialised m bt p Uniform ph t n pm h U.
Proof.
  intros WF SQ BF Sup Hp.
  assert (RD : ready EQuad bt p 1 m) by (constructor; auto; [lia|apply SQ|now apply convex_untangled|unfold order_ok; lia]).
  destruct (C05_partitioned_exists R 0 iter n m ep WF) as (pm & PT).
  exists pm.
  assert (LO : forall r, loops_ok (pm r) (zseq (pm_num_elems_part (pm r))) (zseq (pm_num_elems_part (pm r))) (zseq (pm_num_ifaces_part (pm r)))) by (intros r; repeat split; apply Permutation_refl).
  assert (SE : forall r, (0 <= r < n)%Z -> exists hf, precompute_matrix_helpers EQuad bt p 1 (pm r) r (gm_npe m) zero2
     (zseq (pm_num_elems_part (pm r))) (zseq (pm_num_elems_part (pm r))) (zseq (pm_num_ifaces_part (pm r))) = Ok hf).
  { intros r Hr. destruct (C68_setup_geometry 0 iter n m ep pm EQuad bt p 1 r zero2 _ _ _ WF PT RD Hr (LO r)) as (h & f & x & w & E & _). eauto. }
  set (G r := match precompute_matrix_helpers EQuad bt p 1 (pm r) r (gm_npe m) zero2
     (zseq (pm_num_elems_part (pm r))) (zseq (pm_num_elems_part (pm r))) (zseq (pm_num_ifaces_part (pm r))) with Ok hf => hf | _ => (vh_empty, mkFH 0 zero3 zero1 zero3 (fun _ _ => 0%Z) (fun _ _ => 0%Z) zero3) end).
  assert (AS : all_set_up EQuad bt p 1 m pm n (fun r => fst (G r)) (fun r => snd (G r))).
  { intros r Hr. exists zero2, (zseq (pm_num_elems_part (pm r))), (zseq (pm_num_elems_part (pm r))), (zseq (pm_num_ifaces_part (pm r))).
    split; [apply LO|]. destruct (SE r Hr) as ([h f] & E). unfold G. rewrite E. reflexivity. }
  exists (fun r => fst (G r)), (fun r => snd (G r)).
  set (N := ((2 * Z.max p 1 + 2) ^ 2)%Z).
  assert (IE : forall r, (0 <= r < n)%Z -> exists Uc, init_state_from_fcn EQuad bt p 1 (pm r) (gm_npe m) 4 Uniform ph t (vh_iMM (fst (G r)))
      zero2 zero3 zero1 (zseq (pm_num_elems_part (pm r))) (zseq N) zero3 = Ok Uc).
  { intros r Hr. destruct (SE r Hr) as ([h f] & E). unfold G. rewrite E. cbn [fst].
    destruct (C73_best_approximation 0 iter n m ep pm EQuad bt p 1 r zero2 _ _ _ h f Uniform ph t _
       zero2 zero3 zero1 (zseq (pm_num_elems_part (pm r))) zero3 WF PT RD ltac:(lia) Hr (LO r) E (uniform_starts 2 _ t ltac:(lia)) (Permutation_refl _))
      as (nq & P & W & EQ & _ & HH).
    assert (nq = N) as ->.
    { destruct (volume_rule EQuad (2 * p) ltac:(split; lia)) as (x & xw & _ & A). destruct (A zero2 zero1) as (P1 & W1 & EQ1 & _). rewrite EQ in EQ1.
      unfold N. replace (Z.max p 1) with p by lia. injection EQ1 as -> _ _. reflexivity. }
    destruct (HH (zseq N) (Permutation_refl _)) as (Uc & EU & _). exists Uc. exact EU. }
  exists (fun r => match init_state_from_fcn EQuad bt p 1 (pm r) (gm_npe m) 4 Uniform ph t (vh_iMM (fst (G r)))
      zero2 zero3 zero1 (zseq (pm_num_elems_part (pm r))) (zseq N) zero3 with Ok Uc => Uc | _ => zero3 end).
  split; [exact PT|]. split; [exact AS|]. split.
  - intros r Hr. split; intros; [apply Permutation_refl|]. unfold each_once. apply Permutation_refl.
  - intros r Hr. exists zero2, zero3, zero1, (zseq (pm_num_elems_part (pm r))), (zseq N), zero3.
    split; [apply Permutation_refl|]. split; [apply Permutation_refl|]. destruct (IE r Hr) as (Uc & EU). now rewrite EU.
Qed.

(** A uniform flow to the right and up on the closed mesh, on three ranks: all
    hypotheses are met, and the residual is below 10^-12. *)
Definition flowing : phys := Build_phys 2 1 (fun k => if (k =? 0)%Z then 1 else if (k =? 3)%Z then 5 else 1).

Example C80_demo : exists pm h f U rs w1,
  let ord := fun (r : Z) (_ : nat) => zseq (pm_num_elems_part (pm r)) in
  let pord := fun (_ : Z) (_ : nat) a b => list_prod (zseq a) (zseq b) in
  let w := ((fun _ : Z => mkRV zero3 zero3 zero3 zero3 zero3), fun _ : Z => zero3) in
  partitioned 0 (fun _ l => rev l) 3 demo_torus demo_ep pm /\ all_set_up EQuad LagrangeQuad 2 1 demo_torus pm 3 h f /\ inner_loops_ok pm 3 ord pord /\
  initialised demo_torus LagrangeQuad 2 Uniform flowing 0 3 pm h U /\
  admissible 2 2 (ph_IC flowing) /\ everywhere LagrangeQuad 2 pm 3 (ph_IC flowing) U /\
  boundary_zero EQuad demo_torus pm 3 3 (fst w) /\
  evaluation EQuad demo_torus demo_ep pm 3 3 2 (tables EQuad LagrangeQuad 2 pm 2 HLLC h f ord pord (fun _ => zero1)) U w rs w1 /\
  forall r le e i k, (0 <= r < 3)%Z -> rd (pm_l2g_elem (pm r)) le = Ok e -> (0 <= i < 9)%Z -> (0 <= k < 4)%Z -> Rabs (rs r le i k) <= 1 / 10 ^ 12.
Proof.
  destruct torus_straight as (SQ & CF & FV & FD & NB & EX).
  destruct (uniform_setup (fun _ l => rev l) 3 demo_torus demo_ep LagrangeQuad 2 flowing 0 torus_run SQ ltac:(now left) ltac:(now left) ltac:(lia)) as (pm & h & f & U & PT & AS & IL & IN).
  pose proof (C80_uniform_initial 0 (fun _ l => rev l) 3 demo_torus demo_ep pm LagrangeQuad 2 h f flowing 0 U torus_run PT SQ ltac:(now left) ltac:(now left) ltac:(lia) AS IN) as EU.
  assert (AD : admissible 2 2 (ph_IC flowing)).
  { unfold admissible, pressure, density, energy, vdot, velocity, momentum. rewrite rsum_2. unfold density. cbn. lra. }
  assert (Op : order_ok 2) by (unfold order_ok; lia).
  set (w := ((fun _ : Z => mkRV zero3 zero3 zero3 zero3 zero3), fun _ : Z => zero3)).
  destruct (C80_uniform_evaluates 0 (fun _ l => rev l) 3 demo_torus demo_ep pm LagrangeQuad 2 h f 2 HLLC _ _ (fun _ => zero1) (ph_IC flowing) U w
    torus_run PT FV FD SQ CF ltac:(now left) ltac:(now left) Op ltac:(lra) AS IL AD EU) as (rs & w1 & EV).
  assert (BZ : boundary_zero EQuad demo_torus pm 3 3 (fst w)) by (intros r le pos k Hr _; reflexivity).
  exists pm, h, f, U, rs, w1. cbv zeta. split; [exact PT|]. split; [exact AS|]. split; [exact IL|]. split; [exact IN|]. split; [exact AD|]. split; [exact EU|].
  split; [exact BZ|]. split; [exact EV|]. intros r le e i k Hr He Hi Hk.
  pose proof (owned_elem 0 (fun _ l => rev l) 3 demo_torus demo_ep pm torus_run PT r le e Hr He) as Re. change (gm_num_elems demo_torus) with 4%Z in Re.
  pose proof (C80_free_stream 0 (fun _ l => rev l) 3 demo_torus demo_ep pm LagrangeQuad 2 h f 2 HLLC _ _ (fun _ => zero1) (ph_IC flowing) U w rs w1
    torus_run PT FV FD SQ CF ltac:(now left) ltac:(now left) Op ltac:(lra) AS IL AD EU BZ EV r le e i k 20 Hr He Hi Hk (EX e Re) (fun kk Hkk => NB e kk Re Hkk)) as B.
  eapply Rle_trans; [exact B|]. unfold free_stream_eps.
  assert (FB : forall d, (0 <= d < 2)%Z -> Rabs (euler_flux 2 2 (ph_IC flowing) (axis d) k) <= 9).
  { intros d Hd. assert (C : (d = 0 \/ d = 1)%Z) by lia. apply Rabs_le. unfold euler_flux, pressure, density, energy, vdot, velocity, momentum, density.
    destruct C as [-> | ->]; four k; rewrite !rsum_2; cbn -[IZR]; lra. }
  pose proof (FB 0%Z ltac:(lia)). pose proof (FB 1%Z ltac:(lia)). nra.
Qed.

(** ** Where the property fails *)

Lemma edge_total bt p fp fw kk : (0 <= p)%Z -> supported bt p ->
  rsum (nfun bt p) (fun i => ones bt i * edge_integral bt p (p + 1) fp fw i kk) = rsum (p + 1) fw.
Proof.
  intros Hp Sup. unfold edge_integral.
  rewrite (rsum_ext _ _ (fun i => rsum (p + 1) (fun q => fw q * (ones bt i * basis_fn bt p i (face_at EQuad kk (fp q)))))) by (intros i _; rewrite <- rsum_scal; apply rsum_ext; intros; ring).
  rewrite rsum_swap. apply rsum_ext. intros q _. rewrite rsum_scal, ones_sum by assumption. ring.
Qed.

(** The faces without neighbour get no flux at all: gas at rest in a box starts
    to move.  (One forward Euler step of the second order scheme on the mesh of
    C71, three ranks.) *)
Theorem C80_boundary_refuted : exists pm h U U',
  partitioned 0 (fun _ l => rev l) 3 demo_rmesh demo_ep pm /\
  initialised demo_rmesh LagrangeQuad 2 Uniform demo_phys 0 3 pm h U /\
  run_from demo_rmesh LagrangeQuad 2 2 HLLC [(ForwardEuler, 1 / 10)] 3 pm h U U' /\
  admissible 2 2 (ph_IC demo_phys) /\ ph_IC demo_phys 1%Z = 0 /\ ph_IC demo_phys 2%Z = 0 /\ everywhere LagrangeQuad 2 pm 3 (ph_IC demo_phys) U /\
  exists r le y, (0 <= r < 3)%Z /\ (0 <= le < pm_num_elems_part (pm r))%Z /\
    rsum 9 (fun j => basis_fn LagrangeQuad 2 j y * U' r le j 1%Z) <> 0.
Proof.
  destruct demo_straight as (SQ & CF & FV & FD).
  destruct (demo_runs _ 3 demo_ep demo_rrun) as (pm & h & U & U' & PT & IN & RF). pose proof RF as RF0.
  destruct RF as (iter' & ep' & f & ord & pord & junk & w & w' & WF & PT' & AS & IL & FT & BZ & MA).
  pose proof (C80_uniform_initial 0 iter' 3 demo_rmesh ep' pm LagrangeQuad 2 h f demo_phys 0 U WF PT' SQ ltac:(now left) ltac:(now left) ltac:(lia) AS IN) as EU.
  exists pm, h, U, U'. split; [exact PT|]. split; [exact IN|]. split; [exact RF0|].
  assert (AD : admissible 2 2 (ph_IC demo_phys)).
  { unfold admissible, pressure, density, energy, vdot, velocity, momentum. rewrite rsum_2. unfold density. cbn. lra. }
  split; [exact AD|]. split; [reflexivity|]. split; [reflexivity|]. split; [exact EU|].
  assert (Op : order_ok 2) by (unfold order_ok; lia).
  assert (RD : ready EQuad LagrangeQuad 2 1 demo_rmesh) by (constructor; [lia|apply SQ|now apply convex_untangled|now left|exact Op|now left]).
  destruct (gather 0 iter' 3 demo_rmesh ep' pm U WF PT') as (c & Hc).
  destruct (gather 0 iter' 3 demo_rmesh ep' pm (fun r => vh_iMM (h r)) WF PT') as (iM & HiM).
  assert (HU : holds_solution pm 3 (nfun LagrangeQuad 2) 4 c U) by (intros r le e j k Hr He _ _; now apply Hc).
  destruct (C78_run_is_dg 0 iter' 3 demo_rmesh ep' pm LagrangeQuad 2 h f 2 HLLC ord pord junk _ c U w U' w' WF PT' FV FD SQ CF ltac:(now left) ltac:(now left) Op ltac:(lra) AS IL FT HU BZ MA)
    as (nq & P & W & fp & fw & nq2 & P2 & W2 & EQ & EF & EQ2 & RR).
  assert (HI : forall e, (0 <= e < gm_num_elems demo_rmesh)%Z -> inverse_of (nfun LagrangeQuad 2) (mass_matrix LagrangeQuad 2 demo_rmesh nq2 P2 W2 e) (iM e)).
  { intros e He. destruct (owner_of 0 iter' 3 demo_rmesh ep' pm e WF PT' He) as (r & le & Hr & Hle).
    destruct (AS r Hr) as (jk & eo1 & eo2 & fo & LO & E0).
    destruct (C69_inverse_mass_matrices 0 iter' 3 demo_rmesh ep' pm EQuad LagrangeQuad 2 1 r jk eo1 eo2 fo (h r) (f r) WF PT' RD Hr LO E0) as (nq' & P' & W' & EQ' & Inv).
    rewrite EQ2 in EQ'. injection EQ' as <- <- <-. specialize (Inv le e Hle).
    intros i j Hi Hj. destruct (Inv i j Hi Hj) as (I1 & I2). split.
    - rewrite <- I1. apply rsum_ext. intros a Ha. f_equal. symmetry. now apply HiM.
    - rewrite <- I2. apply rsum_ext. intros a Ha. f_equal. symmetry. now apply HiM. }
  specialize (RR iM HI). change (nfun LagrangeQuad 2) with 9%Z in *.
  destruct (owner_of 0 iter' 3 demo_rmesh ep' pm 0 WF PT' ltac:(cbn; lia)) as (r & le & Hr & Hle).
  assert (Hle' : (0 <= le < pm_num_elems_part (pm r))%Z).
  { destruct (C01_element_ownership R 0 iter' 3 demo_rmesh ep' pm WF PT') as (_ & _ & CN & _). destruct (CN r Hr) as (_ & ->). now apply rd_in_range in Hle. }
  set (S := quad_scheme LagrangeQuad 2 demo_rmesh 2 HLLC nq P W (2 + 1) fp fw) in *.
  set (res := fun i => dg_residual S demo_rmesh c 0%Z i 1%Z).
  destruct (volume_rule EQuad (2 * 2) ltac:(split; lia)) as (x & xw & GX & A). destruct (A zero2 zero1) as (P3 & W3 & _ & TR).
  change (2 * 2 + 2)%Z with 6%Z in *. cbn [space_dim] in TR.
  pose proof (unisolvent LagrangeQuad 2 6 x P3) as UNI. change (dim LagrangeQuad) with 2%Z in UNI. change (nfun LagrangeQuad 2) with 9%Z in UNI.
  assert (DF : different 6 x) by (eapply good_rule_diff; exact GX).
  assert (PX : forall q d, (0 <= q < 6 ^ 2)%Z -> (0 <= d < 2)%Z -> P3 q d = x (digit 6 d q)) by (intros q d Hq Hd; now apply (TR q Hq)).
  (* if the gas stayed at rest, the residual of the x momentum of element 0 would vanish *)
  assert (NZ : ~ (forall i, (0 <= i < 9)%Z -> res i = 0)).
  { intros Z0.
    assert (UF : uniform LagrangeQuad 2 demo_rmesh (ph_IC demo_phys) c).
    { intros e' k' y He' Hk'. destruct (owner_of 0 iter' 3 demo_rmesh ep' pm e' WF PT' He') as (r' & le' & Hr' & Hle2).
      rewrite <- (EU r' le' k' y Hr'); [|destruct (C01_element_ownership R 0 iter' 3 demo_rmesh ep' pm WF PT') as (_ & _ & CN & _); destruct (CN r' Hr') as (_ & ->); now apply rd_in_range in Hle2|exact Hk'].
      apply rsum_ext. intros j Hj. f_equal. symmetry. now apply Hc. }
    assert (EX : extent_at_most demo_rmesh 0 20).
    { intros a b d Ha Hb Hd. assert (C : (d = 0 \/ d = 1)%Z) by lia.
      assert (B : forall i, (0 <= i < 4)%Z -> 0 <= elem_nodes demo_rmesh 0 i d <= 20) by (intros i Hi; four i; destruct C as [-> | ->]; cbv -[IZR Rle]; lra).
      pose proof (B a Ha). pose proof (B b Hb). apply Rabs_le. lra. }
    assert (BD : forall i, (0 <= i < 9)%Z -> Rabs (edge_integral LagrangeQuad 2 (2 + 1) fp fw i 3 * (-25)) <= 1 / 10 ^ 12).
    { intros i Hi.
      pose proof (residual_uniform iter' 3 demo_rmesh ep' WF FV FD SQ CF LagrangeQuad 2 ltac:(now left) Op ltac:(now left) 2 ltac:(lra) HLLC nq P W fp fw EQ EF
        (ph_IC demo_phys) AD c UF 0%Z i 1%Z 20 ltac:(cbn; lia) Hi ltac:(lia) EX) as B. fold S in B.
      change (dg_residual S demo_rmesh c 0 i 1) with (res i) in B. rewrite (Z0 i Hi), rsum_4 in B.
      change (exposed demo_rmesh 0 0) with true in B. change (exposed demo_rmesh 0 1) with false in B.
      change (exposed demo_rmesh 0 2) with false in B. change (exposed demo_rmesh 0 3) with true in B. cbv iota in B.
      assert (FX : forall N, euler_flux 2 2 (ph_IC demo_phys) N 1 = 5 * N 0%Z).
      { intros N. unfold euler_flux, pressure, density, energy, vdot, velocity, momentum, density. rewrite !rsum_2. cbn -[IZR]. field. }
      rewrite !FX in B. unfold axis in B. change (0 =? 0)%Z with true in B. change (0 =? 1)%Z with false in B. cbv iota in B.
      assert (N0 : outward demo_rmesh 0 0 0%Z = 0) by (cbv -[IZR Rminus Rdiv]; lra).
      assert (N3 : outward demo_rmesh 0 3 0%Z = -5) by (cbv -[IZR Rminus Rdiv]; lra).
      rewrite N0, N3 in B.
      replace (edge_integral LagrangeQuad 2 (2 + 1) fp fw i 3 * -25) with (- (0 - (edge_integral LagrangeQuad 2 (2 + 1) fp fw i 0 * (5 * 0) + 0 + 0 + edge_integral LagrangeQuad 2 (2 + 1) fp fw i 3 * (5 * -5)))) by ring.
      rewrite Rabs_Ropp. eapply Rle_trans; [exact B|]. unfold free_stream_eps. rewrite (Rabs_pos_eq (5 * 1)), (Rabs_pos_eq (5 * 0)) by lra. lra. }
    pose proof (edge_total LagrangeQuad 2 fp fw 3 ltac:(lia) ltac:(now left)) as ET. change (nfun LagrangeQuad 2) with 9%Z in ET.
    destruct (face_rule EQuad 2 ltac:(lia) ltac:(lia) ltac:(lia)) as (x1 & w1 & fp' & fw' & GF & TF & EF'). cbv zeta in *.
    rewrite EF in EF'. injection EF' as <- <-.
    assert (SW : 1 <= rsum (2 + 1) fw).
    { pose proof (rule_error _ _ _ x1 w1 1 1 (fun _ => 1) 2 GF ltac:(lra)) as RE.
      assert (S1 : sized 1 1 (fun _ => 1)) by (rewrite <- (Rabs_pos_eq 1) at 1 by lra; apply sized_const; lia).
      assert (I1 : is_RInt (fun _ : R => 1) (-1) 1 2) by (replace 2 with (scal (1 - -1) 1) by (cbn; unfold mult; cbn; ring); apply (is_RInt_const (V := R_NormedModule))).
      specialize (RE S1 ltac:(cbn; lia) I1).
      assert (SF : rsum (2 + 1) fw = rsum (face_rule_points EQuad 2) (fun i => w1 i * 1)).
      { apply rsum_ext. intros q Hq. destruct (TF q ltac:(cbn in *; lia)) as (_ & T). rewrite T. change (space_dim EQuad - 1)%Z with 1%Z.
        change (face_rule_points EQuad 2) with 3%Z. rewrite rprod_1, digit0, Z.mod_small by (cbn in *; lia). ring. }
      assert (RE1 : Rabs (rsum (2 + 1) fw - 2) <= / 10 ^ 30 * 1) by (rewrite SF; exact RE). apply Rabs_le_between in RE1. lra. }
    assert (Rabs (rsum 9 (fun i => ones LagrangeQuad i * edge_integral LagrangeQuad 2 (2 + 1) fp fw i 3)) <= rsum 9 (fun _ => 1 / 10 ^ 12)).
    { eapply Rle_trans; [apply rsum_Rabs|]. apply rsum_le. intros i Hi. specialize (BD i Hi). cbn [ones is_lagrange]. rewrite Rabs_mult in BD. rewrite Rmult_1_l.
      rewrite (Rabs_left (-25)) in BD by lra. pose proof (Rabs_pos (edge_integral LagrangeQuad 2 (2 + 1) fp fw i 3)). lra. }
    rewrite ET in H. rewrite Rabs_pos_eq in H by lra. rewrite (rsum_ext 9 _ (fun _ => 1 / 10 ^ 12 * 1)) in H by (intros; ring). rewrite rsum_scal in H.
    assert (rsum 9 (fun _ => 1) = 9) by (unfold rsum, lsum; change (zseq 9) with [0;1;2;3;4;5;6;7;8]%Z; cbn [fold_right map]; lra). lra. }
  (* so some coefficient of the x momentum changes *)
  destruct (classic (exists y, rsum 9 (fun j => basis_fn LagrangeQuad 2 j y * U' r le j 1%Z) <> 0)) as [(y & Y)|NY]; [exists r, le, y; auto|].
  exfalso. apply NZ. intros i Hi.
  assert (U0 : forall j, (0 <= j < 9)%Z -> U r le j 1%Z = 0).
  { apply (UNI (fun j => U r le j 1%Z)); [lia|now left|exact DF|exact PX|]. intros q Hq. exact (EU r le 1%Z (P3 q) Hr Hle' ltac:(lia)). }
  assert (U1 : forall j, (0 <= j < 9)%Z -> U' r le j 1%Z = 0).
  { apply (UNI (fun j => U' r le j 1%Z)); [lia|now left|exact DF|exact PX|]. intros q Hq. apply NNPP. intros C. apply NY. eauto. }
  assert (RT : forall j, (0 <= j < 9)%Z -> rsum 9 (fun b => iM 0%Z j b * res b) = 0).
  { intros j Hj. pose proof (RR r le 0%Z j 1%Z Hr Hle Hj ltac:(lia)) as E. rewrite U1 in E by exact Hj.
    cbn [dg_march fold_left dg_step fst snd] in E. unfold shift, dg_rate in E. rewrite <- (Hc r le 0%Z j 1%Z Hr Hle), U0 in E by exact Hj.
    change (sc_nb S) with 9%Z in E. unfold res. lra. }
  transitivity (rsum 9 (fun b => (if (i =? b)%Z then 1 else 0) * res b)).
  { rewrite (rsum_ext 9 _ (fun b => if (b =? i)%Z then res b else 0)); [now rewrite rsum_delta|]. intros b _. rewrite Z.eqb_sym. destruct (b =? i)%Z; ring. }
  transitivity (rsum 9 (fun j => mass_matrix LagrangeQuad 2 demo_rmesh nq2 P2 W2 0 i j * rsum 9 (fun b => iM 0%Z j b * res b))).
  - rewrite (rsum_ext 9 (fun j => _ * rsum 9 _) (fun j => rsum 9 (fun b => mass_matrix LagrangeQuad 2 demo_rmesh nq2 P2 W2 0 i j * iM 0%Z j b * res b))) by (intros j _; rewrite <- rsum_scal; apply rsum_ext; intros; ring).
    rewrite rsum_swap. apply rsum_ext. intros b Hb. rewrite rsum_scal_r. f_equal. symmetry. apply (HI 0%Z ltac:(cbn; lia) i b Hi Hb).
  - apply rsum_zero. intros j Hj. rewrite RT by exact Hj. ring.
Qed.
Print Assumptions C80_boundary_refuted.
