(** PropHexFreeDemo.v -- the hypotheses of C92 are met: uniform flow through two
    oblique cells, closed periodically in all directions, on two ranks. *)
From Coq Require Import ZArith List Lia Reals Lra Bool Permutation.
From Coquelicot Require Import Coquelicot.
From Verif Require Import Base RBase LinAlgModel LinAlgProof PropLinAlg QuadModel QuadProof PropQuad BasisModel BasisProof PropBasis PropSolver PropNormals.
From Verif Require Import ShapeModel ShapeProof PropShape MeshModel MeshSpec MeshProof PropMesh PhysModel PhysSpec PhysProof PropPhys SolverModel SolverSpec SolverProof SolverMesh.
From Verif Require Import StepModel StepProof PropStep PropConserve PropResidual PropIntegral.
From Verif Require CommProof.
From Verif Require Import SetupModel SetupSpec MassProof SetupProof SetupPass SetupFaces PropSetup PropVortex PropMeshRun PropInit PropPost DGSpec DGProof PropDG PolySize PropHex PropFree PropHexFree.
From Verif Require PropTotal.
Import ListNotations.
Local Open Scope R_scope.
Open Scope res_scope.

(** Cells spanned by (2,0,0), (1,2,0), (0,1,2). *)
Definition hex_torus : gmesh R :=
  mkGMesh 3 2 12 6 8 [0;1;3;4;6;7;9;10; 1;2;4;5;7;8;10;11]%Z
    [[0;0;0];[2;0;0];[4;0;0]; [1;2;0];[3;2;0];[5;2;0]; [0;1;2];[2;1;2];[4;1;2]; [1;3;2];[3;3;2];[5;3;2]]
    [[0;2;0;1;4;5]; [1;2;0;0;4;5]; [0;3;0;0;1;5]; [1;3;0;1;1;5]; [0;5;0;0;0;4]; [1;5;0;1;0;4]]%Z.

Lemma torus3_place e y d : (0 <= e < 2)%Z -> (0 <= d < 3)%Z ->
  place EHex 1 (elem_nodes hex_torus e) y d = vec3 (2 * IZR e + (1 + y 0%Z) + (1 + y 1%Z) / 2) ((1 + y 1%Z) + (1 + y 2%Z) / 2) (1 + y 2%Z) d.
Proof.
  intros He Hd. rewrite place_trilinear. assert (Ce : (e = 0 \/ e = 1)%Z) by lia. assert (Cd : (d = 0 \/ d = 1 \/ d = 2)%Z) by lia.
  generalize (y 0%Z) (y 1%Z) (y 2%Z). intros u v w.
  destruct Ce as [-> | ->], Cd as [-> | [-> | ->]]; cbv [vec3 elem_nodes hex_torus gm_eind gm_npe gm_coord rd2 rd bind Z.add Z.mul Z.eqb Pos.eqb Pos.add Pos.mul Pos.succ
     nth_error Z.ltb Z.leb Z.compare Pos.compare Pos.compare_cont Z.to_nat Pos.to_nat Pos.iter_op Nat.add]; field.
Qed.

Lemma torus3_surface e k s t d : (0 <= e < 2)%Z -> (0 <= d < 3)%Z -> let y := hex_face k s t in
  face_surface hex_torus e k s t d = vec3 (2 * IZR e + (1 + y 0%Z) + (1 + y 1%Z) / 2) ((1 + y 1%Z) + (1 + y 2%Z) / 2) (1 + y 2%Z) d.
Proof. intros He Hd y. unfold face_surface. now rewrite torus3_place. Qed.

Ltac six e := let C := fresh in assert (C : (e = 0 \/ e = 1 \/ e = 2 \/ e = 3 \/ e = 4 \/ e = 5)%Z) by lia;
  destruct C as [-> | [-> | [-> | [-> | [-> | ->]]]]].
Ltac two e := let C := fresh in assert (C : (e = 0 \/ e = 1)%Z) by lia; destruct C as [-> | ->].
Ltac three e := let C := fresh in assert (C : (e = 0 \/ e = 1 \/ e = 2)%Z) by lia; destruct C as [-> | [-> | ->]].

Lemma torus3_flat e : (0 <= e < 2)%Z -> flat_element hex_torus e.
Proof.
  intros He k Hk. set (T := face_surface hex_torus e k).
  exists (T 0 0), (fun d => T 1 0 d - T 0 0 d), (fun d => T 0 1 d - T 0 0 d). split.
  - intros s t d Hd. unfold T. rewrite !torus3_surface by assumption. cbv zeta. unfold hex_face, vec3. six k; three d; cbn [Z.eqb Pos.eqb]; field.
  - assert (NZ : vprod (fun d => T 1 0 d - T 0 0 d) (fun d => T 0 1 d - T 0 0 d) (match k with 0 | 5 => 2 | 1 | 3 => 1 | _ => 0 end)%Z <> 0).
    { unfold T, vprod. rewrite !torus3_surface by lia. cbv zeta. unfold hex_face, vec3. six k; cbn [Z.eqb Pos.eqb]; lra. }
    eexists. split; [|exact NZ]. six k; lia.
Qed.

Lemma torus3_sides f sd e k o : has_side hex_torus f sd e k o ->
  (0 <= f < 6)%Z /\ [e; k; o] = (if sd then skipn 3 else firstn 3) (nth (Z.to_nat f) (gm_IF hex_torus) []).
Proof.
  intros (H1 & H2 & H3). unfold rd2 in *. destruct (rd (gm_IF hex_torus) f) as [row|] eqn:E; [|discriminate].
  pose proof (rd_in_range _ _ _ E) as Rg. change (zlen (gm_IF hex_torus)) with 6%Z in Rg. split; [exact Rg|].
  cbn [bind] in *. six f; injection E as <-; destruct sd; injection H1 as <-; injection H2 as <-; injection H3 as <-; reflexivity.
Qed.

Lemma torus3_run : run_wf (fun _ l => rev l) 2 hex_torus [1; 0]%Z.
Proof.
  constructor.
  - constructor; try (cbn -[IZR]; unfold UINT_MAX; lia); try reflexivity.
    + repeat constructor; cbn; lia.
    + repeat (apply Forall_cons; [reflexivity|]). apply Forall_nil.
    + repeat (apply Forall_cons; [do 6 eexists; split; [reflexivity|]; cbn; lia|]). apply Forall_nil.
  - split; [reflexivity|]. repeat constructor; cbn; lia.
  - intros r l. symmetry. apply Permutation_rev.
Qed.

Lemma torus3_ok : flat_hexes hex_torus /\ conforming_hexes hex_torus /\ faces_valid EHex hex_torus /\ faces_distinct hex_torus /\
  forall e kk, (0 <= e < 2)%Z -> (0 <= kk < 6)%Z -> exists f sd o, has_side hex_torus f sd e kk o.
Proof.
  split; [|split; [|split; [|split]]].
  - split; [split; reflexivity|]. split.
    + intros e y He _. change (gm_num_elems hex_torus) with 2%Z in He. unfold jac_det, small_det. cbn [space_dim Z.eqb Pos.eqb].
      unfold det3, minor2. rewrite !(flat_jacobian hex_torus e (torus3_flat e He)) by lia. unfold half_edge. cbn [Z.eqb Pos.eqb]. two e; cbv -[IZR Rplus Rminus Rmult Rdiv Rlt]; lra.
    + intros f sd e k o H. pose proof (torus3_sides _ _ _ _ _ H) as (Hf & E). six f; destruct sd; injection E as -> -> ->; apply torus3_flat; lia.
  - intros f eL kL oL eR kR oR HL HR. apply torus3_sides in HL, HR. destruct HL as (Hf & HL), HR as (_ & HR).
    exists (if (f <? 4)%Z then 5 else 4)%Z, (fun d => face_surface hex_torus eR kR 0 0 d - face_surface hex_torus eL kL 0 0 d).
    split; [destruct (f <? 4)%Z; lia|]. intros s t d Hd.
    destruct (hex_turn_table s t) as (_ & _ & _ & _ & T4 & T5 & _).
    assert (RE : (0 <= eL < 2)%Z /\ (0 <= eR < 2)%Z) by (six f; injection HL as -> -> ->; injection HR as -> -> ->; lia). destruct RE as (R1 & R2).
    six f; injection HL as -> -> ->; injection HR as -> -> ->; cbn [Z.ltb Z.compare Pos.compare Pos.compare_cont]; rewrite ?T4, ?T5;
      rewrite !torus3_surface by assumption; cbv zeta; unfold hex_face, vec3; three d; cbn [Z.eqb Pos.eqb]; field.
  - intros f sd e k o H. apply torus3_sides in H. destruct H as (Hf & H). six f; destruct sd; injection H as -> -> ->; cbn; lia.
  - intros f sd e k o f' sd' o' H H'. apply torus3_sides in H, H'. destruct H as (Hf & H), H' as (Hf' & H').
    six f; destruct sd; cbn in H; injection H as -> -> ->; six f'; destruct sd'; cbn in H'; try discriminate; auto.
  - intros e k He Hk.
    assert (T : forall f sd o, has_side hex_torus f sd e k o -> exists f sd o, has_side hex_torus f sd e k o) by eauto.
    two e; six k;
      first [apply (T 0%Z false 0%Z); repeat split; reflexivity|apply (T 0%Z true 5%Z); repeat split; reflexivity
            |apply (T 1%Z false 0%Z); repeat split; reflexivity|apply (T 1%Z true 5%Z); repeat split; reflexivity
            |apply (T 2%Z false 0%Z); repeat split; reflexivity|apply (T 2%Z true 5%Z); repeat split; reflexivity
            |apply (T 3%Z false 0%Z); repeat split; reflexivity|apply (T 3%Z true 5%Z); repeat split; reflexivity
            |apply (T 4%Z false 0%Z); repeat split; reflexivity|apply (T 4%Z true 4%Z); repeat split; reflexivity
            |apply (T 5%Z false 0%Z); repeat split; reflexivity|apply (T 5%Z true 4%Z); repeat split; reflexivity].
Qed.

(** Oblique flow, order 2: the residual is below 10^-19. *)
Definition oblique : phys := Build_phys 2 1 (fun k => if (k =? 4)%Z then 5 else 1).

Example C92_demo : exists pm h f U rs w1,
  let ord := fun (r : Z) (_ : nat) => zseq (pm_num_elems_part (pm r)) in
  let pord := fun (_ : Z) (_ : nat) a b => list_prod (zseq a) (zseq b) in
  let w := ((fun _ : Z => mkRV zero3 zero3 zero3 zero3 zero3), fun _ : Z => zero3) in
  partitioned 0 (fun _ l => rev l) 2 hex_torus [1; 0]%Z pm /\ all_set_up EHex LagrangeHex 2 1 hex_torus pm 2 h f /\ inner_loops_ok pm 2 ord pord /\
  hexes_initialised hex_torus LagrangeHex 2 Uniform oblique 0 2 pm h U /\
  admissible 3 2 (ph_IC oblique) /\ everywhere3 LagrangeHex 2 pm 2 (ph_IC oblique) U /\
  boundary_zero EHex hex_torus pm 2 16 (fst w) /\
  evaluation EHex hex_torus [1; 0]%Z pm 2 16 2 (tables EHex LagrangeHex 2 pm 2 HLLC h f ord pord (fun _ => zero1)) U w rs w1 /\
  forall r le e i k, (0 <= r < 2)%Z -> rd (pm_l2g_elem (pm r)) le = Ok e -> (0 <= i < 27)%Z -> (0 <= k < 5)%Z -> Rabs (rs r le i k) <= 1 / 10 ^ 19.
Proof.
  destruct torus3_ok as (FH & CF & FV & FD & NB).
  assert (Op : order_ok 2) by (unfold order_ok; lia).
  assert (RD : ready EHex LagrangeHex 2 1 hex_torus) by (constructor; [lia|apply FH|apply FH|now left|exact Op|now left]).
  destruct (C05_partitioned_exists R 0 (fun _ l => rev l) 2 hex_torus [1; 0]%Z torus3_run) as (pm & PT).
  destruct (PropTotal.setup_exists _ 2 hex_torus _ pm EHex LagrangeHex 2 torus3_run PT RD) as (h & f & AS).
  destruct (PropTotal.init_exists _ 2 hex_torus _ pm EHex LagrangeHex 2 h f Uniform oblique _ torus3_run PT RD AS (uniform_starts 3 oblique 0 ltac:(lia))) as (U & IN0).
  assert (IN : hexes_initialised hex_torus LagrangeHex 2 Uniform oblique 0 2 pm h U) by exact IN0.
  assert (IL : inner_loops_ok pm 2 (fun r _ => zseq (pm_num_elems_part (pm r))) (fun _ _ a b => list_prod (zseq a) (zseq b))).
  { intros r Hr. split; intros; [apply Permutation_refl|]. unfold each_once. apply Permutation_refl. }
  pose proof (C92_uniform_initial 0 _ 2 hex_torus _ pm LagrangeHex 2 h f oblique 0 U torus3_run PT FH ltac:(now left) ltac:(now left) ltac:(lia) AS IN) as EU.
  assert (AD : admissible 3 2 (ph_IC oblique)).
  { unfold admissible, pressure, density, energy, vdot, velocity, momentum. rewrite rsum_3. unfold density. cbn. lra. }
  set (w := ((fun _ : Z => mkRV zero3 zero3 zero3 zero3 zero3), fun _ : Z => zero3)).
  destruct (C92_uniform_evaluates 0 _ 2 hex_torus _ pm LagrangeHex 2 h f 2 HLLC _ _ (fun _ => zero1) (ph_IC oblique) U w
    torus3_run PT FV FD FH CF ltac:(now left) ltac:(now left) Op ltac:(lra) AS IL AD EU) as (rs & w1 & EV).
  assert (BZ : boundary_zero EHex hex_torus pm 2 16 (fst w)) by (intros r le pos k Hr _; reflexivity).
  exists pm, h, f, U, rs, w1. cbv zeta. split; [exact PT|]. split; [exact AS|]. split; [exact IL|]. split; [exact IN|]. split; [exact AD|]. split; [exact EU|].
  split; [exact BZ|]. split; [exact EV|]. intros r le e i k Hr He Hi Hk.
  pose proof (owned_elem 0 _ 2 hex_torus _ pm torus3_run PT r le e Hr He) as Re. change (gm_num_elems hex_torus) with 2%Z in Re.
  pose proof (C92_free_stream 0 _ 2 hex_torus _ pm LagrangeHex 2 h f 2 HLLC _ _ (fun _ => zero1) (ph_IC oblique) U w rs w1
    torus3_run PT FV FD FH CF ltac:(now left) ltac:(now left) Op ltac:(lra) AS IL AD EU BZ EV r le e i k Hr He Hi Hk (fun kk Hkk => NB e kk Re Hkk)) as B.
  eapply Rle_trans; [exact B|].
  assert (FB : forall kk, (0 <= kk < 6)%Z -> Rabs (euler_flux 3 2 (ph_IC oblique) (face_vector hex_torus e kk) k) <= 100).
  { intros kk Hkk.
    assert (FN : forall d, (0 <= d < 3)%Z -> -2 <= face_vector hex_torus e kk d <= 2).
    { intros d Hd. unfold face_vector, vprod. rewrite !torus3_surface by lia. cbv zeta. unfold hex_face, vec3. generalize (IZR e). intros ie. six kk; three d; cbn [Z.eqb Pos.eqb]; lra. }
    pose proof (FN 0%Z ltac:(lia)) as N0. pose proof (FN 1%Z ltac:(lia)) as N1. pose proof (FN 2%Z ltac:(lia)) as N2. revert N0 N1 N2. generalize (face_vector hex_torus e kk). intros N N0 N1 N2.
    apply Rabs_le. unfold euler_flux, pressure, density, energy, vdot, velocity, momentum, density. rewrite !rsum_3. unfold oblique, ph_IC.
    assert (C : (k = 0 \/ k = 1 \/ k = 2 \/ k = 3 \/ k = 4)%Z) by lia. destruct C as [-> | [-> | [-> | [-> | ->]]]]; cbn -[IZR]; lra. }
  apply (Rle_trans _ (free_stream_eps3 2 * rsum 6 (fun _ => 100))).
  - apply Rmult_le_compat_l; [unfold free_stream_eps3; change (Z.to_nat 2) with 2%nat; cbn [pow]; lra|]. apply rsum_le. intros kk Hkk. now apply FB.
  - rewrite (rsum_S 5) by lia. rewrite rsum_5. unfold free_stream_eps3. change (Z.to_nat 2) with 2%nat. cbn [pow]. lra.
Qed.
Print Assumptions C92_demo.
