(** PropBitsDemo.v -- C99: four quadrilaterals with their nodes, elements and
    faces renumbered and the sides of two faces exchanged; and a state with a
    negative pressure that ends in NaN or not, depending on the sides. *)
From Coq Require Import ZArith Reals List Lia Bool Permutation FunctionalExtensionality.
From Flocq Require Import Core BinarySingleNaN.
From Verif Require Import Base RBase MeshModel MeshSpec MeshProof PropMesh ShapeModel ShapeProof PropShape
  SolverModel SetupModel SolverSpec PhysModel LinAlgProof ArithModel ArithProof ArithSetup ArithRun PropArith ArithLibrary ArithRenumber
  ArithDouble PropDouble ArithTurn PropBits PropBitsTurn.
From Verif Require CommProof.
Import ListNotations.
Local Open Scope Z_scope.

(** Element [e] becomes [3 - e], face [f] becomes [f + 1] modulo 4, node [g]
    becomes [8 - g]; with [t], faces 0 and 2 have their sides exchanged. *)
Definition pe4 (e : Z) : Z := 3 - e.
Definition pf4 (f : Z) : Z := (f + 1) mod 4.
Definition turn4 (t : bool) (f : Z) : bool := (t && Z.even f)%bool.
Definition other_mesh (t : bool) : gmesh d64 :=
  mkGMesh 2 4 9 4 4 [4;3;1;0; 5;4;2;1; 7;6;4;3; 8;7;5;4]
    (map (map (fun z => ddiv (dint z) (dint 10))) [[2;2];[1;2];[0;2];[2;1];[1;1];[0;1];[2;0];[1;0];[0;0]])
    (if t then [[2;2;0;0;0;1]; [2;3;1;3;1;0]; [1;1;0;0;3;1]; [1;0;1;3;2;0]]
     else [[2;2;0;0;0;1]; [3;1;0;2;3;1]; [1;1;0;0;3;1]; [3;2;0;1;0;1]]).

Lemma other_sides t f sd e k o : has_side (other_mesh t) f sd e k o ->
  In (f, xorb sd (t && Z.odd f), e, k, o) [(0,false,2,2,0); (0,true,0,0,1); (1,false,3,1,0); (1,true,2,3,1); (2,false,1,1,0); (2,true,0,3,1); (3,false,3,2,0); (3,true,1,0,1)].
Proof.
  intros (H1 & H2 & H3). unfold rd2 in *. destruct (rd (gm_IF (other_mesh t)) f) as [row|] eqn:E; [|discriminate].
  pose proof (rd_in_range _ _ _ E) as Rg. assert (LE : zlen (gm_IF (other_mesh t)) = 4) by (destruct t; reflexivity). rewrite LE in Rg.
  assert (Cf : f = 0 \/ f = 1 \/ f = 2 \/ f = 3) by lia.
  destruct t; destruct Cf as [-> | [-> | [-> | ->]]]; injection E as <-; destruct sd; injection H1 as <-; injection H2 as <-; injection H3 as <-; cbn; tauto.
Qed.
Lemma other_wf t : mesh_wf (other_mesh t).
Proof.
  destruct (run_mesh _ _ _ _ demo_run). constructor; cbn [gm_dim gm_num_elems gm_num_nodes gm_nIF gm_npe gm_eind gm_coord gm_IF other_mesh]; try (unfold UINT_MAX; lia); try reflexivity.
  - repeat (constructor; [lia|]). constructor.
  - cbn [map]. repeat (constructor; [reflexivity|]). constructor.
  - destruct t; reflexivity.
  - destruct t; repeat (constructor; [do 6 eexists; split; [reflexivity|]; lia|]); constructor.
Qed.

Lemma renamed4 t : renamed dmesh (other_mesh t) pe4 pf4 (turn4 t).
Proof.
  constructor; try reflexivity.
  - cbn. apply Permutation_sym, (Permutation_rev [0; 1; 2; 3]).
  - cbn. apply (Permutation_app_comm [1; 2; 3] [0]).
  - intros e i d He Hi Hd. cbn [gm_num_elems gm_npe gm_dim dmesh] in *.
    assert (Ce : e = 0 \/ e = 1 \/ e = 2 \/ e = 3) by lia. assert (Ci : i = 0 \/ i = 1 \/ i = 2 \/ i = 3) by lia. assert (Cd : d = 0 \/ d = 1) by lia.
    destruct Ce as [-> | [-> | [-> | ->]]]; destruct Ci as [-> | [-> | [-> | ->]]]; destruct Cd as [-> | ->]; cbv -[ddiv dint]; reflexivity.
  - intros f sd e k o H. apply dmesh_sides in H. destruct_or H; injection H as E1 E2 E3 E4 E5; subst; destruct t; repeat split; reflexivity.
Qed.

(** The case of PropDouble.v with another stepper and initial state. *)
Definition case4 (kd : skind) (ic : (Z -> d64) -> (Z -> d64) -> Z -> d64) : kcase double :=
  mkKC double EQuad 1 1 4 1 dtab dtab dtab (fun _ _ _ => dint 1) (fun _ => dint 2) (fun _ => edge_gradients 1 (dint 0))
    (ddiv (dint 14) (dint 10)) LaxFriedrichs kd (ddiv (dint 1) (dint 10)) ic.
Definition sloped : (Z -> d64) -> (Z -> d64) -> Z -> d64 := fun x _ s => if s =? 0 then dplus (dint 1) (x 0) else if s =? 3 then ddiv (dint 5) (dint 2) else dint 0.
(** Energy -1 left of x = 1/10 and below y = 1/10: a negative pressure in element 0. *)
Definition broken : (Z -> d64) -> (Z -> d64) -> Z -> d64 := fun x _ s =>
  if s =? 0 then dint 1 else if s =? 3 then (if (dlt (x 0%Z) (ddiv (dint 1) (dint 10)) && dlt (x 1%Z) (ddiv (dint 1) (dint 10)))%bool then dint (-1) else ddiv (dint 5) (dint 2)) else dint 0.

Lemma fits_dmesh kd ic : ic_reads double (case4 kd ic) -> case_fits double (case4 kd ic) dmesh.
Proof. intros H. destruct dcase_fits. split; try reflexivity; try assumption. Qed.
Lemma fits_other t kd ic : ic_reads double (case4 kd ic) -> case_fits double (case4 kd ic) (other_mesh t).
Proof.
  intros HI. split; try reflexivity; try (cbn; lia); try exact HI.
  - intros f sd e k o H. apply other_sides in H. destruct_or H; injection H as E1 E2 E3 E4 E5; subst; cbn; lia.
  - intros f sd e k o f' sd' o' H H'. apply other_sides in H, H'.
    destruct_or H; injection H as E1 E2 E3 E4 E5; subst; destruct_or H'; try discriminate H'; injection H'; intros; subst;
      (split; [reflexivity|]); destruct t, sd, sd'; cbn in *; congruence.
Qed.
Lemma sloped_reads kd : ic_reads double (case4 kd sloped).
Proof. intros x x' u u' H i _. cbn [c_ic case4]. unfold sloped. now rewrite (H 0 ltac:(cbn; lia)). Qed.
Lemma broken_reads kd : ic_reads double (case4 kd broken).
Proof. intros x x' u u' H i _. cbn [c_ic case4]. unfold broken. now rewrite (H 0 ltac:(cbn; lia)), (H 1 ltac:(cbn; lia)). Qed.

Lemma run1 : run_wf (fun _ l => l) 1 dmesh [0; 0; 0; 0].
Proof.
  constructor; [| |intros r l; reflexivity].
  - destruct (run_mesh _ _ _ _ demo_run). split; try assumption. cbn [gm_coord gm_dim dmesh demo_mesh map]. repeat (constructor; [reflexivity|]). constructor.
  - split; [reflexivity|]. repeat constructor; cbn; lia.
Qed.
Lemma run2 t : run_wf (fun _ l => rev l) 2 (other_mesh t) [1; 0; 0; 1].
Proof.
  constructor; [apply other_wf| |intros r l; symmetry; apply Permutation_rev]. split; [reflexivity|]. repeat constructor; cbn; lia.
Qed.

(** What the runs compute. *)
Definition init4 (C : kcase double) (m : gmesh d64) : Z -> Z -> Z -> d64 := fun e => ref_init double (kokkos double) m C (gnode double m e).
Definition march4 (C : kcase double) (m : gmesh d64) (ep : list Z) (steps : nat) : Z -> Z -> Z -> d64 :=
  ref_march double (kokkos double) C m (used_normal double (kokkos double) C m ep) steps (init4 C m).
Definition all_numbers (c : Z -> Z -> Z -> d64) : bool := forallb (fun e => forallb (fun k => negb (is_nan (c e 0 k))) (zseq 4)) (zseq 4).


(** Each number computed once. *)
Definition memo (c : Z -> Z -> Z -> d64) : Z -> Z -> Z -> d64 :=
  let T := map (fun e => map (fun k => c e 0 k) (zseq 4)) (zseq 4) in
  fun e i k => if (inb 4 e && inb 1 i && inb 4 k)%bool then nth (Z.to_nat k) (nth (Z.to_nat e) T []) (dint 0) else c e i k.
Lemma memo_eq c : memo c = c.
Proof.
  apply functional_extensionality. intros e. apply functional_extensionality. intros i. apply functional_extensionality. intros k. unfold memo.
  destruct (inb 4 e) eqn:E1; [|reflexivity]. destruct (inb 1 i) eqn:E2; [|reflexivity]. destruct (inb 4 k) eqn:E3; [|reflexivity].
  cbn [andb]. apply inb_true in E1, E2, E3. assert (i = 0) as -> by lia.
  assert (Ce : e = 0 \/ e = 1 \/ e = 2 \/ e = 3) by lia. assert (Ck : k = 0 \/ k = 1 \/ k = 2 \/ k = 3) by lia.
  destruct Ce as [-> | [-> | [-> | ->]]]; destruct Ck as [-> | [-> | [-> | ->]]]; reflexivity.
Qed.

Definition memo_normal (nor : Z -> bool -> Z -> Z -> d64) : Z -> bool -> Z -> Z -> d64 :=
  let T := map (fun f => map (fun d => (nor f false 0 d, nor f true 0 d)) (zseq 2)) (zseq 4) in
  fun f sd iq d => if (inb 4 f && inb 1 iq && inb 2 d)%bool then (if sd then snd else fst) (nth (Z.to_nat d) (nth (Z.to_nat f) T []) (dint 0, dint 0)) else nor f sd iq d.
Lemma memo_normal_eq nor : memo_normal nor = nor.
Proof.
  apply functional_extensionality. intros f. apply functional_extensionality. intros sd. apply functional_extensionality. intros iq. apply functional_extensionality. intros d. unfold memo_normal.
  destruct (inb 4 f) eqn:E1; [|reflexivity]. destruct (inb 1 iq) eqn:E2; [|reflexivity]. destruct (inb 2 d) eqn:E3; [|reflexivity].
  cbn [andb]. apply inb_true in E1, E2, E3. assert (iq = 0) as -> by lia.
  assert (Ce : f = 0 \/ f = 1 \/ f = 2 \/ f = 3) by lia. assert (Cd : d = 0 \/ d = 1) by lia.
  destruct Ce as [-> | [-> | [-> | ->]]]; destruct Cd as [-> | ->]; destruct sd; reflexivity.
Qed.
Lemma march4_memo C m ep steps : march4 C m ep steps =
  ref_march double (kokkos double) C m (memo_normal (used_normal double (kokkos double) C m ep)) steps (memo (init4 C m)).
Proof. now rewrite memo_eq, memo_normal_eq. Qed.

Lemma sloped_1 : all_numbers (march4 (case4 StepFE sloped) dmesh [0; 0; 0; 0] 1) = true.
Proof. rewrite march4_memo. vm_compute. reflexivity. Qed.
Lemma sloped_2 : all_numbers (march4 (case4 StepFE sloped) (other_mesh true) [1; 0; 0; 1] 1) = true.
Proof. rewrite march4_memo. vm_compute. reflexivity. Qed.
Lemma broken_1 : is_nan (march4 (case4 StepFE broken) dmesh [0; 0; 0; 0] 1 1 0 0) = true.
Proof. rewrite march4_memo. vm_compute. reflexivity. Qed.
Lemma broken_2 : all_numbers (march4 (case4 StepFE broken) (other_mesh true) [1; 0; 0; 1] 1) = true.
Proof. rewrite march4_memo. vm_compute. reflexivity. Qed.

Lemma held4 kd ic m iter n ep pm U steps : case_fits double (case4 kd ic) m -> computes double (kokkos double) (case4 kd ic) iter n m ep steps pm U ->
  forall r le e, 0 <= r < n -> rd (pm_l2g_elem (pm r)) le = Ok e -> agree2 1 4 (U r le) (march4 (case4 kd ic) m ep steps e).
Proof.
  intros CF R. exact (held1 double (kokkos double) (kokkos_reads double) (case4 kd ic) m steps CF iter n ep pm U R).
Qed.
Lemma no_nan4 kd ic m iter n ep pm U steps : gm_num_elems m = 4 -> case_fits double (case4 kd ic) m -> computes double (kokkos double) (case4 kd ic) iter n m ep steps pm U ->
  all_numbers (march4 (case4 kd ic) m ep steps) = true -> no_nan (case4 kd ic) n pm U.
Proof.
  intros N4 CF R HA r le ib is Hr Hle Hb Hs. cbn [c_nb c_shape case4 space_dim] in Hb, Hs. pose proof (held4 kd ic m iter n ep pm U steps CF R) as H. destruct R as (WF & PT & _).
  destruct (local_out double iter n m ep pm WF PT r le Hr Hle) as (e & He).
  pose proof (local_owner double iter n m ep pm WF PT r le e Hr He) as OW. unfold owned_by in OW. apply rd_in_range in OW.
  destruct (run_ep _ _ _ _ WF) as [LE _]. change (num double) with d64 in *. rewrite LE, N4 in OW.
  rewrite (H r le e Hr He ib is Hb Hs). assert (ib = 0) as -> by lia.
  unfold all_numbers in HA. rewrite forallb_forall in HA. specialize (HA e ltac:(apply In_zseq; lia)). cbv beta in HA.
  rewrite forallb_forall in HA. specialize (HA is ltac:(apply In_zseq; lia)). now apply negb_true_iff in HA.
Qed.

(** The hypotheses of both theorems hold of a run on one rank and a run on two
    ranks of the renumbered mesh (the second theorem: with sides exchanged). *)
Example C99_demo : exists pm1 U1 pm2 U2 pm3 U3,
  computes double (kokkos double) (case4 StepFE sloped) (fun _ l => l) 1 dmesh [0; 0; 0; 0] 1 pm1 U1 /\
  computes double (kokkos double) (case4 StepFE sloped) (fun _ l => rev l) 2 (other_mesh true) [1; 0; 0; 1] 1 pm2 U2 /\
  computes double (kokkos double) (case4 StepFE sloped) (fun _ l => rev l) 2 (other_mesh false) [1; 0; 0; 1] 1 pm3 U3 /\
  same_bits_renamed double (case4 StepFE sloped) pe4 1 2 pm1 pm2 U1 U2 /\
  same_bits_renamed double (case4 StepFE sloped) pe4 1 2 pm1 pm3 U1 U3.
Proof.
  destruct (C97_runs double (kokkos double) (case4 StepFE sloped) _ _ _ _ 1 eq_refl run1) as (pm1 & U1 & R1).
  destruct (C97_runs double (kokkos double) (case4 StepFE sloped) _ _ _ _ 1 eq_refl (run2 true)) as (pm2 & U2 & R2).
  destruct (C97_runs double (kokkos double) (case4 StepFE sloped) _ _ _ _ 1 eq_refl (run2 false)) as (pm3 & U3 & R3).
  pose proof (fits_dmesh StepFE sloped (sloped_reads StepFE)) as CF1.
  pose proof (fits_other true StepFE sloped (sloped_reads StepFE)) as CF2. pose proof (fits_other false StepFE sloped (sloped_reads StepFE)) as CF3.
  exists pm1, U1, pm2, U2, pm3, U3. split; [exact R1|]. split; [exact R2|]. split; [exact R3|]. split.
  - exact (C99_quadrilaterals (case4 StepFE sloped) dmesh (other_mesh true) pe4 pf4 (turn4 true) (fun _ => dint 0) 1 CF1 CF2 (renamed4 true) eq_refl eq_refl eq_refl (fun _ => eq_refl) dmesh_shared
      _ _ _ _ _ _ _ _ _ _ R1 R2 (no_nan4 StepFE sloped dmesh _ _ _ _ _ _ eq_refl CF1 R1 sloped_1) (no_nan4 StepFE sloped (other_mesh true) _ _ _ _ _ _ eq_refl CF2 R2 sloped_2)).
  - apply (C99_renumbered double (kokkos double) (case4 StepFE sloped) dmesh (other_mesh false) pe4 pf4 1 (kokkos_reads double) CF1 CF3 (renamed4 false) _ _ _ _ _ _ _ _ _ _ R1 R3).
    intros f Hf. right. destruct R1 as (WF & _).
    pose proof (file_side double (case4 StepFE sloped) _ _ dmesh _ WF f false Hf) as SL. pose proof (file_side double (case4 StepFE sloped) _ _ dmesh _ WF f true Hf) as SR.
    exact (edge_normals_match (case4 StepFE sloped) dmesh eq_refl eq_refl eq_refl (fun _ => dint 0) (fun _ => eq_refl) f _ _ _ _ _ _ SL SR (dmesh_shared f _ _ _ _ _ _ SL SR)).
Qed.

(** Without the hypothesis about NaN: which element of a face the mesh file calls
    the left one decides whether a run with a negative pressure ends with NaN.
    All other hypotheses of [C99_quadrilaterals] hold. *)
Theorem C99_nan_refuted : exists (C : kcase double) (m m' : gmesh d64) pe pf turn (x : Z -> d64),
  case_fits double C m /\ case_fits double C m' /\ renamed m m' pe pf turn /\
  c_shape double C = EQuad /\ c_g double C = 1 /\ c_flux double C = LaxFriedrichs /\ (forall iq, c_fgrad double C iq = edge_gradients 1 (x iq)) /\ edges_shared m /\
  (exists pm U, computes double (kokkos double) C (fun _ l => l) 1 m [0; 0; 0; 0] 1 pm U) /\
  (exists pm U, computes double (kokkos double) C (fun _ l => rev l) 2 m' [1; 0; 0; 1] 1 pm U) /\
  forall iter1 pm1 U1 iter2 pm2 U2,
    computes double (kokkos double) C iter1 1 m [0; 0; 0; 0] 1 pm1 U1 -> computes double (kokkos double) C iter2 2 m' [1; 0; 0; 1] 1 pm2 U2 ->
    ~ no_nan C 1 pm1 U1 /\ no_nan C 2 pm2 U2 /\ ~ same_bits_renamed double C pe 1 2 pm1 pm2 U1 U2.
Proof.
  pose proof (fits_dmesh StepFE broken (broken_reads StepFE)) as CF1. pose proof (fits_other true StepFE broken (broken_reads StepFE)) as CF2.
  exists (case4 StepFE broken), dmesh, (other_mesh true), pe4, pf4, (turn4 true), (fun _ => dint 0).
  split; [exact CF1|]. split; [exact CF2|]. split; [exact (renamed4 true)|]. do 3 (split; [reflexivity|]). split; [intros; reflexivity|]. split; [exact dmesh_shared|].
  split; [exact (C97_runs double (kokkos double) (case4 StepFE broken) _ _ _ _ 1 eq_refl run1)|].
  split; [exact (C97_runs double (kokkos double) (case4 StepFE broken) _ _ _ _ 1 eq_refl (run2 true))|].
  intros iter1 pm1 U1 iter2 pm2 U2 R1 R2.
  pose proof (held4 StepFE broken dmesh _ _ _ _ _ _ CF1 R1) as H1.
  pose proof (no_nan4 StepFE broken (other_mesh true) _ _ _ _ _ _ eq_refl CF2 R2 broken_2) as NN.
  assert (O1 : exists le, rd (pm_l2g_elem (pm1 0)) le = Ok 1 /\ 0 <= le < pm_num_elems_part (pm1 0)).
  { destruct R1 as (WF & PT & _). destruct (C01_element_ownership d64 (f0 double) iter1 1 dmesh _ pm1 WF PT) as (_ & Own & _).
    assert (IN : In 1 (pm_l2g_elem (pm1 0))) by (apply (Own 0 1 ltac:(lia)); reflexivity).
    destruct (CommProof.In_rd _ _ IN) as (le & E). exists le. split; [exact E|]. exact (local_in double iter1 1 dmesh _ pm1 WF PT 0 le 1 ltac:(lia) E). }
  destruct O1 as (le1 & E1 & L1).
  assert (V1 : is_nan (U1 0 le1 0 0) = true).
  { rewrite (H1 0 le1 1 ltac:(lia) E1 0 0 ltac:(lia) ltac:(lia)). exact broken_1. }
  split; [|split; [exact NN|]].
  - intros NO. pose proof (NO 0 le1 0 0 ltac:(lia) L1 ltac:(cbn; lia) ltac:(cbn; lia)) as X. unfold number in X. congruence.
  - intros SB.
    assert (O2 : exists le, rd (pm_l2g_elem (pm2 0)) le = Ok 2 /\ 0 <= le < pm_num_elems_part (pm2 0)).
    { destruct R2 as (WF & PT & _). destruct (C01_element_ownership d64 (f0 double) iter2 2 (other_mesh true) _ pm2 WF PT) as (_ & Own & _).
      assert (IN : In 2 (pm_l2g_elem (pm2 0))) by (apply (Own 0 2 ltac:(lia)); reflexivity).
      destruct (CommProof.In_rd _ _ IN) as (le & E). exists le. split; [exact E|]. exact (local_in double iter2 2 (other_mesh true) _ pm2 WF PT 0 le 2 ltac:(lia) E). }
    destruct O2 as (le2 & E2 & L2).
    pose proof (SB 1 0 le1 0 le2 ltac:(lia) ltac:(lia) E1 E2 0 0 ltac:(cbn; lia) ltac:(cbn; lia)) as EQ.
    pose proof (NN 0 le2 0 0 ltac:(lia) L2 ltac:(cbn; lia) ltac:(cbn; lia)) as X. unfold number in X. congruence.
Qed.
Print Assumptions C99_nan_refuted.
