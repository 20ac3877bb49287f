(** PropBits.v -- C99: the numbers the mesh file gives to nodes, elements and
    faces do not change a bit of the result. *)
From Coq Require Import ZArith Reals List Lia Bool Permutation.
From Flocq Require Import Core BinarySingleNaN.
From Verif Require Import Base RBase MeshModel MeshSpec MeshProof MeshReadProof MeshProof2 PropMesh ShapeModel ShapeProof PropShape CommModel CommSpec
  SolverModel SetupModel SolverSpec PhysModel LinAlgProof SolverFaces SolverMesh ArithModel ArithProof ArithSetup ArithRun PropArith ArithLibrary ArithRenumber
  ArithDouble PropDouble.
Import ListNotations.
Local Open Scope Z_scope.

(** Two runs hold the same numbers, bit for bit: element [e] of the first, wherever
    it lives, and element [pe e] of the second, wherever that lives. *)
Definition same_bits_renamed (K : arith) (C : kcase K) (pe : Z -> Z) (n1 n2 : Z) (pm1 pm2 : Z -> pmesh (num K)) (U1 U2 : Z -> Z -> Z -> Z -> num K) : Prop :=
  forall e r1 le1 r2 le2, 0 <= r1 < n1 -> 0 <= r2 < n2 ->
    rd (pm_l2g_elem (pm1 r1)) le1 = Ok e -> rd (pm_l2g_elem (pm2 r2)) le2 = Ok (pe e) ->
    forall ib is, 0 <= ib < c_nb K C -> 0 <= is < space_dim (c_shape K C) + 2 -> U1 r1 le1 ib is = U2 r2 le2 ib is.

Lemma split_within K (C : kcase K) (m : gmesh (num K)) iter n ep f : run_wf iter n m ep -> 0 <= f < gm_nIF m ->
  (split_face K m ep f = false <-> within_rank m ep f).
Proof.
  intros WF Hf. pose proof (file_side K C iter n m ep WF f false Hf) as SL. pose proof (file_side K C iter n m ep WF f true Hf) as SR.
  assert (TOT : forall sd, exists r, side_rank K m ep f sd = Ok r).
  { intros sd'. pose proof (file_side K C iter n m ep WF f sd' Hf) as S. pose proof (side_nonneg iter n m ep WF _ _ _ _ _ S) as (_ & _ & S3).
    apply rd_total. destruct (run_ep _ _ _ _ WF) as [LE _]. lia. }
  destruct (TOT false) as [a Ea]. destruct (TOT true) as [b Eb]. unfold split_face. rewrite Ea, Eb. split.
  - intros E. apply negb_false_iff, Z.eqb_eq in E. subst b. exists (felem K m f false), (felem K m f true), a.
    split; [exact (proj1 SL)|]. split; [exact (proj1 SR)|]. split; [exact Ea|exact Eb].
  - intros (eL & eR & r & HL & HR & OL & OR). unfold left_of in HL. unfold right_of in HR. rewrite (proj1 SL) in HL. rewrite (proj1 SR) in HR.
    injection HL as <-. injection HR as <-. unfold side_rank in Ea, Eb. unfold owned_by in OL, OR.
    rewrite OL in Ea. rewrite OR in Eb. injection Ea as <-. injection Eb as <-. now rewrite Z.eqb_refl.
Qed.

(** The result of two runs, from the march of the reference kernels. *)
Section Finish.
Context (K : arith) (L : library (num K)) (LR : lib_reads L) (C : kcase K) (m m' : gmesh (num K)) (steps : nat).
Context (CF : case_fits K C m) (CF' : case_fits K C m') (pe : Z -> Z).
Context (iter1 : Z -> list Z -> list Z) (n1 : Z) (ep1 : list Z) (pm1 : Z -> pmesh (num K)) (U1 : Z -> Z -> Z -> Z -> num K).
Context (iter2 : Z -> list Z -> list Z) (n2 : Z) (ep2 : list Z) (pm2 : Z -> pmesh (num K)) (U2 : Z -> Z -> Z -> Z -> num K).
Context (R1 : computes K L C iter1 n1 m ep1 steps pm1 U1) (R2 : computes K L C iter2 n2 m' ep2 steps pm2 U2).
Let M1 := ref_march K L C m (used_normal K L C m ep1) steps (fun e => ref_init K L m C (gnode K m e)).
Let M2 := ref_march K L C m' (used_normal K L C m' ep2) steps (fun e => ref_init K L m' C (gnode K m' e)).

Lemma held1 : kholds K C n1 pm1 M1 U1.
Proof. exact (run_ref K L LR C m CF iter1 n1 ep1 pm1 steps U1 (used_normal K L C m ep1) R1 (fun f sd iq _ _ => same_flux_agree K C _ _ (agree_refl _ _))). Qed.
Lemma held2 : kholds K C n2 pm2 M2 U2.
Proof. exact (run_ref K L LR C m' CF' iter2 n2 ep2 pm2 steps U2 (used_normal K L C m' ep2) R2 (fun f sd iq _ _ => same_flux_agree K C _ _ (agree_refl _ _))). Qed.

Lemma finish : related K C m pe M1 M2 -> same_bits_renamed K C pe n1 n2 pm1 pm2 U1 U2.
Proof.
  intros HR e r1 le1 r2 le2 Hr1 Hr2 E1 E2 ib is Hb Hs.
  rewrite (held1 r1 le1 e Hr1 E1 ib is Hb Hs), (held2 r2 le2 (pe e) Hr2 E2 ib is Hb Hs). symmetry. apply HR; [|exact Hb|exact Hs].
  destruct R1 as (WF & PT & _).
  pose proof (local_owner K iter1 n1 m ep1 pm1 WF PT r1 le1 e Hr1 E1) as OW. unfold owned_by in OW. apply rd_in_range in OW.
  destruct (run_ep _ _ _ _ WF) as [LE _]. lia.
Qed.
End Finish.

(** Any arithmetic, any library routines, either shape, flux and stepper.  The
    same case on two mesh files that differ only in the numbers of nodes, elements
    and faces; each run on any number of ranks, with any assignment, any order of
    the parallel loops and any interleaving of the messages.  Every face is inside
    a rank in both runs or in neither, or its flux is the same with the normals
    seen from its two elements. *)
Theorem C99_renumbered : forall (K : arith) (L : library (num K)) (C : kcase K) (m m' : gmesh (num K)) pe pf steps,
  lib_reads L -> case_fits K C m -> case_fits K C m' -> renamed m m' pe pf (fun _ => false) ->
  forall iter1 n1 ep1 pm1 U1 iter2 n2 ep2 pm2 U2,
  computes K L C iter1 n1 m ep1 steps pm1 U1 -> computes K L C iter2 n2 m' ep2 steps pm2 U2 ->
  (forall f, 0 <= f < gm_nIF m -> (within_rank m ep1 f <-> within_rank m' ep2 (pf f)) \/ normals_match K L C m f) ->
  same_bits_renamed K C pe n1 n2 pm1 pm2 U1 U2.
Proof.
  intros K L C m m' pe pf steps LR CF CF' RN iter1 n1 ep1 pm1 U1 iter2 n2 ep2 pm2 U2 R1 R2 HF.
  apply (finish K L LR C m m' steps CF CF' pe iter1 n1 ep1 pm1 U1 iter2 n2 ep2 pm2 U2 R1 R2).
  destruct R1 as (WF1 & _). destruct R2 as (WF2 & _).
  assert (HN : forall f sd iq, 0 <= f < gm_nIF m -> 0 <= iq < c_nqf K C -> same_flux K C (used_normal K L C m' ep2 (pf f) sd iq) (used_normal K L C m ep1 f sd iq)).
  { intros f sd iq Hf Hq. pose proof (pf_in K m m' pe pf _ RN f Hf) as Hf'.
    pose proof (split_within K C m iter1 n1 ep1 f WF1 Hf) as X1. pose proof (split_within K C m' iter2 n2 ep2 (pf f) WF2 Hf') as X2.
    assert (SN : forall sd, same_flux K C (side_normal K L m' (c_shape K C) (c_g K C) (c_fgrad K C) (pf f) sd iq) (side_normal K L m (c_shape K C) (c_g K C) (c_fgrad K C) f sd iq)).
    { intros sd'. apply same_flux_agree. now apply (side_normal_same K L LR C m m' CF iter1 n1 ep1 WF1 pe pf _ RN f sd' iq Hf). }
    unfold used_normal. eapply same_flux_trans; [apply SN|]. destruct (HF f Hf) as [HW|HM].
    - assert (split_face K m' ep2 (pf f) = split_face K m ep1 f) as ->; [|apply same_flux_agree, agree_refl].
      destruct (split_face K m ep1 f), (split_face K m' ep2 (pf f)); try reflexivity.
      + assert (true = false) as Y by (apply X1, HW, X2; reflexivity). discriminate Y.
      + assert (true = false) as Y by (apply X2, HW, X1; reflexivity). discriminate Y.
    - destruct (split_face K m' ep2 (pf f) && sd)%bool, (split_face K m ep1 f && sd)%bool;
        [apply same_flux_agree, agree_refl|apply same_flux_sym; now apply HM|now apply HM|apply same_flux_agree, agree_refl]. }
  apply (march_same K L LR C m m' CF CF' pe pf _ RN _ _ (fun _ => True) (fun _ => True)).
  - intros c c' HR _ _ e He. unfold ref_residual. apply kgemm_agree; [exact LR|apply agree2_refl| |].
    + intros p k Hp Hk. apply (buffer_same K L C m m' CF CF' iter1 n1 ep1 WF1 iter2 n2 ep2 WF2 pe pf _ RN eq); [reflexivity| |exact He].
      intros f sd iq Hf Hq. rewrite xorb_false_r. unfold side_flux.
      pose proof (flux_same K L LR C m m' CF iter1 n1 ep1 WF1 iter2 n2 ep2 WF2 pe pf _ RN _ _ c c' f sd iq HR Hf Hq eq_refl (HN f sd iq Hf Hq) k Hk) as ->. reflexivity.
    + intros _. now apply (volume_same K L LR C m m' CF CF' pe pf _ RN).
  - now apply (init_same K L LR C m m' CF CF' pe pf (fun _ => false)).
  - generalize (fun e => ref_init K L m C (gnode K m e)). induction steps as [|k IH]; intros c; cbn [all_ok]; [auto|]. split; [apply Forall_forall; auto|apply IH].
  - generalize (fun e => ref_init K L m' C (gnode K m' e)). induction steps as [|k IH]; intros c; cbn [all_ok]; [auto|]. split; [apply Forall_forall; auto|apply IH].
Qed.
Print Assumptions C99_renumbered.
