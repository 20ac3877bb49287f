(** PropBitsTurn.v -- C99 in binary64: straight quadrilaterals, Lax-Friedrichs
    fluxes, also with the two sides of faces exchanged in the mesh file. *)
From Coq Require Import ZArith Reals List Lia Bool Permutation.
From Flocq Require Import Core BinarySingleNaN.
From Verif Require Import Base RBase MeshModel MeshSpec MeshProof MeshReadProof MeshProof2 PropMesh ShapeModel ShapeProof PropShape CommModel CommSpec
  SolverModel SetupModel SolverSpec PhysModel LinAlgProof SolverFaces SolverMesh ArithModel ArithProof ArithSetup ArithRun PropArith ArithLibrary ArithRenumber
  ArithDouble PropDouble ArithTurn PropBits.
From Verif Require CommProof.
Import ListNotations.
Local Open Scope Z_scope.

(** A run ends without NaN. *)
Definition no_nan (C : kcase double) (n : Z) (pm : Z -> pmesh d64) (U : Z -> Z -> Z -> Z -> d64) : Prop :=
  forall r le ib is, 0 <= r < n -> 0 <= le < pm_num_elems_part (pm r) -> 0 <= ib < c_nb double C -> 0 <= is < space_dim (c_shape double C) + 2 -> number (U r le ib is).

Notation KK := (kokkos double).

(** * NaN in a flux stays until the end *)
Section Nan.
Context (C : kcase double) (m : gmesh d64) (CF : case_fits double C m) (iter : Z -> list Z -> list Z) (n : Z) (ep : list Z) (WF : run_wf iter n m ep).
Context (nor : Z -> bool -> Z -> Z -> d64) (NB : 0 < c_nb double C).
Let ns := space_dim (c_shape double C) + 2.
Let ne := gm_num_elems m.

Definition clean (c : Z -> Z -> Z -> d64) : Prop :=
  forall f sd iq k, 0 <= f < gm_nIF m -> 0 <= iq < c_nqf double C -> 0 <= k < ns -> number (ref_flux double KK C m nor c f sd iq k).
Definition numbers (c : Z -> Z -> Z -> d64) : Prop := forall e k, 0 <= e < ne -> 0 <= k < ns -> number (c e 0 k).

Lemma incr_clean c : numbers (ref_incr double KK C m nor c) -> clean c.
Proof.
  intros H f sd iq k Hf Hq Hk. pose proof (file_side double C iter n m ep WF f sd Hf) as HS.
  pose proof (side_nonneg iter n m ep WF _ _ _ _ _ HS) as (_ & _ & He).
  specialize (H (felem double m f sd) k He Hk).
  pose proof (fpos_range double C iter n m ep WF (cf_valid _ _ _ CF) (cf_points _ _ _ CF) f sd iq Hf Hq) as HP.
  unfold ref_incr, kgemm in H. rewrite (inb_in (c_nb double C)), inb_in in H by (exact Hk || lia). cbn [andb l_entry kokkos] in H. unfold kk_entry in H. cbn [fadd fmul double] in H.
  apply sum_number in H. destruct H as [_ H]. specialize (H 0 ltac:(lia)). apply dmult_number in H. destruct H as [_ H].
  unfold ref_residual, kgemm in H. rewrite (inb_in (c_nb double C)), inb_in in H by (exact Hk || lia). cbn [andb l_entry kokkos] in H. unfold kk_entry in H. cbn [fadd fmul double] in H.
  apply sum_number in H. destruct H as [_ H]. specialize (H _ HP). apply dmult_number in H. destruct H as [_ H].
  unfold ref_buffer in H.
  rewrite (fsource_at double C iter n m ep WF (cf_valid _ _ _ CF) (cf_distinct _ _ _ CF) (cf_points _ _ _ CF) f iq sd Hf Hq) in H.
  destruct sd; [exact H|]. cbn [fmul double] in H. apply dmult_number in H. exact (proj2 H).
Qed.

Lemma axpy_numbers a c d : numbers (fun e i k => l_axpy KK a (d e i k) (c e i k)) -> numbers c /\ numbers d.
Proof.
  intros H. split; intros e k He Hk; specialize (H e k He Hk); cbn [l_axpy kokkos fadd fmul double] in H; apply dplus_number in H; destruct H as [H H']; [exact H'|].
  apply dmult_number in H. exact (proj2 H).
Qed.

Lemma step_clean c : numbers (ref_step double KK C m nor c) -> numbers c /\ Forall clean (ref_stages double KK C m nor c).
Proof.
  unfold ref_step, ref_stages. destruct (c_kind double C); cbv zeta; intros H.
  - apply axpy_numbers in H. destruct H as [H1 H2]. split; [exact H1|]. constructor; [now apply incr_clean|constructor].
  - apply axpy_numbers in H. destruct H as [H0 H]. split; [exact H0|].
    apply (axpy_numbers (f1 double) (fun e i k => l_axpy KK (f2 double) _ _)) in H. destruct H as [H H1].
    apply (axpy_numbers (f2 double) (fun e i k => l_axpy KK (f2 double) _ _)) in H. destruct H as [H H2].
    apply axpy_numbers in H. destruct H as [H4 H3].
    repeat (constructor; [now apply incr_clean|]). constructor.
Qed.

Lemma march_clean steps : forall c, numbers (ref_march double KK C m nor steps c) -> numbers c /\ all_ok double KK C clean m nor steps c.
Proof.
  induction steps as [|k IH]; intros c H; [split; [exact H|exact Logic.I]|]. cbn [ref_march] in H. destruct (IH _ H) as [H1 H2].
  destruct (step_clean c H1) as [H3 H4]. cbn [all_ok]. auto.
Qed.
End Nan.

(** * The fluxes of corresponding faces *)
Section Turn.
Context (C : kcase double) (m m' : gmesh d64) (CF : case_fits double C m) (CF' : case_fits double C m').
Context (iter : Z -> list Z -> list Z) (n : Z) (ep : list Z) (WF : run_wf iter n m ep).
Context (iter' : Z -> list Z -> list Z) (n' : Z) (ep' : list Z) (WF' : run_wf iter' n' m' ep').
Context (pe pf : Z -> Z) (turn : Z -> bool) (RN : renamed m m' pe pf turn).
Hypothesis QUAD : c_shape double C = EQuad.
Hypothesis LIN : c_g double C = 1.
Hypothesis LF : c_flux double C = LaxFriedrichs.
Context (x : Z -> d64).
Hypothesis GRAD : forall iq, c_fgrad double C iq = edge_gradients 1 (x iq).
Hypothesis SH : edges_shared m.
Let nrm m := side_normal double KK m (c_shape double C) (c_g double C) (c_fgrad double C).

Lemma knormal_sign k g fg cc x0 d : knormal double KK EQuad (dint (-1)) k g fg cc x0 d = dopp (knormal double KK EQuad (dint 1) k g fg cc x0 d).
Proof.
  unfold knormal. cbv zeta. destruct (d =? 0); cbn [fmul fm1 double]; rewrite !dint_minus1; repeat (rewrite dmult_opp_l || rewrite dmult_opp_r); reflexivity.
Qed.

Lemma turned_normal f sd iq d : 0 <= f < gm_nIF m -> turn f = true -> 0 <= d < 2 -> nrm m' (pf f) (negb sd) iq d = dopp (nrm m f sd iq d).
Proof.
  intros Hf HT Hd. pose proof (file_side double C iter n m ep WF f sd Hf) as HS. pose proof (side_same double C m m' iter n ep WF pe pf turn RN f sd Hf) as HS'. rewrite HT, xorb_true_r in HS'.
  pose proof (side_nonneg iter n m ep WF _ _ _ _ _ HS) as (K0 & _ & He). destruct (cf_valid _ _ _ CF _ _ _ _ _ HS) as [K1 _].
  unfold nrm, side_normal. destruct HS as (H1 & H2 & _), HS' as (H1' & H2' & _). cbv zeta. change (num double) with d64 in *.
  rewrite H1, H2, H1', H2'.
  assert (E : forall sg, knormal double KK EQuad sg (fface double m f sd) (c_g double C) (c_fgrad double C iq) (gnode double m' (pe (felem double m f sd))) (fun _ _ => f0 double) d =
     knormal double KK EQuad sg (fface double m f sd) (c_g double C) (c_fgrad double C iq) (gnode double m (felem double m f sd)) (fun _ _ => f0 double) d).
  { intros sg. pose proof (knormal_agree double KK (kokkos_reads double) m (c_shape double C) (c_g double C) (cf_g _ _ _ CF) (cf_dim _ _ _ CF) (cf_npe _ _ _ CF) (cf_valid _ _ _ CF)
      sg (fface double m f sd) (c_fgrad double C iq) (gnode double m' (pe (felem double m f sd))) (gnode double m (felem double m f sd)) (fun _ _ => f0 double) (fun _ _ => f0 double)
      (conj K0 K1) (nodes_same double C m m' CF pe pf turn RN _ He)) as X. rewrite QUAD in X. exact (X d Hd). }
  rewrite QUAD, E. destruct sd; cbn [negb f1 fm1 double]; [|apply knormal_sign]. rewrite knormal_sign. now rewrite dopp_opp.
Qed.

(** Any of the normals of a face is its left one, up to the signs of zeros. *)
Lemma left_normal f b iq d : 0 <= f < gm_nIF m -> eqz (nrm m f b iq d) (nrm m f false iq d).
Proof.
  intros Hf. destruct b; [|apply eqz_refl]. apply eqz_sym.
  pose proof (file_side double C iter n m ep WF f false Hf) as SL. pose proof (file_side double C iter n m ep WF f true Hf) as SR.
  exact (edge_normals_eqz C m QUAD LIN x GRAD f _ _ _ _ _ _ iq d SL SR (SH f _ _ _ _ _ _ SL SR)).
Qed.
Lemma used_turned f sd sd' iq d : 0 <= f < gm_nIF m -> turn f = true -> 0 <= d < 2 ->
  eqz (used_normal double KK C m' ep' (pf f) sd' iq d) (dopp (used_normal double KK C m ep f sd iq d)).
Proof.
  intros Hf HT Hd. unfold used_normal. fold (nrm m) (nrm m').
  set (b := (split_face double m' ep' (pf f) && sd')%bool). rewrite <- (negb_involutive b). rewrite turned_normal by assumption. apply dopp_eqz.
  eapply eqz_trans; [apply left_normal; exact Hf|]. apply eqz_sym. now apply left_normal.
Qed.
Lemma used_unturned f sd iq : 0 <= f < gm_nIF m -> turn f = false ->
  same_flux double C (used_normal double KK C m' ep' (pf f) sd iq) (used_normal double KK C m ep f sd iq).
Proof.
  intros Hf HT.
  assert (X : forall d, 0 <= d < 2 -> eqz (used_normal double KK C m' ep' (pf f) sd iq d) (used_normal double KK C m ep f sd iq d)).
  { intros d Hd. unfold used_normal. fold (nrm m) (nrm m').
    pose proof (side_normal_same double KK (kokkos_reads double) C m m' CF iter n ep WF pe pf turn RN f (split_face double m' ep' (pf f) && sd)%bool iq Hf HT) as Y.
    rewrite QUAD in Y. specialize (Y d Hd). unfold nrm. rewrite QUAD. rewrite Y.
    pose proof (left_normal f (split_face double m' ep' (pf f) && sd)%bool iq d Hf) as A. pose proof (left_normal f (split_face double m ep f && sd)%bool iq d Hf) as B.
    unfold nrm in A, B. rewrite QUAD in A, B. eapply eqz_trans; [exact A|]. now apply eqz_sym. }
  apply (lf_same_flux C QUAD LF); apply X; lia.
Qed.

Lemma side_flux_turned c c' f sd iq k : related double C m pe c c' -> clean C m (used_normal double KK C m ep) c -> clean C m' (used_normal double KK C m' ep') c' ->
  0 <= f < gm_nIF m -> 0 <= iq < c_nqf double C -> 0 <= k < 4 ->
  eqz (side_flux double KK C m' (used_normal double KK C m' ep') c' (pf f) (xorb sd (turn f)) iq k) (side_flux double KK C m (used_normal double KK C m ep) c f sd iq k).
Proof.
  intros HR HC HC' Hf Hq Hk.
  assert (Hk2 : 0 <= k < space_dim (c_shape double C) + 2) by (rewrite QUAD; exact Hk).
  destruct (turn f) eqn:HT.
  - (* sides exchanged *)
    pose proof (HC f sd iq k Hf Hq Hk2) as N1. pose proof (HC' (pf f) (negb sd) iq k (pf_in double m m' pe pf turn RN f Hf) Hq Hk2) as N2.
    rewrite xorb_true_r.
    pose proof (trace_same double KK (kokkos_reads double) C m m' CF iter n ep WF iter' n' ep' WF' pe pf turn RN c c' f false iq HR Hf Hq) as TL.
    pose proof (trace_same double KK (kokkos_reads double) C m m' CF iter n ep WF iter' n' ep' WF' pe pf turn RN c c' f true iq HR Hf Hq) as TR.
    rewrite HT in TL, TR. cbn [xorb] in TL, TR. rewrite QUAD in TL, TR. cbn [space_dim] in TL, TR. change (2 + 2) with 4 in TL, TR.
    set (UL := ref_trace double KK C m c f false iq) in *. set (UR := ref_trace double KK C m c f true iq) in *.
    set (Nn := used_normal double KK C m ep f sd iq). set (Nn' := used_normal double KK C m' ep' (pf f) (negb sd) iq).
    set (F := klaxfriedrichs double 2 (c_gamma double C) UL UR Nn (fun _ => f0 double) (fun _ => f0 double)).
    set (F' := klaxfriedrichs double 2 (c_gamma double C) UR UL Nn' (fun _ => f0 double) (fun _ => f0 double)).
    assert (E1 : ref_flux double KK C m (used_normal double KK C m ep) c f sd iq k = dmult (F k) (c_fwts double C iq)).
    { unfold ref_flux. rewrite LF, QUAD. reflexivity. }
    assert (E2 : ref_flux double KK C m' (used_normal double KK C m' ep') c' (pf f) (negb sd) iq k = dmult (F' k) (c_fwts double C iq)).
    { unfold ref_flux. rewrite LF, QUAD. cbn [knumflux space_dim]. cbn [fmul double]. f_equal.
      apply (klax_agree double 2); [now left|exact TR|exact TL|apply agree_refl|exact Hk]. }
    rewrite E1 in N1. rewrite E2 in N2. apply dmult_number in N1, N2. destruct N1 as [N1 _], N2 as [N2 _].
    assert (X : eqz (F' k) (dopp (F k))).
    { apply lax_exchange; [apply used_turned; auto; lia|apply used_turned; auto; lia| | |exact Hk].
      - exact (lax_number _ _ _ _ _ _ _ Hk N1).
      - exact (lax_number _ _ _ _ _ _ _ Hk N2). }
    assert (Y : eqz (dmult (F' k) (c_fwts double C iq)) (dopp (dmult (F k) (c_fwts double C iq)))).
    { rewrite <- dmult_opp_l. now apply dmult_eqz; [|apply eqz_refl]. }
    unfold side_flux. destruct sd; cbn [negb] in *; rewrite E1, E2; cbn [fmul fm1 double].
    + rewrite dmult_m1. apply dopp_eqz in Y. now rewrite dopp_opp in Y.
    + rewrite dmult_m1. exact Y.
  - rewrite xorb_false_r. left. unfold side_flux.
    pose proof (flux_same double KK (kokkos_reads double) C m m' CF iter n ep WF iter' n' ep' WF' pe pf turn RN _ _ c c' f sd iq HR Hf Hq HT (used_unturned f sd iq Hf HT) k Hk2) as ->. reflexivity.
Qed.

Lemma residual_turned c c' : related double C m pe c c' -> clean C m (used_normal double KK C m ep) c -> clean C m' (used_normal double KK C m' ep') c' ->
  forall e, 0 <= e < gm_num_elems m -> agree2 (c_nb double C) (space_dim (c_shape double C) + 2)
    (ref_residual double KK C m' (used_normal double KK C m' ep') c' (pe e)) (ref_residual double KK C m (used_normal double KK C m ep) c e).
Proof.
  intros HR HC HC' e He ib is Hb Hs. unfold ref_residual, kgemm. rewrite !inb_in by assumption. cbn [andb l_entry kokkos]. unfold kk_entry. cbn [fadd fmul double].
  rewrite (volume_same double KK (kokkos_reads double) C m m' CF CF' pe pf turn RN c c' e HR He ib is Hb Hs).
  apply sum_eqz.
  - unfold ref_volume. cbv zeta. apply sum_not_mzero; [exact zero_not_mzero|]. intros iq a Ha. apply sum_not_mzero; [exact Ha|]. intros id b Hb'. now apply dplus_not_mzero.
  - intros p Hp. apply (buffer_same double KK C m m' CF CF' iter n ep WF iter' n' ep' WF' pe pf turn RN eqz); [apply eqz_refl| |exact He].
    intros f sd iq Hf Hq. apply side_flux_turned; auto. rewrite QUAD in Hs. exact Hs.
Qed.
End Turn.

(** * The theorem *)

(** Binary64; quadrilaterals with straight edges, Lax-Friedrichs fluxes, any
    order, either stepper.  The same case on two mesh files that differ in the
    numbers of nodes, elements and faces and in which element of a face is the
    left one; each run on any number of ranks and any assignment.  If neither run
    ends with a NaN, both end with the same bits in every element. *)
Theorem C99_quadrilaterals : forall (C : kcase double) (m m' : gmesh d64) pe pf turn (x : Z -> d64) steps,
  case_fits double C m -> case_fits double C m' -> renamed m m' pe pf turn ->
  c_shape double C = EQuad -> c_g double C = 1 -> c_flux double C = LaxFriedrichs ->
  (forall iq, c_fgrad double C iq = edge_gradients 1 (x iq)) -> edges_shared m ->
  forall iter1 n1 ep1 pm1 U1 iter2 n2 ep2 pm2 U2,
  computes double (kokkos double) C iter1 n1 m ep1 steps pm1 U1 -> computes double (kokkos double) C iter2 n2 m' ep2 steps pm2 U2 ->
  no_nan C n1 pm1 U1 -> no_nan C n2 pm2 U2 ->
  same_bits_renamed double C pe n1 n2 pm1 pm2 U1 U2.
Proof.
  intros C m m' pe pf turn x steps CF CF' RN Q G1 LF GR SH iter1 n1 ep1 pm1 U1 iter2 n2 ep2 pm2 U2 R1 R2 N1 N2.
  destruct (Z.le_gt_cases (c_nb double C) 0) as [NB|NB].
  { intros e r1 le1 r2 le2 _ _ _ _ ib is Hb. lia. }
  pose proof (held1 double KK (kokkos_reads double) C m steps CF iter1 n1 ep1 pm1 U1 R1) as H1.
  pose proof (held1 double KK (kokkos_reads double) C m' steps CF' iter2 n2 ep2 pm2 U2 R2) as H2.
  apply (finish double KK (kokkos_reads double) C m m' steps CF CF' pe iter1 n1 ep1 pm1 U1 iter2 n2 ep2 pm2 U2 R1 R2).
  assert (NM : forall (m : gmesh d64) iter n ep pm U, computes double KK C iter n m ep steps pm U -> no_nan C n pm U ->
     forall M, kholds double C n pm M U -> numbers C m M).
  { intros m0 iter n ep pm U (WF & PT & _) NN M HM e k He Hk.
    destruct (run_ep _ _ _ _ WF) as [LE FA]. destruct (rd_total ep e) as (r & Er); [rewrite LE; exact He|].
    rewrite Forall_forall in FA. pose proof (FA r (rd_In _ _ _ Er)) as Hr.
    pose proof (C01_element_ownership d64 (f0 double) iter n m0 ep pm WF PT) as (_ & Own & _). apply (Own r e Hr) in Er.
    destruct (CommProof.In_rd _ _ Er) as (le & Hle).
    rewrite <- (HM r le e Hr Hle 0 k ltac:(lia) Hk). apply NN; [exact Hr|exact (local_in double iter n m0 ep pm WF PT r le e Hr Hle)|lia|exact Hk]. }
  pose proof (NM m _ _ _ _ _ R1 N1 _ H1) as B1. pose proof (NM m' _ _ _ _ _ R2 N2 _ H2) as B2. clear NM H1 H2.
  destruct R1 as (WF1 & _). destruct R2 as (WF2 & _).
  apply (march_clean C m CF iter1 n1 ep1 WF1 _ NB) in B1. apply (march_clean C m' CF' iter2 n2 ep2 WF2 _ NB) in B2.
  apply (march_same double KK (kokkos_reads double) C m m' CF CF' pe pf turn RN _ _
     (clean C m (used_normal double KK C m ep1)) (clean C m' (used_normal double KK C m' ep2))).
  - intros c c' HR HC HC' e He. exact (residual_turned C m m' CF CF' iter1 n1 ep1 WF1 iter2 n2 ep2 WF2 pe pf turn RN Q G1 LF x GR SH c c' HR HC HC' e He).
  - exact (init_same double KK (kokkos_reads double) C m m' CF CF' pe pf turn RN).
  - exact (proj2 B1).
  - exact (proj2 B2).
Qed.
Print Assumptions C99_quadrilaterals.
