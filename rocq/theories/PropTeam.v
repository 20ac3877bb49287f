(** PropTeam.v -- C81: the device kernels of a residual evaluation are free of
    races: whatever the team size, the assignment of iterations to threads and the
    interleaving of their loads and stores, every execution completes and leaves
    the result of the sequential functions of SolverModel.v. *)
From Coq Require Import ZArith List Lia Reals Lra Bool Permutation FunctionalExtensionality.
From Verif Require Import Base RBase LinAlgModel PhysModel PhysSpec ShapeModel MeshModel MeshSpec CommModel SolverModel SolverSpec SolverProof
  SolverFaces SolverMesh PropMesh PropSolver PropComm PropResidual TeamModel TeamProof TeamKernels TeamKernelProof TeamLaunch.
Import ListNotations.
Local Open Scope R_scope.
Open Scope res_scope.

(** ** Vocabulary *)

(** Every iteration of every team loop runs on one of the [T] threads. *)
Definition thread_assignment (T : Z) (own : nat -> Z -> Z -> Z) : Prop := (0 < T)%Z /\ forall k e i, (0 <= own k e i < T)%Z.

(** The device memory [μ] holds the coefficients, the residual and the work
    arrays of the face terms. *)
Definition device_holds (μ : mem) (Uc rs : arr3) (v : rviews) : Prop :=
  view3 vUc μ = Uc /\ view3 vRes μ = rs /\ view3 vUf μ = v_Uq v /\ view3 vUL μ = v_UqL v /\ view3 vUR μ = v_UqR v /\
  view3 vFq μ = v_Fq v /\ view3 vFe μ = v_Fe v.

(** The exchange replaces the face states and nothing else. *)
Definition received (μ1 : mem) (UL UR : arr3) (μ2 : mem) : Prop :=
  view3 vUL μ2 = UL /\ view3 vUR μ2 = UR /\
  forall v i j k l, v <> vUL -> v <> vUR -> μ2 (At v i j k l) = μ1 (At v i j k l).

(** ** Proofs *)
Lemma own_assigned np ns nb bv vin vout T own k k' ne : thread_assignment T own ->
  assigned ne T (evaluate_state_k np ns nb bv vin vout (own k) (own k')).
Proof. intros [_ H] g L i _ [<-|[<-|[]]] _; apply H. Qed.

Lemma clear_keeps v m : keeps [v] (clear v m) m.
Proof.
  intros w i j k l H. cbn. destruct (Z.eqb_spec w v) as [->|]; [|reflexivity]. destruct H. now left.
Qed.
Lemma clear_view3 v m : view3 v (clear v m) = zero3.
Proof.
  apply functional_extensionality. intros i. apply functional_extensionality. intros j. apply functional_extensionality. intros k.
  unfold view3, at3. cbn. now rewrite Z.eqb_refl.
Qed.
Lemma clear_view4 v m : view4 v (clear v m) = zero4.
Proof.
  apply functional_extensionality. intros i. apply functional_extensionality. intros j. apply functional_extensionality. intros k.
  apply functional_extensionality. intros l. unfold view4. cbn. now rewrite Z.eqb_refl.
Qed.
Lemma executes_app a b m m' : executes (a ++ b) m m' -> exists m1, executes a m m1 /\ executes b m1 m'.
Proof.
  revert m. induction a as [|[n T K|v] a IH]; intros m H; cbn [app executes] in *; [eauto| |auto].
  destruct H as (m1 & L & H). destruct (IH m1 H) as (m2 & A & B). eauto.
Qed.
Lemma completes_app a b m : always_completes a m -> (forall m1, executes a m m1 -> always_completes b m1) -> always_completes (a ++ b) m.
Proof.
  revert m. induction a as [|[n T K|v] a IH]; intros m H1 H2; cbn [app executes always_completes] in *; [auto| |auto].
  destruct H1 as [C H1]. split; [exact C|]. intros m1 L. apply IH; [auto|]. intros m2 E. apply H2. eauto.
Qed.
Lemma completes_executes l m : always_completes l m -> exists m', executes l m m'.
Proof.
  revert m. induction l as [|[n T K|v] l IH]; intros m H; cbn [executes always_completes] in *; [eauto| |auto].
  destruct H as [[_ (m1 & L)] H]. destruct (IH m1 (H m1 L)) as (m' & E). eauto.
Qed.

Section Rank.
Context (d : rdata) (T : Z) (own : nat -> Z -> Z -> Z).
Context (Hdim : (d_dim d = 2 \/ d_dim d = 3)%Z) (Hnb : (0 <= d_nb d)%Z) (Hnq : (0 <= d_nq d)%Z) (Hnqf : (0 <= d_nqf d)%Z).
Context (TA : thread_assignment T own) (OK : orders_ok d).
Let ns := ns_of d.
Lemma ns_pos : (0 <= ns)%Z. Proof. unfold ns, ns_of. lia. Qed.

Lemma element_tasks_ok μ μ' rs : element_residuals d (view3 vUc μ) (view3 vRes μ) = Ok rs ->
  executes (element_tasks d T own) μ μ' -> view3 vRes μ' = rs /\ keeps [vRes; vUv; vG] μ' μ.
Proof.
  intros E (m1 & L1 & m2 & L2 & m3 & L3 & m4 & L4 & ->). fold ns in L1, L2, L4. unfold element_residuals in E. fold (ns_of d) in E. fold ns in E.
  destruct (zero_res_launch (d_ne d) (d_nb d) ns Hnb ns_pos μ m1 L1) as [Z1 K1].
  set (m1' := clear vG (clear vUv m1)) in *.
  assert (K1' : keeps [vRes; vUv; vG] m1' μ).
  { intros v i j k l H. unfold m1'. rewrite (clear_keeps vG), (clear_keeps vUv), K1; [reflexivity| | |]; intros [<-|[]]; apply H; cbn; auto. }
  destruct (evaluate_state_launch _ _ _ _ _ _ _ _ (d_ne d) T (d_order d 0) m1' m2 ns_pos (ltac:(discriminate) : vUc <> vUv) (proj1 TA) (own_assigned _ _ _ _ _ _ _ _ _ _ _ TA) (proj1 OK 0%nat) L2) as [Z2 K2].
  assert (U2 : view3 vUc m1' = view3 vUc μ) by (apply (keeps_view3 _ _ _ _ K1'); other_view).
  assert (V2 : view3 vUv m1' = zero3).
  { unfold m1'. rewrite (keeps_view3 [vG] _ (clear vUv m1) vUv (clear_keeps vG _)) by other_view. apply clear_view3. }
  rewrite U2, V2 in Z2.
  assert (G2 : view4 vG m2 = zero4).
  { rewrite (keeps_view4 [vUv] m2 m1' vG K2) by other_view. apply clear_view4. }
  destruct (volume_fluxes _ _ _ _ _ _ _ _ _) as [s|] eqn:EV; [|discriminate]. cbn [bind] in E. injection E as <-.
  destruct s as [u w]. rewrite <- Z2, <- G2 in EV.
  destruct (volume_fluxes_launch (d_dim d) (d_nq d) Hdim (d_gamma d) (d_djac d) (d_ijac d) (d_wts d) (d_garbage d) (d_garbage d) (d_garbage d) Hnq
    (d_ne d) (d_porder d 0 (d_ne d) (d_nq d)) u w m2 m3 (proj2 OK 0%nat _ _) EV L3) as (_ & Z3 & K3).
  destruct (volume_flux_integral_launch (d_nq d) (d_nb d) ns (d_dim d) (d_basis_ref_grad d) (d_ne d) (d_order d 1) m3 m4 (proj1 OK 1%nat) L4) as [Z4 K4].
  split.
  - rewrite Z4, Z3. cbn [snd]. f_equal. rewrite (keeps_view3 _ m3 m2 vRes K3) by other_view. rewrite (keeps_view3 _ m2 m1' vRes K2) by other_view.
    unfold m1'. rewrite (keeps_view3 _ _ _ vRes (clear_keeps vG _)) by other_view. rewrite (keeps_view3 _ _ _ vRes (clear_keeps vUv _)) by other_view. exact Z1.
  - intros v i j k l H. cbn [In] in H. rewrite K4, K3, K2, K1'; [reflexivity| | | |]; cbn [In]; tauto.
Qed.
Lemma element_tasks_complete μ : always_completes (element_tasks d T own) μ.
Proof.
  cbn [always_completes element_tasks]. fold ns. split; [apply (zero_res_completes (d_ne d) (d_nb d) ns Hnb ns_pos)|]. intros m1 _.
  split; [apply evaluate_state_completes; [apply ns_pos|discriminate|apply TA]|]. intros m2 _.
  split; [apply volume_fluxes_completes; exact Hnq|]. intros m3 _.
  split; [apply volume_flux_integral_completes|easy].
Qed.

Lemma face_before_ok μ μ' v v1 : view3 vUf μ = v_Uq v -> view3 vUL μ = v_UqL v -> view3 vUR μ = v_UqR v ->
  face_residuals_before d (view3 vUc μ) v = Ok v1 ->
  executes (face_tasks_before d T own) μ μ' ->
  view3 vUf μ' = v_Uq v1 /\ view3 vUL μ' = v_UqL v1 /\ view3 vUR μ' = v_UqR v1 /\ v_Fq v1 = v_Fq v /\ v_Fe v1 = v_Fe v /\
  keeps [vUf; vUL; vUR] μ' μ.
Proof.
  intros VU VL VR E (m1 & L1 & m2 & L2 & ->). fold ns in L1, L2. unfold face_residuals_before in E. fold (ns_of d) in E. fold ns in E.
  set (fb := flat_face_basis _ _ _ _) in *.
  destruct (evaluate_state_launch _ _ _ _ _ _ _ _ (d_ne d) T (d_order d 2) μ m1 ns_pos (ltac:(discriminate) : vUc <> vUf) (proj1 TA) (own_assigned _ _ _ _ _ _ _ _ _ _ _ TA) (proj1 OK 2%nat) L1) as [Z1 K1].
  rewrite VU in Z1. destruct (construct_face_states _ _ _ _ _ _ _ _ _ _ _ _) as [[UL UR]|] eqn:EC; [|discriminate]. cbn [bind fst snd] in E. injection E as <-.
  cbn [v_Uq v_UqL v_UqR v_Fq v_Fe].
  rewrite <- Z1, <- VL, <- VR in EC.
  rewrite <- (keeps_view3 _ m1 μ vUL K1), <- (keeps_view3 _ m1 μ vUR K1) in EC by other_view.
  destruct (face_states_launch (d_rank d) (d_rows d) (d_nif d) (d_nqf d) ns (d_qL d) (d_qR d) Hnqf _ _ UL UR m1 m2 (proj2 OK 1%nat _ _) EC L2) as (Z2 & Z3 & K2).
  split; [rewrite (keeps_view3 _ m2 m1 vUf K2) by other_view; exact Z1|]. split; [exact Z2|]. split; [exact Z3|].
  split; [reflexivity|]. split; [reflexivity|].
  intros w i j k l H. cbn [In] in H. rewrite K2, K1; [reflexivity| |]; cbn [In]; tauto.
Qed.
Lemma face_before_complete μ : always_completes (face_tasks_before d T own) μ.
Proof.
  cbn [always_completes face_tasks_before]. fold ns.
  split; [apply evaluate_state_completes; [apply ns_pos|discriminate|apply TA]|]. intros m1 _.
  split; [apply face_states_completes; exact Hnqf|easy].
Qed.

Context (RW : rows_wf (d_rank d) (d_rows d) (d_nif d) (d_nqf d) (d_ne d) (d_NFACE d) (qidx (d_qL d) (d_qR d))).
Lemma face_after_ok μ μ' v v2 rs2 : view3 vFq μ = v_Fq v -> view3 vFe μ = v_Fe v ->
  face_residuals_after d (view3 vUL μ) (view3 vUR μ) v (view3 vRes μ) = Ok (v2, rs2) ->
  executes (face_tasks_after d T own) μ μ' ->
  view3 vFq μ' = v_Fq v2 /\ view3 vFe μ' = v_Fe v2 /\ view3 vRes μ' = rs2 /\
  v_Uq v2 = v_Uq v /\ v_UqL v2 = view3 vUL μ /\ v_UqR v2 = view3 vUR μ /\ keeps [vFq; vFe; vRes] μ' μ.
Proof.
  intros VF VE E (m1 & L1 & m2 & L2 & m3 & L3 & ->). fold ns in L2, L3. unfold face_residuals_after in E. fold (ns_of d) in E. fold ns in E.
  set (fb := flat_face_basis _ _ _ _) in *. rewrite <- VF, <- VE in E.
  destruct (face_fluxes _ _ _ _ _ _ _ _ _ _ _) as [Fq|] eqn:E1; [|discriminate]. cbn [bind] in E.
  destruct (construct_flux_state _ _ _ _ _ _ _ _ _ _ _) as [Fe|] eqn:E2; [|discriminate]. cbn [bind] in E. injection E as <- <-.
  cbn [v_Uq v_UqL v_UqR v_Fq v_Fe].
  destruct (face_fluxes_launch (d_flux d) (d_dim d) (d_nqf d) Hdim (d_gamma d) (d_normals d) (d_face_wts d) (d_garbage d) (d_garbage d) (d_garbage d) Hnqf
    (d_nif d) _ Fq μ m1 (proj2 OK 2%nat _ _) E1 L1) as [Z1 K1].
  rewrite <- Z1, <- (keeps_view3 _ m1 μ vFe K1) in E2 by other_view.
  destruct (flux_state_launch (d_rank d) (d_rows d) (d_nif d) (d_nqf d) (d_ne d) (d_NFACE d) ns (d_qL d) (d_qR d) Hnqf RW _ _ Fe m1 m2 (proj2 OK 3%nat _ _) E2 L2) as [Z2 K2].
  destruct (face_flux_integral_launch (d_NFACE d * d_nqf d) (d_nb d) ns fb (own 4%nat) (d_ne d) T (d_order d 3) m2 m3 ns_pos (proj1 TA)) as [Z3 K3]; auto.
  { intros g L i _ [<-|[]] _. apply TA. }
  { apply OK. }
  split; [rewrite (keeps_view3 _ m3 m2 vFq K3), (keeps_view3 _ m2 m1 vFq K2) by other_view; exact Z1|].
  split; [rewrite (keeps_view3 _ m3 m2 vFe K3) by other_view; exact Z2|].
  split; [rewrite Z3, Z2, (keeps_view3 _ m2 m1 vRes K2), (keeps_view3 _ m1 μ vRes K1) by other_view; reflexivity|].
  split; [reflexivity|]. split; [reflexivity|]. split; [reflexivity|].
  intros w i j k l H. cbn [In] in H. rewrite K3, K2, K1; [reflexivity| | |]; cbn [In]; tauto.
Qed.
Lemma face_after_complete μ : always_completes (face_tasks_after d T own) μ.
Proof.
  cbn [always_completes face_tasks_after]. fold ns.
  split; [apply face_fluxes_completes; exact Hnqf|]. intros m1 _.
  split; [apply (flux_state_completes (d_rank d) (d_rows d) (d_nif d) (d_nqf d) (d_ne d) (d_NFACE d) ns (d_qL d) (d_qR d) Hnqf RW)|]. intros m2 _.
  split; [apply face_flux_integral_completes; [apply ns_pos|apply TA]|easy].
Qed.
End Rank.

(** ** C81 *)

(** One residual evaluation: on every rank, with any team size, thread assignment
    and interleaving, the element kernels and the gathering of the face states
    complete and produce the face states the exchange sends; after the exchange
    the remaining kernels complete and leave the residual and the work arrays of
    the evaluation, and no view other than theirs is touched. *)
Theorem C81_residual_any_schedule :
  forall A (zero : A) iter n m ep (pm : Z -> pmesh A) s nqf nb gamma ft fb fw D Uc rs0 v0 UL UR v2 rs2,
  run_wf iter n m ep -> partitioned zero iter n m ep pm ->
  faces_valid s m -> faces_distinct m -> face_points s nqf -> (0 <= nb)%Z ->
  same_setup s m pm n nqf nb gamma ft fb fw D ->
  evaluates m ep pm n D Uc rs0 v0 UL UR v2 rs2 ->
  forall r T own, (0 <= r < n)%Z -> (0 <= d_nq (D r))%Z -> thread_assignment T own ->
  exists v1, face_residuals_before (D r) (Uc r) (v0 r) = Ok v1 /\
  forall μ0, device_holds μ0 (Uc r) (rs0 r) (v0 r) ->
    always_completes (element_tasks (D r) T own ++ face_tasks_before (D r) T own) μ0 /\
    forall μ1, executes (element_tasks (D r) T own ++ face_tasks_before (D r) T own) μ0 μ1 ->
      view3 vUL μ1 = v_UqL v1 /\ view3 vUR μ1 = v_UqR v1 /\
      forall μ2, received μ1 (UL r) (UR r) μ2 ->
        always_completes (face_tasks_after (D r) T own) μ2 /\
        forall μ3, executes (face_tasks_after (D r) T own) μ2 μ3 -> device_holds μ3 (Uc r) (rs2 r) (v2 r) /\
          forall v i j k l, ~ In v [vRes; vUv; vG; vUf; vUL; vUR; vFq; vFe] -> μ3 (At v i j k l) = μ0 (At v i j k l).
Proof.
  intros A zero iter n m ep pm s nqf nb gamma ft fb fw D Uc rs0 v0 UL UR v2 rs2 WF PT HV HD HP Hnb SS
    (rs1 & v1 & X & E1 & _ & E3) r T own Hr Hnq TA.
  destruct (E1 r Hr) as [EE EB]. destruct (E3 r Hr) as (_ & _ & EA).
  destruct (ss_sizes _ _ _ _ _ _ _ _ _ _ _ SS r Hr) as (S1 & S2 & S3 & S4 & S5 & S6 & S7 & S8).
  pose proof (ss_lookup _ _ _ _ _ _ _ _ _ _ _ SS r Hr) as LK. pose proof (ss_orders _ _ _ _ _ _ _ _ _ _ _ SS r Hr) as OK.
  assert (Hdim : (d_dim (D r) = 2 \/ d_dim (D r) = 3)%Z) by (rewrite S2; destruct s; cbn; auto).
  assert (Hnqf : (0 <= d_nqf (D r))%Z) by (rewrite S6; destruct s; cbn in HP; [easy|destruct HP as (q & Hq & ->); nia]).
  rewrite <- S4 in Hnb.
  assert (RW : rows_wf (d_rank (D r)) (d_rows (D r)) (d_nif (D r)) (d_nqf (D r)) (d_ne (D r)) (d_NFACE (D r)) (qidx (d_qL (D r)) (d_qR (D r)))).
  { rewrite S7, S8 in LK. rewrite S1, S3, S5, S6, S7, S8.
    exact (proj1 (rows_ok zero iter n m ep pm WF PT s nqf r (d_qL (D r)) (d_qR (D r)) Hr HV HD HP LK)). }
  exists (v1 r). split; [exact EB|]. intros μ0 (H1 & H2 & H3 & H4 & H5 & H6 & H7).
  assert (MID : forall μ, executes (element_tasks (D r) T own) μ0 μ -> view3 vRes μ = rs1 r /\ keeps [vRes; vUv; vG] μ μ0).
  { intros μ X1. apply (element_tasks_ok (D r) T own Hdim Hnb Hnq TA OK μ0 μ (rs1 r)); [|exact X1]. rewrite H1, H2. exact EE. }
  split.
  { apply completes_app; [apply (element_tasks_complete (D r) T own Hdim Hnb Hnq TA)|]. intros μ _. exact (face_before_complete (D r) T own Hdim Hnqf TA μ). }
  intros μ1 X1. apply executes_app in X1. destruct X1 as (μ & XA & XB). destruct (MID μ XA) as [M1 M2].
  destruct (face_before_ok (D r) T own Hdim Hnqf TA OK μ μ1 (v0 r) (v1 r)) as (B1 & B2 & B3 & B4 & B5 & B6).
  { rewrite (keeps_view3 _ μ μ0 vUf M2) by other_view. exact H3. }
  { rewrite (keeps_view3 _ μ μ0 vUL M2) by other_view. exact H4. }
  { rewrite (keeps_view3 _ μ μ0 vUR M2) by other_view. exact H5. }
  { rewrite (keeps_view3 _ μ μ0 vUc M2), H1 by other_view. exact EB. }
  { exact XB. }
  split; [exact B2|]. split; [exact B3|]. intros μ2 (R1 & R2 & R3).
  split; [exact (face_after_complete (D r) T own Hdim Hnqf TA RW μ2)|]. intros μ3 X3.
  assert (K2 : keeps [vUL; vUR] μ2 μ1).
  { intros v i j k l Hv. apply R3; intros ->; apply Hv; cbn; auto. }
  assert (K0 : forall v, v <> vUL -> v <> vUR -> v <> vUf -> v <> vRes -> v <> vUv -> v <> vG -> view3 v μ2 = view3 v μ0).
  { intros v N1 N2 N3 N4 N5 N6. rewrite (keeps_view3 _ μ2 μ1 v K2), (keeps_view3 _ μ1 μ v B6), (keeps_view3 _ μ μ0 v M2); [reflexivity| | |]; cbn [In]; intuition congruence. }
  destruct (face_after_ok (D r) T own Hdim Hnqf TA OK RW μ2 μ3 (v1 r) (v2 r) (rs2 r)) as (C1 & C2 & C3 & C4 & C5 & C6 & C7).
  { rewrite K0, B4 by discriminate. exact H6. }
  { rewrite K0, B5 by discriminate. exact H7. }
  { rewrite R1, R2. rewrite (keeps_view3 _ μ2 μ1 vRes K2), (keeps_view3 _ μ1 μ vRes B6), M1 by other_view. exact EA. }
  { exact X3. }
  assert (KP : forall v i j k l, ~ In v [vRes; vUv; vG; vUf; vUL; vUR; vFq; vFe] -> μ3 (At v i j k l) = μ0 (At v i j k l)).
  { intros v i j k l H. cbn [In] in H. rewrite C7, K2, B6, M2; [reflexivity| | | |]; cbn [In]; tauto. }
  split; [|exact KP].
  unfold device_holds. rewrite C4, C5, C6. repeat split.
  - rewrite (keeps_view3 _ μ3 μ2 vUc C7) by other_view. rewrite K0 by discriminate. exact H1.
  - exact C3.
  - rewrite (keeps_view3 _ μ3 μ2 vUf C7), (keeps_view3 _ μ2 μ1 vUf K2) by other_view. exact B1.
  - rewrite (keeps_view3 _ μ3 μ2 vUL C7) by other_view. reflexivity.
  - rewrite (keeps_view3 _ μ3 μ2 vUR C7) by other_view. reflexivity.
  - exact C1.
  - exact C2.
Qed.
Print Assumptions C81_residual_any_schedule.

(** The product with the inverse mass matrices. *)
Theorem C81_mass_any_schedule :
  forall ne nb ns dt iMM T own order μ,
  (0 <= ns)%Z -> thread_assignment T own -> Permutation order (zseq ne) ->
  let K := kernel (mult_inv_mass_k nb ns dt iMM (own 5%nat) (own 6%nat)) in
  (never_stuck ne T K μ /\ exists μ', launch ne T K μ μ') /\
  forall μ', launch ne T K μ μ' ->
    view3 vdU μ' = mult_inv_mass_matrix order nb ns dt iMM (view3 vRes μ) (view3 vdU μ) /\
    forall v i j k l, v <> vdU -> μ' (At v i j k l) = μ (At v i j k l).
Proof.
  intros ne nb ns dt iMM T own order μ Hns TA PO K. split; [apply mult_inv_mass_completes; [exact Hns|apply TA]|].
  intros μ' L. destruct (mult_inv_mass_launch nb ns dt iMM (own 5%nat) (own 6%nat) ne T order μ μ' Hns (proj1 TA)) as [E KP]; auto.
  - intros g Lp i _ [<-|[<-|[]]] _; apply TA.
  - split; [exact E|]. intros v i j k l Hv. apply KP. intros [<-|[]]. easy.
Qed.
Print Assumptions C81_mass_any_schedule.

(** The residual of the demo mesh (PropResidual.v) on its three ranks, with teams
    of two threads that take turns: the memories exist. *)
Definition device (Uc rs : arr3) (v : rviews) : mem := fun a => match a with At w i j k l =>
  if (w =? vUc)%Z then Uc i j k else if (w =? vRes)%Z then rs i j k else if (w =? vUf)%Z then v_Uq v i j k
  else if (w =? vUL)%Z then v_UqL v i j k else if (w =? vUR)%Z then v_UqR v i j k else if (w =? vFq)%Z then v_Fq v i j k else v_Fe v i j k end.
Lemma device_ok Uc rs v : device_holds (device Uc rs v) Uc rs v.
Proof. repeat split. Qed.
Definition put (UL UR : arr3) (m : mem) : mem := fun a => match a with At w i j k l =>
  if (w =? vUL)%Z then UL i j k else if (w =? vUR)%Z then UR i j k else m a end.
Lemma put_ok UL UR m : received m UL UR (put UL UR m).
Proof.
  split; [reflexivity|]. split; [reflexivity|]. intros v i j k l N1 N2. unfold put.
  destruct (Z.eqb_spec v vUL); [easy|]. destruct (Z.eqb_spec v vUR); easy.
Qed.
Definition turns (_ : nat) (_ i : Z) : Z := (i mod 2)%Z.
Example C81_demo : thread_assignment 2 turns /\
  exists UL UR v2 rs2, evaluates demo_mesh demo_ep demo_pm 3 demo_D (fun _ => demo_U) (fun _ => zero3) (fun _ => mkRV zero3 zero3 zero3 zero3 zero3) UL UR v2 rs2 /\
  forall r, (0 <= r < 3)%Z -> exists μ0 μ1 μ2 μ3,
    device_holds μ0 demo_U zero3 (mkRV zero3 zero3 zero3 zero3 zero3) /\
    executes (element_tasks (demo_D r) 2 turns ++ face_tasks_before (demo_D r) 2 turns) μ0 μ1 /\ received μ1 (UL r) (UR r) μ2 /\
    executes (face_tasks_after (demo_D r) 2 turns) μ2 μ3 /\ view3 vRes μ3 = rs2 r.
Proof.
  assert (TA : thread_assignment 2 turns) by (split; [lia|]; intros; apply Z.mod_pos_bound; lia).
  split; [exact TA|]. destruct demo_setup as (S1 & _). destruct C23_demo as (_ & FV & FD & FP).
  destruct (demo_residual (fun _ => zero3)) as (UL & UR & v2 & rs2 & E & _).
  exists UL, UR, v2, rs2. split; [exact E|]. intros r Hr.
  destruct (C81_residual_any_schedule Z 0%Z (fun _ l => rev l) 3 demo_mesh demo_ep demo_pm EQuad 3 1 2 HLLC _ _ demo_D _ _ _ UL UR v2 rs2
    demo_run demo_partitioned FV FD FP ltac:(lia) S1 E r 2 turns Hr ltac:(cbn; lia) TA) as (v1 & _ & H).
  destruct (H _ (device_ok _ _ _)) as [C1 H1]. destruct (completes_executes _ _ C1) as (μ1 & X1). destruct (H1 μ1 X1) as (_ & _ & H2).
  destruct (H2 _ (put_ok _ _ _)) as [C3 H3]. destruct (completes_executes _ _ C3) as (μ3 & X3).
  exists (device demo_U zero3 (mkRV zero3 zero3 zero3 zero3 zero3)), μ1, (put (UL r) (UR r) μ1), μ3.
  split; [apply device_ok|]. split; [exact X1|]. split; [apply put_ok|]. split; [exact X3|]. apply (H3 μ3 X3).
Qed.
Print Assumptions C81_demo.
