(** PropReal.v -- C97, continued: in exact arithmetic the program modelled in an
    arbitrary arithmetic (ArithModel.v) takes the steps of the real-number model
    (SolverModel.v, StepModel.v), to which the other properties refer.  Used to
    check the two models of the same code against each other. *)
From Coq Require Import ZArith Reals List Lia Lra Bool FunctionalExtensionality Permutation.
From Verif Require Import Base RBase MeshModel MeshSpec CommModel CommSpec LinAlgModel LinAlgProof PhysModel SolverModel SolverSpec StepModel StepProof
  ShapeModel BasisModel QuadModel PropBasis BasisProof SetupModel SetupSpec PropSetup PropMesh PropMeshRun PropStep PropIntegral PropNormals PropVortex PropDG DGSpec DGProof ArithModel ArithLibrary ArithReal.
Import ListNotations.
Local Open Scope R_scope.

Definition kind_of (st : stepper) : skind := match st with ForwardEuler => StepFE | RungeKutta4 => StepRK4 end.

(** The tables of a rank with the inverse mass matrices [iMM]. *)
Definition exact_data (s : eshape) (iMM : arr3) (d : rdata) : kdata reals :=
  real_data s (mkKG reals (fun _ _ _ _ => 0) (fun _ _ => 0) (fun _ _ _ _ => 0) iMM) d.

Lemma exchanged_ext {A V} n (m : gmesh A) ep (pm : Z -> pmesh A) (S S1 X : Z -> fstate V) : assignment m n ep ->
  (forall r, (0 <= r < n)%Z -> S r = S1 r) -> CommSpec.exchanged n m ep pm S X -> CommSpec.exchanged n m ep pm S1 X.
Proof.
  intros [_ HA] E [H1 H2]. split; [exact H1|]. intros r lf f rL rR Hr Hf FR.
  assert (RG : (0 <= rL < n)%Z /\ (0 <= rR < n)%Z).
  { destruct FR as (eL & eR & _ & _ & OL & OR). rewrite Forall_forall in HA. unfold owned_by in OL, OR. split; apply HA; eapply rd_In; eassumption. }
  destruct (H2 r lf f rL rR Hr Hf FR) as [(lL & v & A1 & A2 & A3) (lR & w & B1 & B2 & B3)]. split.
  - exists lL, v. rewrite <- E by easy. auto.
  - exists lR, w. rewrite <- E by easy. auto.
Qed.

Section Exact.
Context (s : eshape) (n : Z) (m : gmesh R) (ep : list Z) (pm : Z -> pmesh R) (nqf nb : Z) (gamma : R) (D : Z -> rdata) (iMM : Z -> arr3).
Context (Hn : (0 < n)%Z) (HA : assignment m n ep) (HQ : (0 < nqf)%Z).
(** The tables of the ranks belong together. *)
Context (HT : forall r, (0 <= r < n)%Z -> d_dim (D r) = space_dim s /\ d_NFACE (D r) = faces_per_elem s /\ d_nqf (D r) = nqf /\
  d_nb (D r) = nb /\ d_ne (D r) = pm_num_elems_part (pm r) /\ orders_ok (D r) /\ fits (shape_of s pm nb r)).
Notation KD := (fun r => exact_data s (iMM r) (D r)).

Lemma nb_nonneg : (0 <= nb)%Z.
Proof. destruct (HT 0%Z) as (_ & _ & _ & _ & _ & _ & [E _]); [lia|]. unfold shape_of in E. cbn in E. tauto. Qed.

Lemma evaluates_exact U U' rs0 v0 UL UR v2 rs2 : (forall r, (0 <= r < n)%Z -> U' r = U r) -> evaluates m ep pm n D U' rs0 v0 UL UR v2 rs2 ->
  kevaluates reals (kokkos reals) m ep pm n KD U (fun r => real_views (v0 r)) rs2 (fun r => real_views (v2 r)).
Proof.
  intros HU (rs1 & v1 & X & H1 & H2 & H3). pose proof nb_nonneg as HB.
  assert (KB : forall r, (0 <= r < n)%Z -> kface_before reals (kokkos reals) (KD r) (U r) (real_views (v0 r)) = real_views (v1 r)).
  { intros r Hr. destruct (HT r Hr) as (T1 & T2 & T3 & T4 & T5 & T6 & T7). destruct (H1 r Hr) as [_ E]. rewrite HU in E by exact Hr.
    apply before_reals; auto; try lia. }
  exists rs0, X, UL, UR. split.
  - refine (exchanged_ext n m ep pm (fun r => face_blocks (d_nif (D r)) (v1 r)) _ X HA _ H2).
    intros r Hr. cbv zeta beta. rewrite (KB r Hr). reflexivity.
  - intros r Hr. destruct (HT r Hr) as (T1 & T2 & T3 & T4 & T5 & T6 & T7). destruct (H3 r Hr) as (B1 & B2 & B3).
    split; [exact B1|]. split; [exact B2|]. rewrite (KB r Hr). destruct (H1 r Hr) as [E _]. rewrite HU in E by exact Hr.
    assert (KE : kelement_residuals reals (kokkos reals) (KD r) (U r) (rs0 r) = rs1 r) by (apply element_reals; auto; lia).
    rewrite KE.
    apply after_reals; auto; lia.
Qed.

Lemma increment_exact r o order dt rs w : (0 <= r < n)%Z -> Permutation order (zseq (pm_num_elems_part (pm r))) ->
  kincrement reals (kokkos reals) KD dt o r rs w = mult_inv_mass_matrix order nb (space_dim s + 2) dt (iMM r) rs w.
Proof.
  intros Hr P. destruct (HT r Hr) as (T1 & T2 & T3 & T4 & T5 & (O1 & O2) & T7).
  assert (E : kincrement reals (kokkos reals) KD dt o r rs w = mult_inv_mass_matrix (d_order (D r) (4 + o)) nb (space_dim s + 2) dt (iMM r) rs w).
  { unfold kincrement, kmult_inv_mass, mult_inv_mass_matrix, exact_data. unfold k_ns, k_dim. cbn [k_order k_nb k_geom g_iMM k_shape real_data]. rewrite T4.
    unfold ploop. generalize w. induction (d_order (D r) (4 + o)) as [|e l IH]; intros t; [reflexivity|]. cbn [fold_left]. rewrite gemm_reals. apply IH. }
  rewrite E. apply functional_extensionality; intros e. apply functional_extensionality; intros i. apply functional_extensionality; intros k.
  rewrite !(SolverProof.mult_inv_mass_entry _ (pm_num_elems_part (pm r))); [reflexivity|exact P|]. rewrite <- T5. apply O1.
Qed.

Lemma box_exact r f B : (0 <= r < n)%Z -> kbox reals (KD r) f B = (fun e i k => if within3 (shape_of s pm nb r) e i k then f e i k else B e i k).
Proof.
  intros Hr. destruct (HT r Hr) as (T1 & T2 & T3 & T4 & T5 & O & T7).
  apply functional_extensionality; intros e. apply functional_extensionality; intros i. apply functional_extensionality; intros k.
  unfold kbox, exact_data. unfold k_ns, k_dim. cbn [k_ne k_nb k_shape real_data]. rewrite T4, T5. unfold within3, shape_of, inb.
  destruct (0 <=? e)%Z, (e <? pm_num_elems_part (pm r))%Z, (0 <=? i)%Z, (i <? nb)%Z, (0 <=? k)%Z, (k <? space_dim s + 2)%Z; reflexivity.
Qed.

Lemma axpy_exact r l c A B : (0 <= r < n)%Z -> axpy_data l (shape_of s pm nb r) (num_entries (shape_of s pm nb r)) c A B = kaxpy reals (kokkos reals) (KD r) c A B.
Proof.
  intros Hr. destruct (HT r Hr) as (_ & _ & _ & _ & _ & _ & T7). destruct (fits_num _ T7) as [-> X].
  rewrite axpy_data_eq by exact X. unfold kaxpy. rewrite box_exact by exact Hr. reflexivity.
Qed.
Lemma update_exact r l c A B C : (0 <= r < n)%Z -> update_data l (shape_of s pm nb r) (num_entries (shape_of s pm nb r)) c A B C = kupdate reals (kokkos reals) (KD r) c A B C.
Proof.
  intros Hr. destruct (HT r Hr) as (_ & _ & _ & _ & _ & _ & T7). destruct (fits_num _ T7) as [-> X].
  rewrite update_data_eq by exact X. unfold kupdate. rewrite box_exact by exact Hr. 
  apply functional_extensionality; intros e. apply functional_extensionality; intros i. apply functional_extensionality; intros k.
  cbn [l_update kokkos reals fadd fmul f1]. destruct (within3 _ e i k); [|reflexivity]. ring.
Qed.
Lemma copy_exact r l A C : (0 <= r < n)%Z -> copy_data l (shape_of s pm nb r) A C = kcopy reals (KD r) A C.
Proof.
  intros Hr. destruct (HT r Hr) as (_ & _ & _ & _ & _ & _ & T7). destruct (fits_num _ T7) as [_ X].
  rewrite copy_data_eq by exact X. unfold kcopy. rewrite box_exact by exact Hr. reflexivity.
Qed.

Lemma step_exact st l order dt wk U t w U1 w1 : (forall r, (0 <= r < n)%Z -> elem_orders (shape_of s pm nb r) (order r)) ->
  run_all n (evaluation s m ep pm n nqf gamma D) (fun r => step_program st l (shape_of s pm nb r) (order r) dt (iMM r) (wk r) (U r) t) w U1 w1 ->
  match kind_of st with StepFE => kstep_FE | StepRK4 => kstep_RK4 end reals (kokkos reals) m ep pm n KD dt U (fun r => real_views (fst w r)) U1 (fun r => real_views (fst w1 r)).
Proof.
  intros HO H. assert (OO : forall r k, (0 <= r < n)%Z -> Permutation (order r k) (zseq (pm_num_elems_part (pm r)))).
  { intros r k Hr. exact (HO r Hr k). }
  destruct st; cbn [kind_of].
  - destruct (run_ask _ _ _ _ _ _ _ _ Hn H) as (U' & rs & w2 & E1 & E2 & H2). apply run_end in H2; [|exact Hn]. destruct H2 as [-> E3].
    destruct E2 as (UL & UR & EV & _ & _). exists rs, (fun _ => zero3). split; [exact (evaluates_exact _ _ _ _ _ _ _ _ E1 EV)|].
    intros r Hr. rewrite E3 by exact Hr. rewrite axpy_exact by exact Hr. rewrite (increment_exact r 0 (order r 0%nat)); auto.
  - destruct (run_ask _ _ _ _ _ _ _ _ Hn H) as (U' & rs1 & w2 & A1 & (UL1 & UR1 & EV1 & _ & _) & H2). clear H.
    destruct (run_ask _ _ _ _ _ _ _ _ Hn H2) as (U2' & rs2 & w3 & A2 & (UL2 & UR2 & EV2 & _ & _) & H3). clear H2.
    destruct (run_ask _ _ _ _ _ _ _ _ Hn H3) as (U3' & rs3 & w4 & A3 & (UL3 & UR3 & EV3 & _ & _) & H4). clear H3.
    destruct (run_ask _ _ _ _ _ _ _ _ Hn H4) as (U4' & rs4 & w5 & A4 & (UL4 & UR4 & EV4 & _ & _) & H5). clear H4.
    apply run_end in H5; [|exact Hn]. destruct H5 as [-> E5].
    exists (fun r => w_dU1 (wk r)), (fun r => w_dU2 (wk r)), (fun r => w_dU3 (wk r)), (fun r => w_dU4 (wk r)), (fun r => w_Uhold (wk r)), rs1, rs2, rs3, rs4, U2', U3', U4',
      (fun r => real_views (fst w2 r)), (fun r => real_views (fst w3 r)), (fun r => real_views (fst w4 r)).
    cbv zeta. split; [exact (evaluates_exact _ _ _ _ _ _ _ _ A1 EV1)|].
    assert (C1 : forall r, (0 <= r < n)%Z -> U2' r = kupdate reals (kokkos reals) (KD r) (fhalf reals) (kincrement reals (kokkos reals) KD dt 0 r (rs1 r) (w_dU1 (wk r)))
        (kcopy reals (KD r) (U r) (w_Uhold (wk r))) (U r)).
    { intros r Hr. rewrite A2 by exact Hr. rewrite update_exact, copy_exact by exact Hr. rewrite (increment_exact r 0 (order r 0%nat)); auto. }
    split; [exact C1|]. split; [exact (evaluates_exact _ _ _ _ _ _ _ _ (fun r _ => eq_refl) EV2)|].
    assert (C2 : forall r, (0 <= r < n)%Z -> U3' r = kupdate reals (kokkos reals) (KD r) (fhalf reals) (kincrement reals (kokkos reals) KD dt 1 r (rs2 r) (w_dU2 (wk r)))
        (kcopy reals (KD r) (U r) (w_Uhold (wk r))) (U2' r)).
    { intros r Hr. rewrite A3 by exact Hr. rewrite A2 by exact Hr. rewrite !update_exact, !copy_exact by exact Hr. rewrite (increment_exact r 1 (order r 1%nat)); auto. }
    split; [exact C2|]. split; [exact (evaluates_exact _ _ _ _ _ _ _ _ (fun r _ => eq_refl) EV3)|].
    assert (C3 : forall r, (0 <= r < n)%Z -> U4' r = kupdate reals (kokkos reals) (KD r) (f1 reals) (kincrement reals (kokkos reals) KD dt 2 r (rs3 r) (w_dU3 (wk r)))
        (kcopy reals (KD r) (U r) (w_Uhold (wk r))) (U3' r)).
    { intros r Hr. rewrite A4, A3 by exact Hr. rewrite !update_exact, !copy_exact by exact Hr. rewrite (increment_exact r 2 (order r 2%nat)) by auto.
      replace (1.0) with 1 by lra. reflexivity. }
    split; [exact C3|]. split; [exact (evaluates_exact _ _ _ _ _ _ _ _ (fun r _ => eq_refl) EV4)|].
    intros r Hr. rewrite E5 by exact Hr. rewrite A4 by exact Hr.
    rewrite !axpy_exact, !update_exact, !copy_exact by exact Hr.
    rewrite (increment_exact r 0 (order r 0%nat)), (increment_exact r 1 (order r 1%nat)), (increment_exact r 2 (order r 2%nat)), (increment_exact r 3 (order r 3%nat)) by auto.
    cbn [f1 f2 f6 fdiv reals]. replace (1.0) with 1 by lra. replace 2.0 with 2 by lra. replace 6.0 with 6 by lra. reflexivity.
Qed.

Lemma exact_steps st dt k U w U' w' :
  marching s m ep pm n nqf nb gamma D iMM (repeat (st, dt) k) U w U' w' ->
  kmarch reals (kokkos reals) m ep pm n KD dt (kind_of st) k U (fun r => real_views (fst w r)) U'.
Proof.
  revert U w. induction k as [|k IH]; intros U w H; cbn [repeat] in H; inversion H; subst; [apply km_done|].
  eapply km_step; [|eapply IH; eassumption].
  match goal with H1 : run_all _ _ _ _ _ _, H2 : forall r, _ -> elem_orders _ _ |- _ => pose proof (step_exact _ _ _ _ _ _ _ _ _ _ H2 H1) as Q end.
  destruct st; exact Q.
Qed.
End Exact.

(** A run of the real-number model -- [n] ranks, any partition, schedule and
    number of steps of either stepper -- is a run of the arithmetic model of the
    same code, in exact arithmetic. *)
Theorem C97_exact_steps : forall zero iter n m ep pm s bt p g h f gamma ft ord pord junk st dt k U w U' w',
  (0 < n)%Z -> run_wf iter n m ep -> partitioned zero iter n m ep pm -> ready s bt p g m ->
  all_set_up s bt p g m pm n h f -> inner_loops_ok pm n ord pord ->
  (forall r, (0 <= r < n)%Z -> fits (shape_of s pm (nfun bt p) r)) ->
  let D := tables s bt p pm gamma ft h f ord pord junk in
  marching s m ep pm n (face_rule_points s p ^ (space_dim s - 1)) (nfun bt p) gamma D (fun r => vh_iMM (h r)) (repeat (st, dt) k) U w U' w' ->
  kmarch reals (kokkos reals) m ep pm n (fun r => exact_data s (vh_iMM (h r)) (D r)) dt (kind_of st) k U (fun r => real_views (fst w r)) U'.
Proof.
  intros zero iter n m ep pm s bt p g h f gamma ft ord pord junk st dt k U w U' w' Hn WF PT RD AS IL FT D MA.
  destruct (C70_setup_consistent zero iter n m ep pm s bt p g h f gamma ft ord pord junk WF PT RD AS IL) as (fp & fw & EF & FP & SS & _).
  assert (Hp : (0 <= p)%Z) by (destruct RD as [_ _ _ _ Op _]; unfold order_ok in Op; lia).
  apply (exact_steps s n m ep pm (face_rule_points s p ^ (space_dim s - 1)) (nfun bt p) gamma D (fun r => vh_iMM (h r)) Hn (run_ep _ _ _ _ WF)) with (w' := w').
  - apply Z.pow_pos_nonneg; destruct s; cbn; lia.
  - intros r Hr. destruct (ss_sizes _ _ _ _ _ _ _ _ _ _ _ SS r Hr) as (_ & A1 & A2 & A3 & A4 & A5 & _). do 5 (split; [assumption|]).
    split; [exact (ss_orders _ _ _ _ _ _ _ _ _ _ _ SS r Hr)|exact (FT r Hr)].
  - exact MA.
Qed.
Print Assumptions C97_exact_steps.

(** The hypotheses are met by a run on three ranks. *)
Example C97_exact_demo : exists iter pm h f ord pord junk U w U',
  run_wf iter 3 demo_rmesh demo_ep /\ partitioned 0 iter 3 demo_rmesh demo_ep pm /\
  kmarch reals (kokkos reals) demo_rmesh demo_ep pm 3
    (fun r => exact_data EQuad (vh_iMM (h r)) (tables EQuad LagrangeQuad 2 pm 2 HLLC h f ord pord junk r)) (1 / 10) StepFE 1 U w U'.
Proof.
  destruct (C05_partitioned_exists R 0 _ 3 demo_rmesh demo_ep demo_rrun) as (pm & PT).
  destruct (demo_runs_at _ 3 demo_ep pm (1 / 10) demo_rrun PT) as (h & U & U' & _ & f & ord & pord & jk & w & w' & WF & _ & AS & IL & FT & _ & MA).
  destruct demo_straight as (SQ & CF & _).
  exists (fun _ l => rev l), pm, h, f, ord, pord, jk, U, (fun r => real_views (fst w r)), U'. split; [exact WF|]. split; [exact PT|].
  refine (C97_exact_steps 0 _ 3 demo_rmesh demo_ep pm EQuad LagrangeQuad 2 1 h f 2 HLLC ord pord jk ForwardEuler (1 / 10) 1 U w U' w' _ WF PT _ AS IL FT MA).
  - lia.
  - constructor; [lia|apply SQ|now apply convex_untangled|now left|unfold order_ok; lia|now left].
Qed.
