(** PropTeamStep.v -- C89: a march in time on the devices of all ranks computes the
    discontinuous Galerkin solution, whatever the schedules. *)
From Coq Require Import ZArith List Lia Reals Lra Bool Permutation FunctionalExtensionality.
From Verif Require Import Base RBase LinAlgModel PhysModel PhysSpec PhysProof ShapeModel MeshModel MeshSpec MeshProof CommModel CommSpec SolverModel SolverSpec SolverProof
  SolverFlux SolverFaces SolverMesh PropMesh PropSolver PropComm PropConserve PropResidual StepModel StepProof PropStep PropIntegral DGSpec DGProof PropTotal.
From Verif Require Import TeamModel TeamProof TeamKernels TeamKernelProof TeamLaunch PropTeam TeamStep.
Import ListNotations.
Local Open Scope R_scope.
Open Scope res_scope.

(** * The kernels of the steppers *)

(** One iteration per entry: read entries of [vA] and [vB], write the entry of [vC]. *)
Section Entries.
Context (l : layout) (x : ext3) (HX : extents_ok x).
Definition ent_body (vA vB vC : Z) (f : R -> R -> R) (p : Z) : TeamModel.prog :=
  Load (entry l x vA p) (fun a => Load (entry l x vB p) (fun b => Store (entry l x vC p) (f a b) TeamModel.Done)).
Lemma entries_pos p : (0 <= p < entries x)%Z -> let '(e0, e1, e2) := x in (0 < e0)%Z /\ (0 < e1)%Z /\ (0 < e2)%Z.
Proof.
  destruct x as [[e0 e1] e2]. destruct HX as (H0 & H1 & H2). unfold entries. intros H.
  assert (e0 <> 0)%Z by (intros ->; rewrite !Z.mul_0_l in H; lia). assert (e1 <> 0)%Z by (intros ->; rewrite Z.mul_0_r, Z.mul_0_l in H; lia).
  assert (e2 <> 0)%Z by (intros ->; rewrite Z.mul_0_r in H; lia). lia.
Qed.
Lemma unflat_at p : (0 <= p < entries x)%Z -> exists i j k, unflat l x p = (i, j, k) /\ inbox x i j k /\ flatpos l x i j k = p.
Proof.
  intros Hp. pose proof (unflat_flat l x p Hp ltac:(lia) (entries_pos p Hp)) as U. destruct (unflat l x p) as [[i j] k]. exists i, j, k. tauto.
Qed.
Lemma entry_inj v p q : (0 <= p < entries x)%Z -> (0 <= q < entries x)%Z -> entry l x v p = entry l x v q -> p = q.
Proof.
  intros Hp Hq. destruct (unflat_at p Hp) as (i & j & k & E & _ & F). destruct (unflat_at q Hq) as (i' & j' & k' & E' & _ & F').
  unfold entry. rewrite E, E'. intros X. injection X as -> -> ->. now rewrite <- F, <- F'.
Qed.
Lemma entry_view v w p q : v <> w -> entry l x v p <> entry l x w q.
Proof. intros N. unfold entry. destruct (unflat l x p) as [[i j] k], (unflat l x q) as [[i' j'] k']. intros X. injection X as X. easy. Qed.

Lemma ent_conf vA vB vC f p : confined (fun a => a = entry l x vC p) (fun a => a = entry l x vA p \/ a = entry l x vB p) (ent_body vA vB vC f p).
Proof. cbn. auto. Qed.
Lemma ent_disj vA vB vC p q a : vA <> vC -> (0 <= p < entries x)%Z -> (0 <= q < entries x)%Z -> p <> q ->
  a = entry l x vC p -> ~ (a = entry l x vC q \/ a = entry l x vA q \/ a = entry l x vB q).
Proof.
  intros N Hp Hq Ne -> [E|[E|E]].
  - exact (Ne (entry_inj vC p q Hp Hq E)).
  - exact (entry_view vC vA p q ltac:(congruence) E).
  - destruct (Z.eq_dec vB vC) as [->|N']; [exact (Ne (entry_inj vC p q Hp Hq E))|exact (entry_view vC vB p q ltac:(congruence) E)].
Qed.

Lemma ent_launch vA vB vC f μ μ' : vA <> vC -> launch (entries x) 1 (kernel (flat (ent_body vA vB vC f))) μ μ' ->
  (forall i j k, view3 vC μ' i j k = if within3 x i j k then f (view3 vA μ i j k) (view3 vB μ i j k) else view3 vC μ i j k) /\ keeps [vC] μ' μ.
Proof.
  intros N LA.
  rewrite (flat_launch (entries x) _ _ _ (zseq (entries x)) μ μ' (fun g _ => ent_conf vA vB vC f g) (fun g g' a Hg Hg' Ne => ent_disj vA vB vC g g' a N Hg Hg' Ne) (Permutation_refl _) LA).
  set (body := fun g (m : mem) => run (ent_body vA vB vC f g) m).
  assert (X : forall l0 ν, NoDup l0 -> (forall p, In p l0 -> (0 <= p < entries x)%Z) ->
     (forall p, In p l0 -> ploop l0 body ν (entry l x vC p) = f (ν (entry l x vA p)) (ν (entry l x vB p))) /\
     (forall a, (forall p, In p l0 -> a <> entry l x vC p) -> ploop l0 body ν a = ν a)).
  { unfold ploop. induction l0 as [|q l0 IH]; intros ν ND IN; cbn [fold_left]; [easy|].
    apply NoDup_cons_iff in ND. destruct ND as [NI ND].
    destruct (IH (body q ν) ND (fun p Hp => IN p (or_intror Hp))) as [I1 I2].
    assert (Hq := IN q (or_introl eq_refl)).
    assert (B : body q ν = store ν (entry l x vC q) (f (ν (entry l x vA q)) (ν (entry l x vB q)))) by reflexivity.
    split.
    - intros p [<-|Hp].
      + rewrite I2; [rewrite B; apply store_eq|]. intros p Hp E. apply NI. rewrite (entry_inj vC q p Hq (IN p (or_intror Hp)) E). exact Hp.
      + rewrite I1 by exact Hp. rewrite B. assert (Ne : p <> q) by (intros ->; easy).
        rewrite !store_neq; [reflexivity| |].
        * intros E. destruct (Z.eq_dec vB vC) as [->|N']; [exact (Ne (entry_inj vC p q (IN p (or_intror Hp)) Hq E))|exact (entry_view vB vC p q N' E)].
        * exact (entry_view vA vC p q N).
    - intros a Ha. rewrite I2 by (intros p Hp; apply Ha; now right). rewrite B. apply store_neq. apply Ha. now left. }
  destruct (X (zseq (entries x)) μ (NoDup_zseq _) (fun p Hp => proj1 (In_zseq _ _) Hp)) as [X1 X2]. clear X. fold body in X1, X2.
  split.
  - intros i j k. destruct (within3 x i j k) eqn:W.
    + apply within3_spec in W. destruct (flat_unflat l x i j k W) as [R1 R2].
      specialize (X1 _ (proj2 (In_zseq _ _) R1)). unfold entry in X1. rewrite R2 in X1. exact X1.
    + unfold view3 at 1. rewrite X2; [reflexivity|]. intros p Hp E. apply In_zseq in Hp. destruct (unflat_at p Hp) as (i' & j' & k' & E' & IB & _).
      unfold entry in E. rewrite E' in E. injection E as -> -> ->. apply within3_spec in IB. congruence.
  - apply keeps_of. intros a Ha. apply X2. intros p _ ->. unfold entry in Ha. destruct (unflat l x p) as [[i j] k]. apply (Ha vC i j k 0%Z); [now left|reflexivity].
Qed.
Lemma ent_completes vA vB vC f μ : vA <> vC ->
  never_stuck (entries x) 1 (kernel (flat (ent_body vA vB vC f))) μ /\ exists μ', launch (entries x) 1 (kernel (flat (ent_body vA vB vC f))) μ μ'.
Proof.
  intros N. exact (flat_completes (entries x) _ _ _ μ (fun g _ => ent_conf vA vB vC f g) (fun g g' a Hg Hg' Ne => ent_disj vA vB vC g g' a N Hg Hg' Ne)).
Qed.

(** deep_copy *)
Definition cp_body (vS vT p : Z) : TeamModel.prog := Load (entry l x vS p) (fun a => Store (entry l x vT p) a TeamModel.Done).
Lemma cp_conf vS vT p : confined (fun a => a = entry l x vT p) (fun a => a = entry l x vS p) (cp_body vS vT p).
Proof. cbn. auto. Qed.
Lemma cp_disj vS vT p q a : vS <> vT -> (0 <= p < entries x)%Z -> (0 <= q < entries x)%Z -> p <> q ->
  a = entry l x vT p -> ~ (a = entry l x vT q \/ a = entry l x vS q).
Proof. intros N Hp Hq Ne H [E|E]; apply (ent_disj vS vS vT p q a N Hp Hq Ne H); auto. Qed.
Lemma cp_launch vS vT μ μ' : vS <> vT -> launch (entries x) 1 (kernel (copy_k l x vS vT)) μ μ' ->
  (forall i j k, view3 vT μ' i j k = if within3 x i j k then view3 vS μ i j k else view3 vT μ i j k) /\ keeps [vT] μ' μ.
Proof.
  intros N LA. apply (ent_launch vS vS vT (fun a _ => a) μ μ' N).
  destruct (ent_completes vS vS vT (fun a _ => a) μ N) as (_ & μ2 & L2).
  assert (E : μ' = μ2); [|now rewrite E].
  rewrite (flat_launch (entries x) (ent_body vS vS vT (fun a _ => a)) _ _ (zseq (entries x)) μ μ2 (fun g _ => ent_conf vS vS vT (fun a _ => a) g) (fun g g' a Hg Hg' Ne => ent_disj vS vS vT g g' a N Hg Hg' Ne) (Permutation_refl _) L2).
  exact (flat_launch (entries x) (cp_body vS vT) _ _ (zseq (entries x)) μ μ' (fun g _ => cp_conf vS vT g) (fun g g' a Hg Hg' Ne => cp_disj vS vT g g' a N Hg Hg' Ne) (Permutation_refl _) LA).
Qed.
Lemma cp_completes vS vT μ : vS <> vT ->
  never_stuck (entries x) 1 (kernel (copy_k l x vS vT)) μ /\ exists μ', launch (entries x) 1 (kernel (copy_k l x vS vT)) μ μ'.
Proof.
  intros N. exact (flat_completes (entries x) _ _ _ μ (fun g _ => cp_conf vS vT g) (fun g g' a Hg Hg' Ne => cp_disj vS vT g g' a N Hg Hg' Ne)).
Qed.
End Entries.

(** The product with the inverse mass matrices, into any view but the residual. *)
Lemma mass_launch vd nb ns dt iMM own0 own1 ne T μ μ' : vd <> vRes -> (0 <= ns)%Z -> (0 < T)%Z ->
  (forall e i, (0 <= own0 e i < T)%Z) -> (forall e i, (0 <= own1 e i < T)%Z) ->
  launch ne T (kernel (mass_to vd nb ns dt iMM own0 own1)) μ μ' ->
  (forall i j k, within3 (ne, nb, ns) i j k = true -> view3 vd μ' i j k = dt * rsum nb (fun b => iMM i j b * view3 vRes μ i b k)) /\ keeps [vd] μ' μ.
Proof.
  intros N Hn HT O0 O1 LA.
  assert (AS : assigned ne T (mass_to vd nb ns dt iMM own0 own1)) by (intros g L i _ [<-|[<-|[]]] _; [apply O0|apply O1]).
  destruct (gemm_launch nb ns nb dt (fun e => table (iMM e)) (fun e => iMM e) vRes vd true own0 own1 Hn ltac:(congruence) (fun e => table_ok (iMM e)) ne T (zseq ne) μ μ' HT AS (Permutation_refl _) LA) as [X Y].
  split; [|apply keeps_of; intros a Ha; apply Y; intros i j k; apply Ha; now left].
  intros i j k W. rewrite X. exact (mult_inv_mass_box (zseq ne) ne nb ns dt iMM (view3 vRes μ) (view3 vd μ) i j k (Permutation_refl _) W).
Qed.
Lemma mass_completes vd nb ns dt iMM own0 own1 ne T μ : vd <> vRes -> (0 <= ns)%Z -> (0 < T)%Z ->
  never_stuck ne T (kernel (mass_to vd nb ns dt iMM own0 own1)) μ /\ exists μ', launch ne T (kernel (mass_to vd nb ns dt iMM own0 own1)) μ μ'.
Proof.
  intros N Hn HT.
  exact (launch_completes ne T HT _ _ _ (gemm_disjoint nb ns nb dt (fun e => table (iMM e)) (fun e => iMM e) vRes vd true own0 own1 Hn ltac:(congruence) (fun e => table_ok (iMM e)) ne) μ).
Qed.

(** * The exchange determines the face states *)
Lemma foreach_same {X St} (l : list X) (f g : X -> St -> res St) s : (forall a s, In a l -> f a s = g a s) -> foreach l f s = foreach l g s.
Proof.
  revert s. induction l as [|a l IH]; intros s E; [reflexivity|]. cbn [foreach]. rewrite (E a s) by now left.
  destruct (g a s) as [s1|]; [|reflexivity]. cbn [bind]. apply IH. intros b s0 Hb. apply E. now right.
Qed.

Lemma after_same d UL UR UL' UR' v rs v2 rs2 : orders_ok d ->
  (forall lf, (0 <= lf < d_nif d)%Z -> UL' lf = UL lf /\ UR' lf = UR lf) ->
  face_residuals_after d UL UR v rs = Ok (v2, rs2) ->
  face_residuals_after d UL' UR' v rs = Ok (mkRV (v_Uq v2) UL' UR' (v_Fq v2) (v_Fe v2), rs2).
Proof.
  intros [_ O] EQ E. unfold face_residuals_after in *.
  replace (face_fluxes (d_flux d) (d_dim d) (d_gamma d) UL' UR' (d_normals d) (d_face_wts d) (d_garbage d) (d_garbage d) (d_porder d 2 (d_nif d) (d_nqf d)) (v_Fq v))
    with (face_fluxes (d_flux d) (d_dim d) (d_gamma d) UL UR (d_normals d) (d_face_wts d) (d_garbage d) (d_garbage d) (d_porder d 2 (d_nif d) (d_nqf d)) (v_Fq v)).
  - destruct (face_fluxes _ _ _ _ _ _ _ _ _ _ _) as [Fq|]; [|discriminate]. cbn [bind] in *.
    destruct (construct_flux_state _ _ _ _ _ _ _ _ _ _ _) as [Fe|]; [|discriminate]. cbn [bind] in *. injection E as <- <-. reflexivity.
  - unfold face_fluxes. apply foreach_same. intros [lf iq] Fq Hp.
    apply (Permutation_in _ (O 2%nat (d_nif d) (d_nqf d))) in Hp. apply in_prod_iff in Hp. destruct Hp as [Hl _]. apply In_zseq in Hl.
    unfold face_flux_point. destruct (EQ lf Hl) as [-> ->]. reflexivity.
Qed.

Section March.
Context (zero : R) (iter : Z -> list Z -> list Z) (n : Z) (m : gmesh R) (ep : list Z) (pm : Z -> pmesh R).
Context (WF : run_wf iter n m ep) (PT : partitioned zero iter n m ep pm).

Lemma owner_range e x : owned_by ep e x -> (0 <= x < n)%Z.
Proof. intros O. pose proof (run_ep _ _ _ _ WF) as [_ FA]. rewrite Forall_forall in FA. apply FA. now apply rd_In in O. Qed.

Lemma exchanged_unique {V} (A0 A1 X X' : Z -> fstate V) : (forall r, (0 <= r < n)%Z -> A0 r = A1 r) ->
  exchanged n m ep pm A0 X -> exchanged n m ep pm A1 X' -> forall r, (0 <= r < n)%Z -> fs_L (X r) = fs_L (X' r) /\ fs_R (X r) = fs_R (X' r).
Proof.
  intros EA [Z1 E1] [Z2 E2] r Hr. destruct (C04_interior_faces R zero iter n m ep pm WF PT) as [_ H4]. destruct (H4 r Hr) as (_ & LEN & _ & RF).
  destruct (Z1 r Hr) as [ZL ZR]. destruct (Z2 r Hr) as [ZL' ZR'].
  assert (EQ : forall lf, (0 <= lf < pm_num_ifaces_part (pm r))%Z -> rd (fs_L (X r)) lf = rd (fs_L (X' r)) lf /\ rd (fs_R (X r)) lf = rd (fs_R (X' r)) lf).
  { intros lf Hlf. rewrite <- LEN in Hlf. destruct (rd_total _ _ Hlf) as (f & Rf).
    destruct (RF lf f Rf) as (eL & fL & oL & eR & fR & oR & rL & rR & lL & lR & Q & OL & OR & _).
    assert (FR : face_ranks m ep f rL rR). { exists eL, eR. unfold left_of, right_of, rd2. rewrite Q. repeat split; auto. }
    destruct (E1 r lf f rL rR Hr Rf FR) as [(a & v & Q1 & Q2 & Q3) (b & w & Q4 & Q5 & Q6)].
    destruct (E2 r lf f rL rR Hr Rf FR) as [(a' & v' & Q1' & Q2' & Q3') (b' & w' & Q4' & Q5' & Q6')].
    assert (a = a'). { destruct (H4 rL (owner_range _ _ OL)) as (ND & _). exact (rd_NoDup_inj _ _ _ _ ND Q1 Q1'). }
    assert (b = b'). { destruct (H4 rR (owner_range _ _ OR)) as (ND & _). exact (rd_NoDup_inj _ _ _ _ ND Q4 Q4'). }
    subst. rewrite (EA rL (owner_range _ _ OL)) in Q2. rewrite (EA rR (owner_range _ _ OR)) in Q5. split; congruence. }
  split; (apply rd_ext; [congruence|]); intros i Hi; apply EQ; lia.
Qed.
Lemma exchanged_ext {V} (A0 A1 X : Z -> fstate V) : (forall r, (0 <= r < n)%Z -> A0 r = A1 r) ->
  exchanged n m ep pm A0 X -> exchanged n m ep pm A1 X.
Proof.
  intros EA [Z1 E1]. split; [exact Z1|]. intros r lf f rL rR Hr Rf FR.
  assert (RR : (0 <= rL < n)%Z /\ (0 <= rR < n)%Z). { destruct FR as (eL & eR & _ & _ & OL & OR). split; eauto using owner_range. }
  rewrite <- !EA by easy. exact (E1 r lf f rL rR Hr Rf FR).
Qed.

Context (S : scheme) (D : Z -> rdata) (RS : runs_scheme S m pm n D).
Let s := sc_shape S.
Let dim := space_dim s.
Let nqf := sc_nqf S.
Let nb := sc_nb S.
Context (HV : faces_valid s m) (HD : faces_distinct m) (HP : face_points s nqf) (Hg : 1 < sc_gamma S).
Context (iMM : Z -> arr3) (iM : arr3).
Context (HM : forall r le e i b, (0 <= r < n)%Z -> rd (pm_l2g_elem (pm r)) le = Ok e -> (0 <= i < nb)%Z -> (0 <= b < nb)%Z -> iMM r le i b = iM e i b).
Context (FT : forall r, (0 <= r < n)%Z -> fits (shape_of s pm nb r)).
Context (Hnb : (0 <= nb)%Z) (Hnq : (0 <= sc_nq S)%Z).
Context (lay : layout).

(** View [v] of the devices holds the coefficients [c]. *)
Definition has (v : Z) (c : arr3) (M : Z -> mem) : Prop := holds pm n nb (dim + 2) c (fun r => view3 v (M r)).
Definition good (c : arr3) (M : Z -> mem) : Prop := has vUc c M /\ boundary_zero s m pm n nqf (fun r => face_views (M r)).
Definition res_views : list Z := [vRes; vUv; vG; vUf; vUL; vUR; vFq; vFe].

Lemma evaluation_any U w rs w1 : evaluation s m ep pm n nqf (sc_gamma S) D U w rs w1 ->
  exists v1, (forall r, (0 <= r < n)%Z -> face_residuals_before (D r) (U r) (fst w r) = Ok (v1 r)) /\
  (exists X, exchanged n m ep pm (fun r => face_blocks (d_nif (D r)) (v1 r)) X /\ exists UL UR, forall r, (0 <= r < n)%Z ->
     blocks (d_nif (D r)) (UL r) = fs_L (X r) /\ blocks (d_nif (D r)) (UR r) = fs_R (X r)) /\
  forall X UL UR, exchanged n m ep pm (fun r => face_blocks (d_nif (D r)) (v1 r)) X ->
    (forall r, (0 <= r < n)%Z -> blocks (d_nif (D r)) (UL r) = fs_L (X r) /\ blocks (d_nif (D r)) (UR r) = fs_R (X r)) ->
    exists v2, evaluates m ep pm n D U (snd w) (fst w) UL UR v2 rs /\ evaluation s m ep pm n nqf (sc_gamma S) D U w rs (v2, rs).
Proof.
  intros (UL0 & UR0 & (rs1 & v1 & X0 & E1 & EX & E3) & _ & AD). pose proof (rs_same _ _ _ _ _ RS) as SS.
  exists v1. split; [intros r Hr; apply (E1 r Hr)|]. split.
  { exists X0. split; [exact EX|]. exists UL0, UR0. intros r Hr. destruct (E3 r Hr) as (B1 & B2 & _). auto. }
  intros X UL UR EX' EB.
  assert (EQ : forall r lf, (0 <= r < n)%Z -> (0 <= lf < d_nif (D r))%Z -> UL r lf = UL0 r lf /\ UR r lf = UR0 r lf).
  { intros r lf Hr Hl. destruct (exchanged_unique _ _ _ _ (fun _ _ => eq_refl) EX EX' r Hr) as [Q1 Q2]. destruct (EB r Hr) as [B1 B2]. destruct (E3 r Hr) as (B3 & B4 & _).
    assert (P1 : rd (blocks (d_nif (D r)) (UL r)) lf = rd (blocks (d_nif (D r)) (UL0 r)) lf) by congruence.
    assert (P2 : rd (blocks (d_nif (D r)) (UR r)) lf = rd (blocks (d_nif (D r)) (UR0 r)) lf) by congruence.
    rewrite !blocks_rd in P1, P2 by easy. injection P1 as ->. injection P2 as ->. auto. }
  set (v2 := fun r => mkRV (v_Uq (fst w1 r)) (UL r) (UR r) (v_Fq (fst w1 r)) (v_Fe (fst w1 r))).
  assert (EV : evaluates m ep pm n D U (snd w) (fst w) UL UR v2 rs).
  { exists rs1, v1, X. split; [exact E1|]. split; [exact EX'|]. intros r Hr. destruct (EB r Hr) as [B1 B2]. split; [exact B1|]. split; [exact B2|].
    destruct (E3 r Hr) as (_ & _ & EA). exact (after_same (D r) (UL0 r) (UR0 r) (UL r) (UR r) (v1 r) (rs1 r) _ _ (ss_orders _ _ _ _ _ _ _ _ _ _ _ SS r Hr) (fun lf Hl => EQ r lf Hr Hl) EA). }
  exists v2. split; [exact EV|]. exists UL, UR. split; [exact EV|]. split; [reflexivity|].
  intros r lf iq Hr Hl Hq. destruct (ss_sizes _ _ _ _ _ _ _ _ _ _ _ SS r Hr) as (_ & _ & _ & _ & _ & _ & S7 & _).
  rewrite <- S7 in Hl. destruct (EQ r lf Hr Hl) as [-> ->]. rewrite S7 in Hl. exact (AD r lf iq Hr Hl Hq).
Qed.

Lemma runs_app a b M M' : device_runs n m ep pm D (a ++ b) M M' -> exists M1, device_runs n m ep pm D a M M1 /\ device_runs n m ep pm D b M1 M'.
Proof.
  revert M. induction a as [|[k|] a IH]; intros M H; cbn [app device_runs] in *.
  - exists M. auto.
  - destruct H as (M1 & E & H). destruct (IH M1 H) as (M2 & A & B). exists M2. eauto.
  - destruct H as (M1 & E & H). destruct (IH M1 H) as (M2 & A & B). exists M2. eauto.
Qed.
Lemma dcompletes_app a b M : device_completes n m ep pm D a M -> (forall M1, device_runs n m ep pm D a M M1 -> device_completes n m ep pm D b M1) ->
  device_completes n m ep pm D (a ++ b) M.
Proof.
  revert M. induction a as [|[k|] a IH]; intros M H1 H2; cbn [app device_runs device_completes] in *.
  - now apply H2.
  - destruct H1 as [C H1]. split; [exact C|]. intros M1 E. apply IH; [auto|]. eauto.
  - destruct H1 as [C H1]. split; [exact C|]. intros M1 E. apply IH; [auto|]. eauto.
Qed.

(** One residual evaluation on the devices. *)
Lemma device_residual c M sc : physical S m c -> good c M -> (forall r, (0 <= r < n)%Z -> thread_assignment (fst (sc r)) (snd (sc r))) ->
  device_completes n m ep pm D (residual_items D sc) M /\
  forall M', device_runs n m ep pm D (residual_items D sc) M M' ->
    boundary_zero s m pm n nqf (fun r => face_views (M' r)) /\
    (forall r le e i k, (0 <= r < n)%Z -> rd (pm_l2g_elem (pm r)) le = Ok e -> (0 <= i < nb)%Z -> (0 <= k < dim + 2)%Z ->
       rsum nb (fun b => iMM r le i b * view3 vRes (M' r) le b k) = dg_rate S m iM c e i k) /\
    forall r v i j k l, (0 <= r < n)%Z -> ~ In v res_views -> M' r (At v i j k l) = M r (At v i j k l).
Proof.
  intros PC [HU BZ] TA. pose proof (rs_same _ _ _ _ _ RS) as SS.
  set (U := fun r => view3 vUc (M r)). set (w := (fun r => face_views (M r), fun r => view3 vRes (M r))).
  destruct (total_evaluation zero iter n m ep pm WF PT S D RS HV HD HP Hg FT c U w PC HU) as (rs & w1 & EV).
  destruct (evaluation_any U w rs w1 EV) as (v1 & EB & (X0 & EX0 & UL0 & UR0 & EU0) & ANY).
  assert (DH : forall r, device_holds (M r) (U r) (snd w r) (fst w r)) by (intros r; repeat split).
  assert (HQ : forall r, (0 <= r < n)%Z -> (0 <= d_nq (D r))%Z) by (intros r Hr; destruct (rs_rule _ _ _ _ _ RS r Hr) as (-> & _); exact Hnq).
  destruct (ANY X0 UL0 UR0 EX0 EU0) as (v20 & E0 & _).
  assert (BEFORE : forall r, (0 <= r < n)%Z -> let t := element_tasks (D r) (fst (sc r)) (snd (sc r)) ++ face_tasks_before (D r) (fst (sc r)) (snd (sc r)) in
     always_completes t (M r) /\ forall μ1, executes t (M r) μ1 -> view3 vUL μ1 = v_UqL (v1 r) /\ view3 vUR μ1 = v_UqR (v1 r)).
  { intros r Hr t. destruct (C81_residual_any_schedule R zero iter n m ep pm s nqf nb (sc_gamma S) _ _ _ D U (snd w) (fst w) UL0 UR0 v20 rs WF PT HV HD HP Hnb SS E0
      r (fst (sc r)) (snd (sc r)) Hr (HQ r Hr) (TA r Hr)) as (v1' & Q1 & H).
    rewrite (EB r Hr) in Q1. injection Q1 as <-. destruct (H (M r) (DH r)) as [C H1]. split; [exact C|]. intros μ1 X1. destruct (H1 μ1 X1) as (A1 & A2 & _). auto. }
  assert (BL : forall M1, (forall r, (0 <= r < n)%Z -> executes (element_tasks (D r) (fst (sc r)) (snd (sc r)) ++ face_tasks_before (D r) (fst (sc r)) (snd (sc r))) (M r) (M1 r)) ->
     forall r, (0 <= r < n)%Z -> face_blocks (d_nif (D r)) (face_views (M1 r)) = face_blocks (d_nif (D r)) (v1 r)).
  { intros M1 X1 r Hr. destruct (BEFORE r Hr) as [_ B]. destruct (B _ (X1 r Hr)) as [B1 B2]. unfold face_blocks, face_views. cbn [v_UqL v_UqR]. now rewrite B1, B2. }
  assert (AFTER : forall M1 M2, (forall r, (0 <= r < n)%Z -> executes (element_tasks (D r) (fst (sc r)) (snd (sc r)) ++ face_tasks_before (D r) (fst (sc r)) (snd (sc r))) (M r) (M1 r)) ->
     exchange n m ep pm D M1 M2 -> exists v2, evaluation s m ep pm n nqf (sc_gamma S) D U w rs (v2, rs) /\
     forall r, (0 <= r < n)%Z -> always_completes (face_tasks_after (D r) (fst (sc r)) (snd (sc r))) (M2 r) /\
       forall μ3, executes (face_tasks_after (D r) (fst (sc r)) (snd (sc r))) (M2 r) μ3 -> device_holds μ3 (U r) (rs r) (v2 r) /\
         forall v i j k l, ~ In v res_views -> μ3 (At v i j k l) = M r (At v i j k l)).
  { intros M1 M2 X1 (X & UL & UR & EX & ER). apply (exchanged_ext _ (fun r => face_blocks (d_nif (D r)) (v1 r)) _ (BL M1 X1)) in EX.
    destruct (ANY X UL UR EX (fun r Hr => conj (proj1 (ER r Hr)) (proj1 (proj2 (ER r Hr))))) as (v2 & E & EV'). exists v2. split; [exact EV'|]. intros r Hr.
    destruct (C81_residual_any_schedule R zero iter n m ep pm s nqf nb (sc_gamma S) _ _ _ D U (snd w) (fst w) UL UR v2 rs WF PT HV HD HP Hnb SS E
      r (fst (sc r)) (snd (sc r)) Hr (HQ r Hr) (TA r Hr)) as (v1' & _ & H).
    destruct (H (M r) (DH r)) as [_ H1]. destruct (H1 _ (X1 r Hr)) as (_ & _ & H2). exact (H2 (M2 r) (proj2 (proj2 (ER r Hr)))). }
  split.
  - cbn [residual_items device_completes]. split; [intros r Hr; apply (BEFORE r Hr)|]. intros M1 X1. split.
    + exists (fun r => put (UL0 r) (UR0 r) (M1 r)), X0, UL0, UR0. split.
      * apply (exchanged_ext (fun r => face_blocks (d_nif (D r)) (v1 r))); [|exact EX0]. intros r Hr. symmetry. exact (BL M1 X1 r Hr).
      * intros r Hr. destruct (EU0 r Hr) as [B1 B2]. split; [exact B1|]. split; [exact B2|]. apply put_ok.
    + intros M2 X2. destruct (AFTER M1 M2 X1 X2) as (v2 & _ & H). split; [|easy]. intros r Hr. apply (H r Hr).
  - intros M' (M1 & X1 & M2 & X2 & M3 & X3 & EM). cbn [device_runs] in EM. destruct (AFTER M1 M2 X1 X2) as (v2 & EV' & H).
    assert (HH : forall r, (0 <= r < n)%Z -> device_holds (M' r) (U r) (rs r) (v2 r) /\ forall v i j k l, ~ In v res_views -> M' r (At v i j k l) = M r (At v i j k l)).
    { intros r Hr. rewrite (EM r Hr). exact (proj2 (H r Hr) _ (X3 r Hr)). }
    destruct (answer zero iter n m ep pm WF PT S D RS HV HD HP Hg iMM iM HM c U w rs (v2, rs) HU BZ EV') as (B & A).
    split; [|split].
    + intros r le pos k Hr NS. cbn [face_views v_Fe]. destruct (HH r Hr) as [(_ & _ & _ & _ & _ & _ & ->) _]. exact (B r le pos k Hr NS).
    + intros r le e i k Hr Re Hi Hk. destruct (HH r Hr) as [(_ & -> & _) _]. now apply A.
    + intros r v i j k l Hr Hv. now apply HH.
Qed.

(** The stepper's launches on one rank. *)
Lemma ext_shape r : (0 <= r < n)%Z -> ext_of D r = shape_of s pm nb r.
Proof.
  intros Hr. destruct (ss_sizes _ _ _ _ _ _ _ _ _ _ _ (rs_same _ _ _ _ _ RS) r Hr) as (_ & S2 & S3 & S4 & _).
  unfold ext_of, shape_of, ns_of. now rewrite S2, S3, S4.
Qed.
Definition local (r le e j k : Z) : Prop := (0 <= r < n)%Z /\ rd (pm_l2g_elem (pm r)) le = Ok e /\ (0 <= j < nb)%Z /\ (0 <= k < dim + 2)%Z.
Lemma local_box r le e j k : local r le e j k -> within3 (ext_of D r) le j k = true.
Proof.
  intros (Hr & Re & Hj & Hk). rewrite ext_shape by exact Hr. exact (local_within zero iter n m ep pm WF PT S r le e j k Hr Re Hj Hk).
Qed.
Lemma num_ext r : (0 <= r < n)%Z -> num_entries (ext_of D r) = entries (ext_of D r) /\ extents_ok (ext_of D r).
Proof. intros Hr. rewrite ext_shape by exact Hr. now apply fits_num, FT. Qed.

(** What a task may do to a memory: complete, and satisfy [Q]. *)
Definition does (t : list task) (μ : mem) (Q : mem -> Prop) : Prop := always_completes t μ /\ forall μ', executes t μ μ' -> Q μ'.
Lemma does_cons a t μ (P Q : mem -> Prop) : does [a] μ P -> (forall μ1, P μ1 -> does t μ1 Q) -> does (a :: t) μ Q.
Proof.
  intros [C1 E1] H. change (a :: t) with ([a] ++ t). split.
  - apply completes_app; [exact C1|]. intros m1 X. apply H, E1, X.
  - intros μ' X. apply executes_app in X. destruct X as (m1 & X1 & X2). exact (proj2 (H m1 (E1 m1 X1)) μ' X2).
Qed.
Lemma does_nil μ (Q : mem -> Prop) : Q μ -> does [] μ Q.
Proof. intros H. split; [exact Logic.I|]. intros μ' ->. exact H. Qed.
Lemma does_launch N T K μ (Q : mem -> Prop) : (never_stuck N T K μ /\ exists μ', launch N T K μ μ') -> (forall μ', launch N T K μ μ' -> Q μ') -> does [Launch N T K] μ Q.
Proof.
  intros C H. split; [split; [exact C|intros; exact Logic.I]|]. intros μ' (m1 & L & E). cbn [executes] in E. subst. now apply H.
Qed.
Lemma does_alloc v μ : does [Alloc v] μ (fun μ' => keeps [v] μ' μ).
Proof. split; [exact Logic.I|]. intros μ' E. cbn in E. subst. apply clear_keeps. Qed.

Section Rank.
Context (r : Z) (Hr : (0 <= r < n)%Z).

Lemma does_mass sc dt vd μ : vd <> vRes -> thread_assignment (fst sc) (snd sc) ->
  does [mult_mass D iMM r sc dt vd] μ (fun μ' =>
    (forall le e j k, local r le e j k -> view3 vd μ' le j k = dt * rsum nb (fun b => iMM r le j b * view3 vRes μ le b k)) /\ keeps [vd] μ' μ).
Proof.
  intros N [HT HO]. destruct (ss_sizes _ _ _ _ _ _ _ _ _ _ _ (rs_same _ _ _ _ _ RS) r Hr) as (_ & S2 & S3 & S4 & _).
  assert (Hns : (0 <= ns_of (D r))%Z) by (unfold ns_of; rewrite S2; unfold s; destruct (sc_shape S); cbn; lia).
  apply does_launch.
  - apply mass_completes; assumption.
  - intros μ' L. destruct (mass_launch vd _ _ dt (iMM r) _ _ _ _ μ μ' N Hns HT (HO 5%nat) (HO 6%nat) L) as [X K]. split; [|exact K].
    intros le e j k LO. rewrite (X le j k (local_box r le e j k LO)). now rewrite S4.
Qed.
Lemma does_axpy c vA vB μ : vA <> vB ->
  does [axpy D lay r c vA vB] μ (fun μ' =>
    (forall le e j k, local r le e j k -> view3 vB μ' le j k = c * view3 vA μ le j k + view3 vB μ le j k) /\ keeps [vB] μ' μ).
Proof.
  intros N. destruct (num_ext r Hr) as [EN EX]. unfold axpy. rewrite EN. apply does_launch.
  - exact (ent_completes lay (ext_of D r) EX vA vB vB (fun a b => c * a + b) μ N).
  - intros μ' L. destruct (ent_launch lay (ext_of D r) EX vA vB vB (fun a b => c * a + b) μ μ' N L) as [X K]. split; [|exact K].
    intros le e j k LO. now rewrite X, (local_box r le e j k LO).
Qed.
Lemma does_update c vA vB vC μ : vA <> vC ->
  does [update D lay r c vA vB vC] μ (fun μ' =>
    (forall le e j k, local r le e j k -> view3 vC μ' le j k = c * view3 vA μ le j k + 1 * view3 vB μ le j k) /\ keeps [vC] μ' μ).
Proof.
  intros N. destruct (num_ext r Hr) as [EN EX]. unfold update. rewrite EN. apply does_launch.
  - exact (ent_completes lay (ext_of D r) EX vA vB vC (fun a b => c * a + 1 * b) μ N).
  - intros μ' L. destruct (ent_launch lay (ext_of D r) EX vA vB vC (fun a b => c * a + 1 * b) μ μ' N L) as [X K]. split; [|exact K].
    intros le e j k LO. now rewrite X, (local_box r le e j k LO).
Qed.
Lemma does_copy vT vS μ : vS <> vT ->
  does [deep_copy D lay r vT vS] μ (fun μ' =>
    (forall le e j k, local r le e j k -> view3 vT μ' le j k = view3 vS μ le j k) /\ keeps [vT] μ' μ).
Proof.
  intros N. destruct (num_ext r Hr) as [_ EX]. apply does_launch.
  - exact (cp_completes lay (ext_of D r) EX vS vT μ N).
  - intros μ' L. destruct (cp_launch lay (ext_of D r) EX vS vT μ μ' N L) as [X K]. split; [|exact K].
    intros le e j k LO. now rewrite X, (local_box r le e j k LO).
Qed.
Lemma does_stage sc dt a vd μ : ~ In vd [vRes; vHold; vUc] -> thread_assignment (fst sc) (snd sc) ->
  does [mult_mass D iMM r sc dt vd; update D lay r a vd vHold vUc] μ (fun μ' =>
    (forall le e j k, local r le e j k -> let q := dt * rsum nb (fun b => iMM r le j b * view3 vRes μ le b k) in
       view3 vd μ' le j k = q /\ view3 vUc μ' le j k = a * q + view3 vHold μ le j k) /\ keeps [vd; vUc] μ' μ).
Proof.
  intros N TA. eapply does_cons; [apply does_mass; [intros ->; apply N; cbn; auto|exact TA]|]. intros μ1 [X1 K1]. cbv beta.
  destruct (does_update a vd vHold vUc μ1 ltac:(intros ->; apply N; cbn; auto)) as [C E]. split; [exact C|]. intros μ' X. destruct (E μ' X) as [X2 K2].
  split.
  - intros le e j k LO q. split.
    + rewrite (keeps_view3 [vUc] μ' μ1 vd K2); [exact (X1 le e j k LO)|]. intros [Q|[]]. apply N. cbn. auto.
    + rewrite (X2 le e j k LO), (X1 le e j k LO). rewrite (keeps_view3 [vd] μ1 μ vHold K1); [fold q; lra|]. intros [Q|[]]. apply N. cbn. auto.
  - intros v i j k l H. cbn [In] in H. rewrite K2, K1; [reflexivity| |]; cbn [In]; tauto.
Qed.
Lemma does_fe sc dt μ : thread_assignment (fst sc) (snd sc) ->
  does [Alloc vdU; mult_mass D iMM r sc dt vdU; axpy D lay r 1 vdU vUc] μ (fun μ' =>
    (forall le e j k, local r le e j k -> view3 vUc μ' le j k = view3 vUc μ le j k + dt * rsum nb (fun b => iMM r le j b * view3 vRes μ le b k)) /\ keeps [vdU; vUc] μ' μ).
Proof.
  intros TA. eapply does_cons; [apply does_alloc|]. intros μ1 K1.
  eapply does_cons; [apply does_mass; [discriminate|exact TA]|]. intros μ2 [X2 K2]. cbv beta.
  destruct (does_axpy 1 vdU vUc μ2 ltac:(discriminate)) as [C E]. split; [exact C|]. intros μ' X. destruct (E μ' X) as [X3 K3]. split.
  - intros le e j k LO. rewrite (X3 le e j k LO), (X2 le e j k LO).
    rewrite (keeps_view3 [vdU] μ2 μ1 vUc K2), (keeps_view3 [vdU] μ1 μ vUc K1), (keeps_view3 [vdU] μ1 μ vRes K1) by other_view. lra.
  - intros v i j k l H. cbn [In] in H. rewrite K3, K2, K1; [reflexivity| | |]; cbn [In]; tauto.
Qed.
Lemma does_last sc dt μ : thread_assignment (fst sc) (snd sc) ->
  does [mult_mass D iMM r sc dt vD4; axpy D lay r 2.0 vD3 vD4; axpy D lay r 2.0 vD2 vD4; axpy D lay r 1.0 vD1 vD4;
        axpy D lay r (1.0 / 6.0) vD4 vHold; deep_copy D lay r vUc vHold] μ (fun μ' =>
    (forall le e j k, local r le e j k -> view3 vUc μ' le j k = view3 vHold μ le j k +
       (view3 vD1 μ le j k + 2 * view3 vD2 μ le j k + 2 * view3 vD3 μ le j k + dt * rsum nb (fun b => iMM r le j b * view3 vRes μ le b k)) / 6) /\
    keeps [vD4; vHold; vUc] μ' μ).
Proof.
  intros TA. eapply does_cons; [apply does_mass; [discriminate|exact TA]|]. intros μ1 [X1 K1].
  eapply does_cons; [apply does_axpy; discriminate|]. intros μ2 [X2 K2].
  eapply does_cons; [apply does_axpy; discriminate|]. intros μ3 [X3 K3].
  eapply does_cons; [apply does_axpy; discriminate|]. intros μ4 [X4 K4].
  eapply does_cons; [apply does_axpy; discriminate|]. intros μ5 [X5 K5]. cbv beta.
  destruct (does_copy vUc vHold μ5 ltac:(discriminate)) as [C E]. split; [exact C|]. intros μ' X. destruct (E μ' X) as [X6 K6]. split.
  - intros le e j k LO. rewrite (X6 le e j k LO), (X5 le e j k LO), (X4 le e j k LO), (X3 le e j k LO), (X2 le e j k LO), (X1 le e j k LO).
    rewrite (keeps_view3 [vD4] μ4 μ3 vHold K4), (keeps_view3 [vD4] μ3 μ2 vHold K3), (keeps_view3 [vD4] μ2 μ1 vHold K2), (keeps_view3 [vD4] μ1 μ vHold K1) by other_view.
    rewrite (keeps_view3 [vD4] μ3 μ2 vD1 K3), (keeps_view3 [vD4] μ2 μ1 vD1 K2), (keeps_view3 [vD4] μ1 μ vD1 K1) by other_view.
    rewrite (keeps_view3 [vD4] μ2 μ1 vD2 K2), (keeps_view3 [vD4] μ1 μ vD2 K1) by other_view.
    rewrite (keeps_view3 [vD4] μ1 μ vD3 K1) by other_view. lra.
  - intros v i j k l H. cbn [In] in H. rewrite K6, K5, K4, K3, K2, K1; [reflexivity| | | | | |]; cbn [In]; tauto.
Qed.
End Rank.

(** All ranks. *)
Definition ddoes (items : list ditem) (M : Z -> mem) (Q : (Z -> mem) -> Prop) : Prop :=
  device_completes n m ep pm D items M /\ forall M', device_runs n m ep pm D items M M' -> Q M'.
Lemma ddoes_app a b M (P Q : (Z -> mem) -> Prop) : ddoes a M P -> (forall M1, P M1 -> ddoes b M1 Q) -> ddoes (a ++ b) M Q.
Proof.
  intros [C1 E1] H. split.
  - apply dcompletes_app; [exact C1|]. intros M1 X. apply H, E1, X.
  - intros M' X. apply runs_app in X. destruct X as (M1 & X1 & X2). exact (proj2 (H M1 (E1 M1 X1)) M' X2).
Qed.
Lemma ddoes_kernels k M (Q : Z -> mem -> Prop) : (forall r, (0 <= r < n)%Z -> does (k r) (M r) (Q r)) ->
  ddoes [Kernels k] M (fun M' => forall r, (0 <= r < n)%Z -> Q r (M' r)).
Proof.
  intros H. split.
  - cbn [device_completes]. split; [|easy]. intros r Hr. apply (H r Hr).
  - intros M' (M1 & X & E) r Hr. cbn [device_runs] in E. rewrite (E r Hr). exact (proj2 (H r Hr) _ (X r Hr)).
Qed.
Lemma ddoes_impl a M (P Q : (Z -> mem) -> Prop) : ddoes a M P -> (forall M1, P M1 -> Q M1) -> ddoes a M Q.
Proof. intros [C E] H. split; [exact C|]. intros M' X. apply H, E, X. Qed.

Definition same_but (ws : list Z) (M' M : Z -> mem) : Prop :=
  forall r v i j k l, (0 <= r < n)%Z -> ~ In v ws -> M' r (At v i j k l) = M r (At v i j k l).
Lemma has_same ws M' M v c : same_but ws M' M -> ~ In v ws -> has v c M -> has v c M'.
Proof. intros K N H r le e j k Hr Re Hj Hk. cbv beta. unfold view3, at3. rewrite (K r v le j k 0%Z Hr N). exact (H r le e j k Hr Re Hj Hk). Qed.
Lemma zero_same ws M' M : same_but ws M' M -> ~ In vFe ws ->
  boundary_zero s m pm n nqf (fun r => face_views (M r)) -> boundary_zero s m pm n nqf (fun r => face_views (M' r)).
Proof.
  intros K N H r le pos k Hr Q. specialize (H r le pos k Hr Q). cbn [face_views v_Fe] in *. unfold view3, at3 in *. now rewrite (K r vFe le pos k 0%Z Hr N).
Qed.

(** A residual evaluation: the coefficients and the boundary part of the face
    buffer are as before, the residual is the one of the scheme. *)
Definition rated (rate : arr3) (M : Z -> mem) : Prop :=
  forall r le e i k, local r le e i k -> rsum nb (fun b => iMM r le i b * view3 vRes (M r) le b k) = rate e i k.
Definition zeroed (M : Z -> mem) : Prop := boundary_zero s m pm n nqf (fun r => face_views (M r)).
Definition valid (sc : Z -> Z * (nat -> Z -> Z -> Z)) : Prop := forall r, (0 <= r < n)%Z -> thread_assignment (fst (sc r)) (snd (sc r)).

Lemma ddoes_residual c M sc : physical S m c -> has vUc c M -> zeroed M -> valid sc ->
  ddoes (residual_items D sc) M (fun M' => zeroed M' /\ rated (dg_rate S m iM c) M' /\ same_but res_views M' M).
Proof.
  intros PC HU BZ TA. destruct (device_residual c M sc PC (conj HU BZ) TA) as [C H]. split; [exact C|].
  intros M' X. destruct (H M' X) as (B & A & K). split; [exact B|]. split; [|exact K].
  intros r le e i k (Hr & Re & Hi & Hk). now apply A.
Qed.

Lemma fe_step c M sch dt : physical S m c -> good c M -> (forall k, valid (sch k)) ->
  ddoes (fe_items D lay iMM sch dt) M (good (dg_step S m iM ForwardEuler dt c)).
Proof.
  intros PC [HU BZ] TA. unfold fe_items. eapply ddoes_app; [exact (ddoes_residual c M (sch 0%nat) PC HU BZ (TA 0%nat))|].
  intros M1 (B1 & R1 & K1). eapply ddoes_impl; [apply ddoes_kernels; intros r Hr; exact (does_fe r Hr (sch 0%nat r) dt (M1 r) (TA 0%nat r Hr))|].
  intros M2 H2. cbv beta in H2.
  assert (K2 : same_but [vdU; vUc] M2 M1) by (intros r v i j k l Hr Hv; destruct (H2 r Hr) as [_ K]; now apply K).
  split.
  - intros r le e j k Hr Re Hj Hk. assert (LO : local r le e j k) by (repeat split; assumption || apply Hr || apply Hj || apply Hk).
    destruct (H2 r Hr) as [X _]. cbv beta. rewrite (X le e j k LO), (R1 r le e j k LO). cbn [dg_step]. unfold shift.
    rewrite (has_same _ _ _ vUc c K1 ltac:(other_view) HU r le e j k Hr Re Hj Hk). reflexivity.
  - apply (zero_same _ _ _ K2 ltac:(other_view) B1).
Qed.

Lemma rk4_stage c h M sc dt a vd : physical S m c -> has vUc c M -> has vHold h M -> zeroed M -> valid sc ->
  ~ In vd (vHold :: vUc :: res_views) ->
  ddoes (residual_items D sc ++ [Kernels (fun r => [mult_mass D iMM r (sc r) dt vd; update D lay r a vd vHold vUc])]) M (fun M' =>
    zeroed M' /\ has vd (fun e j k => dt * dg_rate S m iM c e j k) M' /\ has vUc (fun e j k => a * (dt * dg_rate S m iM c e j k) + h e j k) M' /\
    same_but (vd :: vUc :: res_views) M' M).
Proof.
  intros PC HU HH BZ TA N. cbn [In res_views] in N. eapply ddoes_app; [exact (ddoes_residual c M sc PC HU BZ TA)|].
  intros M1 (B1 & R1 & K1). eapply ddoes_impl; [apply ddoes_kernels; intros r Hr; refine (does_stage r Hr (sc r) dt a vd (M1 r) _ (TA r Hr))|].
  { cbn [In]. intuition congruence. }
  intros M2 H2. cbv beta in H2.
  assert (K2 : same_but [vd; vUc] M2 M1) by (intros r v i j k l Hr Hv; destruct (H2 r Hr) as [_ K]; now apply K).
  assert (PT2 : forall r le e j k, (0 <= r < n)%Z -> rd (pm_l2g_elem (pm r)) le = Ok e -> (0 <= j < nb)%Z -> (0 <= k < dim + 2)%Z ->
    view3 vd (M2 r) le j k = dt * dg_rate S m iM c e j k /\ view3 vUc (M2 r) le j k = a * (dt * dg_rate S m iM c e j k) + h e j k).
  { intros r le e j k Hr Re Hj Hk. assert (LO : local r le e j k) by (unfold local; tauto).
    destruct (H2 r Hr) as [X _]. destruct (X le e j k LO) as [X1 X2]. rewrite (R1 r le e j k LO) in X1, X2. split; [exact X1|]. rewrite X2. f_equal.
    exact (has_same _ _ _ vHold h K1 ltac:(other_view) HH r le e j k Hr Re Hj Hk). }
  split; [|split; [|split]].
  - apply (zero_same _ _ _ K2); [|exact B1]. cbn [In]. intros [Q|[Q|[]]]; [|discriminate]. apply N. rewrite Q. tauto.
  - intros r le e j k Hr Re Hj Hk. now apply PT2.
  - intros r le e j k Hr Re Hj Hk. now apply PT2.
  - intros r v i j k l Hr Hv. cbn [In] in Hv. rewrite K2, K1; [reflexivity|exact Hr| |exact Hr|]; cbn [In]; tauto.
Qed.

Lemma physical_ext c c' : (forall e j k, c e j k = c' e j k) -> physical S m c -> physical S m c'.
Proof.
  intros E. replace c' with c; [easy|]. apply functional_extensionality. intros e. apply functional_extensionality. intros j. apply functional_extensionality. intros k. apply E.
Qed.
Lemma has_ext v c c' M : (forall e j k, c e j k = c' e j k) -> has v c M -> has v c' M.
Proof. intros E H r le e j k Hr Re Hj Hk. rewrite <- E. now apply H. Qed.

Lemma rk4_step c M sch dt : List.Forall (physical S m) (stages S m iM RungeKutta4 dt c) -> good c M -> (forall k, valid (sch k)) ->
  ddoes (rk4_items D lay iMM sch dt) M (good (dg_step S m iM RungeKutta4 dt c)).
Proof.
  intros FP [HU BZ] TA. cbn [stages] in FP. cbv zeta in FP. cbn [dg_step]. cbv zeta.
  set (k1 := dg_rate S m iM c) in *. set (c2 := shift c (dt / 2) k1) in *. set (k2 := dg_rate S m iM c2) in *. set (c3 := shift c (dt / 2) k2) in *.
  set (k3 := dg_rate S m iM c3) in *. set (c4 := shift c dt k3) in *. set (k4 := dg_rate S m iM c4) in *.
  assert (P : physical S m c /\ physical S m c2 /\ physical S m c3 /\ physical S m c4).
  { inversion FP as [|? ? P1 FP1]; subst. inversion FP1 as [|? ? P2 FP2]; subst. inversion FP2 as [|? ? P3 FP3]; subst. inversion FP3 as [|? ? P4 _]; subst. auto. }
  destruct P as (P1 & P2 & P3 & P4). clear FP. unfold rk4_items.
  (* Uhold = Uc *)
  eapply ddoes_app; [apply ddoes_kernels; intros r Hr; exact (does_copy r Hr vHold vUc (M r) ltac:(discriminate))|].
  intros M0 H0. cbv beta in H0.
  assert (K0 : same_but [vHold] M0 M) by (intros r v i j k l Hr Hv; destruct (H0 r Hr) as [_ K]; now apply K).
  assert (HH0 : has vHold c M0).
  { intros r le e j k Hr Re Hj Hk. destruct (H0 r Hr) as [X _]. cbv beta. rewrite (X le e j k) by (unfold local; tauto). exact (HU r le e j k Hr Re Hj Hk). }
  assert (HU0 : has vUc c M0) by exact (has_same _ _ _ vUc c K0 ltac:(other_view) HU).
  assert (B0 : zeroed M0) by exact (zero_same _ _ _ K0 ltac:(other_view) BZ).
  (* stage 1 *)
  rewrite (app_assoc (residual_items D (sch 0%nat))).
  eapply ddoes_app; [exact (rk4_stage c c M0 (sch 0%nat) dt 0.5 vD1 P1 HU0 HH0 B0 (TA 0%nat) ltac:(other_view))|].
  intros M1 (B1 & HA1 & HU1 & K1).
  assert (HH1 : has vHold c M1) by exact (has_same _ _ _ vHold c K1 ltac:(other_view) HH0).
  apply (has_ext _ _ c2) in HU1; [|intros e j k; unfold c2, shift; fold k1; lra].
  (* stage 2 *)
  rewrite (app_assoc (residual_items D (sch 1%nat))).
  eapply ddoes_app; [exact (rk4_stage c2 c M1 (sch 1%nat) dt 0.5 vD2 P2 HU1 HH1 B1 (TA 1%nat) ltac:(other_view))|].
  intros M2 (B2 & HA2 & HU2 & K2).
  assert (HH2 : has vHold c M2) by exact (has_same _ _ _ vHold c K2 ltac:(other_view) HH1).
  assert (HA1' := has_same _ _ _ vD1 _ K2 ltac:(other_view) HA1).
  apply (has_ext _ _ c3) in HU2; [|intros e j k; unfold c3, shift; fold k2; lra].
  (* stage 3 *)
  rewrite (app_assoc (residual_items D (sch 2%nat))).
  eapply ddoes_app; [exact (rk4_stage c3 c M2 (sch 2%nat) dt 1.0 vD3 P3 HU2 HH2 B2 (TA 2%nat) ltac:(other_view))|].
  intros M3 (B3 & HA3 & HU3 & K3).
  assert (HH3 : has vHold c M3) by exact (has_same _ _ _ vHold c K3 ltac:(other_view) HH2).
  assert (HA1'' := has_same _ _ _ vD1 _ K3 ltac:(other_view) HA1').
  assert (HA2' := has_same _ _ _ vD2 _ K3 ltac:(other_view) HA2).
  apply (has_ext _ _ c4) in HU3; [|intros e j k; unfold c4, shift; fold k3; lra].
  (* stage 4 *)
  eapply ddoes_app; [exact (ddoes_residual c4 M3 (sch 3%nat) P4 HU3 B3 (TA 3%nat))|].
  intros M4 (B4 & R4 & K4). fold k4 in R4.
  eapply ddoes_impl; [apply ddoes_kernels; intros r Hr; exact (does_last r Hr (sch 3%nat r) dt (M4 r) (TA 3%nat r Hr))|].
  intros M5 H5. cbv beta in H5.
  assert (K5 : same_but [vD4; vHold; vUc] M5 M4) by (intros r v i j k l Hr Hv; destruct (H5 r Hr) as [_ K]; now apply K).
  split.
  - intros r le e j k Hr Re Hj Hk. assert (LO : local r le e j k) by (unfold local; tauto).
    destruct (H5 r Hr) as [X _]. cbv beta. rewrite (X le e j k LO), (R4 r le e j k LO).
    rewrite (has_same _ _ _ vHold _ K4 ltac:(other_view) HH3 r le e j k Hr Re Hj Hk), (has_same _ _ _ vD1 _ K4 ltac:(other_view) HA1'' r le e j k Hr Re Hj Hk),
      (has_same _ _ _ vD2 _ K4 ltac:(other_view) HA2' r le e j k Hr Re Hj Hk), (has_same _ _ _ vD3 _ K4 ltac:(other_view) HA3 r le e j k Hr Re Hj Hk).
    unfold shift. fold k1 k2 k3. lra.
  - apply (zero_same _ _ _ K5 ltac:(other_view) B4).
Qed.

Lemma device_march steps : forall c M sch, stays_physical S m iM steps c -> good c M -> (forall k, valid (sch k)) ->
  ddoes (march_items D lay iMM steps sch) M (good (dg_march S m iM steps c)).
Proof.
  induction steps as [|[st dt] steps IH]; intros c M sch SP G TA.
  - split; [exact Logic.I|]. intros M' E. cbn in E. destruct G as [G1 G2]. cbn [dg_march fold_left]. split.
    + intros r le e j k Hr Re Hj Hk. cbv beta. rewrite (E r Hr). exact (G1 r le e j k Hr Re Hj Hk).
    + intros r le pos k Hr Q. rewrite (E r Hr). exact (G2 r le pos k Hr Q).
  - destruct SP as [P1 P2]. cbn [march_items]. eapply ddoes_app with (P := good (dg_step S m iM st dt c)).
    + destruct st; cbn [step_items].
      * apply fe_step; [|exact G|exact TA]. exact (Forall_inv P1).
      * apply rk4_step; [exact P1|exact G|exact TA].
    + intros M1 G1. exact (IH _ M1 _ P2 G1 (fun k => TA (4 + k)%nat)).
Qed.
End March.
