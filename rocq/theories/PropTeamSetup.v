(** PropTeamSetup.v -- C88: the team kernels of the set-up and of the
    initialisation are free of races: whatever the team size, the assignment of
    iterations to threads and the interleaving of their loads and stores, every
    execution completes and leaves the tables and the initial state computed by the
    sequential functions of SetupModel.v. *)
From Coq Require Import ZArith List Lia Reals Lra Bool Permutation FunctionalExtensionality.
From Verif Require Import Base RBase LinAlgModel LinAlgProof QuadModel BasisModel PhysModel ShapeModel MeshModel SolverModel SolverSpec SolverProof SetupModel SetupProof PropSolver MeshSpec PropMesh PropResidual SetupPass PropSetup PropMeshRun PropInit
  TeamModel TeamProof TeamPhases TeamKernels TeamKernelProof TeamLaunch TeamSetup TeamSetupProof PropTeam.
Import ListNotations.
Local Open Scope R_scope.
Open Scope res_scope.

(** ** Vocabulary: the device memory holds tables of the set-up, for the [ne]
    elements of the rank *)
Definition holds_geometry (ne dim : Z) (h : vhelpers) (μ : mem) : Prop :=
  forall e q, (0 <= e < ne)%Z -> (0 <= q < vh_nq h)%Z ->
  μ (at3 vDet e q 0) = vh_djac h e q /\
  forall i j, (0 <= i < dim)%Z -> (0 <= j < dim)%Z -> μ (At vJac e q i j) = vh_jac h e q i j /\ μ (At vInv e q i j) = vh_ijac h e q i j.
Definition holds_masses (ne nb : Z) (h : vhelpers) (μ : mem) : Prop :=
  forall e i j, (0 <= e < ne)%Z -> (0 <= i < nb)%Z -> (0 <= j < nb)%Z -> μ (at3 viM e i j) = vh_iMM h e i j.
Definition holds_points (ne dim : Z) (h : vhelpers) (μ : mem) : Prop :=
  forall e, (0 <= e < ne)%Z -> μ (at3 vVol e 0 0) = vh_vol h e /\
  forall q d, (0 <= q < vh_nq h)%Z -> (0 <= d < dim)%Z -> μ (at3 vX e q d) = vh_x h e q d.

(** ** One element *)
Section Element.
Context (dim npe nb : Z) (pm : pmesh R) (h : vhelpers) (junk : arr2) (own : nat -> Z -> Z -> Z) (T : Z).
Context (Hd : (dim = 2 \/ dim = 3)%Z) (Hnp : (0 <= npe)%Z) (Hb : (1 <= nb)%Z) (Hq : (0 <= vh_nq h)%Z) (TA : thread_assignment T own).

Definition Jc (ggrad : arr3) (c : arr2) (iq : Z) : arr2 := fun d1 d2 => rsum npe (fun p => c p d1 * ggrad iq p d2).
Definition geometry (nq : Z) (ggrad : arr3) (c : arr2) (jac : arr3) (djac : arr1) (ijac : arr3) : Prop :=
  forall iq, (0 <= iq < nq)%Z -> eqm dim dim (jac iq) (Jc ggrad c iq) /\ djac iq = det dim (Jc ggrad c iq) 0 /\
    eqm dim dim (ijac iq) (invA dim (Jc ggrad c iq) zero2).

Lemma rank0_ok e p (W A : loc -> Prop) : confined W A p -> (forall a, W a \/ A a -> mine e a) -> phase_ok e T (rank0 p).
Proof.
  intros C M. exists (fun _ => W), (fun _ => A). constructor; cbn [tl_n tl_own tl_body].
  - intros i _. destruct TA. lia.
  - intros i _. exact C.
  - intros i j a Hi Hj N. lia.
  - intros i a _. apply M.
Qed.
Lemma rank0_run p m : phase_run (rank0 p) m = run p m.
Proof. reflexivity. Qed.
Lemma coords_conf e (W A : loc -> Prop) : (forall i j, W (at3 vCrd e i j)) -> confined W A (coords_code pm npe dim e).
Proof.
  intros H. unfold coords_code. apply confined_pfor. intros i _. apply confined_pfor. intros j _.
  destruct (rd2 (pm_elem_to_node pm) e i) as [nd|]; [|exact Logic.I]. cbn [bind]. destruct (rd2 (pm_node_coords pm) nd j) as [v|]; [|exact Logic.I].
  cbn. auto.
Qed.
Lemma phys_conf e nq gnb gval v (W A : loc -> Prop) : (forall i j, W (at3 v e i j)) -> (forall i j, W (at3 vCrd e i j) \/ A (at3 vCrd e i j)) ->
  confined W A (phys_code nq dim gnb gval v e).
Proof.
  intros HW HA. unfold phys_code.
  apply (serial_conf nq dim gnb 1 (table gval) (inmem (at3 vCrd e)) (at3 v e) (fun a => exists i j, a = at3 vCrd e i j) (fun _ => gval) (fun μ i j => μ (at3 vCrd e i j)) (fun _ => 0%Z)).
  - destruct Hd; lia.
  - apply table_on.
  - apply inmem_on. eauto.
  - auto.
  - intros a (i & j & ->). apply HA.
Qed.
Lemma phys_run e nq gnb gval v μ : v <> vCrd ->
  (forall q d, (0 <= q < nq)%Z -> (0 <= d < dim)%Z -> run (phys_code nq dim gnb gval v e) μ (at3 v e q d) = rsum gnb (fun p => gval q p * μ (at3 vCrd e p d))) /\
  (forall a, ~ in_views e [v] a -> run (phys_code nq dim gnb gval v e) μ a = μ a).
Proof.
  intros Nv. unfold phys_code.
  destruct (serial_run nq dim gnb 1 (table gval) (inmem (at3 vCrd e)) (at3 v e) (fun a => exists i j, a = at3 vCrd e i j) (fun _ => gval) (fun μ i j => μ (at3 vCrd e i j))
    (fun _ => 0%Z) (fun _ => 0%Z) ltac:(destruct Hd; lia) (at3_inj v e) (table_on _ _)) with (μ := μ) as [S1 S2].
  - apply inmem_on. eauto.
  - intros i j (x & y & E). injection E. congruence.
  - split; [intros q d Hq' Hd'; rewrite S1 by easy; apply Rmult_1_l|]. intros a Ha. apply S2. intros i j _ _ ->. apply Ha. cbn. auto.
Qed.
Lemma coords_run e c μ : elem_coords_from_elem_ID pm npe dim e junk = Ok c ->
  (forall p d, (0 <= p < npe)%Z -> (0 <= d < dim)%Z -> run (coords_code pm npe dim e) μ (at3 vCrd e p d) = c p d) /\
  (forall a, ~ in_views e [vCrd] a -> run (coords_code pm npe dim e) μ a = μ a).
Proof.
  intros E. rewrite (coords_code_ok pm npe dim e junk c Hnp ltac:(destruct Hd; lia) E).
  destruct (run_store_mat npe dim (at3 vCrd e) c μ (at3_inj vCrd e)) as [S1 S2]. split; [exact S1|].
  intros a Ha. apply S2. intros i j _ _ ->. apply Ha. cbn. auto.
Qed.
Lemma Jm_c e c ggrad μ iq : (forall p d, (0 <= p < npe)%Z -> (0 <= d < dim)%Z -> μ (at3 vCrd e p d) = c p d) ->
  eqm dim dim (Jm e npe ggrad μ iq) (Jc ggrad c iq).
Proof. intros H i j Hi Hj. unfold Jm, Jc, node. apply rsum_ext. intros p Hp. now rewrite H. Qed.

(** The geometry after the loop over the points. *)
Lemma geometry_phase e c ggrad μ o nq : (forall p d, (0 <= p < npe)%Z -> (0 <= d < dim)%Z -> μ (at3 vCrd e p d) = c p d) ->
  let μ' := loop_run (jac_loop e dim npe nq ggrad junk o) μ in
  geometry nq ggrad c (fun iq => view4 vJac μ' e iq) (fun iq => μ' (at3 vDet e iq 0)) (fun iq => view4 vInv μ' e iq).
Proof.
  intros Hc μ' iq Hiq. destruct (jac_loop_run e dim npe nq ggrad junk o Hd μ) as (J1 & J2 & J3 & _).
  pose proof (Jm_c e c ggrad μ iq Hc) as EJ. split; [|split].
  - intros i j Hi Hj. unfold view4, μ'. rewrite J1 by easy. now apply EJ.
  - unfold μ'. rewrite J2 by easy. now apply det_eqm.
  - intros i j Hi Hj. unfold view4, μ'. rewrite J3 by easy. apply invA_small; auto. destruct Hd; lia.
Qed.
Lemma geometry_frame nq ggrad c μ μ' e : (forall v i j k, In v [vJac; vDet; vInv] -> μ' (At v e i j k) = μ (At v e i j k)) ->
  geometry nq ggrad c (fun iq => view4 vJac μ e iq) (fun iq => μ (at3 vDet e iq 0)) (fun iq => view4 vInv μ e iq) ->
  geometry nq ggrad c (fun iq => view4 vJac μ' e iq) (fun iq => μ' (at3 vDet e iq 0)) (fun iq => view4 vInv μ' e iq).
Proof.
  intros F G iq Hiq. destruct (G iq Hiq) as (G1 & G2 & G3). split; [|split].
  - intros i j Hi Hj. unfold view4. rewrite F by (cbn; auto). now apply G1.
  - unfold at3. rewrite F by (cbn; auto). exact G2.
  - intros i j Hi Hj. unfold view4. rewrite F by (cbn; auto). now apply G3.
Qed.

Lemma inv_mass_k_ok e ph : In ph (inv_mass_k dim npe nb pm h junk own e) -> phase_ok e T ph.
Proof.
  assert (HO : forall k i, (0 <= own k e i < T)%Z) by (intros; apply TA).
  unfold inv_mass_k. cbv zeta. rewrite in_app_iff. intros [[<-|[<-|[<-|[<-|[<-|[<-|[]]]]]]]|H].
  - apply (rank0_ok e _ (fun a => exists i j, a = at3 vCrd e i j) (fun _ => False)); [apply coords_conf; eauto|].
    intros a [(i & j & ->)|[]]. reflexivity.
  - apply (jac_ok e T dim npe (vh_nq h) (vh_ggrad h) junk (own 0%nat e)); auto.
  - apply (copy_ok e T nb (vh_nq h) (own 1%nat e)); auto. lia.
  - apply (scale_ok e T nb (vh_nq h) (own 2%nat e)); auto. discriminate.
  - apply (set_ok nb nb (at3 vMM e) (fun _ => False) (own 3%nat e)); auto; [lia|apply at3_inj|reflexivity].
  - apply (add_ok nb nb (vh_nq h) 1 (flip (table (vh_val h))) (inmem (at3 vSB e)) (at3 vMM e) (fun a => exists i j, a = at3 vSB e i j)
      (fun _ i p => vh_val h p i) (fun μ i j => μ (at3 vSB e i j)) (own 4%nat e)); auto.
    + lia.
    + apply at3_inj.
    + apply (flip_on _ _ (fun _ => vh_val h)). apply table_on.
    + apply inmem_on. eauto.
    + intros i j (x & y & E). discriminate E.
    + reflexivity.
    + intros a (x & y & ->). reflexivity.
  - revert H. now apply inv_phases_ok.
Qed.

Lemma inv_mass_k_run e c μ : elem_coords_from_elem_ID pm npe dim e junk = Ok c ->
  let μ' := phases_run (inv_mass_k dim npe nb pm h junk own e) μ in
  geometry (vh_nq h) (vh_ggrad h) c (fun iq => view4 vJac μ' e iq) (fun iq => μ' (at3 vDet e iq 0)) (fun iq => view4 vInv μ' e iq) /\
  eqm nb nb (fun i j => μ' (at3 viM e i j))
    (invA nb (mass (vh_nq h) (vh_val h) (vh_wts h) (fun iq => μ' (at3 vDet e iq 0))) (fun i j => μ (at3 viM e i j))) /\
  (forall a, ~ in_views e [vCrd; vJac; vDet; vInv; vSB; vMM; viM] a -> μ' a = μ a).
Proof.
  intros E μ'. set (nq := vh_nq h) in *.
  set (μ1 := run (coords_code pm npe dim e) μ). destruct (coords_run e c μ E) as [C1 C2]. fold μ1 in C1, C2.
  set (μ2 := loop_run (jac_loop e dim npe nq (vh_ggrad h) junk (own 0%nat e)) μ1).
  destruct (jac_loop_run e dim npe nq (vh_ggrad h) junk (own 0%nat e) Hd μ1) as (_ & _ & _ & J4). fold μ2 in J4.
  pose proof (geometry_phase e c (vh_ggrad h) μ1 (own 0%nat e) nq C1) as G. cbv zeta in G. fold μ2 in G.
  set (μ3 := loop_run (copy_loop e nb nq (own 1%nat e) (vh_val h) vSB) μ2).
  destruct (copy_run e nb nq (own 1%nat e) (vh_val h) vSB ltac:(lia) μ2) as [P1 P2]. fold μ3 in P1, P2.
  set (μ4 := loop_run (scale_loop e nb nq (own 2%nat e) (vh_wts h) vDet vSB) μ3).
  destruct (scale_run e nb nq (own 2%nat e) (vh_wts h) vDet vSB (ltac:(discriminate) : vDet <> vSB) μ3) as [S1 S2]. fold μ4 in S1, S2.
  set (μ5 := loop_run (gemm_add nb nb nq 1 (flip (table (vh_val h))) (inmem (at3 vSB e)) (at3 vMM e) (own 4%nat e)) (loop_run (gemm_set nb nb (at3 vMM e) (own 3%nat e)) μ4)).
  destruct (product_run nb nb nq 1 (flip (table (vh_val h))) (inmem (at3 vSB e)) (at3 vMM e) (fun a => exists i j, a = at3 vSB e i j)
      (fun _ i p => vh_val h p i) (fun μ i j => μ (at3 vSB e i j)) (own 3%nat e) (own 4%nat e)) with (μ := μ4) as [M1 M2].
  { lia. } { apply at3_inj. } { apply (flip_on _ _ (fun _ => vh_val h)). apply table_on. } { apply inmem_on. eauto. } { intros i j (x & y & E'). discriminate E'. }
  fold μ5 in M1, M2.
  assert (EK : μ' = phases_run (inv_phases nb e junk (own 5%nat e)) μ5).
  { unfold μ', inv_mass_k, phases_run. cbv zeta. rewrite fold_left_app. reflexivity. }
  destruct (inv_phases_run e nb junk (own 5%nat e) Hb μ5) as [I1 I2]. rewrite <- EK in I1, I2.
  assert (NV : forall v w i j k, v <> w -> ~ in_views e [w] (At v e i j k)) by (intros v w i j k N [_ [H|[]]]; congruence).
  assert (M2' : forall v i j k, v <> vMM -> μ5 (At v e i j k) = μ4 (At v e i j k)).
  { intros v i j k N. apply M2. intros x y _ _ E'. injection E'. congruence. }
  assert (FR : forall v i j k, In v [vJac; vDet; vInv] -> μ' (At v e i j k) = μ2 (At v e i j k)).
  { intros v i j k Hv. rewrite I2 by (intros [_ H]; cbn in H, Hv; destruct Hv as [<-|[<-|[<-|[]]]]; destruct H as [H|[H|[]]]; discriminate H).
    rewrite M2' by (intros ->; cbn in Hv; destruct Hv as [H|[H|[H|[]]]]; discriminate H).
    assert (v <> vSB) by (intros ->; cbn in Hv; destruct Hv as [H|[H|[H|[]]]]; discriminate H).
    rewrite S2 by now apply NV. rewrite P2 by now apply NV. reflexivity. }
  split; [|split].
  - apply (geometry_frame nq (vh_ggrad h) c μ2 μ' e); [exact FR|exact G].
  - intros i j Hi Hj. rewrite I1 by easy. apply invA_eqm; auto.
    + intros x y Hx Hy. rewrite M1 by easy. rewrite Rmult_1_l. unfold mass. apply rsum_ext. intros q Hq'.
      rewrite S1, P1 by easy. unfold at3. rewrite P2 by (apply NV; discriminate). rewrite <- FR by (cbn; auto). ring.
    + intros x y Hx Hy. unfold at3. rewrite M2' by discriminate. rewrite S2 by (apply NV; discriminate). rewrite P2 by (apply NV; discriminate).
      rewrite J4 by (intros [_ H]; cbn in H; destruct H as [H|[H|[H|[]]]]; discriminate H). apply C2. now apply NV.
  - intros a Ha. destruct a as [v g' x y z]. cbn in Ha.
    assert (Na : forall vs, incl vs [vCrd; vJac; vDet; vInv; vSB; vMM; viM] -> ~ in_views e vs (At v g' x y z)).
    { intros vs Hi [-> Hv]. apply Ha. split; [reflexivity|]. exact (Hi v Hv). }
    rewrite I2 by (apply Na; intros w; cbn; tauto).
    rewrite M2 by (intros i j _ _ E'; injection E' as -> -> _ _ _; apply Ha; tauto).
    rewrite S2 by (apply Na; intros w; cbn; tauto). rewrite P2 by (apply Na; intros w; cbn; tauto).
    rewrite J4 by (apply Na; intros w; cbn; tauto). apply C2. apply Na. intros w; cbn; tauto.
Qed.

Lemma volume_k_ok gnb rorder e ph : In ph (volume_k dim npe gnb pm h junk own rorder e) -> phase_ok e T ph.
Proof.
  assert (HO : forall k i, (0 <= own k e i < T)%Z) by (intros; apply TA).
  unfold volume_k. cbv zeta. intros [<-|[<-|[<-|[<-|[]]]]].
  - apply (rank0_ok e _ (fun a => (exists i j, a = at3 vCrd e i j) \/ exists i j, a = at3 vX e i j) (fun _ => False)).
    + apply confined_seq; [apply coords_conf; eauto|]. apply phys_conf; eauto.
    + intros a [[(i & j & ->)|(i & j & ->)]|[]]; reflexivity.
  - apply (jac_ok e T dim npe (vh_nq h) (vh_ggrad h) junk (own 0%nat e)); auto.
  - exists (fun _ _ => False), (fun _ _ => False). constructor; cbn [tl_n]; intros; lia.
  - exists (fun _ a => a = at3 vVol e 0 0), (fun _ a => exists q, a = at3 vDet e q 0). constructor; cbn [tl_n tl_own tl_body].
    + intros i _. apply HO.
    + intros i _. generalize 0 as acc. induction (rorder e) as [|q l IH]; intros acc; cbn [fold_right confined]; [auto|].
      split; [right; eauto|]. intros v. apply IH.
    + intros i j. lia.
    + intros i a _ [->|(q & ->)]; reflexivity.
Qed.

Lemma volume_k_run gnb rorder e c μ : (gnb <= npe)%Z -> Permutation (rorder e) (zseq (vh_nq h)) -> elem_coords_from_elem_ID pm npe dim e junk = Ok c ->
  let μ' := phases_run (volume_k dim npe gnb pm h junk own rorder e) μ in
  geometry (vh_nq h) (vh_ggrad h) c (fun iq => view4 vJac μ' e iq) (fun iq => μ' (at3 vDet e iq 0)) (fun iq => view4 vInv μ' e iq) /\
  (forall q d, (0 <= q < vh_nq h)%Z -> (0 <= d < dim)%Z -> μ' (at3 vX e q d) = rsum gnb (fun p => vh_gval h q p * c p d)) /\
  μ' (at3 vVol e 0 0) = rsum (vh_nq h) (fun q => vh_wts h q * μ' (at3 vDet e q 0)) /\
  (forall a, ~ in_views e [vCrd; vX; vJac; vDet; vInv; vVol] a -> μ' a = μ a).
Proof.
  intros Hg Pr E μ'. set (nq := vh_nq h) in *.
  set (μ1 := run (coords_code pm npe dim e) μ). destruct (coords_run e c μ E) as [C1 C2]. fold μ1 in C1, C2.
  set (μ2 := run (phys_code nq dim gnb (vh_gval h) vX e) μ1).
  destruct (phys_run e nq gnb (vh_gval h) vX μ1 ltac:(discriminate)) as [X1 X2]. fold μ2 in X1, X2.
  set (μ3 := loop_run (jac_loop e dim npe nq (vh_ggrad h) junk (own 0%nat e)) μ2).
  destruct (jac_loop_run e dim npe nq (vh_ggrad h) junk (own 0%nat e) Hd μ2) as (_ & _ & _ & J4). fold μ3 in J4.
  assert (C1' : forall p d, (0 <= p < npe)%Z -> (0 <= d < dim)%Z -> μ2 (at3 vCrd e p d) = c p d).
  { intros p d Hp Hd'. rewrite X2 by (intros [_ [H|[]]]; discriminate H). now apply C1. }
  pose proof (geometry_phase e c (vh_ggrad h) μ2 (own 0%nat e) nq C1') as G. cbv zeta in G. fold μ3 in G.
  set (R4 := fold_right (fun iq k acc => Load (at3 vDet e iq 0) (fun d => k (acc + vh_wts h iq * d)))
       (fun acc => Store (at3 vVol e 0 0) acc Done) (rorder e) 0).
  assert (EK : μ' = run R4 μ3).
  { unfold μ', volume_k, phases_run. cbv zeta. cbn [fold_left]. rewrite rank0_run, run_seq. reflexivity. }
  assert (ER : run R4 μ3 = store μ3 (at3 vVol e 0 0) (lsum (rorder e) (fun q => vh_wts h q * μ3 (at3 vDet e q 0)))).
  { clear Pr EK. unfold R4. rewrite <- (Rplus_0_l (lsum _ _)). unfold lsum. generalize 0 at 1 2 as acc. induction (rorder e) as [|q l IH]; intros acc; cbn [fold_right run map].
    - now rewrite Rplus_0_r.
    - rewrite IH. apply f_equal. ring. }
  assert (FR : forall v i j k, v <> vVol -> μ' (At v e i j k) = μ3 (At v e i j k)).
  { intros v i j k N. rewrite EK, ER. apply store_neq. intros E'. injection E'. congruence. }
  split; [|split; [|split]].
  - apply (geometry_frame nq (vh_ggrad h) c μ3 μ' e); [|exact G]. intros v i j k Hv. apply FR. intros ->. cbn in Hv. destruct Hv as [H|[H|[H|[]]]]; discriminate H.
  - intros q d Hq' Hd'. unfold at3. rewrite FR by discriminate. rewrite J4 by (intros [_ H]; cbn in H; destruct H as [H|[H|[H|[]]]]; discriminate H).
    change (μ2 (at3 vX e q d) = rsum gnb (fun p => vh_gval h q p * c p d)). rewrite X1 by easy. apply rsum_ext. intros p Hp. rewrite C1 by lia. reflexivity.
  - transitivity (lsum (rorder e) (fun q => vh_wts h q * μ3 (at3 vDet e q 0))); [rewrite EK, ER; apply store_eq|].
    rewrite (lsum_perm _ _ _ Pr), <- rsum_lsum. apply rsum_ext. intros q _. unfold at3. rewrite FR by discriminate. reflexivity.
  - intros a Ha. destruct a as [v g' x y z]. cbn in Ha.
    assert (Na : forall vs, incl vs [vCrd; vX; vJac; vDet; vInv; vVol] -> ~ in_views e vs (At v g' x y z)).
    { intros vs Hi [-> Hv]. apply Ha. split; [reflexivity|]. exact (Hi v Hv). }
    rewrite EK, ER, store_neq by (intros E'; injection E' as -> -> _ _ _; apply Ha; tauto).
    rewrite J4 by (apply Na; intros w; cbn; tauto). rewrite X2 by (apply Na; intros w; cbn; tauto). apply C2. apply Na. intros w; cbn; tauto.
Qed.
End Element.

(** ** The sequential tables, row by row *)
Lemma foreach_each {S} (l : list Z) (body : Z -> S -> res S) (Inv : S -> Prop) (Pre Row : Z -> S -> Prop) : NoDup l ->
  (forall e s s', In e l -> Inv s -> Pre e s -> body e s = Ok s' -> Inv s' /\ Row e s' /\
     (forall e', e' <> e -> Pre e' s -> Pre e' s') /\ (forall e', e' <> e -> Row e' s -> Row e' s')) ->
  forall s s', foreach l body s = Ok s' -> Inv s -> (forall e, In e l -> Pre e s) -> Inv s' /\ forall e, In e l -> Row e s'.
Proof.
  intros ND H.
  assert (G : forall l', (forall e, In e l' -> In e l) -> NoDup l' -> forall s s', foreach l' body s = Ok s' -> Inv s -> (forall e, In e l' -> Pre e s) ->
    Inv s' /\ (forall e, In e l' -> Row e s') /\ (forall e, ~ In e l' -> Row e s -> Row e s')).
  { induction l' as [|a l' IH]; intros Sub ND' s s' E I0 P0; cbn in E.
    - injection E as <-. split; [exact I0|]. split; [intros e []|auto].
    - inversion ND' as [|? ? Na NDl]; subst. destruct (body a s) as [s1|] eqn:E1; [|discriminate]. cbn [bind] in E.
      destruct (H a s s1 (Sub a (or_introl eq_refl)) I0 (P0 a (or_introl eq_refl)) E1) as (I1 & R1 & K1 & K2).
      destruct (IH (fun e He => Sub e (or_intror He)) NDl s1 s' E I1) as (I2 & R2 & K3).
      { intros e He. apply K1; [intros ->; contradiction|]. apply P0. now right. }
      split; [exact I2|]. split.
      + intros e [<-|He]; [apply K3; auto|auto].
      + intros e He Re. apply K3; [intros X; apply He; now right|]. apply K2; [intros ->; apply He; now left|exact Re]. }
  intros s s' E I0 P0. destruct (G l (fun e He => He) ND s s' E I0 P0) as (I1 & R1 & _). auto.
Qed.

Lemma seq_geometry dim npe nq ggrad c jac djac ijac : (dim = 2 \/ dim = 3)%Z -> (0 <= nq)%Z ->
  let '(jac', djac', ijac') := get_element_jacobian nq dim npe ggrad c (jac, djac, ijac) in
  geometry dim npe nq ggrad c jac' djac' ijac'.
Proof.
  intros Hd Hn. pose proof (fun q => SetupProof.jac_loop nq dim npe ggrad c jac djac ijac q Hn) as L.
  destruct (get_element_jacobian nq dim npe ggrad c (jac, djac, ijac)) as [[j1 d1] i1]. intros q Hq. specialize (L q).
  rewrite (proj2 (inb_true _ _) Hq) in L. destruct L as (L1 & L2 & L3).
  assert (EJ : eqm dim dim (j1 q) (Jc npe ggrad c q)).
  { intros i j Hi Hj. rewrite L1. unfold cATxB_to_C. rewrite gemm_entry, (proj2 (inb_true _ _) Hi), (proj2 (inb_true _ _) Hj). cbn [andb].
    rewrite Rmult_0_l, Rplus_0_l, Rmult_1_l. reflexivity. }
  split; [exact EJ|]. split; [rewrite L2; now apply det_eqm|]. rewrite L3. intros i j Hi Hj. apply invA_small; auto. destruct Hd; lia.
Qed.
Lemma geometry_unique dim npe nq ggrad c j1 d1 i1 j2 d2 i2 : geometry dim npe nq ggrad c j1 d1 i1 -> geometry dim npe nq ggrad c j2 d2 i2 ->
  forall q, (0 <= q < nq)%Z -> d1 q = d2 q /\ forall i j, (0 <= i < dim)%Z -> (0 <= j < dim)%Z -> j1 q i j = j2 q i j /\ i1 q i j = i2 q i j.
Proof.
  intros G1 G2 q Hq. destruct (G1 q Hq) as (A1 & A2 & A3), (G2 q Hq) as (B1 & B2 & B3). split; [congruence|].
  intros i j Hi Hj. rewrite A1, B1, A3, B3 by easy. auto.
Qed.

Section Sequential.
Context (s : eshape) (pm : pmesh R) (npe nb gnb : Z) (junk : arr2) (hr : vhelpers).
Context (Hq : (0 <= vh_nq hr)%Z) (Hb : (1 <= nb)%Z).
Let dim := space_dim s.
Lemma dim_23 : (dim = 2 \/ dim = 3)%Z.
Proof. unfold dim. destruct s; [left|right]; reflexivity. Qed.
Definition same_reference (h : vhelpers) : Prop :=
  vh_nq h = vh_nq hr /\ vh_wts h = vh_wts hr /\ vh_val h = vh_val hr /\ vh_gval h = vh_gval hr /\ vh_ggrad h = vh_ggrad hr.
Definition coords_of (e : Z) (c : arr2) : Prop := elem_coords_from_elem_ID pm npe dim e junk = Ok c.

Definition mass_row (e : Z) (h : vhelpers) : Prop := exists c, coords_of e c /\
  geometry dim npe (vh_nq hr) (vh_ggrad hr) c (vh_jac h e) (vh_djac h e) (vh_ijac h e) /\
  eqm nb nb (vh_iMM h e) (invA nb (mass (vh_nq hr) (vh_val hr) (vh_wts hr) (vh_djac h e)) (vh_iMM hr e)).
Definition volume_row (e : Z) (h : vhelpers) : Prop := exists c, coords_of e c /\
  geometry dim npe (vh_nq hr) (vh_ggrad hr) c (vh_jac h e) (vh_djac h e) (vh_ijac h e) /\
  (forall q d, (0 <= q < vh_nq hr)%Z -> (0 <= d < dim)%Z -> vh_x h e q d = rsum gnb (fun p => vh_gval hr q p * c p d)) /\
  vh_vol h e = rsum (vh_nq hr) (fun q => vh_wts hr q * vh_djac h e q).

Lemma seq_masses eo h : NoDup eo -> foreach eo (inv_mass_team s pm npe nb junk) hr = Ok h ->
  same_reference h /\ forall e, In e eo -> mass_row e h.
Proof.
  intros ND E. apply (foreach_each eo (inv_mass_team s pm npe nb junk) same_reference (fun e h => vh_iMM h e = vh_iMM hr e) mass_row ND) with (s := hr); auto; [|repeat split].
  clear E h. intros e h h' _ (I1 & I2 & I3 & I4 & I5) Pe E. unfold inv_mass_team in E. fold dim in E.
  destruct (elem_coords_from_elem_ID pm npe dim e junk) as [c|] eqn:Ec; [|discriminate]. cbn [bind] in E.
  pose proof (seq_geometry dim npe (vh_nq h) (vh_ggrad h) c (vh_jac h e) (vh_djac h e) (vh_ijac h e) dim_23 ltac:(rewrite I1; exact Hq)) as G.
  destruct (get_element_jacobian _ _ _ _ _ _) as [[j1 d1] i1]. injection E as <-.
  cbn [vh_nq vh_wts vh_val vh_gval vh_ggrad vh_jac vh_djac vh_ijac vh_iMM]. split; [repeat split; cbn; auto|]. split; [|split].
  - exists c. split; [exact Ec|]. unfold setr. cbn [vh_jac vh_djac vh_ijac vh_iMM]. rewrite !Z.eqb_refl. rewrite I1, I5 in G. split; [exact G|].
    intros i j Hi Hj. unfold get_inv_mass_matrices. rewrite Pe. apply invA_eqm; auto; [|intros x y _ _; reflexivity].
    intros x y Hx Hy. rewrite I1, I2, I3. apply (SetupProof.mass_matrix (vh_nq hr) nb (vh_wts hr) (vh_val hr) d1 junk junk x y Hx Hy).
  - intros e' N P'. unfold setr. destruct (Z.eqb_spec e' e); [contradiction|exact P'].
  - intros e' N (c' & X). exists c'. unfold setr. cbn [vh_jac vh_djac vh_ijac vh_iMM]. destruct (Z.eqb_spec e' e); [contradiction|exact X].
Qed.
Lemma seq_volumes eo h : NoDup eo -> (gnb <= npe)%Z -> foreach eo (volume_team s pm npe gnb junk) hr = Ok h ->
  (same_reference h /\ vh_iMM h = vh_iMM hr) /\ forall e, In e eo -> volume_row e h.
Proof.
  intros ND Hg E. apply (foreach_each eo (volume_team s pm npe gnb junk) (fun h => same_reference h /\ vh_iMM h = vh_iMM hr) (fun _ _ => True) volume_row ND) with (s := hr); auto; [|repeat split].
  clear E h. intros e h h' _ ((I1 & I2 & I3 & I4 & I5) & I6) _ E. unfold volume_team in E. fold dim in E.
  destruct (elem_coords_from_elem_ID pm npe dim e junk) as [c|] eqn:Ec; [|discriminate]. cbn [bind] in E.
  pose proof (seq_geometry dim npe (vh_nq h) (vh_ggrad h) c (vh_jac h e) (vh_djac h e) (vh_ijac h e) dim_23 ltac:(rewrite I1; exact Hq)) as G.
  destruct (get_element_jacobian _ _ _ _ _ _) as [[j1 d1] i1]. injection E as <-.
  cbn [vh_nq vh_wts vh_val vh_gval vh_ggrad vh_jac vh_djac vh_ijac vh_iMM vh_x vh_vol]. split; [repeat split; cbn; auto|]. split; [|split; [auto|]].
  - exists c. split; [exact Ec|]. unfold setr, upd1. cbn [vh_jac vh_djac vh_ijac vh_x vh_vol]. rewrite !Z.eqb_refl. rewrite I1, I5 in G. split; [exact G|]. split.
    + intros q d Hq' Hd'. unfold ref_to_phys, cAxB_to_C. rewrite gemm_entry, I1, (proj2 (inb_true _ _) Hq'), (proj2 (inb_true _ _) Hd'), I4. cbn [andb].
      rewrite Rmult_0_l, Rplus_0_l, Rmult_1_l. reflexivity.
    + unfold get_element_volume. rewrite zloop_acc, Rplus_0_l, I1, I2. reflexivity.
  - intros e' N (c' & X). exists c'. unfold setr, upd1. cbn [vh_jac vh_djac vh_ijac vh_x vh_vol]. destruct (Z.eqb_spec e' e); [contradiction|exact X].
Qed.
End Sequential.

(** ** Launches *)
Section Launches.
Context (s : eshape) (pm : pmesh R) (npe nb gnb : Z) (junk : arr2) (hr : vhelpers) (T : Z) (own : nat -> Z -> Z -> Z).
Context (Hnp : (0 <= npe)%Z) (Hg : (gnb <= npe)%Z) (Hq : (0 <= vh_nq hr)%Z) (Hb : (1 <= nb)%Z) (TA : thread_assignment T own).
Let dim := space_dim s.
Let ne := pm_num_elems_part pm.

Lemma row_agree n kern μ μ' e : (forall g ph, (0 <= g < n)%Z -> In ph (kern g) -> phase_ok g T ph) -> launch n T (teams kern) μ μ' -> (0 <= e < n)%Z ->
  agree e μ' (phases_run (kern e) μ).
Proof.
  intros OK L He. rewrite (teams_sequential n T (proj1 TA) kern OK (zseq n) μ μ' (Permutation_refl _) L).
  apply (teams_fold n T (proj1 TA) kern OK (zseq n)); [intros g; now apply In_zseq|apply NoDup_zseq|now apply In_zseq].
Qed.

Lemma launch_frame n kern ws μ μ' : (forall g ph, (0 <= g < n)%Z -> In ph (kern g) -> phase_ok g T ph) -> launch n T (teams kern) μ μ' ->
  (forall e, (0 <= e < n)%Z -> forall a, ~ in_views e ws a -> phases_run (kern e) μ a = μ a) ->
  forall v e i j k, ~ In v ws -> μ' (At v e i j k) = μ (At v e i j k).
Proof.
  intros OK L F v e i j k Hv. assert (HE : (0 <= e < n)%Z \/ ~ (0 <= e < n)%Z) by lia. destruct HE as [He|He].
  - rewrite (row_agree n kern μ μ' e OK L He (At v e i j k)) by reflexivity. apply (F e He). intros [_ H]. contradiction.
  - rewrite (teams_sequential n T (proj1 TA) kern OK (zseq n) μ μ' (Permutation_refl _) L).
    apply (teams_fold n T (proj1 TA) kern OK (zseq n)); [intros g'; now apply In_zseq|apply NoDup_zseq|]. intros g' Hg' Mg. apply In_zseq in Hg'. cbn in Mg. subst. contradiction.
Qed.

Lemma masses_launch eo h μ μ' : Permutation eo (zseq ne) -> foreach eo (inv_mass_team s pm npe nb junk) hr = Ok h ->
  holds_masses ne nb hr μ -> launch ne T (teams (inv_mass_k dim npe nb pm hr junk own)) μ μ' ->
  holds_geometry ne dim h μ' /\ holds_masses ne nb h μ'.
Proof.
  intros Pe E HM L. destruct (seq_masses s pm npe nb junk hr Hq Hb eo h) as (SR & Rows); [|exact E|].
  { apply (Permutation_NoDup (Permutation_sym Pe)), NoDup_zseq. }
  assert (X : forall e, (0 <= e < ne)%Z -> mass_row s pm npe nb junk hr e h /\ agree e μ' (phases_run (inv_mass_k dim npe nb pm hr junk own e) μ)).
  { intros e He. split.
    - apply Rows. apply (Permutation_in _ (Permutation_sym Pe)). now apply In_zseq.
    - apply (row_agree ne (inv_mass_k dim npe nb pm hr junk own)); auto. intros g ph _. apply inv_mass_k_ok; auto. apply dim_23. }
  assert (Y : forall e, (0 <= e < ne)%Z -> exists c, geometry dim npe (vh_nq hr) (vh_ggrad hr) c (vh_jac h e) (vh_djac h e) (vh_ijac h e) /\
     geometry dim npe (vh_nq hr) (vh_ggrad hr) c (fun iq => view4 vJac μ' e iq) (fun iq => μ' (at3 vDet e iq 0)) (fun iq => view4 vInv μ' e iq) /\
     eqm nb nb (vh_iMM h e) (invA nb (mass (vh_nq hr) (vh_val hr) (vh_wts hr) (vh_djac h e)) (vh_iMM hr e)) /\
     eqm nb nb (fun i j => μ' (at3 viM e i j)) (invA nb (mass (vh_nq hr) (vh_val hr) (vh_wts hr) (fun iq => μ' (at3 vDet e iq 0))) (fun i j => μ (at3 viM e i j)))).
  { intros e He. destruct (X e He) as ((c & Ec & G & M) & AG). exists c. split; [exact G|].
    destruct (inv_mass_k_run dim npe nb pm hr junk own (dim_23 s) Hnp Hb e c μ Ec) as (G' & M' & _).
    set (ν := phases_run (inv_mass_k dim npe nb pm hr junk own e) μ) in *. split; [|split; [exact M|]].
    - apply (geometry_frame dim npe (vh_nq hr) (vh_ggrad hr) c ν μ' e); [|exact G']. intros v i j k _. now apply AG.
    - intros i j Hi Hj. rewrite (AG (at3 viM e i j)) by reflexivity. rewrite M' by easy.
      apply invA_eqm; auto; [|intros x y _ _; reflexivity]. intros x y Hx Hy. unfold mass. apply rsum_ext. intros q Hq'. rewrite (AG (at3 vDet e q 0)) by reflexivity. reflexivity. }
  destruct SR as (S1 & _). split.
  - intros e q He Hq'. rewrite S1 in Hq'. destruct (Y e He) as (c & G & G' & _).
    destruct (geometry_unique dim npe (vh_nq hr) (vh_ggrad hr) c _ _ _ _ _ _ G' G q Hq') as [U1 U2]. split; [exact U1|exact U2].
  - intros e i j He Hi Hj. destruct (Y e He) as (c & G & G' & M & M'). rewrite (M' i j Hi Hj), (M i j Hi Hj). apply invA_eqm; auto.
    + intros x y Hx Hy. unfold mass. apply rsum_ext. intros q Hq'.
      destruct (geometry_unique dim npe (vh_nq hr) (vh_ggrad hr) c _ _ _ _ _ _ G' G q Hq') as [U1 _]. cbn beta in U1. now rewrite U1.
    + intros x y Hx Hy. apply HM; auto.
Qed.
Lemma masses_frame eo h μ μ' : Permutation eo (zseq ne) -> foreach eo (inv_mass_team s pm npe nb junk) hr = Ok h ->
  launch ne T (teams (inv_mass_k dim npe nb pm hr junk own)) μ μ' ->
  forall v e i j k, ~ In v [vCrd; vJac; vDet; vInv; vSB; vMM; viM] -> μ' (At v e i j k) = μ (At v e i j k).
Proof.
  intros Pe E L. destruct (seq_masses s pm npe nb junk hr Hq Hb eo h) as (_ & Rows); [|exact E|].
  { apply (Permutation_NoDup (Permutation_sym Pe)), NoDup_zseq. }
  apply (launch_frame ne (inv_mass_k dim npe nb pm hr junk own)); [|exact L|].
  - intros g ph _. apply inv_mass_k_ok; auto. apply dim_23.
  - intros e He. destruct (Rows e) as (c & Ec & _); [apply (Permutation_in _ (Permutation_sym Pe)); now apply In_zseq|].
    apply (inv_mass_k_run dim npe nb pm hr junk own (dim_23 s) Hnp Hb e c μ Ec).
Qed.
Lemma masses_complete μ : never_stuck ne T (teams (inv_mass_k dim npe nb pm hr junk own)) μ /\
  exists μ', launch ne T (teams (inv_mass_k dim npe nb pm hr junk own)) μ μ'.
Proof. apply teams_complete; [apply TA|]. intros g ph _. apply inv_mass_k_ok; auto. apply dim_23. Qed.

Lemma volumes_launch eo rorder h μ μ' : Permutation eo (zseq ne) -> (forall e, Permutation (rorder e) (zseq (vh_nq hr))) ->
  foreach eo (volume_team s pm npe gnb junk) hr = Ok h ->
  holds_masses ne nb hr μ -> launch ne T (teams (volume_k dim npe gnb pm hr junk own rorder)) μ μ' ->
  holds_geometry ne dim h μ' /\ holds_masses ne nb h μ' /\ holds_points ne dim h μ'.
Proof.
  intros Pe Pr E HM L. destruct (seq_volumes s pm npe gnb junk hr Hq eo h) as ((SR & SI) & Rows); [|exact Hg|exact E|].
  { apply (Permutation_NoDup (Permutation_sym Pe)), NoDup_zseq. }
  assert (AG : forall e, (0 <= e < ne)%Z -> agree e μ' (phases_run (volume_k dim npe gnb pm hr junk own rorder e) μ)).
  { intros e He. apply (row_agree ne (volume_k dim npe gnb pm hr junk own rorder)); auto. intros g ph _. apply volume_k_ok; auto. apply dim_23. }
  assert (RW : forall e, (0 <= e < ne)%Z -> volume_row s pm npe gnb junk hr e h).
  { intros e He. apply Rows. apply (Permutation_in _ (Permutation_sym Pe)). now apply In_zseq. }
  assert (Y : forall e, (0 <= e < ne)%Z -> (forall q, (0 <= q < vh_nq hr)%Z -> μ' (at3 vDet e q 0) = vh_djac h e q /\
      forall i j, (0 <= i < dim)%Z -> (0 <= j < dim)%Z -> μ' (At vJac e q i j) = vh_jac h e q i j /\ μ' (At vInv e q i j) = vh_ijac h e q i j) /\
      (forall q d, (0 <= q < vh_nq hr)%Z -> (0 <= d < dim)%Z -> μ' (at3 vX e q d) = vh_x h e q d) /\
      μ' (at3 vVol e 0 0) = rsum (vh_nq hr) (fun q => vh_wts hr q * μ' (at3 vDet e q 0)) /\
      vh_vol h e = rsum (vh_nq hr) (fun q => vh_wts hr q * vh_djac h e q) /\
      (forall i j, μ' (at3 viM e i j) = μ (at3 viM e i j))).
  { intros e He. destruct (RW e He) as (c & Ec & G & X & V).
    destruct (volume_k_run dim npe pm hr junk own (dim_23 s) Hnp gnb rorder e c μ Hg (Pr e) Ec) as (G' & X' & V' & F').
    set (ν := phases_run (volume_k dim npe gnb pm hr junk own rorder e) μ) in *. split; [|split; [|split; [|split]]].
    - intros q Hq'. apply (geometry_frame dim npe (vh_nq hr) (vh_ggrad hr) c ν μ' e) in G'; [|intros v i j k _; now apply AG].
      exact (geometry_unique dim npe (vh_nq hr) (vh_ggrad hr) c _ _ _ _ _ _ G' G q Hq').
    - intros q d Hq' Hd'. rewrite (AG e He) by reflexivity. fold ν. rewrite X', X by easy. reflexivity.
    - rewrite (AG e He) by reflexivity. fold ν. rewrite V'. apply rsum_ext. intros q _. f_equal. symmetry. apply (AG e He). reflexivity.
    - exact V.
    - intros i j. rewrite (AG e He) by reflexivity. fold ν. apply F'. intros [_ H]. cbn in H. repeat (destruct H as [H|H]; [discriminate H|]). exact H. }
  destruct SR as (S1 & _). split; [|split].
  - intros e q He Hq'. rewrite S1 in Hq'. now apply (Y e He).
  - intros e i j He Hi Hj. rewrite SI. destruct (Y e He) as (_ & _ & _ & _ & Y5). rewrite Y5. now apply HM.
  - intros e He. destruct (Y e He) as (Y1 & Y2 & Y3 & Y4 & _). split.
    + rewrite Y3, Y4. apply rsum_ext. intros q Hq'. f_equal. now apply Y1.
    + rewrite S1. exact Y2.
Qed.
Lemma volumes_frame eo rorder h μ μ' : Permutation eo (zseq ne) -> (forall e, Permutation (rorder e) (zseq (vh_nq hr))) ->
  foreach eo (volume_team s pm npe gnb junk) hr = Ok h -> launch ne T (teams (volume_k dim npe gnb pm hr junk own rorder)) μ μ' ->
  forall v e i j k, ~ In v [vCrd; vX; vJac; vDet; vInv; vVol] -> μ' (At v e i j k) = μ (At v e i j k).
Proof.
  intros Pe Pr E L. destruct (seq_volumes s pm npe gnb junk hr Hq eo h) as (_ & Rows); [|exact Hg|exact E|].
  { apply (Permutation_NoDup (Permutation_sym Pe)), NoDup_zseq. }
  apply (launch_frame ne (volume_k dim npe gnb pm hr junk own rorder)); [|exact L|].
  - intros g ph _. apply volume_k_ok; auto. apply dim_23.
  - intros e He. destruct (Rows e) as (c & Ec & _); [apply (Permutation_in _ (Permutation_sym Pe)); now apply In_zseq|].
    apply (volume_k_run dim npe pm hr junk own (dim_23 s) Hnp gnb rorder e c μ Hg (Pr e) Ec).
Qed.
Lemma volumes_complete rorder μ : never_stuck ne T (teams (volume_k dim npe gnb pm hr junk own rorder)) μ /\
  exists μ', launch ne T (teams (volume_k dim npe gnb pm hr junk own rorder)) μ μ'.
Proof. apply teams_complete; [apply TA|]. intros g ph _. apply volume_k_ok; auto. apply dim_23. Qed.
End Launches.
(** ** Initialisation *)
(** The initial condition sets every entry of the state in this dimension. *)
Definition ic_sets (dim : Z) (ic : ic_type) : Prop := (dim = 2%Z /\ ic <> Sphere) \/ (dim = 3%Z /\ ic <> Gaussian).

Ltac step_bind E := match type of E with bind ?a _ = _ => let v := fresh "v" in destruct a as [v|]; [|discriminate E]; cbn [bind] in E |- * end.
Lemma IC_indep dim ic ph x x' t U0 U0' U : ic_sets dim ic -> (forall d, (0 <= d < dim)%Z -> x' d = x d) -> call_IC dim ic ph x t U0 = Ok U ->
  exists U', call_IC dim ic ph x' t U0' = Ok U' /\ forall k, (0 <= k < dim + 2)%Z -> U' k = U k.
Proof.
  intros [[-> N]|[-> N]] Hx E; unfold call_IC in *; cbn [Z.eqb Pos.eqb] in *.
  - destruct ic; [| |easy|].
    + injection E as <-. eexists. split; [reflexivity|]. intros k Hk. unfold set_uniform. now rewrite !loaded_row by lia.
    + injection E as <-. eexists. split; [reflexivity|]. intros k Hk. unfold set_gaussian. rewrite !(loaded_row 4) by lia. now rewrite !Hx by lia.
    + unfold vortex2 in *. cbv zeta in *. rewrite !Hx by lia. destruct (Req_EM_T (ph_R ph) 1); [|discriminate].
      repeat step_bind E. injection E as <-. eexists. split; [reflexivity|].
      intros k Hk. assert (C : (k = 0 \/ k = 1 \/ k = 2 \/ k = 3)%Z) by lia. destruct C as [->|[->|[->| ->]]]; reflexivity.
  - destruct ic; [|easy| |].
    + injection E as <-. eexists. split; [reflexivity|]. intros k Hk. unfold set_uniform. now rewrite !loaded_row by lia.
    + injection E as <-. eexists. split; [reflexivity|]. intros k Hk. unfold set_sphere. rewrite !(loaded_row 5) by lia. now rewrite !Hx by lia.
    + unfold vortex3 in *. cbv zeta in *. rewrite !Hx by lia. do 5 step_bind E.
      match type of E with bind (ckdiv ?a ?b) _ = _ => match goal with |- exists U', bind (ckdiv ?a' ?b') _ = _ /\ _ => change (ckdiv a' b') with (ckdiv a b) end end.
      repeat step_bind E. injection E as <-. eexists. split; [reflexivity|].
      intros k Hk. assert (C : (k = 0 \/ k = 1 \/ k = 2 \/ k = 3 \/ k = 4)%Z) by lia. destruct C as [->|[->|[->|[->| ->]]]]; reflexivity.
Qed.

Section InitElement.
Context (dim npe gnb nb nq : Z) (pm : pmesh R) (ic : ic_type) (ph : phys) (t : R) (wts : arr1) (bval gval : arr2) (ggrad iMM : arr3).
Context (junk : arr2) (own : nat -> Z -> Z -> Z) (T : Z).
Context (Hd : (dim = 2 \/ dim = 3)%Z) (Hnp : (0 <= npe)%Z) (Hg : (gnb <= npe)%Z) (TA : thread_assignment T own).
Let ns := (dim + 2)%Z.
Lemma Hns : (0 <= ns)%Z.
Proof. unfold ns. destruct Hd; lia. Qed.

Definition ic_body (e iq : Z) : prog :=
  load_row dim (at3 vXs e iq) (junk iq) (fun x => load_row ns (at3 vIF e iq) (junk iq) (fun f0 =>
    match call_IC dim ic ph x t f0 with Fail _ => Done | Ok U => pfor ns (fun k => Store (at3 vIF e iq k) (U k) Done) end)).
Definition icW (e iq : Z) (a : loc) : Prop := exists k, a = at3 vIF e iq k.
Definition icA (e : Z) (a : loc) : Prop := exists q d, a = at3 vXs e q d.
Lemma ic_conf e iq : confined (icW e iq) (icA e) (ic_body e iq).
Proof.
  unfold ic_body. apply conf_load_row; [intros i _; right; do 2 eexists; reflexivity|]. intros x.
  apply conf_load_row; [intros i _; left; eexists; reflexivity|]. intros f0.
  destruct (call_IC dim ic ph x t f0); [|exact Logic.I]. apply confined_pfor. intros k _. cbn. split; [eexists; reflexivity|exact Logic.I].
Qed.
Lemma ic_apart e i j a : i <> j -> icW e i a -> ~ (icW e j a \/ icA e a).
Proof. intros N (k & ->) [(k' & E)|(q & d & E)]; [injection E; congruence|discriminate E]. Qed.
Definition ic_loop (e : Z) : tloop := mkTL nq (own 0%nat e) (ic_body e).

Lemma ic_run e (X : arr2) (F : Z -> arr1) μ : ic_sets dim ic ->
  (forall q d, (0 <= q < nq)%Z -> (0 <= d < dim)%Z -> μ (at3 vXs e q d) = X q d) ->
  (forall q, (0 <= q < nq)%Z -> exists x U0 V, (forall d, (0 <= d < dim)%Z -> x d = X q d) /\ call_IC dim ic ph x t U0 = Ok V /\ forall k, (0 <= k < ns)%Z -> V k = F q k) ->
  (forall q k, (0 <= q < nq)%Z -> (0 <= k < ns)%Z -> loop_run (ic_loop e) μ (at3 vIF e q k) = F q k) /\
  (forall a, ~ in_views e [vIF] a -> loop_run (ic_loop e) μ a = μ a).
Proof.
  intros IS HX HF. destruct (loop_effect (ic_loop e) (icW e) (fun _ => icA e) μ) as [P Q].
  - intros i _. apply ic_conf.
  - intros i j a _ _. apply ic_apart.
  - split.
    + intros q k Hq Hk. rewrite (P q _ Hq) by (eexists; reflexivity). cbn [tl_body ic_loop]. unfold ic_body. rewrite run_load_row, run_load_row.
      destruct (HF q Hq) as (x & U0 & V & Hx & EV & EF).
      match goal with |- context[call_IC dim ic ph ?a t ?b] => set (x' := a); set (f0 := b) end.
      destruct (IC_indep dim ic ph x x' t U0 f0 V IS) as (U' & EU & U'k); [|exact EV|].
      { intros d Hd'. unfold x'. rewrite loaded_row by easy. now rewrite HX, Hx. }
      rewrite EU.
      destruct (run_stores ns (at3 vIF e q) U' μ) as [S1 _]; [intros i j E; injection E; auto|].
      rewrite S1 by easy. rewrite U'k by exact Hk. now apply EF.
    + intros a Ha. apply Q. intros i _ (k & ->). apply Ha. cbn. auto.
Qed.

Lemma init_k_ok e p : In p (init_k dim npe gnb nb ns nq pm ic ph t wts bval gval ggrad iMM junk own e) -> phase_ok e T p.
Proof.
  assert (HO : forall k i, (0 <= own k e i < T)%Z) by (intros; apply TA).
  unfold init_k. intros [<-|[<-|[<-|[<-|[<-|[<-|[<-|[<-|[]]]]]]]]].
  - apply (rank0_ok own T TA e _ (fun a => (exists i j, a = at3 vCrd e i j) \/ exists i j, a = at3 vXs e i j) (fun _ => False)).
    + apply confined_seq; [apply coords_conf; eauto|]. apply phys_conf; eauto.
    + intros a [[(i & j & ->)|(i & j & ->)]|[]]; reflexivity.
  - exists (icW e), (fun _ => icA e). constructor; cbn [tl_n tl_own tl_body].
    + intros i _. apply HO.
    + intros i _. apply ic_conf.
    + intros i j a _ _. apply ic_apart.
    + intros i a _ [(k & ->)|(q & d & ->)]; reflexivity.
  - apply (jacdet_ok e T dim npe nq ggrad junk (own 1%nat e)); auto.
  - apply (scale_ok e T ns nq (own 2%nat e)); auto. discriminate.
  - apply (set_ok nb ns (at3 vRhs e) (fun _ => False) (own 3%nat e)); auto; [apply Hns|apply at3_inj|reflexivity].
  - apply (add_ok nb ns nq 1 (flip (table bval)) (inmem (at3 vIF e)) (at3 vRhs e) (fun a => exists i j, a = at3 vIF e i j)
      (fun _ i p => bval p i) (fun μ i j => μ (at3 vIF e i j)) (own 4%nat e)); auto.
    + apply Hns.
    + apply at3_inj.
    + apply (flip_on _ _ (fun _ => bval)). apply table_on.
    + apply inmem_on. eauto.
    + intros i j (x & y & E). discriminate E.
    + reflexivity.
    + intros a (x & y & ->). reflexivity.
  - apply (set_ok nb ns (at3 vUc e) (fun _ => False) (own 5%nat e)); auto; [apply Hns|apply at3_inj|reflexivity].
  - apply (add_ok nb ns nb 1 (table (iMM e)) (inmem (at3 vRhs e)) (at3 vUc e) (fun a => exists i j, a = at3 vRhs e i j)
      (fun _ => iMM e) (fun μ i j => μ (at3 vRhs e i j)) (own 6%nat e)); auto.
    + apply Hns.
    + apply at3_inj.
    + apply table_on.
    + apply inmem_on. eauto.
    + intros i j (x & y & E). discriminate E.
    + reflexivity.
    + intros a (x & y & ->). reflexivity.
Qed.

Lemma init_k_run e c (F : Z -> arr1) μ : ic_sets dim ic -> elem_coords_from_elem_ID pm npe dim e junk = Ok c ->
  (forall q, (0 <= q < nq)%Z -> exists x U0 V, (forall d, (0 <= d < dim)%Z -> x d = rsum gnb (fun p => gval q p * c p d)) /\ call_IC dim ic ph x t U0 = Ok V /\ forall k, (0 <= k < ns)%Z -> V k = F q k) ->
  let μ' := phases_run (init_k dim npe gnb nb ns nq pm ic ph t wts bval gval ggrad iMM junk own e) μ in
  (forall i k, (0 <= i < nb)%Z -> (0 <= k < ns)%Z -> μ' (at3 vUc e i k) =
     rsum nb (fun j => iMM e i j * rsum nq (fun q => bval q j * (wts q * det dim (Jc npe ggrad c q) 0 * F q k)))) /\
  (forall a, ~ in_views e [vCrd; vXs; vIF; vJs; vDs; vRhs; vUc] a -> μ' a = μ a).
Proof.
  intros IS E HF μ'. pose proof Hns as Hn.
  set (μ1 := run (coords_code pm npe dim e) μ). destruct (coords_run dim npe pm junk Hd Hnp e c μ E) as [C1 C2]. fold μ1 in C1, C2.
  set (μ2 := run (phys_code nq dim gnb gval vXs e) μ1).
  destruct (phys_run dim Hd e nq gnb gval vXs μ1 ltac:(discriminate)) as [X1 X2]. fold μ2 in X1, X2.
  assert (X1' : forall q d, (0 <= q < nq)%Z -> (0 <= d < dim)%Z -> μ2 (at3 vXs e q d) = rsum gnb (fun p => gval q p * c p d)).
  { intros q d Hq Hd'. rewrite X1 by easy. apply rsum_ext. intros p Hp. rewrite C1 by (try easy; lia). reflexivity. }
  set (μ3 := loop_run (ic_loop e) μ2). destruct (ic_run e _ F μ2 IS X1' HF) as [F1 F2]. fold μ3 in F1, F2.
  set (μ4 := loop_run (jacdet_loop e dim npe nq ggrad junk (own 1%nat e)) μ3).
  destruct (jacdet_loop_run e dim npe nq ggrad junk (own 1%nat e) Hd μ3) as (D1 & D2). fold μ4 in D1, D2.
  set (μ5 := loop_run (scale_loop e ns nq (own 2%nat e) wts vDs vIF) μ4).
  destruct (scale_run e ns nq (own 2%nat e) wts vDs vIF (ltac:(discriminate) : vDs <> vIF) μ4) as [S1 S2]. fold μ5 in S1, S2.
  set (μ6 := loop_run (gemm_add nb ns nq 1 (flip (table bval)) (inmem (at3 vIF e)) (at3 vRhs e) (own 4%nat e)) (loop_run (gemm_set nb ns (at3 vRhs e) (own 3%nat e)) μ5)).
  destruct (product_run nb ns nq 1 (flip (table bval)) (inmem (at3 vIF e)) (at3 vRhs e) (fun a => exists i j, a = at3 vIF e i j)
      (fun _ i p => bval p i) (fun μ i j => μ (at3 vIF e i j)) (own 3%nat e) (own 4%nat e)) with (μ := μ5) as [M1 M2].
  { exact Hn. } { apply at3_inj. } { apply (flip_on _ _ (fun _ => bval)). apply table_on. } { apply inmem_on. eauto. } { intros i j (x & y & E'). discriminate E'. }
  fold μ6 in M1, M2.
  destruct (product_run nb ns nb 1 (table (iMM e)) (inmem (at3 vRhs e)) (at3 vUc e) (fun a => exists i j, a = at3 vRhs e i j)
      (fun _ => iMM e) (fun μ i j => μ (at3 vRhs e i j)) (own 5%nat e) (own 6%nat e)) with (μ := μ6) as [N1 N2].
  { exact Hn. } { apply at3_inj. } { apply table_on. } { apply inmem_on. eauto. } { intros i j (x & y & E'). discriminate E'. }
  match type of N2 with forall a, _ -> ?m a = _ => assert (EK : μ' = m) end.
  { unfold μ', init_k, phases_run. cbn [fold_left]. rewrite rank0_run, run_seq. reflexivity. }
  rewrite <- EK in N1, N2.
  assert (NV : forall v w i j k, v <> w -> ~ in_views e [w] (At v e i j k)) by (intros v w i j k N [_ [H|[]]]; congruence).
  split.
  - intros i k Hi Hk. rewrite N1 by easy. rewrite Rmult_1_l. apply rsum_ext. intros j Hj. f_equal.
    rewrite M1 by easy. rewrite Rmult_1_l. apply rsum_ext. intros q Hq. f_equal. rewrite S1 by easy. rewrite D1 by easy.
    rewrite D2 by (intros [_ H]; cbn in H; destruct H as [H|[H|[]]]; discriminate H). rewrite F1 by easy. f_equal. f_equal.
    apply det_eqm; auto. apply Jm_c. intros p d Hp Hd'. rewrite F2 by (apply NV; discriminate). rewrite X2 by (apply NV; discriminate). now apply C1.
  - intros a Ha. destruct a as [v g' x y z]. cbn in Ha.
    assert (Na : forall vs, incl vs [vCrd; vXs; vIF; vJs; vDs; vRhs; vUc] -> ~ in_views e vs (At v g' x y z)).
    { intros vs Hi [-> Hv]. apply Ha. split; [reflexivity|]. exact (Hi v Hv). }
    rewrite N2 by (intros i j _ _ E'; injection E' as -> -> _ _ _; apply Ha; tauto).
    rewrite M2 by (intros i j _ _ E'; injection E' as -> -> _ _ _; apply Ha; tauto).
    rewrite S2 by (apply Na; intros w; cbn; tauto). rewrite D2 by (apply Na; intros w; cbn; tauto). rewrite F2 by (apply Na; intros w; cbn; tauto).
    rewrite X2 by (apply Na; intros w; cbn; tauto). apply C2. apply Na. intros w; cbn; tauto.
Qed.
End InitElement.

Lemma zfor_all {S} n (f : Z -> S -> res S) (P : Z -> S -> Prop) s s' : (0 <= n)%Z -> P 0%Z s -> (forall i a b, (0 <= i < n)%Z -> P i a -> f i a = Ok b -> P (i + 1)%Z b) ->
  zfor n f s = Ok s' -> P n s'.
Proof.
  intros Hn. revert s'. pattern n. apply natlike_ind; [| |exact Hn].
  - intros s' P0 _ E. cbn in E. injection E as <-. exact P0.
  - intros k Hk IH s' P0 St E. change (Z.succ k) with (k + 1)%Z in *. rewrite zfor_S in E by lia.
    destruct (zfor k f s) as [s1|] eqn:E1; [|discriminate]. cbn [bind] in E. apply (St k s1 s'); [lia| |exact E].
    apply IH; auto. intros i a b Hi. apply St. lia.
Qed.

Lemma seq_init s pm npe gnb nb nq ic ph t wts bval gval ggrad iMM junk2 junk3 junk1 porder eo (Uc U : arr3) :
  let dim := space_dim s in let ns := (dim + 2)%Z in
  NoDup eo -> Permutation porder (zseq nq) -> (0 <= nq)%Z ->
  foreach eo (fun e Uc =>
    c <- elem_coords_from_elem_ID pm npe dim e junk2 ;;
    let x := ref_to_phys nq dim gnb gval c junk2 in
    f <- zfor nq (fun iq f => U <- call_IC dim ic ph (x iq) t (f iq) ;; Ok (setr f iq U)) junk2 ;;
    let djac := snd (get_element_jacobian_det nq dim npe ggrad c (junk3, junk1)) in
    Ok (setr Uc e (L2_projection porder nq nb ns (iMM e) bval djac wts f (Uc e) junk2))) Uc = Ok U ->
  forall e, In e eo -> exists c F, elem_coords_from_elem_ID pm npe dim e junk2 = Ok c /\
    (forall q, (0 <= q < nq)%Z -> exists x U0 V, (forall d, (0 <= d < dim)%Z -> x d = rsum gnb (fun p => gval q p * c p d)) /\ call_IC dim ic ph x t U0 = Ok V /\ forall k, (0 <= k < ns)%Z -> V k = F q k) /\
    forall i k, (0 <= i < nb)%Z -> (0 <= k < ns)%Z -> U e i k =
     rsum nb (fun j => iMM e i j * rsum nq (fun q => bval q j * (wts q * det dim (Jc npe ggrad c q) 0 * F q k))).
Proof.
  intros dim ns ND Pp Hq E.
  match type of E with foreach _ ?b _ = _ => set (body := b) in E end.
  set (Row := fun e (U : arr3) => exists c F, elem_coords_from_elem_ID pm npe dim e junk2 = Ok c /\
    (forall q, (0 <= q < nq)%Z -> exists x U0 V, (forall d, (0 <= d < dim)%Z -> x d = rsum gnb (fun p => gval q p * c p d)) /\ call_IC dim ic ph x t U0 = Ok V /\ forall k, (0 <= k < ns)%Z -> V k = F q k) /\
    forall i k, (0 <= i < nb)%Z -> (0 <= k < ns)%Z -> U e i k =
     rsum nb (fun j => iMM e i j * rsum nq (fun q => bval q j * (wts q * det dim (Jc npe ggrad c q) 0 * F q k)))).
  apply (foreach_each eo body (fun _ => True) (fun _ _ => True) Row ND) with (s := Uc); auto.
  clear E U. intros e U U' _ _ _ E. unfold body in E.
  destruct (elem_coords_from_elem_ID pm npe dim e junk2) as [c|] eqn:Ec; [|discriminate]. cbn [bind] in E. cbv zeta in E.
  set (x := ref_to_phys nq dim gnb gval c junk2) in *.
  match type of E with bind ?a _ = _ => destruct a as [f|] eqn:Ef; [|discriminate E] end. cbn [bind] in E. injection E as <-.
  split; [exact Logic.I|]. split; [|split; [auto|]].
  - exists c, f. split; [exact Ec|]. split.
    + intros q Hq'. 
      assert (K : forall q, (0 <= q < nq)%Z -> exists U0, call_IC dim ic ph (x q) t U0 = Ok (f q)).
      { apply (zfor_all nq (fun iq f => U <- call_IC dim ic ph (x iq) t (f iq) ;; Ok (setr f iq U))
          (fun k f => forall q, (0 <= q < k)%Z -> exists U0, call_IC dim ic ph (x q) t U0 = Ok (f q)) junk2 f Hq); [lia| |exact Ef].
        intros i a b Hi IH Eb q' Hq2. destruct (call_IC dim ic ph (x i) t (a i)) as [V|] eqn:EV; [|discriminate]. cbn [bind] in Eb. injection Eb as <-.
        unfold setr. destruct (Z.eqb_spec q' i) as [->|N]; [eauto|]. apply IH. lia. }
      destruct (K q Hq') as (U0 & EU). exists (x q), U0, (f q). split; [|auto]. intros d Hd. unfold x, ref_to_phys, cAxB_to_C.
      rewrite gemm_entry, (proj2 (inb_true _ _) Hq'), (proj2 (inb_true _ _) Hd). cbn [andb]. rewrite Rmult_0_l, Rplus_0_l, Rmult_1_l. reflexivity.
    + intros i k Hi Hk. unfold setr. rewrite Z.eqb_refl, L2_projection_entry by exact Pp. rewrite (proj2 (inb_true _ _) Hi), (proj2 (inb_true _ _) Hk). cbn [andb].
      apply rsum_ext. intros j Hj. f_equal. apply rsum_ext. intros q Hq'. f_equal. f_equal. f_equal.
      pose proof (SetupProof.jacdet_loop nq dim npe ggrad c junk3 junk1 q Hq) as L. destruct (get_element_jacobian_det nq dim npe ggrad c (junk3, junk1)) as [j1 d1].
      rewrite (proj2 (inb_true _ _) Hq') in L. destruct L as (L1 & L2). cbn [snd]. rewrite L2. apply det_eqm; [apply dim_23|].
      intros a b Ha Hb. rewrite L1. unfold cATxB_to_C. rewrite gemm_entry, (proj2 (inb_true _ _) Ha), (proj2 (inb_true _ _) Hb). cbn [andb].
      rewrite Rmult_0_l, Rplus_0_l, Rmult_1_l. reflexivity.
  - intros e' N (c' & F' & X). exists c', F'. unfold setr. destruct (Z.eqb_spec e' e); [contradiction|exact X].
Qed.

Lemma nb_pos b p : (0 <= p)%Z -> (1 <= num_basis_coeff b p)%Z.
Proof. intros H. destruct b; cbn [num_basis_coeff]; nia. Qed.
Lemma vq_nonneg s o P0 W0 nq P W : (0 <= o)%Z -> volume_quadrature s o P0 W0 = Ok (nq, P, W) -> (0 <= nq)%Z.
Proof.
  intros Ho E. unfold volume_quadrature in E.
  match type of E with bind ?a _ = _ => destruct a as [[a1 a2]|]; [|discriminate] end. cbn [bind fst snd] in E. injection E as <- _ _.
  unfold get_number_of_quadrature_points. cbn [snd]. apply Z.pow_nonneg.
  assert (HO : (1 <= volume_quadrature_order s o)%Z) by (destruct s; unfold volume_quadrature_order, quadrilateral_gl_order, segment_gl_order, get_gausslegendre_quadrature_order; lia).
  set (r := volume_quadrature_order s o) in *.
  repeat match goal with |- context [if ?b then _ else _] => destruct b end; try (apply Z.quot_pos; lia); lia.
Qed.
Lemma reference_nq s bt p g o h hr : (0 <= o)%Z -> reference_data s bt p g o h = Ok hr -> (0 <= vh_nq hr)%Z /\ vh_iMM hr = vh_iMM h.
Proof.
  intros Ho E. unfold reference_data in E. destruct (volume_quadrature s o (vh_pts h) (vh_wts h)) as [[[nq P] W]|] eqn:EQ; [|discriminate].
  cbn [bind] in E. injection E as <-. cbn. split; [exact (vq_nonneg _ _ _ _ _ _ _ Ho EQ)|reflexivity].
Qed.

(** The fields of the helper tables the second pass of the set-up reads. *)
Lemma masses_keep s pm npe nb junk eo hr h : foreach eo (inv_mass_team s pm npe nb junk) hr = Ok h ->
  vh_nq h = vh_nq hr /\ vh_pts h = vh_pts hr /\ vh_wts h = vh_wts hr /\ vh_val h = vh_val hr /\ vh_grad h = vh_grad hr /\ vh_gval h = vh_gval hr /\ vh_ggrad h = vh_ggrad hr.
Proof.
  revert hr. induction eo as [|e eo IH]; intros hr E; cbn [foreach] in E; [injection E as <-; repeat split|].
  destruct (inv_mass_team s pm npe nb junk e hr) as [h1|] eqn:E1; [|discriminate]. cbn [bind] in E. specialize (IH h1 E).
  unfold inv_mass_team in E1. destruct (elem_coords_from_elem_ID _ _ _ _ _) as [c|]; [|discriminate]. cbn [bind] in E1.
  destruct (get_element_jacobian _ _ _ _ _ _) as [[j1 d1] i1]. injection E1 as <-. exact IH.
Qed.
Lemma reference_keep s bt p g o h h' hr : reference_data s bt p g o h = Ok hr ->
  vh_pts h' = vh_pts h -> vh_wts h' = vh_wts h -> vh_val h' = vh_val h -> vh_grad h' = vh_grad h -> vh_gval h' = vh_gval h -> vh_ggrad h' = vh_ggrad h ->
  exists hr', reference_data s bt p g o h' = Ok hr' /\ vh_nq hr' = vh_nq hr /\ vh_wts hr' = vh_wts hr /\ vh_gval hr' = vh_gval hr /\ vh_ggrad hr' = vh_ggrad hr.
Proof.
  intros E E1 E2 E3 E4 E5 E6. unfold reference_data in *. rewrite E1, E2. destruct (volume_quadrature s o (vh_pts h) (vh_wts h)) as [[[nq P] W]|]; [|discriminate].
  cbn [bind] in *. injection E as <-. eexists. split; [reflexivity|]. cbn. rewrite E5, E6. auto.
Qed.

(** ** C88 *)

(** Set-up.  Let the sequential inverse mass matrices and volume helpers of a rank
    be [h1] and [h2].  For every team size and every assignment of iterations to
    threads, every interleaving of the two launches completes, and afterwards the
    device memory holds the Jacobians, determinants, inverse Jacobians, positions,
    volumes and inverse mass matrices of [h2]; the views of the solver are left alone.  [μ]: any memory whose inverse mass
    matrices are the ones of [h0] (zeros when freshly allocated). *)
Theorem C88_set_up_any_schedule :
  forall s bt p g pm npe junk eo1 eo2 h0 h1 h2 T1 T2 own1 own2 rorder,
  let ne := pm_num_elems_part pm in let dim := space_dim s in let nb := num_basis_coeff bt p in
  (0 <= p)%Z -> (0 <= npe)%Z -> (num_basis_coeff (geom_basis s) g <= npe)%Z ->
  Permutation eo1 (zseq ne) -> Permutation eo2 (zseq ne) ->
  compute_inv_mass_matrices s bt p g pm npe junk eo1 h0 = Ok h1 ->
  compute_volume_helpers s bt p g pm npe junk eo2 h1 = Ok h2 ->
  thread_assignment T1 own1 -> thread_assignment T2 own2 -> (forall e, Permutation (rorder e) (zseq (vh_nq h2))) ->
  exists tasks, set_up_tasks s bt p g pm npe junk T1 T2 own1 own2 rorder h0 = Ok tasks /\
  forall μ, holds_masses ne nb h0 μ ->
    always_completes tasks μ /\
    forall μ', executes tasks μ μ' -> holds_geometry ne dim h2 μ' /\ holds_masses ne nb h2 μ' /\ holds_points ne dim h2 μ' /\
      (forall v e i j k, ~ In v [vCrd; vJac; vDet; vInv; vSB; vMM; viM; vX; vVol] -> μ' (At v e i j k) = μ (At v e i j k)).
Proof.
  intros s bt p g pm npe junk eo1 eo2 h0 h1 h2 T1 T2 own1 own2 rorder ne dim nb Hp Hnp Hg P1 P2 E1 E2 TA1 TA2 PR.
  unfold compute_inv_mass_matrices in E1. destruct (reference_data s bt p g (2 * p) h0) as [hr1|] eqn:ER1; [|discriminate]. cbn [bind] in E1.
  unfold compute_volume_helpers in E2. destruct (reference_data s bt p g p h1) as [hr2|] eqn:ER2; [|discriminate]. cbn [bind] in E2.
  destruct (masses_keep _ _ _ _ _ _ _ _ E1) as (K1 & K2 & K3 & K4 & K5 & K6 & K7).
  destruct (reference_keep s bt p g p h1 hr1 hr2 ER2) as (hr2' & ER2' & L1 & L2 & L3 & L4); auto.
  destruct (reference_nq s bt p g (2 * p) h0 hr1 ltac:(lia) ER1) as (Q1 & M1). destruct (reference_nq s bt p g p h1 hr2 Hp ER2) as (Q2 & M2).
  pose proof (nb_pos bt p Hp) as Hb.
  exists [Launch ne T1 (teams (inv_mass_k dim npe nb pm hr1 junk own1)); Launch ne T2 (teams (volume_k dim npe (num_basis_coeff (geom_basis s) g) pm hr2 junk own2 rorder))].
  split.
  { unfold set_up_tasks. rewrite ER1. cbn [bind]. rewrite ER2'. cbn [bind]. unfold volume_k. rewrite L1, L2, L3, L4. reflexivity. }
  assert (NQ : vh_nq h2 = vh_nq hr2).
  { destruct (seq_volumes s pm npe (num_basis_coeff (geom_basis s) g) junk hr2 Q2 eo2 h2) as (((X & _) & _) & _); auto.
    apply (Permutation_NoDup (Permutation_sym P2)), NoDup_zseq. }
  rewrite NQ in PR. intros μ HM. split.
  - cbn [always_completes]. split; [apply (masses_complete s pm npe nb junk hr1 T1 own1 Hb TA1)|]. intros μ1 _.
    split; [apply (volumes_complete s pm npe (num_basis_coeff (geom_basis s) g) junk hr2 T2 own2 TA2)|auto].
  - intros μ' (μ1 & X1 & μ2 & X2 & ->).
    destruct (masses_launch s pm npe nb junk hr1 T1 own1 Hnp Q1 Hb TA1 eo1 h1 μ μ1 P1 E1) as (_ & HM1); [|exact X1|].
    { intros e i j He Hi Hj. rewrite M1. now apply HM. }
    destruct (volumes_launch s pm npe nb (num_basis_coeff (geom_basis s) g) junk hr2 T2 own2 Hnp Hg Q2 TA2 eo2 rorder h2 μ1 μ2 P2 PR E2) as (V1 & V2 & V3); [|exact X2|].
    { intros e i j He Hi Hj. rewrite M2. now apply HM1. }
    split; [exact V1|]. split; [exact V2|]. split; [exact V3|]. intros v e i j k Hv.
    rewrite (volumes_frame s pm npe (num_basis_coeff (geom_basis s) g) junk hr2 T2 own2 Hnp Hg Q2 TA2 eo2 rorder h2 μ1 μ2 P2 PR E2 X2) by (cbn in Hv |- *; tauto).
    apply (masses_frame s pm npe nb junk hr1 T1 own1 Hnp Q1 Hb TA1 eo1 h1 μ μ1 P1 E1 X1). cbn in Hv |- *. tauto.
Qed.
Print Assumptions C88_set_up_any_schedule.

(** Initialisation.  If the sequential initialisation of the rank, with an initial
    condition that sets every component, gives the coefficients [U] from the inverse
    mass matrices [iMM], and the launch reads a table [iMMd] with the same entries,
    then every interleaving of the launch completes and leaves these coefficients, whatever
    the memory held before; other views of the solver are left alone. *)
Theorem C88_initial_state_any_schedule :
  forall s bt p g pm npe ic ph t iMM iMMd junk2 junk3 junk1 eo po Uc U nq P W T own,
  let ne := pm_num_elems_part pm in let dim := space_dim s in let nb := num_basis_coeff bt p in
  (0 <= npe)%Z -> (num_basis_coeff (geom_basis s) g <= npe)%Z -> ic_sets dim ic ->
  volume_quadrature s (2 * Z.max p 1) zero2 zero1 = Ok (nq, P, W) ->
  Permutation eo (zseq ne) -> Permutation po (zseq nq) ->
  init_state_from_fcn s bt p g pm npe (dim + 2) ic ph t iMM junk2 junk3 junk1 eo po Uc = Ok U ->
  (forall e i j, (0 <= e < ne)%Z -> (0 <= i < nb)%Z -> (0 <= j < nb)%Z -> iMMd e i j = iMM e i j) ->
  thread_assignment T own ->
  exists tasks, init_tasks s bt p g pm npe (dim + 2) ic ph t iMMd junk2 T own = Ok tasks /\
  forall μ, always_completes tasks μ /\
    forall μ', executes tasks μ μ' ->
      (forall e i k, (0 <= e < ne)%Z -> (0 <= i < nb)%Z -> (0 <= k < dim + 2)%Z -> view3 vUc μ' e i k = U e i k) /\
      (forall v e i j k, ~ In v [vCrd; vXs; vIF; vJs; vDs; vRhs; vUc] -> μ' (At v e i j k) = μ (At v e i j k)).
Proof.
  intros s bt p g pm npe ic ph t iMM iMMd junk2 junk3 junk1 eo po Uc U nq P W T own ne dim nb Hnp Hg IS EQ Pe Pp E EM TA.
  pose proof (vq_nonneg s (2 * Z.max p 1) zero2 zero1 nq P W ltac:(lia) EQ) as Hq.
  unfold init_state_from_fcn in E. cbv zeta in E. rewrite EQ in E. cbn [bind] in E.
  unfold init_tasks. rewrite EQ. cbn [bind]. cbv zeta. eexists. split; [reflexivity|]. intros μ.
  set (gnb := num_basis_coeff (geom_basis s) g) in *. fold dim nb ne in E |- *.
  set (bval := get_values bt p nq nb P zero2) in *. set (gval := get_values (geom_basis s) g nq gnb P zero2) in *.
  set (ggrad := get_grads (geom_basis s) g nq P zero3) in *.
  pose proof (dim_23 s) as Hd. fold dim in Hd.
  set (K := init_k dim npe gnb nb (dim + 2) nq pm ic ph t W bval gval ggrad iMMd junk2 own).
  assert (OK : forall g' ph', (0 <= g' < ne)%Z -> In ph' (K g') -> phase_ok g' T ph').
  { intros g' ph' _. unfold K. apply (init_k_ok dim npe gnb nb nq pm ic ph t W bval gval ggrad iMMd junk2 own T Hd TA). }
  split; [cbn [always_completes]; split; [apply teams_complete; [apply TA|exact OK]|auto]|].
  intros μ' (μ1 & L & ->).
  assert (ND : NoDup eo) by (apply (Permutation_NoDup (Permutation_sym Pe)), NoDup_zseq).
  pose proof (seq_init s pm npe gnb nb nq ic ph t W bval gval ggrad iMM junk2 junk3 junk1 po eo Uc U ND Pp Hq E) as Rows. cbv zeta in Rows. fold dim in Rows.
  assert (Z0 : forall e, (0 <= e < ne)%Z -> exists c F, elem_coords_from_elem_ID pm npe dim e junk2 = Ok c /\
    (forall q, (0 <= q < nq)%Z -> exists x U0 V, (forall d, (0 <= d < dim)%Z -> x d = rsum gnb (fun p => gval q p * c p d)) /\ call_IC dim ic ph x t U0 = Ok V /\ forall k, (0 <= k < dim + 2)%Z -> V k = F q k) /\
    (forall i k, (0 <= i < nb)%Z -> (0 <= k < dim + 2)%Z -> U e i k =
     rsum nb (fun j => iMM e i j * rsum nq (fun q => bval q j * (W q * det dim (Jc npe ggrad c q) 0 * F q k)))) /\ agree e μ1 (phases_run (K e) μ)).
  { intros e He. destruct (Rows e) as (c & F & R1 & R2 & R3); [apply (Permutation_in _ (Permutation_sym Pe)); now apply In_zseq|].
    exists c, F. split; [exact R1|]. split; [exact R2|]. split; [exact R3|]. apply (row_agree T own TA ne K); auto. }
  split.
  - intros e i k He Hi Hk. destruct (Z0 e He) as (c & F & R1 & R2 & R3 & AG).
    destruct (init_k_run dim npe gnb nb nq pm ic ph t W bval gval ggrad iMMd junk2 own Hd Hnp Hg e c F μ IS R1 R2) as (V & _).
    fold K in V. change (view3 vUc μ1 e i k) with (μ1 (at3 vUc e i k)). rewrite (AG (at3 vUc e i k)) by reflexivity. rewrite V, R3 by easy. apply rsum_ext. intros j Hj. now rewrite EM.
  - intros v e i j k Hv. assert (HE : (0 <= e < ne)%Z \/ ~ (0 <= e < ne)%Z) by lia. destruct HE as [He|He].
    2:{ rewrite (teams_sequential ne T (proj1 TA) K OK (zseq ne) μ μ1 (Permutation_refl _) L).
      apply (teams_fold ne T (proj1 TA) K OK (zseq ne)); [intros g'; now apply In_zseq|apply NoDup_zseq|]. intros g' Hg' Mg. apply In_zseq in Hg'. cbn in Mg. subst. contradiction. }
    destruct (Z0 e He) as (c & F & R1 & R2 & R3 & AG).
    destruct (init_k_run dim npe gnb nb nq pm ic ph t W bval gval ggrad iMMd junk2 own Hd Hnp Hg e c F μ IS R1 R2) as (_ & FR).
    fold K in FR. rewrite (AG (At v e i j k)) by reflexivity. apply FR. intros [_ H]. contradiction.
Qed.
Print Assumptions C88_initial_state_any_schedule.

(** Both, one after the other, on the four-element mesh of C71 cut into three
    parts, order 2, with teams of two threads that take turns, starting from a
    memory of zeros: the executions exist, and the initialisation reads the inverse
    mass matrices the set-up left in memory. *)
Example C88_demo : exists pm, partitioned 0 (fun _ l => rev l) 3 demo_rmesh demo_ep pm /\
  forall r, (0 <= r < 3)%Z -> exists h U tasks1 tasks2 μ1 μ2,
    let own := fun (_ : nat) (_ i : Z) => (i mod 2)%Z in let ne := pm_num_elems_part (pm r) in let ph := Build_phys 1.4 1 (fun k => IZR k + 1) in
    set_up_tasks EQuad LagrangeQuad 2 1 (pm r) 4 zero2 2 2 own own (fun _ => zseq (vh_nq h)) vh_empty = Ok tasks1 /\
    executes tasks1 (fun _ => 0) μ1 /\ holds_geometry ne 2 h μ1 /\ holds_masses ne 9 h μ1 /\ holds_points ne 2 h μ1 /\
    init_tasks EQuad LagrangeQuad 2 1 (pm r) 4 4 Uniform ph 0 (view3 viM μ1) zero2 2 own = Ok tasks2 /\ executes tasks2 μ1 μ2 /\
    (exists po, init_state_from_fcn EQuad LagrangeQuad 2 1 (pm r) 4 4 Uniform ph 0 (vh_iMM h) zero2 zero3 zero1 (zseq ne) po zero3 = Ok U) /\
    (forall e i k, (0 <= e < ne)%Z -> (0 <= i < 9)%Z -> (0 <= k < 4)%Z -> view3 vUc μ2 e i k = U e i k) /\ holds_masses ne 9 h μ2.
Proof.
  destruct C73_demo as (pm & PT & H). exists pm. split; [exact PT|]. intros r Hr. destruct (H r Hr) as (h & f & U & nq & P & W & E & EQ & EU).
  set (ne := pm_num_elems_part (pm r)) in *. change (gm_npe demo_rmesh) with 4%Z in *.
  unfold precompute_matrix_helpers in E. destruct (compute_inv_mass_matrices _ _ _ _ _ _ _ _ _) as [h1|] eqn:E1; [|discriminate]. cbn [bind] in E.
  destruct (compute_volume_helpers _ _ _ _ _ _ _ _ _) as [h2|] eqn:E2; [|discriminate]. cbn [bind] in E.
  destruct (compute_interior_face_helpers _ _ _ _ _ _ _ _ _) as [f'|]; [|discriminate]. cbn [bind] in E. injection E as -> _.
  set (own := fun (_ : nat) (_ i : Z) => (i mod 2)%Z).
  assert (TA : thread_assignment 2 own) by (split; [lia|intros; apply Z.mod_pos_bound; lia]).
  destruct (C88_set_up_any_schedule EQuad LagrangeQuad 2 1 (pm r) 4 zero2 (zseq ne) (zseq ne) vh_empty h1 h 2 2 own own (fun _ => zseq (vh_nq h))
    ltac:(lia) ltac:(lia) ltac:(cbn; lia) (Permutation_refl _) (Permutation_refl _) E1 E2 TA TA (fun _ => Permutation_refl _)) as (tasks1 & ET1 & S1).
  destruct (S1 (fun _ => 0)) as (C1 & R1); [intros e i j _ _ _; reflexivity|].
  destruct (completes_executes _ _ C1) as (μ1 & X1). destruct (R1 μ1 X1) as (G1 & G2 & G3 & _).
  pose proof (C88_initial_state_any_schedule EQuad LagrangeQuad 2 1 (pm r) 4 Uniform (Build_phys 1.4 1 (fun k => IZR k + 1)) 0 (vh_iMM h) (view3 viM μ1) zero2 zero3 zero1
    (zseq ne) (zseq nq) zero3 U nq P W 2 own) as Y. cbv zeta in Y. change (space_dim EQuad) with 2%Z in Y. change (2 + 2)%Z with 4%Z in Y.
  change (2 * Z.max 2 1)%Z with 4%Z in Y. fold ne in Y.
  specialize (Y ltac:(lia) ltac:(cbn; lia) (or_introl (conj eq_refl (ltac:(discriminate) : Uniform <> Sphere))) EQ (Permutation_refl _) (Permutation_refl _) EU).
  destruct Y as (tasks2 & ET2 & S2); [exact G2|exact TA|].
  destruct (S2 μ1) as (C2 & R2). destruct (completes_executes _ _ C2) as (μ2 & X2). destruct (R2 μ2 X2) as (V1 & V2).
  exists h, U, tasks1, tasks2, μ1, μ2. cbv zeta. fold own ne. split; [exact ET1|]. split; [exact X1|]. split; [exact G1|]. split; [exact G2|]. split; [exact G3|].
  split; [exact ET2|]. split; [exact X2|]. split; [exists (zseq nq); exact EU|]. split; [exact V1|].
  intros e i j He Hi Hj. unfold at3. rewrite V2 by (cbn; intuition discriminate). exact (G2 e i j He Hi Hj).
Qed.
