(** PropExact.v -- C97, continued: a whole run of the real-number model (set-up,
    initial state, time steps on all ranks) is a run of the arithmetic model
    ([computes] of ArithModel.v) over the real numbers, of the case that the
    input describes. *)
From Coq Require Import ZArith Reals List Lia Lra Bool FunctionalExtensionality Permutation.
From Verif Require Import Base RBase MeshModel MeshSpec CommModel CommSpec LinAlgModel LinAlgProof PhysModel SolverModel SolverSpec StepModel StepProof
  ShapeModel BasisModel QuadModel PropBasis BasisProof SetupModel SetupSpec PropSetup PropMesh PropMeshRun PropStep PropIntegral PropNormals PropVortex PropDG DGSpec DGProof
  ArithModel ArithLibrary ArithReal PropReal ArithExact PropWhole.
From Verif Require SetupProof.
Import ListNotations.
Local Open Scope R_scope.

(** The tables the set-up computes for an input, in exact arithmetic: rule of
    twice the order (mass matrices), rule of the order, rule of the projection,
    face rule. *)
Definition exact_case (s : eshape) (bt : basis_type) (p g : Z) (gamma : R) (ft : flux_type) (st : stepper) (dt : R) (ic : ic_type) (ph : phys) (t : R) : res (kcase reals) :=
  (h1 <- reference_data s bt p g (2 * p) vh_empty ;;
   h2 <- reference_data s bt p g p h1 ;;
   q <- volume_quadrature s (2 * Z.max p 1) zero2 zero1 ;;
   fq <- face_quadrature s p ;;
   let '(nq, pts, wts) := q in
   let '(nqf, fp, fw) := fq in
   fpts <- all_face_points s nqf fp ;;
   let gb := geom_basis s in let nb := num_basis_coeff bt p in let gnb := num_basis_coeff gb g in
   Ok (mkKC reals s g nb gnb nqf (tab h2) (tab h1)
     (mkVT R nq wts (get_values bt p nq nb pts zero2) zero3 (get_values gb g nq gnb pts zero2) (get_grads gb g nq pts zero3))
     (all_face_values s bt p nqf nb fpts) fw (face_gradients s g nqf (fpts 0%Z)) gamma ft (kind_of st) dt
     (fun x old => match call_IC (space_dim s) ic ph x t old with Ok U => U | Fail _ => old end)))%res.

Lemma nfun_count bt p : (0 <= p)%Z -> num_basis_coeff bt p = nfun bt p.
Proof. intros Hp. destruct bt; unfold nfun; cbn; lia. Qed.

(** One rank's set-up. *)
Lemma rank_set_up s bt p g gamma ft st dt ic ph t (m : gmesh R) (pm : pmesh R) r junk eo1 eo2 fo h f ord pord jk C :
  (0 <= g)%Z -> exact_case s bt p g gamma ft st dt ic ph t = Ok C ->
  precompute_matrix_helpers s bt p g pm r (gm_npe m) junk eo1 eo2 fo = Ok (h, f) -> loops_ok pm eo1 eo2 fo ->
  (forall k, Permutation (ord k) (zseq (pm_num_elems_part pm))) -> (forall k a b, each_once (pord k a b) a b) ->
  exists N, normals_agree s (fh_nq f) (fh_normals f) N /\
    kset_up reals (kokkos reals) C m pm r
      (refit (exact_data s (vh_iMM h) (residual_data s bt p pm r gamma ft h f ord pord jk)) N (vh_gval h) (vh_ggrad h) (vh_jac h)).
Proof.
  intros Hg EC H (L1 & L2 & L3) HO HP.
  unfold exact_case in EC. apply bind_inv in EC. destruct EC as (h1 & R1 & EC). apply bind_inv in EC. destruct EC as (h2 & R2 & EC).
  apply bind_inv in EC. destruct EC as ([[nq pts] wts] & VQ & EC). apply bind_inv in EC. destruct EC as ([[nqf fp] fw] & FQ & EC).
  cbv beta iota zeta in EC. apply bind_inv in EC. destruct EC as (fpts & FP & EC). apply Ok_inj in EC. subst C.
  unfold precompute_matrix_helpers in H. apply bind_inv in H. destruct H as (k1 & E1 & H). apply bind_inv in H. destruct H as (k2 & E2 & H).
  apply bind_inv in H. destruct H as (ff & E3 & H). apply Ok_inj in H. injection H as -> ->.
  unfold compute_inv_mass_matrices in E1. rewrite R1 in E1. cbn [bind] in E1.
  destruct (teams_reals _ (fun T => kmass_team reals (kokkos reals) pm (space_dim s) (gm_npe m) (num_basis_coeff bt p) T junk) eo1
    (fun e a b => mass_team_reals s pm (gm_npe m) (num_basis_coeff bt p) junk e a b) h1 k1 E1) as (T1 & P1 & G1). clear E1.
  unfold compute_volume_helpers in E2. apply bind_inv in E2. destruct E2 as (h3 & R3 & E2).
  destruct (reference_tab s bt p g p k1 h1 h3 T1 P1 R3) as (G3 & h2' & R2' & T3).
  assert (h2' = h2) as -> by (apply Ok_inj; now rewrite <- R2, <- R2').
  destruct (teams_reals _ (fun T => kvolume_team reals (kokkos reals) pm (space_dim s) (gm_npe m) T junk) eo2
    (fun e a b => volume_team_reals s pm (gm_npe m) (num_basis_coeff (geom_basis s) g) junk e a b) h3 h E2) as (T2 & P2 & G2). clear E2.
  unfold compute_interior_face_helpers in E3. rewrite FQ in E3. cbn [bind] in E3. cbv zeta in E3. rewrite FP in E3. cbn [bind] in E3.
  apply bind_inv in E3. destruct E3 as ([qL qR] & LK & E3). apply bind_inv in E3. destruct E3 as (NN & EN & E3). apply Ok_inj in E3. subst f.
  cbn [fh_nq fh_normals fst snd].
  exists (ploop fo (knormals_team reals (kokkos reals) s pm r (gm_npe m) g nqf (face_gradients s g nqf (fpts 0%Z)) junk) (fun _ _ _ => f0 reals)).
  split. { apply (normals_teams_reals s pm r (gm_npe m) g nqf (fpts 0%Z) junk fo Hg zero3); [intros ? ? ? _ _; reflexivity|exact EN]. }
  assert (GEO : geo h1 = kgeom0 reals).
  { unfold reference_data in R1. apply bind_inv in R1. destruct R1 as ([[a b] c] & _ & R1). cbv zeta in R1. apply Ok_inj in R1. subst h1. reflexivity. }
  exists junk, eo1, eo2, fo, qL, qR, ord, (fun k => match k with O => pord 0%nat (pm_num_elems_part pm) (vh_nq h) | S _ => pord k (pm_num_ifaces_part pm) nqf end), jk.
  split; [exact L1|]. split; [exact L2|]. split; [exact L3|]. split; [exact HO|].
  assert (TV : tab h = tab h2) by congruence. cbn [c_TV c_nqf c_shape c_gamma c_flux c_nb c_TM c_fval c_fwts c_fgrad c_g].
  split. { rewrite <- TV. apply HP. } split; [intros k; apply HP|]. split; [exact LK|].
  cbv zeta. unfold kgeometry. rewrite <- GEO. rewrite <- TV.
  match goal with |- context [ploop eo1 ?F ?x] => change (ploop eo1 F x) with (ploop eo1 (kmass_team reals (kokkos reals) pm (space_dim s) (gm_npe m) (num_basis_coeff bt p) (tab h1) junk) (geo h1)) end.
  rewrite G1, <- G3. rewrite <- T2 in G2.
  match goal with |- context [ploop eo2 ?F ?x] => replace (ploop eo2 F x) with (geo h) by (symmetry; exact G2) end. reflexivity.
Qed.

Lemma rank_choice {X} n (P : Z -> X -> Prop) (d : X) : (forall r, (0 <= r < n)%Z -> exists x, P r x) -> exists f, forall r, (0 <= r < n)%Z -> P r (f r).
Proof.
  induction n as [n H|n H IH] using zind; intros HP; [exists (fun _ => d); lia|].
  destruct IH as (f & Hf); [intros; apply HP; lia|]. destruct (HP n ltac:(lia)) as (x & Hx).
  exists (fun r => if (r =? n)%Z then x else f r). intros r Hr. destruct (Z.eqb_spec r n) as [->|N]; [exact Hx|apply Hf; lia].
Qed.

(** One rank's initial state. *)
Lemma rank_init s bt p gamma ft st dt ic ph t (m : gmesh R) (pm : pmesh R) d iMM junk2 junk3 junk1 eo po Uc0 U C :
  (0 <= p <= 11)%Z -> exact_case s bt p 1 gamma ft st dt ic ph t = Ok C -> g_iMM reals (k_geom reals d) = iMM ->
  Permutation eo (zseq (pm_num_elems_part pm)) -> Permutation po (zseq ((2 * Z.max p 1 + 2) ^ space_dim s)) ->
  init_state_from_fcn s bt p 1 pm (gm_npe m) (space_dim s + 2) ic ph t iMM junk2 junk3 junk1 eo po Uc0 = Ok U ->
  kinit reals (kokkos reals) C m pm d U.
Proof.
  intros Hp EC EM PE PP H.
  unfold exact_case in EC. apply bind_inv in EC. destruct EC as (h1 & R1 & EC). apply bind_inv in EC. destruct EC as (h2 & R2 & EC).
  apply bind_inv in EC. destruct EC as ([[nq pts] wts] & VQ & EC). apply bind_inv in EC. destruct EC as ([[nqf fp] fw] & FQ & EC).
  cbv beta iota zeta in EC. apply bind_inv in EC. destruct EC as (fpts & FP & EC). apply Ok_inj in EC.
  assert (nq = (2 * Z.max p 1 + 2) ^ space_dim s)%Z as NQ.
  { destruct (SetupProof.volume_rule s (2 * Z.max p 1) ltac:(split; lia)) as (x & xw & _ & A). destruct (A zero2 zero1) as (P1 & W1 & EQ1 & _). rewrite VQ in EQ1. apply Ok_inj in EQ1. congruence. }
  assert (NN : (0 <= nq)%Z) by (rewrite NQ; apply Z.pow_nonneg; lia). rewrite <- NQ in PP. clear NQ.
  unfold init_state_from_fcn in H. cbv zeta in H. rewrite VQ in H.
  match type of H with bind (Ok ?x) ?f = _ => change (f x = Ok U) in H end. cbv beta iota in H.
  exists junk2, eo, Uc0. split; [exact PE|]. rewrite EM. revert Uc0 H. clear PE. induction eo as [|e l IH]; intros Uc0 H; cbn [foreach] in H; [apply Ok_inj in H; now subst|].
  apply bind_inv in H. destruct H as (U1 & E1 & H).
  assert (X : kinit_team reals (kokkos reals) C pm (gm_npe m) iMM junk2 e Uc0 = U1).
  { refine (init_team_reals C s _ _ nq wts _ zero3 _ _ ic ph t pm (gm_npe m) iMM junk2 junk3 junk1 po e Uc0 U1 _ _ _ _ _ NN PP E1); rewrite <- EC; reflexivity. }
  refine (eq_trans (IH U1 H) _). rewrite <- X. reflexivity.
Qed.

(** The case of an input exists when a rank gets through its set-up. *)
Lemma case_exists s bt p gamma ft st dt ic ph t (m : gmesh R) (pm : pmesh R) r junk eo1 eo2 fo hf iMM junk2 junk3 junk1 eo po Uc0 U :
  precompute_matrix_helpers s bt p 1 pm r (gm_npe m) junk eo1 eo2 fo = Ok hf ->
  init_state_from_fcn s bt p 1 pm (gm_npe m) (space_dim s + 2) ic ph t iMM junk2 junk3 junk1 eo po Uc0 = Ok U ->
  exists C, exact_case s bt p 1 gamma ft st dt ic ph t = Ok C.
Proof.
  intros H HI. unfold init_state_from_fcn in HI. cbv zeta in HI. apply bind_inv in HI. destruct HI as ([[nq pts] wts] & VQ & _).
  unfold precompute_matrix_helpers in H. apply bind_inv in H. destruct H as (k1 & E1 & H). apply bind_inv in H. destruct H as (k2 & E2 & H).
  apply bind_inv in H. destruct H as (ff & E3 & _).
  unfold compute_inv_mass_matrices in E1. apply bind_inv in E1. destruct E1 as (h1 & R1 & E1).
  destruct (teams_reals _ (fun T => kmass_team reals (kokkos reals) pm (space_dim s) (gm_npe m) (num_basis_coeff bt p) T junk) eo1
    (fun e a b => mass_team_reals s pm (gm_npe m) (num_basis_coeff bt p) junk e a b) h1 k1 E1) as (T1 & P1 & _).
  unfold compute_volume_helpers in E2. apply bind_inv in E2. destruct E2 as (h3 & R3 & _).
  destruct (reference_tab s bt p 1 p k1 h1 h3 T1 P1 R3) as (_ & h2 & R2 & _).
  unfold compute_interior_face_helpers in E3. apply bind_inv in E3. destruct E3 as ([[nqf fp] fw] & FQ & E3). cbv zeta in E3. apply bind_inv in E3. destruct E3 as (fpts & FP & _).
  unfold exact_case. rewrite R1. cbn [bind]. rewrite R2. cbn [bind]. rewrite VQ. cbn [bind]. rewrite FQ. cbn [bind]. rewrite FP. cbn [bind]. eauto.
Qed.

(** A run of the real-number model (as in C78, C85-C87) is, in exact arithmetic,
    a run of the model of which C97-C99 speak. *)
Theorem C97_exact_run : forall iter n m ep pm s bt p h f gamma ft ord pord junk ic ph st dt k U w U' w',
  (0 < n)%Z -> run_wf iter n m ep -> partitioned 0 iter n m ep pm -> ready s bt p 1 m ->
  all_set_up s bt p 1 m pm n h f -> inner_loops_ok pm n ord pord ->
  (forall r, (0 <= r < n)%Z -> fits (shape_of s pm (nfun bt p) r)) ->
  starting s m bt p ic ph n pm h U -> (forall r e q i, v_Fe (fst w r) e q i = 0) ->
  marching s m ep pm n (face_rule_points s p ^ (space_dim s - 1)) (nfun bt p) gamma (tables s bt p pm gamma ft h f ord pord junk)
    (fun r => vh_iMM (h r)) (repeat (st, dt) k) U w U' w' ->
  exists C, exact_case s bt p 1 gamma ft st dt ic ph 0 = Ok C /\ computes reals (kokkos reals) C iter n m ep k pm U'.
Proof.
  intros iter n m ep pm s bt p h f gamma ft ord pord junk ic ph st dt k U w U' w' Hn WF PT RD AS IL FT ST FZ MA.
  assert (Hp : (0 <= p <= 11)%Z) by (destruct RD as [_ _ _ _ Op _]; exact Op).
  assert (EX : exists C, exact_case s bt p 1 gamma ft st dt ic ph 0 = Ok C).
  { destruct (AS 0%Z ltac:(lia)) as (jk & eo1 & eo2 & fo & _ & E). destruct (ST 0%Z ltac:(lia)) as (j2 & j3 & j1 & eo & po & Uc0 & _ & _ & EI).
    exact (case_exists _ _ _ _ _ _ _ _ _ _ _ _ _ _ _ _ _ _ _ _ _ _ _ _ _ _ E EI). }
  destruct EX as (C & EC). exists C. split; [exact EC|]. split; [exact WF|]. split; [exact PT|].
  pose proof (C97_exact_steps 0 iter n m ep pm s bt p 1 h f gamma ft ord pord junk st dt k U w U' w' Hn WF PT RD AS IL FT MA) as KM. cbv zeta in KM.
  destruct (C70_setup_consistent 0 iter n m ep pm s bt p 1 h f gamma ft ord pord junk WF PT RD AS IL) as (fp & fw & EF & _ & SS & _).
  assert (GV : forall r, (0 <= r < n)%Z -> vh_gval (h r) = vt_gval (c_TV reals C) /\ vh_ggrad (h r) = vt_ggrad (c_TV reals C)).
  { intros r Hr. destruct (AS r Hr) as (jk & eo1 & eo2 & fo & LO & E).
    destruct (rank_set_up s bt p 1 gamma ft st dt ic ph 0 m (pm r) r jk eo1 eo2 fo (h r) (f r) (ord r) (pord r) (junk r) C ltac:(lia) EC E LO (proj1 (IL r Hr)) (proj2 (IL r Hr))) as (N & _ & KS).
    destruct KS as (q1 & q2 & q3 & q4 & q5 & q6 & q7 & q8 & q9 & _ & _ & _ & _ & _ & _ & _ & KS). cbv zeta in KS.
    apply (f_equal (k_T reals)) in KS. cbn [k_T refit] in KS. rewrite <- KS. split; reflexivity. }
  destruct (rank_choice n (fun r N => normals_agree s (fh_nq (f r)) (fh_normals (f r)) N /\
    kset_up reals (kokkos reals) C m (pm r) r (refit (exact_data s (vh_iMM (h r)) (tables s bt p pm gamma ft h f ord pord junk r)) N (vt_gval (c_TV reals C)) (vt_ggrad (c_TV reals C)) (vh_jac (h r)))) zero3)
    as (N & HN).
  { intros r Hr. destruct (AS r Hr) as (jk & eo1 & eo2 & fo & LO & E). destruct (GV r Hr) as [<- <-].
    exact (rank_set_up s bt p 1 gamma ft st dt ic ph 0 m (pm r) r jk eo1 eo2 fo (h r) (f r) (ord r) (pord r) (junk r) C ltac:(lia) EC E LO (proj1 (IL r Hr)) (proj2 (IL r Hr))). }
  exists (fun r => refit (exact_data s (vh_iMM (h r)) (tables s bt p pm gamma ft h f ord pord junk r)) (N r) (vt_gval (c_TV reals C)) (vt_ggrad (c_TV reals C)) (vh_jac (h r))), U, (fun r => real_views (fst w r)).
  split.
  - intros r Hr. destruct (HN r Hr) as [_ KS]. split; [exact KS|]. split; [|intros a b c; exact (FZ r a b c)].
    destruct (ST r Hr) as (j2 & j3 & j1 & eo & po & Uc0 & PE & PP & EI).
    refine (rank_init s bt p gamma ft st dt ic ph 0 m (pm r) _ (vh_iMM (h r)) j2 j3 j1 eo po Uc0 (U r) C Hp EC _ PE PP EI). reflexivity.
  - assert (ED : c_dt reals C = dt /\ c_kind reals C = kind_of st).
    { unfold exact_case in EC. apply bind_inv in EC. destruct EC as (a1 & _ & EC). apply bind_inv in EC. destruct EC as (a2 & _ & EC).
      apply bind_inv in EC. destruct EC as ([[a3 a4] a5] & _ & EC). apply bind_inv in EC. destruct EC as ([[a6 a7] a8] & _ & EC).
      cbv beta iota zeta in EC. apply bind_inv in EC. destruct EC as (a9 & _ & EC). apply Ok_inj in EC. rewrite <- EC. split; reflexivity. }
    destruct ED as [-> ->].
    refine (refit_march n m ep pm _ N _ _ _ _ dt (kind_of st) k U _ U' KM).
    intros r Hr lf iq HI j Hj. destruct (HN r Hr) as [NA _]. refine (NA lf iq j _ Hj).
    destruct (IL r Hr) as [_ IP]. change (k_porder reals (exact_data s (vh_iMM (h r)) (tables s bt p pm gamma ft h f ord pord junk r)) 2) with
      (pord r 2%nat (pm_num_ifaces_part (pm r)) (fh_nq (f r))) in HI.
    pose proof (Permutation_in _ (IP 2%nat _ _) HI) as HI'. apply in_prod_iff in HI'. destruct HI' as [_ HI']. now apply In_zseq in HI'.
Qed.
Print Assumptions C97_exact_run.

(** The hypotheses are met by a run on three ranks. *)
Example C97_exact_run_demo : exists iter pm C U',
  exact_case EQuad LagrangeQuad 2 1 2 HLLC ForwardEuler (1 / 10) Uniform demo_phys 0 = Ok C /\
  computes reals (kokkos reals) C iter 3 demo_rmesh demo_ep 1 pm U'.
Proof.
  destruct (C05_partitioned_exists R 0 _ 3 demo_rmesh demo_ep demo_rrun) as (pm & PT).
  destruct (demo_runs_zero _ 3 demo_ep pm (1 / 10) demo_rrun PT) as (h & U & U' & IT & f & ord & pord & jk & w & w' & WF & _ & AS & IL & FT & FZ & _ & MA).
  destruct demo_straight as (SQ & CF & _).
  destruct (C97_exact_run (fun _ l => rev l) 3 demo_rmesh demo_ep pm EQuad LagrangeQuad 2 h f 2 HLLC ord pord jk Uniform demo_phys ForwardEuler (1 / 10) 1 U w U' w') as (C & EC & CO); try assumption.
  - lia.
  - constructor; [lia|apply SQ|now apply convex_untangled|now left|unfold order_ok; lia|now left].
  - exists (fun _ l => rev l), pm, C, U'. split; [exact EC|exact CO].
Qed.
