(** DGProof.v -- the residual evaluation of a partitioned run computes the global
    discontinuous Galerkin residual of DGSpec.v. *)
From Coq Require Import ZArith List Lia Reals Lra Bool Permutation FunctionalExtensionality.
From Verif Require Import Base RBase MeshModel MeshSpec MeshProof MeshReadProof MeshProof2 PropMesh
  LinAlgModel LinAlgProof PropLinAlg PhysModel PhysSpec PhysProof PropPhys ShapeModel CommModel CommSpec
  SolverModel SolverProof SolverFaces SolverSpec SolverMesh SolverConserve SolverFlux PropSolver PropConserve PropResidual DGSpec.
Import ListNotations.
Local Open Scope R_scope.
Open Scope res_scope.

(** ** The flux depends on the state variables only *)
Definition same_state (dim : Z) (U U' : arr1) : Prop := forall i, (0 <= i < dim + 2)%Z -> U i = U' i.

Section SameState.
Context (dim : Z) (g : R) (Hd : dim23 dim).
Context (UL UL' UR UR' : arr1) (HL : same_state dim UL UL') (HR : same_state dim UR UR').

Lemma state_velocity U U' : same_state dim U U' -> forall i, (0 <= i < dim)%Z -> velocity U i = velocity U' i.
Proof. intros H i Hi. unfold velocity, momentum, density. rewrite !H by (destruct Hd; lia). reflexivity. Qed.

Lemma state_dot U U' N : same_state dim U U' -> vdot dim (velocity U) N = vdot dim (velocity U') N.
Proof. intros H. apply rsum_ext. intros i Hi. now rewrite (state_velocity U U' H). Qed.

Lemma state_pressure U U' : same_state dim U U' -> pressure dim g U = pressure dim g U' /\ density U = density U' /\
  energy dim U = energy dim U' /\ sound dim g U = sound dim g U' /\ max_speed dim g U = max_speed dim g U'.
Proof.
  intros H. assert (E0 : density U = density U') by (apply H; destruct Hd; lia). assert (E1 : energy dim U = energy dim U') by (apply H; destruct Hd; lia).
  assert (EV : vdot dim (velocity U) (velocity U) = vdot dim (velocity U') (velocity U')).
  { apply rsum_ext. intros i Hi. now rewrite (state_velocity U U' H). }
  assert (EP : pressure dim g U = pressure dim g U') by (unfold pressure; now rewrite E0, E1, EV).
  assert (ES : sound dim g U = sound dim g U') by (unfold sound; now rewrite EP, E0).
  repeat split; auto. unfold max_speed, vlen. now rewrite EV, ES.
Qed.

Lemma numflux_state t N k : (0 <= k < dim + 2)%Z -> numflux t dim g UL UR N k = numflux t dim g UL' UR' N k.
Proof.
  intros Hk.
  destruct (state_pressure UL UL' HL) as (PL & DL & EL & SL & ML). destruct (state_pressure UR UR' HR) as (PR & DR & ER & SR & MR).
  assert (FL : forall M, euler_flux dim g UL M k = euler_flux dim g UL' M k) by (intros; now apply euler_flux_extU).
  assert (FR : forall M, euler_flux dim g UR M k = euler_flux dim g UR' M k) by (intros; now apply euler_flux_extU).
  destruct t; cbn [numflux].
  - rewrite FL, FR, ML, MR, HL, HR by exact Hk. reflexivity.
  - f_equal. set (M := fun i => N i / vlen dim N).
    assert (NL : un dim UL M = un dim UL' M) by (now apply state_dot). assert (NR : un dim UR M = un dim UR' M) by (now apply state_dot).
    assert (EP : p_star dim g UL UR M = p_star dim g UL' UR' M) by (unfold p_star; now rewrite PL, PR, NL, NR, DL, DR, SL, SR).
    assert (WL : wave_L dim g UL UR M = wave_L dim g UL' UR' M) by (unfold wave_L; now rewrite EP, NL, SL, PL).
    assert (WR : wave_R dim g UL UR M = wave_R dim g UL' UR' M) by (unfold wave_R; now rewrite EP, NR, SR, PR).
    assert (WS : wave_star dim g UL UR M = wave_star dim g UL' UR' M) by (unfold wave_star; now rewrite WL, WR, NL, NR, PL, PR, DL, DR).
    assert (VV : forall U U' S Sm, same_state dim U U' -> un dim U M = un dim U' M -> pressure dim g U = pressure dim g U' -> density U = density U' ->
       energy dim U = energy dim U' -> star_flux dim g U M S Sm k = star_flux dim g U' M S Sm k).
    { intros U U' S Sm H Hn Hp Hr He. unfold star_flux, star_state. rewrite (euler_flux_extU dim g U U' M k Hd H Hk), Hn, Hp, Hr, He, (H k Hk).
      destruct (Z.eqb_spec k 0); [easy|]. destruct (Z.eqb_spec k (dim + 1)); [easy|]. now rewrite (state_velocity U U' H) by lia. }
    unfold toro_hllc. rewrite WL, WR, WS, FL, FR, (VV UL UL'), (VV UR UR') by assumption. reflexivity.
Qed.
End SameState.

(** ** A successful element term met no zero density *)
Lemma volume_fluxes_density dim gamma djac ijac wts G1 G2 : dim23 dim -> forall order Uq v out, NoDup order ->
  volume_fluxes dim gamma djac ijac wts G1 G2 order (Uq, v) = Ok out -> forall e q, In (e, q) order -> density (Uq e q) <> 0.
Proof.
  intros Hd. unfold volume_fluxes. induction order as [|[e0 q0] order IH]; intros Uq v out ND E e q IN; [destruct IN|].
  cbn [foreach] in E. inversion_clear ND as [|? ? N1 N2].
  assert (D0 : density (Uq e0 q0) <> 0).
  { intros C. unfold volume_flux_point at 1 in E. cbv zeta in E.
    assert (F : conv_flux_interior dim gamma (fun is => Uq e0 q0 is) G1 = Fail BadArith).
    { unfold density in C. destruct Hd as [-> | ->]; unfold conv_flux_interior; cbn [Z.eqb Pos.eqb]; unfold conv_flux_interior2, conv_flux_interior3, ckdiv;
      rewrite C; destruct (Req_EM_T 0 0); [reflexivity|easy|reflexivity|easy]. }
    rewrite F in E. discriminate E. }
  destruct IN as [IN | IN]; [injection IN as <- <-; exact D0|].
  destruct (volume_flux_point_ok dim gamma djac ijac wts G1 G2 e0 q0 Uq v Hd D0) as (U1 & v1 & E1 & S1 & _).
  match type of E with bind ?X _ = _ => replace X with (Ok (U1, v1)) in E by (symmetry; exact E1) end. cbn [bind] in E. specialize (IH U1 v1 out N2 E e q IN). unfold density in *. rewrite S1 in IH; [exact IH|].
  intros C. apply N1. now rewrite <- C.
Qed.

Lemma element_residuals_density d Uc rs out : dim23 (d_dim d) -> orders_ok d -> (0 <= d_nb d)%Z -> element_residuals d Uc rs = Ok out ->
  forall e q, (0 <= e < d_ne d)%Z -> (0 <= q < d_nq d)%Z -> density (vol_state d Uc e q) <> 0.
Proof.
  intros Hd [O1 O2] Hb E e q He Hq. unfold element_residuals in E. cbv zeta in E.
  destruct (volume_fluxes _ _ _ _ _ _ _ _ _) as [p|] eqn:EV; [|discriminate]. clear E.
  assert (ND : NoDup (d_porder d 0 (d_ne d) (d_nq d))).
  { apply (Permutation_NoDup (Permutation_sym (O2 0%nat (d_ne d) (d_nq d)))). apply NoDup_list_prod; apply NoDup_zseq. }
  pose proof (volume_fluxes_density _ _ _ _ _ _ _ Hd _ _ _ _ ND EV e q) as DD.
  unfold density in *. rewrite (evaluate_state_entry _ (d_ne d)) in DD by apply O1.
  rewrite !(proj2 (inb_true _ _)) in DD by (destruct Hd; lia). apply DD.
  apply (Permutation_in _ (Permutation_sym (O2 0%nat (d_ne d) (d_nq d)))). apply in_prod_iff. rewrite !In_zseq. auto.
Qed.

(** ** The ranks of a run work with the data of a scheme *)
Record runs_scheme (S : scheme) (m : gmesh R) (pm : Z -> pmesh R) (n : Z) (D : Z -> rdata) : Prop := {
  rs_same : same_setup (sc_shape S) m pm n (sc_nqf S) (sc_nb S) (sc_gamma S) (sc_flux S) (sc_fval S) (sc_fwts S) D;
  rs_rule : forall r, (0 <= r < n)%Z -> d_nq (D r) = sc_nq S /\ forall q, (0 <= q < sc_nq S)%Z -> d_wts (D r) q = sc_wts S q /\
     forall i, (0 <= i < sc_nb S)%Z -> d_basis_val (D r) q i = sc_val S q i /\
     forall d, (0 <= d < space_dim (sc_shape S))%Z -> d_basis_ref_grad (D r) q i d = sc_grad S q i d;
  rs_elem : forall r le e q, (0 <= r < n)%Z -> rd (pm_l2g_elem (pm r)) le = Ok e -> (0 <= q < sc_nq S)%Z ->
     d_djac (D r) le q = sc_det S e q /\
     forall d j, (0 <= d < space_dim (sc_shape S))%Z -> (0 <= j < space_dim (sc_shape S))%Z -> d_ijac (D r) le q d j = sc_inv S e q d j;
  rs_face : forall r lf f iq, (0 <= r < n)%Z -> rd (pm_l2g_iface (pm r)) lf = Ok f -> (0 <= iq < sc_nqf S)%Z ->
     vdot (space_dim (sc_shape S)) (sc_normal S f iq) (sc_normal S f iq) <> 0 /\
     forall j, (0 <= j < space_dim (sc_shape S))%Z -> d_normals (D r) lf iq j = sc_normal S f iq j
}.

(** The ranks hold the coefficients [c] of one solution on the mesh. *)
Definition holds (pm : Z -> pmesh R) (n nb ns : Z) (c : arr3) (U : Z -> arr3) : Prop :=
  forall r le e j k, (0 <= r < n)%Z -> rd (pm_l2g_elem (pm r)) le = Ok e -> (0 <= j < nb)%Z -> (0 <= k < ns)%Z -> U r le j k = c e j k.

Section Run.
Context (zero : R) (iter : Z -> list Z -> list Z) (n : Z) (m : gmesh R) (ep : list Z) (pm : Z -> pmesh R).
Context (WF : run_wf iter n m ep) (PT : partitioned zero iter n m ep pm).
Context (S : scheme) (D : Z -> rdata) (RS : runs_scheme S m pm n D).
Let s := sc_shape S.
Let dim := space_dim s.
Let nqf := sc_nqf S.
Let nb := sc_nb S.
Let NF := faces_per_elem s.
Context (HV : faces_valid s m) (HD : faces_distinct m) (HP : face_points s nqf) (Hg : 1 < sc_gamma S).
Let SS := rs_same _ _ _ _ _ RS.

Lemma run_dim : dim23 dim.
Proof. unfold dim, dim23; destruct s; cbn; lia. Qed.

Lemma side_has f sd : (0 <= f < gm_nIF m)%Z -> has_side m f sd (side_elem m f sd) (side_face m f sd) (face_entry m f (if sd then 5 else 2)%Z).
Proof.
  intros Hf. pose proof (run_mesh _ _ _ _ WF) as MW.
  destruct (rd_total (gm_IF m) f) as (row & E). { rewrite (wf_if_len m MW). lia. }
  pose proof (wf_if m MW) as WI. rewrite Forall_forall in WI.
  destruct (WI row (rd_In _ _ _ E)) as (eL & fL & oL & eR & fR & oR & -> & _).
  unfold has_side, side_elem, side_face, face_entry, rd2. rewrite E. destruct sd; repeat split; reflexivity.
Qed.

Lemma face_of_side f sd e k o : has_side m f sd e k o -> (0 <= f < gm_nIF m)%Z /\ side_elem m f sd = e /\ side_face m f sd = k /\
   forall iq, side_point S m f sd iq = face_order s o nqf (fun _ => 0%Z) iq.
Proof.
  intros (H1 & H2 & H3).
  assert (Hf : (0 <= f < gm_nIF m)%Z).
  { unfold rd2 in H1. destruct (rd (gm_IF m) f) as [row|] eqn:E; [|discriminate]. apply rd_in_range in E.
    rewrite (wf_if_len m (run_mesh _ _ _ _ WF)) in E. exact E. }
  split; [exact Hf|]. unfold side_elem, side_face, side_point, face_entry. destruct sd.
  - change (3 + 1)%Z with 4%Z in *. change (3 + 2)%Z with 5%Z in *. rewrite H1, H2, H3. auto.
  - change (0 + 1)%Z with 1%Z in *. change (0 + 2)%Z with 2%Z in *. rewrite H1, H2, H3. auto.
Qed.

(** Traces computed before the exchange. *)
Lemma before_traces r Uc v0 v1 : (0 <= r < n)%Z -> face_residuals_before (D r) Uc v0 = Ok v1 ->
  v_Fe v1 = v_Fe v0 /\
  forall lf iq sd le kf o e f k, rd (pm_l2g_iface (pm r)) lf = Ok f -> (0 <= iq < nqf)%Z -> has_side m f sd e kf o ->
      rd (pm_l2g_elem (pm r)) le = Ok e -> (0 <= k < dim + 2)%Z ->
      (if sd then v_UqR v1 else v_UqL v1) lf iq k =
      face_trace nb (sc_fval S) Uc le kf (face_order s o nqf (fun _ => 0%Z) iq) k.
Proof.
  intros Hr E0. destruct (ss_sizes _ _ _ _ _ _ _ _ _ _ _ SS r Hr) as (S1 & S2 & S3 & S4 & S5 & S6 & S7 & S8).
  pose proof (ss_lookup _ _ _ _ _ _ _ _ _ _ _ SS r Hr) as LK. rewrite S7, S8 in LK.
  destruct (ss_orders _ _ _ _ _ _ _ _ _ _ _ SS r Hr) as [O1 O2].
  pose proof run_dim as Hd. assert (Hd2 : (2 <= dim)%Z) by (destruct Hd; lia).
  assert (HNF : (0 < NF)%Z) by (unfold NF; destruct s; cbn; lia).
  destruct (C23_face_flux_slots R zero iter n m ep pm s nqf WF PT HV HD HP r Hr) as (qL & qR & LK' & _ & SR & G).
  fold s nqf in LK. rewrite LK in LK'. injection LK' as EqL EqR.
  destruct (G (dim + 2)%Z (d_porder (D r) 1 (pm_num_ifaces_part (pm r)) nqf) ltac:(lia) (O2 _ _ _)) as [_ G2].
  set (fbf := flat_face_basis NF nqf nb (d_face_basis (D r))).
  set (Uq := evaluate_state (d_order (D r) 2) (NF * nqf) (dim + 2) nb fbf Uc (v_Uq v0)).
  destruct (G2 Uq (v_UqL v0) (v_UqR v0)) as (UL & UR & E & T1 & _).
  assert (EE : face_residuals_before (D r) Uc v0 = Ok (mkRV Uq UL UR (v_Fq v0) (v_Fe v0))).
  { unfold face_residuals_before. cbv zeta. rewrite S1, S2, S3, S4, S5, S6, S7, S8, EqL, EqR. fold s. fold dim NF nqf nb. fold fbf. fold Uq. fold NF in E.
    rewrite E. reflexivity. }
  rewrite EE in E0. injection E0 as <-. split; [reflexivity|].
  intros lf iq sd le kf o e f k Rf Hiq HS Re Hk.
  set (pos := (kf * nqf + face_order s o nqf (fun _ => 0%Z) iq)%Z).
  assert (MI : slot_of s m pm nqf r lf iq sd le pos) by (split; [easy|]; exists f, e, kf, o; auto).
  cbn [v_UqL v_UqR]. rewrite (T1 lf iq sd le pos k MI Hk).
  destruct (SR lf iq sd le pos MI) as [B1 B2]. fold NF in B2.
  unfold Uq. rewrite (evaluate_state_entry _ (pm_num_elems_part (pm r))) by (rewrite <- S3; apply O1).
  rewrite !(proj2 (inb_true _ _)) by easy. cbn [andb]. unfold face_trace. apply rsum_ext. intros j Hj.
  assert (Hq0 : (0 < nqf)%Z) by lia.
  pose proof (side_nonneg iter n m ep WF _ _ _ _ _ HS) as (K0 & O0 & _). destruct (HV _ _ _ _ _ HS) as [K1 O1'].
  destruct (order_perm s nqf o (fun _ => 0%Z) HP ltac:(lia)) as [OP _]. specialize (OP iq Hiq).
  unfold fbf. rewrite flat_face_basis_entry by (auto; lia).
  assert (D1 : (pos / nqf = kf)%Z) by (unfold pos; symmetry; apply Z.div_unique with (r := face_order s o nqf (fun _ => 0%Z) iq); lia).
  assert (D2 : (pos mod nqf = face_order s o nqf (fun _ => 0%Z) iq)%Z) by (unfold pos; symmetry; apply Z.mod_unique with (q := kf); lia).
  rewrite D1, D2, (ss_face _ _ _ _ _ _ _ _ _ _ _ SS) by (auto; lia). reflexivity.
Qed.

(** ** The residual *)
Context (c : arr3) (Uc rs0 : Z -> arr3) (v0 : Z -> rviews) (UL UR : Z -> arr3) (v2 : Z -> rviews) (rs2 : Z -> arr3).
Context (HU : holds pm n nb (dim + 2) c Uc) (BZ : boundary_zero s m pm n nqf v0).
Context (EV : evaluates m ep pm n D Uc rs0 v0 UL UR v2 rs2).
Context (ADM : forall r lf iq, (0 <= r < n)%Z -> (0 <= lf < pm_num_ifaces_part (pm r))%Z -> (0 <= iq < nqf)%Z ->
     admissible dim (sc_gamma S) (UL r lf iq) /\ admissible dim (sc_gamma S) (UR r lf iq)).

(** After the exchange both sides of every local face are the traces of the global solution. *)
Lemma exchanged_traces r lf f iq k : (0 <= r < n)%Z -> rd (pm_l2g_iface (pm r)) lf = Ok f -> (0 <= iq < nqf)%Z -> (0 <= k < dim + 2)%Z ->
  UL r lf iq k = dg_trace S c (side_elem m f false) (side_face m f false) (side_point S m f false iq) k /\
  UR r lf iq k = dg_trace S c (side_elem m f true) (side_face m f true) (side_point S m f true iq) k.
Proof.
  intros Hr Rf Hiq Hk. destruct EV as (rs1 & v1 & X & EV1 & EX & EV2).
  destruct (C04_interior_faces R zero iter n m ep pm WF PT) as [_ H4].
  destruct (C01_element_ownership R zero iter n m ep pm WF PT) as (_ & HOW & H1 & _).
  assert (RG : forall e x, owned_by ep e x -> (0 <= x < n)%Z).
  { intros e x O. pose proof (run_ep _ _ _ _ WF) as [_ FA]. rewrite Forall_forall in FA. apply FA. now apply rd_In in O. }
  assert (LE : forall e re, owned_by ep e re -> exists le, rd (pm_l2g_elem (pm re)) le = Ok e).
  { intros e re OW. assert (Hre : (0 <= re < n)%Z) by eauto. assert (IN : In e (pm_l2g_elem (pm re))) by (apply HOW; auto).
    destruct (C02_id_lookups_inverse R zero iter n m ep pm WF PT re Hre (pm_l2g_elem (pm re))) as (_ & L2 & _); auto.
    specialize (L2 e IN). eauto. }
  destruct (H4 r Hr) as (_ & LN & _ & RF).
  destruct (RF lf f Rf) as (eL & fL & oL & eR & fR & oR & rL & rR & lL & lR & E1 & OL & OR & _).
  assert (FR : face_ranks m ep f rL rR).
  { exists eL, eR. unfold left_of, right_of, rd2. rewrite E1. repeat split; auto. }
  destruct EX as [_ EX]. destruct (EX r lf f rL rR Hr Rf FR) as [(a & v & Q1 & Q2 & Q3) (b & w & Q4 & Q5 & Q6)].
  destruct (EV2 r Hr) as (BL & BR & _).
  destruct (ss_sizes _ _ _ _ _ _ _ _ _ _ _ SS r Hr) as (_ & _ & _ & _ & _ & _ & S7 & _).
  assert (Hlf : (0 <= lf < pm_num_ifaces_part (pm r))%Z) by (apply rd_in_range in Rf; lia).
  rewrite S7 in BL, BR. rewrite <- BL, blocks_rd in Q3 by exact Hlf. rewrite <- BR, blocks_rd in Q6 by exact Hlf.
  injection Q3 as Q3. injection Q6 as Q6.
  split.
  - assert (HS : has_side m f false eL fL oL) by (unfold has_side, rd2; rewrite E1; repeat split; reflexivity).
    destruct (face_of_side f false eL fL oL HS) as (_ & -> & -> & ->).
    assert (HrL : (0 <= rL < n)%Z) by eauto. destruct (LE eL rL OL) as (le & Re).
    destruct (EV1 rL HrL) as (_ & EB). destruct (before_traces rL _ _ _ HrL EB) as (_ & TB).
    destruct (ss_sizes _ _ _ _ _ _ _ _ _ _ _ SS rL HrL) as (_ & _ & _ & _ & _ & _ & S7' & _). destruct (H4 rL HrL) as (_ & LN' & _).
    unfold face_blocks in Q2. cbn [fs_L] in Q2. rewrite S7', blocks_rd in Q2 by (apply rd_in_range in Q1; lia). injection Q2 as Q2.
    rewrite Q3, <- Q2. rewrite (TB a iq false le fL oL eL f k Q1 Hiq HS Re Hk). unfold face_trace, dg_trace.
    apply rsum_ext. intros j Hj. f_equal. now apply HU.
  - assert (HS : has_side m f true eR fR oR) by (unfold has_side, rd2; rewrite E1; repeat split; reflexivity).
    destruct (face_of_side f true eR fR oR HS) as (_ & -> & -> & ->).
    assert (HrR : (0 <= rR < n)%Z) by eauto. destruct (LE eR rR OR) as (le & Re).
    destruct (EV1 rR HrR) as (_ & EB). destruct (before_traces rR _ _ _ HrR EB) as (_ & TB).
    destruct (ss_sizes _ _ _ _ _ _ _ _ _ _ _ SS rR HrR) as (_ & _ & _ & _ & _ & _ & S7' & _). destruct (H4 rR HrR) as (_ & LN' & _).
    unfold face_blocks in Q5. cbn [fs_R] in Q5. rewrite S7', blocks_rd in Q5 by (apply rd_in_range in Q4; lia). injection Q5 as Q5.
    rewrite Q6, <- Q5. rewrite (TB b iq true le fR oR eR f k Q4 Hiq HS Re Hk). unfold face_trace, dg_trace.
    apply rsum_ext. intros j Hj. f_equal. now apply HU.
Qed.

(** The per-element flux buffer. *)
Lemma flux_buffer r : (0 <= r < n)%Z -> exists rs1,
  element_residuals (D r) (Uc r) (rs0 r) = Ok rs1 /\
  rs2 r = face_flux_integral (d_order (D r) 3) (NF * nqf) nb (dim + 2)
        (flat_face_basis NF nqf nb (d_face_basis (D r))) (v_Fe (v2 r)) rs1 /\
  (forall f sd iq le e k, (0 <= f < gm_nIF m)%Z -> side_elem m f sd = e -> rd (pm_l2g_elem (pm r)) le = Ok e -> (0 <= iq < nqf)%Z -> (0 <= k < dim + 2)%Z ->
     v_Fe (v2 r) le (side_face m f sd * nqf + side_point S m f sd iq)%Z k = side_sign sd * (dg_flux S m c f iq k * sc_fwts S iq)) /\
  (forall le pos k, (forall lf iq sd, ~ slot_of s m pm nqf r lf iq sd le pos) -> v_Fe (v2 r) le pos k = 0).
Proof.
  intros Hr. pose proof EV as (rs1 & v1 & X & EV1 & EX & EV2). exists (rs1 r).
  destruct (ss_sizes _ _ _ _ _ _ _ _ _ _ _ SS r Hr) as (S1 & S2 & S3 & S4 & S5 & S6 & S7 & S8).
  pose proof (ss_lookup _ _ _ _ _ _ _ _ _ _ _ SS r Hr) as LK. rewrite S7, S8 in LK.
  destruct (ss_orders _ _ _ _ _ _ _ _ _ _ _ SS r Hr) as [O1 O2].
  destruct (ss_phys _ _ _ _ _ _ _ _ _ _ _ SS r Hr) as (P1 & P2 & P3).
  pose proof run_dim as Hd. assert (Hd2 : (2 <= dim)%Z) by (destruct Hd; lia).
  destruct (EV1 r Hr) as [E1 E2]. destruct (EV2 r Hr) as (_ & _ & E3). split; [exact E1|].
  destruct (before_traces r _ _ _ Hr E2) as (FE01 & _).
  assert (NOR : forall lf iq, (0 <= lf < pm_num_ifaces_part (pm r))%Z -> (0 <= iq < nqf)%Z ->
     vdot dim (d_normals (D r) lf iq) (d_normals (D r) lf iq) <> 0).
  { intros lf iq Hlf Hiq. destruct (local_faces zero iter n m ep pm WF PT r lf Hr Hlf) as [f Rf].
    destruct (rs_face _ _ _ _ _ RS r lf f iq Hr Rf Hiq) as (N1 & N2). rewrite (vdot_ext2 dim _ (sc_normal S f iq)); [exact N1|exact N2]. }
  unfold face_residuals_after in E3. rewrite S1, S2, S3, S4, S5, S6, S7, S8, P1, P2, P3 in E3. fold s in E3. fold dim NF nqf nb in E3.
  destruct (face_fluxes_ok (sc_flux S) dim (sc_gamma S) (UL r) (UR r) (d_normals (D r)) (sc_fwts S) (d_garbage (D r)) (d_garbage (D r))
     (d_porder (D r) 2 (pm_num_ifaces_part (pm r)) nqf) (pm_num_ifaces_part (pm r)) nqf (v_Fq (v1 r)) Hd Hg (O2 _ _ _))
     as (Fq & EF & HF & _).
  { intros lf iq Hlf Hiq. destruct (ADM r lf iq Hr Hlf Hiq). split; [easy|]. split; [easy|]. now apply NOR. }
  rewrite EF in E3. cbn [bind] in E3.
  destruct (C23_face_flux_slots R zero iter n m ep pm s nqf WF PT HV HD HP r Hr) as (qL & qR & LK' & _ & _ & G).
  fold s nqf in LK. rewrite LK in LK'. injection LK' as EqL EqR.
  destruct (G (dim + 2)%Z (d_porder (D r) 3 (pm_num_ifaces_part (pm r)) nqf) ltac:(lia) (O2 _ _ _)) as [G1 _].
  destruct (G1 Fq (v_Fe (v1 r))) as (Fe & EE & T1 & T2). rewrite <- EqL, <- EqR in EE. fold NF in EE.
  rewrite EE in E3. cbn [bind] in E3. injection E3 as Ev Er. rewrite <- Ev, <- Er. cbn [v_Fe].
  split; [reflexivity|]. split.
  - intros f sd iq le e k Hf Es Re Hiq Hk.
    pose proof (side_has f sd Hf) as HS. rewrite Es in HS. set (o := face_entry m f (if sd then 5 else 2)%Z) in HS.
    destruct (C04_interior_faces R zero iter n m ep pm WF PT) as [HIF H4].
    destruct (C01_element_ownership R zero iter n m ep pm WF PT) as (_ & HOW & _ & _).
    assert (OW : owned_by ep e r) by (apply HOW; [exact Hr|now apply rd_In in Re]).
    assert (IN : In f (pm_l2g_iface (pm r))).
    { apply HIF; [exact Hr|]. exists e. split; [|exact OW]. destruct HS as (HS & _). unfold left_of, right_of. destruct sd; [right|left]; exact HS. }
    destruct (C02_id_lookups_inverse R zero iter n m ep pm WF PT r Hr (pm_l2g_iface (pm r))) as (_ & L2 & _); auto.
    specialize (L2 f IN). set (lf := search_for_local_ID f (pm_l2g_iface (pm r))) in *.
    assert (Hlf : (0 <= lf < pm_num_ifaces_part (pm r))%Z) by (destruct (H4 r Hr) as (_ & <- & _); now apply rd_in_range in L2).
    rewrite (T1 lf iq sd le _ k); [| |exact Hk].
    + f_equal. rewrite HF by assumption. f_equal.
      destruct (rs_face _ _ _ _ _ RS r lf f iq Hr L2 Hiq) as (_ & N2). unfold dg_flux. fold s. fold dim.
      rewrite (numflux_ext _ _ _ _ _ _ (sc_normal S f iq) k N2 Hk).
      apply numflux_state; [exact Hd| | |exact Hk]; intros j Hj; now apply (exchanged_traces r lf f iq j Hr L2 Hiq Hj).
    + split; [exact Hiq|]. exists f, e, (side_face m f sd), o. split; [exact L2|]. split; [exact HS|]. split; [exact Re|]. reflexivity.
  - intros le pos k Hn. rewrite T2 by exact Hn. rewrite FE01. now apply BZ.
Qed.

Lemma buffer_kept : boundary_zero s m pm n nqf v2.
Proof. intros r le pos k Hr HN. destruct (flux_buffer r Hr) as (rs1 & _ & _ & _ & T). now apply T. Qed.

(** Sum over the points of all faces of an element, rearranged by interior faces. *)
Lemma face_points_sum r le e i k : (0 <= r < n)%Z -> rd (pm_l2g_elem (pm r)) le = Ok e -> (0 <= i < nb)%Z -> (0 <= k < dim + 2)%Z ->
  rsum (NF * nqf) (fun p => flat_face_basis NF nqf nb (d_face_basis (D r)) p i * v_Fe (v2 r) le p k) =
  rsum (gm_nIF m) (fun f => dg_side S m c f false e i k + dg_side S m c f true e i k).
Proof.
  intros Hr Re Hi Hk. destruct (flux_buffer r Hr) as (rs1 & _ & _ & T1 & T2).
  assert (HNF : (0 < NF)%Z) by (unfold NF; destruct s; cbn; lia).
  set (h := fun p => flat_face_basis NF nqf nb (d_face_basis (D r)) p i * v_Fe (v2 r) le p k).
  set (ts := filter (fun t : Z * Z * bool => let '(f, iq, sd) := t in (side_elem m f sd =? e)%Z)
       (list_prod (list_prod (zseq (gm_nIF m)) (zseq nqf)) [false; true])).
  assert (InT : forall f iq sd, In (f, iq, sd) ts <-> (0 <= f < gm_nIF m)%Z /\ (0 <= iq < nqf)%Z /\ side_elem m f sd = e).
  { intros f iq sd. unfold ts. rewrite filter_In, !in_prod_iff, !In_zseq, Z.eqb_eq. cbn [In]. destruct sd; intuition. }
  set (pos := fun t : Z * Z * bool => let '(f, iq, sd) := t in (side_face m f sd * nqf + side_point S m f sd iq)%Z).
  assert (PR : forall f iq sd, In (f, iq, sd) ts -> has_side m f sd e (side_face m f sd) (face_entry m f (if sd then 5 else 2)%Z) /\
     (0 <= side_face m f sd < NF)%Z /\ (0 <= side_point S m f sd iq < nqf)%Z /\
     forall iq', (0 <= iq' < nqf)%Z -> side_point S m f sd iq = side_point S m f sd iq' -> iq = iq').
  { intros f iq sd HI. apply InT in HI. destruct HI as (Hf & Hiq & Es). pose proof (side_has f sd Hf) as HS. rewrite Es in HS.
    split; [exact HS|]. pose proof (side_nonneg iter n m ep WF _ _ _ _ _ HS) as (K0 & O0 & _). destruct (HV _ _ _ _ _ HS) as [K1 O1'].
    destruct (order_perm s nqf _ (fun _ => 0%Z) HP (conj O0 O1')) as [OP OI]. split; [split; assumption|].
    split; [exact (OP iq Hiq)|]. intros iq' Hiq' EQ. exact (OI iq iq' Hiq Hiq' EQ). }
  rewrite (rsum_gsum _ h), (gsum_support Z.eq_dec _ (map pos ts)).
  - rewrite gsum_map. unfold ts. rewrite gsum_filter, !gsum_list_prod.
    rewrite <- rsum_gsum. apply rsum_ext. intros f Hf.
    transitivity (rsum nqf (fun iq => (if (side_elem m f false =? e)%Z then h (pos (f, iq, false)) else 0) + (if (side_elem m f true =? e)%Z then h (pos (f, iq, true)) else 0))).
    { rewrite rsum_gsum. apply gsum_ext. intros iq _. unfold gsum. cbn [map fold_right]. ring. }
    rewrite rsum_plus. 
    assert (HT : forall sd, rsum nqf (fun iq => if (side_elem m f sd =? e)%Z then h (pos (f, iq, sd)) else 0) = dg_side S m c f sd e i k).
    { intros sd. unfold dg_side. destruct (Z.eqb_spec (side_elem m f sd) e) as [Es|Es]; [|now apply rsum_zero].
      rewrite <- rsum_scal. apply rsum_ext. intros iq Hiq.
      assert (HI : In (f, iq, sd) ts) by (apply InT; auto). destruct (PR f iq sd HI) as (HS & B1 & B2 & _).
      unfold h. cbn [pos]. rewrite (T1 f sd iq le e k) by assumption.
      rewrite flat_face_basis_entry by nia.
      replace ((side_face m f sd * nqf + side_point S m f sd iq) / nqf)%Z with (side_face m f sd) by (apply Z.div_unique with (side_point S m f sd iq); lia).
      replace ((side_face m f sd * nqf + side_point S m f sd iq) mod nqf)%Z with (side_point S m f sd iq) by (apply Z.mod_unique with (side_face m f sd); lia).
      rewrite (ss_face _ _ _ _ _ _ _ _ _ _ _ SS) by assumption. ring. }
    rewrite !HT. reflexivity.
  - apply NoDup_zseq.
  - assert (X : forall l, NoDup l -> (forall x y, In x l -> In y l -> pos x = pos y -> x = y) -> NoDup (map pos l)).
    { induction l as [|x l IH]; intros N HI; cbn; constructor; inversion_clear N.
      - intros C. apply in_map_iff in C. destruct C as (y & E & Hy). apply HI in E; [subst; easy|now right|now left].
      - apply IH; auto. intros a b Ha Hb. apply HI; now right. }
    apply X.
    + apply NoDup_filter. apply NoDup_list_prod; [apply NoDup_list_prod; apply NoDup_zseq|]. repeat constructor; cbn; intuition discriminate.
    + intros [[f iq] sd] [[f' iq'] sd'] Hx Hy E. destruct (PR f iq sd Hx) as (HS & B1 & B2 & OI). destruct (PR f' iq' sd' Hy) as (HS' & B1' & B2' & _).
      cbn [pos] in E. assert (EF : side_face m f sd = side_face m f' sd') by nia. assert (EP : side_point S m f sd iq = side_point S m f' sd' iq') by lia.
      rewrite EF in HS. destruct (HD _ _ _ _ _ _ _ _ HS HS') as (-> & ->). f_equal. f_equal. apply OI; [apply InT in Hy; tauto|exact EP].
  - intros p Hp. apply in_map_iff in Hp. destruct Hp as ([[f iq] sd] & <- & Ht). destruct (PR f iq sd Ht) as (HS & B1 & B2 & _).
    apply In_zseq. cbn [pos]. nia.
  - intros p Hp Hn. unfold h. rewrite T2; [ring|]. intros lf iq sd (Hiq & f & e' & kf & o & Rf & HS & Re' & EP).
    rewrite Re in Re'. injection Re' as <-. apply Hn. apply in_map_iff. destruct (face_of_side f sd e kf o HS) as (Hf & Es & Ek & Ep).
    exists (f, iq, sd). split; [cbn [pos]; rewrite Ek, Ep; symmetry; exact EP|]. apply InT. auto.
Qed.

Lemma residual_formula r le e i k : (0 <= r < n)%Z -> rd (pm_l2g_elem (pm r)) le = Ok e -> (0 <= i < nb)%Z -> (0 <= k < dim + 2)%Z ->
  rs2 r le i k = dg_residual S m c e i k.
Proof.
  intros Hr Re Hi Hk. destruct (flux_buffer r Hr) as (rs1 & E1 & E2 & _).
  destruct (ss_sizes _ _ _ _ _ _ _ _ _ _ _ SS r Hr) as (S1 & S2 & S3 & S4 & S5 & S6 & S7 & S8).
  pose proof (ss_orders _ _ _ _ _ _ _ _ _ _ _ SS r Hr) as OO. pose proof OO as [O1 O2].
  destruct (ss_phys _ _ _ _ _ _ _ _ _ _ _ SS r Hr) as (P1 & _ & _).
  pose proof run_dim as Hd.
  destruct (C01_element_ownership R zero iter n m ep pm WF PT) as (_ & _ & H1 & _).
  assert (Hle : (0 <= le < pm_num_elems_part (pm r))%Z) by (destruct (H1 r Hr) as [_ ->]; now apply rd_in_range in Re).
  rewrite E2, (face_flux_integral_entry _ (pm_num_elems_part (pm r))) by (rewrite <- S3; apply O1).
  rewrite !(proj2 (inb_true _ _)) by assumption. cbn [andb]. rewrite (face_points_sum r le e i k) by assumption.
  unfold dg_residual. f_equal.
  fold s in S2. fold dim in S2. fold nb in S4.
  destruct (C57_element_term (D r) (Uc r) (rs0 r)) as (x & EX & FX & _).
  - rewrite S2. exact Hd.
  - exact OO.
  - apply (element_residuals_density (D r) (Uc r) (rs0 r) rs1); [rewrite S2; exact Hd|exact OO|rewrite S4; lia|exact E1].
  - rewrite E1 in EX. injection EX as <-. rewrite FX by (unfold in_res; rewrite S2, S3, S4; auto).
    destruct (rs_rule _ _ _ _ _ RS r Hr) as (NQ & RU). rewrite NQ, S2, P1. unfold dg_volume. fold s. fold dim. apply rsum_ext. intros q Hq.
    destruct (RU q Hq) as (-> & RU2). destruct (rs_elem _ _ _ _ _ RS r le e q Hr Re Hq) as (-> & IJ). f_equal.
    apply rsum_ext. intros j Hj. f_equal.
    + apply euler_flux_extU; [exact Hd| |exact Hk]. intros a Ha. unfold vol_state, dg_state. rewrite S4. apply rsum_ext. intros b Hb.
      destruct (RU2 b Hb) as (-> & _). f_equal. now apply HU.
    + unfold phys_grad. rewrite S2. apply rsum_ext. intros d Hdd. destruct (RU2 i Hi) as (_ & ->); [|exact Hdd]. f_equal. now apply IJ.
Qed.
End Run.

(** ** Steps *)
From Verif Require Import StepModel StepProof PropStep PropIntegral.

Lemma run_all_ext {W} n (ev : (Z -> arr3) -> W -> (Z -> arr3) -> W -> Prop) P P' w out w' :
  (forall r, (0 <= r < n)%Z -> P r = P' r) -> run_all n ev P w out w' -> run_all n ev P' w out w'.
Proof.
  intros H R. destruct R as [P w out tm HD|P w t U k rs w1 out w2 HA HE HR].
  - apply ra_done with (tm := tm). intros r Hr. rewrite <- H by exact Hr. now apply HD.
  - apply ra_ask with (t := t) (U := U) (k := k) (rs := rs) (w1 := w1); [|exact HE|exact HR]. intros r Hr. rewrite <- H by exact Hr. now apply HA.
Qed.

Lemma run_ask {W} n (ev : (Z -> arr3) -> W -> (Z -> arr3) -> W -> Prop) t U k w out w' : (0 < n)%Z ->
  run_all n ev (fun r => Ask (t r) (U r) (k r)) w out w' ->
  exists U' rs w1, (forall r, (0 <= r < n)%Z -> U' r = U r) /\ ev U' w rs w1 /\ run_all n ev (fun r => k r (rs r)) w1 out w'.
Proof.
  intros Hn R. inversion R as [P w0 out0 tm HD|P w0 t' U' k' rs w1 out0 w2 HA HE HR]; subst.
  - specialize (HD 0%Z ltac:(lia)). discriminate HD.
  - exists U', rs, w1. split; [|split; [exact HE|]].
    + intros r Hr. specialize (HA r Hr). injection HA as _ HA _. now symmetry.
    + apply (run_all_ext n ev (fun r => k' r (rs r))); [|exact HR]. intros r Hr. specialize (HA r Hr). injection HA as _ _ ->. reflexivity.
Qed.

Lemma run_end {W} n (ev : (Z -> arr3) -> W -> (Z -> arr3) -> W -> Prop) U t w out w' : (0 < n)%Z ->
  run_all n ev (fun r => Done (U r) (t r)) w out w' -> w' = w /\ forall r, (0 <= r < n)%Z -> out r = U r.
Proof.
  intros Hn R. inversion R as [P w0 out0 tm HD|P w0 t' U' k' rs w1 out0 w2 HA HE HR]; subst.
  - split; [reflexivity|]. intros r Hr. specialize (HD r Hr). injection HD as HD _. now symmetry.
  - specialize (HA 0%Z ltac:(lia)). discriminate HA.
Qed.

(** The program of one step. *)
Definition step_program (st : stepper) (l : layout) (x : ext3) (order : nat -> list Z) (dt : R) (iMM : arr3) (w : rkwork) (U : arr3) (t : R) : prog :=
  match st with ForwardEuler => FE_step l x order dt iMM U t | RungeKutta4 => RK4_step l x order dt iMM w U t end.

(** Like [stepping] (C65), with the steppers and step sizes in a list: the ranks
    take the listed steps, each with any memory layout, loop order, previous
    content of the work arrays. *)
Inductive marching {A} s m ep (pm : Z -> pmesh A) n nqf nb gamma D (iMM : Z -> arr3) :
  list (stepper * R) -> (Z -> arr3) -> (Z -> rviews) * (Z -> arr3) -> (Z -> arr3) -> (Z -> rviews) * (Z -> arr3) -> Prop :=
| marching_0 U w : marching s m ep pm n nqf nb gamma D iMM [] U w U w
| marching_S st dt steps l order t wk U w U1 w1 U2 w2 :
    (forall r, (0 <= r < n)%Z -> elem_orders (shape_of s pm nb r) (order r)) ->
    run_all n (evaluation s m ep pm n nqf gamma D)
      (fun r => step_program st l (shape_of s pm nb r) (order r) dt (iMM r) (wk r) (U r) t) w U1 w1 ->
    marching s m ep pm n nqf nb gamma D iMM steps U1 w1 U2 w2 ->
    marching s m ep pm n nqf nb gamma D iMM ((st, dt) :: steps) U w U2 w2.

Section March.
Context (zero : R) (iter : Z -> list Z -> list Z) (n : Z) (m : gmesh R) (ep : list Z) (pm : Z -> pmesh R).
Context (WF : run_wf iter n m ep) (PT : partitioned zero iter n m ep pm).
Context (S : scheme) (D : Z -> rdata) (RS : runs_scheme S m pm n D).
Let s := sc_shape S.
Let dim := space_dim s.
Let nqf := sc_nqf S.
Let nb := sc_nb S.
Context (HV : faces_valid s m) (HD : faces_distinct m) (HP : face_points s nqf) (Hg : 1 < sc_gamma S).
Context (iMM : Z -> arr3) (iM : arr3).
Context (HM : forall r le e i b, (0 <= r < n)%Z -> rd (pm_l2g_elem (pm r)) le = Ok e -> (0 <= i < nb)%Z -> (0 <= b < nb)%Z -> iMM r le i b = iM e i b).
Context (FT : forall r, (0 <= r < n)%Z -> fits (shape_of s pm nb r)).

Lemma answer c U w rs w1 : holds pm n nb (dim + 2) c U -> boundary_zero s m pm n nqf (fst w) ->
  evaluation s m ep pm n nqf (sc_gamma S) D U w rs w1 ->
  boundary_zero s m pm n nqf (fst w1) /\
  forall r le e i k, (0 <= r < n)%Z -> rd (pm_l2g_elem (pm r)) le = Ok e -> (0 <= i < nb)%Z -> (0 <= k < dim + 2)%Z ->
    rsum nb (fun b => iMM r le i b * rs r le b k) = dg_rate S m iM c e i k.
Proof.
  intros HU BZ (UL & UR & E & _ & AD).
  split; [exact (buffer_kept zero iter n m ep pm WF PT S D RS HV HD HP Hg c U (snd w) (fst w) UL UR (fst w1) rs HU BZ E AD)|].
  intros r le e i k Hr Re Hi Hk. unfold dg_rate. apply rsum_ext. intros b Hb. rewrite (HM r le e i b) by assumption. f_equal.
  exact (residual_formula zero iter n m ep pm WF PT S D RS HV HD HP Hg c U (snd w) (fst w) UL UR (fst w1) rs HU BZ E AD r le e b k Hr Re Hb Hk).
Qed.

Lemma local_within r le e j k : (0 <= r < n)%Z -> rd (pm_l2g_elem (pm r)) le = Ok e -> (0 <= j < nb)%Z -> (0 <= k < dim + 2)%Z ->
  within3 (shape_of s pm nb r) le j k = true.
Proof.
  intros Hr Re Hj Hk. apply within3_intro; [|assumption|assumption].
  destruct (C01_element_ownership R zero iter n m ep pm WF PT) as (_ & _ & H1 & _). destruct (H1 r Hr) as [_ ->]. now apply rd_in_range in Re.
Qed.

Lemma one_step st l order dt wk c U t w U1 w1 : holds pm n nb (dim + 2) c U -> boundary_zero s m pm n nqf (fst w) ->
  (forall r, (0 <= r < n)%Z -> elem_orders (shape_of s pm nb r) (order r)) ->
  run_all n (evaluation s m ep pm n nqf (sc_gamma S) D)
      (fun r => step_program st l (shape_of s pm nb r) (order r) dt (iMM r) (wk r) (U r) t) w U1 w1 ->
  (0 < n)%Z ->
  holds pm n nb (dim + 2) (dg_step S m iM st dt c) U1 /\ boundary_zero s m pm n nqf (fst w1).
Proof.
  intros HU BZ HO RA Hn.
  assert (HX : forall c U U', (forall r, (0 <= r < n)%Z -> U' r = U r) -> holds pm n nb (dim + 2) c U -> holds pm n nb (dim + 2) c U').
  { intros c0 U0 U' HE HH r le e j k Hr Re Hj Hk. rewrite HE by exact Hr. now apply (HH r le e). }
  assert (SH : forall r, shape_of s pm nb r = (pm_num_elems_part (pm r), nb, (dim + 2)%Z)) by reflexivity.
  assert (ENT : forall r, (0 <= r < n)%Z -> num_entries (shape_of s pm nb r) = entries (shape_of s pm nb r) /\ extents_ok (shape_of s pm nb r)).
  { intros r Hr. now apply fits_num, FT. }
  destruct st; cbn [step_program] in RA.
  - unfold FE_step in RA. cbv zeta in RA.
    apply (run_ask n _ _ U _ w U1 w1 Hn) in RA. destruct RA as (Ua & rs & wa & EU & E & RA).
    destruct (answer c Ua w rs wa (HX c U Ua EU HU) BZ E) as (BZ1 & A1).
    apply (run_end n _ (fun r => axpy_data l (shape_of s pm nb r) (num_entries (shape_of s pm nb r)) 1
       (mult_inv_mass_matrix (order r 0%nat) (nbas (shape_of s pm nb r)) (nst (shape_of s pm nb r)) dt (iMM r) (rs r) zero3) (U r)) _ _ _ _ Hn) in RA.
    destruct RA as (-> & EO). split; [|exact BZ1].
    intros r le e j k Hr Re Hj Hk. rewrite EO by exact Hr. destruct (ENT r Hr) as (EN & EX). rewrite EN, axpy_data_eq by exact EX.
    pose proof (local_within r le e j k Hr Re Hj Hk) as W. rewrite W. rewrite SH in *. cbn [nbas nst].
    rewrite (mult_inv_mass_box _ (pm_num_elems_part (pm r))) by (try exact W; exact (HO r Hr 0%nat)).
    rewrite (A1 r le e j k) by assumption. rewrite (HU r le e) by assumption. cbn [dg_step]. unfold shift. ring.
  - unfold RK4_step in RA. cbv zeta in RA.
    apply (run_ask n _ _ U _ w U1 w1 Hn) in RA. destruct RA as (Ua & ra & wa & EUa & Ea & RA).
    destruct (answer c Ua w ra wa (HX c U Ua EUa HU) BZ Ea) as (BZa & Aa).
    set (H0 := fun r => copy_data l (shape_of s pm nb r) (U r) (w_Uhold (wk r))).
    set (d1 := fun r => mult_inv_mass_matrix (order r 0%nat) (nbas (shape_of s pm nb r)) (nst (shape_of s pm nb r)) dt (iMM r) (ra r) (w_dU1 (wk r))).
    set (V1 := fun r => update_data l (shape_of s pm nb r) (num_entries (shape_of s pm nb r)) 0.5 (d1 r) (H0 r) (U r)).
    apply (run_ask n _ _ V1 _ wa U1 w1 Hn) in RA. destruct RA as (Ub & rb & wb & EUb & Eb & RA).
    set (d2 := fun r => mult_inv_mass_matrix (order r 1%nat) (nbas (shape_of s pm nb r)) (nst (shape_of s pm nb r)) dt (iMM r) (rb r) (w_dU2 (wk r))).
    set (V2 := fun r => update_data l (shape_of s pm nb r) (num_entries (shape_of s pm nb r)) 0.5 (d2 r) (H0 r) (V1 r)).
    apply (run_ask n _ _ V2 _ wb U1 w1 Hn) in RA. destruct RA as (Uc & rc & wc & EUc & Ec & RA).
    set (d3 := fun r => mult_inv_mass_matrix (order r 2%nat) (nbas (shape_of s pm nb r)) (nst (shape_of s pm nb r)) dt (iMM r) (rc r) (w_dU3 (wk r))).
    set (V3 := fun r => update_data l (shape_of s pm nb r) (num_entries (shape_of s pm nb r)) 1.0 (d3 r) (H0 r) (V2 r)).
    apply (run_ask n _ _ V3 _ wc U1 w1 Hn) in RA. destruct RA as (Ud & rd' & wd & EUd & Ed & RA).
    set (d4 := fun r => mult_inv_mass_matrix (order r 3%nat) (nbas (shape_of s pm nb r)) (nst (shape_of s pm nb r)) dt (iMM r) (rd' r) (w_dU4 (wk r))).
    set (ax := fun r (a : R) (A B : arr3) => axpy_data l (shape_of s pm nb r) (num_entries (shape_of s pm nb r)) a A B).
    apply (run_end n _ (fun r => copy_data l (shape_of s pm nb r)
       (ax r (1.0 / 6.0) (ax r 1.0 (d1 r) (ax r 2.0 (d2 r) (ax r 2.0 (d3 r) (d4 r)))) (H0 r)) (V3 r)) _ _ _ _ Hn) in RA.
    destruct RA as (-> & EO).
    set (k1 := dg_rate S m iM c). set (c2 := shift c (dt / 2) k1). set (k2 := dg_rate S m iM c2). set (c3 := shift c (dt / 2) k2).
    set (k3 := dg_rate S m iM c3). set (c4 := shift c dt k3). set (k4 := dg_rate S m iM c4).
    assert (BOX : forall o a rr dU r le e j k, (0 <= r < n)%Z -> rd (pm_l2g_elem (pm r)) le = Ok e -> (0 <= j < nb)%Z -> (0 <= k < dim + 2)%Z ->
       rsum nb (fun b => iMM r le j b * rr r le b k) = a ->
       mult_inv_mass_matrix (order r o) (nbas (shape_of s pm nb r)) (nst (shape_of s pm nb r)) dt (iMM r) (rr r) dU le j k = dt * a).
    { intros o a rr dU r le e j k Hr Re Hj Hk Ha. pose proof (local_within r le e j k Hr Re Hj Hk) as W. rewrite SH in *. cbn [nbas nst].
      rewrite (mult_inv_mass_box _ (pm_num_elems_part (pm r))) by (try exact W; exact (HO r Hr o)). now rewrite Ha. }
    assert (HH : forall r le e j k, (0 <= r < n)%Z -> rd (pm_l2g_elem (pm r)) le = Ok e -> (0 <= j < nb)%Z -> (0 <= k < dim + 2)%Z -> H0 r le j k = c e j k).
    { intros r le e j k Hr Re Hj Hk. unfold H0. destruct (ENT r Hr) as (EN & EX). rewrite copy_data_eq by exact EX.
      rewrite (local_within r le e j k Hr Re Hj Hk). now apply (HU r le e). }
    assert (HU1 : holds pm n nb (dim + 2) c2 V1).
    { intros r le e j k Hr Re Hj Hk. unfold V1. destruct (ENT r Hr) as (EN & EX). rewrite EN, update_data_eq by exact EX.
      rewrite (local_within r le e j k Hr Re Hj Hk), (HH r le e) by assumption. unfold d1. rewrite (BOX 0%nat (k1 e j k) ra _ r le e) by (auto; now apply Aa). unfold c2, shift. lra. }
    destruct (answer c2 Ub wa rb wb (HX c2 V1 Ub EUb HU1) BZa Eb) as (BZb & Ab).
    assert (HU2 : holds pm n nb (dim + 2) c3 V2).
    { intros r le e j k Hr Re Hj Hk. unfold V2. destruct (ENT r Hr) as (EN & EX). rewrite EN, update_data_eq by exact EX.
      rewrite (local_within r le e j k Hr Re Hj Hk), (HH r le e) by assumption. unfold d2. rewrite (BOX 1%nat (k2 e j k) rb _ r le e) by (auto; now apply Ab). unfold c3, shift. lra. }
    destruct (answer c3 Uc wb rc wc (HX c3 V2 Uc EUc HU2) BZb Ec) as (BZc & Ac).
    assert (HU3 : holds pm n nb (dim + 2) c4 V3).
    { intros r le e j k Hr Re Hj Hk. unfold V3. destruct (ENT r Hr) as (EN & EX). rewrite EN, update_data_eq by exact EX.
      rewrite (local_within r le e j k Hr Re Hj Hk), (HH r le e) by assumption. unfold d3. rewrite (BOX 2%nat (k3 e j k) rc _ r le e) by (auto; now apply Ac). unfold c4, shift. lra. }
    destruct (answer c4 Ud wc rd' wd (HX c4 V3 Ud EUd HU3) BZc Ed) as (BZd & Ad).
    split; [|exact BZd].
    intros r le e j k Hr Re Hj Hk. rewrite EO by exact Hr. destruct (ENT r Hr) as (EN & EX). rewrite copy_data_eq by exact EX.
    pose proof (local_within r le e j k Hr Re Hj Hk) as W. rewrite W. unfold ax. rewrite EN, !axpy_data_eq by exact EX. rewrite W, (HH r le e) by assumption.
    unfold d1, d2, d3, d4.
    rewrite (BOX 0%nat (k1 e j k) ra _ r le e) by (auto; now apply Aa). rewrite (BOX 1%nat (k2 e j k) rb _ r le e) by (auto; now apply Ab).
    rewrite (BOX 2%nat (k3 e j k) rc _ r le e) by (auto; now apply Ac). rewrite (BOX 3%nat (k4 e j k) rd' _ r le e) by (auto; now apply Ad).
    change (dg_step S m iM RungeKutta4 dt c e j k) with (c e j k + dt / 6 * (k1 e j k + 2 * k2 e j k + 2 * k3 e j k + k4 e j k)). lra.
Qed.

Lemma marches steps U w U' w' : marching s m ep pm n nqf nb (sc_gamma S) D iMM steps U w U' w' ->
  forall c, holds pm n nb (dim + 2) c U -> boundary_zero s m pm n nqf (fst w) ->
  holds pm n nb (dim + 2) (dg_march S m iM steps c) U' /\ boundary_zero s m pm n nqf (fst w').
Proof.
  intros M. induction M as [U w|st dt steps l order t wk U w U1 w1 U2 w2 HO RA MM IH]; intros c HU BZ; [auto|].
  destruct (Z.le_gt_cases n 0) as [Hn|Hn].
  { split; [intros r le e j k Hr; lia|intros r le pos k Hr; lia]. }
  destruct (one_step st l order dt wk c U t w U1 w1 HU BZ HO RA Hn) as (H1 & B1).
  exact (IH _ H1 B1).
Qed.
End March.
