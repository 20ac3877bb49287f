(** ArithTurn.v -- binary64: exchanging the two sides of a face changes the sign
    of the Lax-Friedrichs flux, and accumulation hides the signs of zeros. *)
From Coq Require Import ZArith Reals List Lia Lra Bool.
From Flocq Require Import Core BinarySingleNaN Plus_error.
From Verif Require Import Base RBase PhysModel SolverSpec LinAlgProof ArithModel ArithProof ArithRun ArithLibrary ArithDouble.
Import ListNotations.
Local Open Scope Z_scope.

Lemma dmult_1 x : dmult (dint 1) x = x.
Proof.
  assert (E1 : dint 1 = Bone) by (apply B2SF_inj; vm_compute; reflexivity).
  destruct x as [sx|sx| |sx mx ex Hx]; [destruct sx; apply B2SF_inj; vm_compute; reflexivity|destruct sx; apply B2SF_inj; vm_compute; reflexivity|apply B2SF_inj; vm_compute; reflexivity|].
  set (x := B754_finite sx mx ex Hx). pose proof (Bmult_correct 53 1024 prec64 emax64 mode_NE (dint 1) x) as H.
  rewrite E1 in *. rewrite Bone_correct, Rmult_1_l in H.
  rewrite round_generic in H; [|apply valid_rnd_N|apply generic_format_B2R].
  rewrite Rlt_bool_true in H by apply abs_B2R_lt_emax. rewrite is_finite_Bone, Bsign_Bone in H. destruct H as (H1 & H2 & H3).
  change (@Bmult 53 1024 prec64 emax64 mode_NE (@Bone 53 1024 prec64 emax64) x) with (dmult (@Bone 53 1024 prec64 emax64) x) in *.
  assert (F : is_finite (dmult (@Bone 53 1024 prec64 emax64) x) = true) by (rewrite H2; reflexivity).
  assert (NN : is_nan (dmult (@Bone 53 1024 prec64 emax64) x) = false) by (destruct (dmult _ x); reflexivity || discriminate).
  apply B2R_Bsign_inj; [exact F|reflexivity|exact H1|]. rewrite (H3 NN). now destruct (Bsign x).
Qed.
Lemma dint_minus1 : dint (-1) = dopp (dint 1).
Proof. apply B2SF_inj. vm_compute. reflexivity. Qed.
Lemma dmult_m1 x : dmult (dint (-1)) x = dopp x.
Proof. rewrite dint_minus1, dmult_opp_l, dmult_1. reflexivity. Qed.

Lemma ddiv_opp_l x y : ddiv (dopp x) y = dopp (ddiv x y).
Proof.
  unfold ddiv, dopp. destruct x as [sx|sx| |sx mx ex Hx], y as [sy|sy| |sy my ey Hy]; cbn [Bopp Bdiv]; try reflexivity;
    try (destruct sx, sy; reflexivity).
  apply B2SF_inj. rewrite B2SF_opp, !B2SF_SF2B. destruct (SpecFloat.SFdiv_core_binary 53 1024 (Zpos mx) ex (Zpos my) ey) as [[mz ez] lz].
  rewrite <- round_aux_opp. f_equal. now destruct sx, sy.
Qed.
Lemma dmult_eqz x x' y y' : eqz x x' -> eqz y y' -> eqz (dmult x y) (dmult x' y').
Proof.
  intros H H'. eapply eqz_trans; [apply dmult_eqz_r; exact H'|]. destruct H as [->|(s & s' & -> & ->)]; [now left|].
  unfold dmult. destruct y'; cbn [Bmult]; [right; eauto|now left|now left|right; eauto].
Qed.

(** ** NaN *)
Definition number (x : d64) : Prop := is_nan x = false.
Lemma dplus_number x y : number (dplus x y) -> number x /\ number y.
Proof. unfold number, dplus. destruct x, y; cbn; auto; discriminate. Qed.
Lemma dmult_number x y : number (dmult x y) -> number x /\ number y.
Proof. unfold number, dmult. destruct x, y; cbn; auto; discriminate. Qed.
Lemma dminus_number x y : number (dminus x y) -> number x /\ number y.
Proof. intros H. apply dplus_number in H. destruct H as [H1 H2]. split; [exact H1|]. unfold number in *. now destruct y. Qed.

(** Two numbers neither of which is less than the other. *)
Lemma not_less_eqz a b : number a -> number b -> dlt a b = false -> dlt b a = false -> eqz a b.
Proof.
  unfold number, dlt. intros Na Nb H1 H2.
  destruct (is_finite a) eqn:Fa; destruct (is_finite b) eqn:Fb.
  - rewrite Bltb_correct in H1, H2 by assumption.
    assert (E : B2R a = B2R b).
    { destruct (Rlt_bool_spec (B2R a) (B2R b)); [discriminate|]. destruct (Rlt_bool_spec (B2R b) (B2R a)); [discriminate|]. lra. }
    destruct a as [sa|sa| |sa ma ea Ha]; try discriminate; destruct b as [sb|sb| |sb mb eb Hb]; try discriminate.
    + right. eauto.
    + exfalso. cbn in E. symmetry in E. apply eq_0_F2R in E. destruct sb; discriminate.
    + exfalso. cbn in E. apply eq_0_F2R in E. destruct sa; discriminate.
    + left. apply B2R_inj; auto.
  - destruct b as [sb|sb| |sb mb eb Hb]; try discriminate. destruct a as [sa|sa| |sa ma ea Ha]; try discriminate; destruct sb; cbv in H1, H2; congruence.
  - destruct a as [sa|sa| |sa ma ea Ha]; try discriminate. destruct b as [sb|sb| |sb mb eb Hb]; try discriminate; destruct sa; cbv in H1, H2; congruence.
  - destruct a as [sa|sa| |sa ma ea Ha]; try discriminate. destruct b as [sb|sb| |sb mb eb Hb]; try discriminate.
    destruct sa, sb; cbv in H1, H2; try congruence; left; reflexivity.
Qed.
Lemma dlt_asym a b : dlt a b = true -> dlt b a = false.
Proof.
  unfold dlt. intros H. destruct (is_finite a) eqn:Fa; destruct (is_finite b) eqn:Fb.
  - rewrite Bltb_correct in * by assumption. destruct (Rlt_bool_spec (B2R a) (B2R b)); [|discriminate]. destruct (Rlt_bool_spec (B2R b) (B2R a)); [lra|reflexivity].
  - destruct b as [sb|sb| |sb mb eb Hb]; try discriminate; destruct a as [sa|sa| |sa ma ea Ha]; try discriminate; destruct sb; cbv in H |- *; congruence.
  - destruct a as [sa|sa| |sa ma ea Ha]; try discriminate; destruct b as [sb|sb| |sb mb eb Hb]; try discriminate; destruct sa; cbv in H |- *; congruence.
  - destruct a as [sa|sa| |sa ma ea Ha]; try discriminate; destruct b as [sb|sb| |sb mb eb Hb]; try discriminate; try destruct sa; try destruct sb; cbv in H |- *; congruence.
Qed.
(** The larger of two numbers, in either order. *)
Lemma larger_eqz a b : number a -> number b -> eqz (if dlt b a then a else b) (if dlt a b then b else a).
Proof.
  intros Na Nb. destruct (dlt a b) eqn:H1.
  - rewrite (dlt_asym _ _ H1). apply eqz_refl.
  - destruct (dlt b a) eqn:H2; [apply eqz_refl|]. apply eqz_sym. now apply not_less_eqz.
Qed.

(** ** The flux *)
Lemma opp_sum2 a0 a1 n0 n1 n0' n1' : eqz n0' (dopp n0) -> eqz n1' (dopp n1) ->
  eqz (dplus (dplus (dint 0) (dmult a0 n0')) (dmult a1 n1')) (dopp (dplus (dplus (dint 0) (dmult a0 n0)) (dmult a1 n1))).
Proof.
  intros H0 H1.
  assert (T0 : eqz (dmult a0 n0') (dopp (dmult a0 n0))) by (rewrite <- dmult_opp_r; now apply dmult_eqz_r).
  assert (T1 : eqz (dmult a1 n1') (dopp (dmult a1 n1))) by (rewrite <- dmult_opp_r; now apply dmult_eqz_r).
  assert (Z0 : eqz (dint 0) (dopp (dint 0))) by (right; exists false, true; split; reflexivity).
  eapply eqz_trans; [apply dplus_eqz; [apply dplus_eqz; [exact Z0|exact T0]|exact T1]|].
  eapply eqz_trans; [apply dplus_eqz; [apply dplus_opp|apply eqz_refl]|]. apply dplus_opp.
Qed.
Lemma opp_plus x y x' y' : eqz x' (dopp x) -> eqz y' (dopp y) -> eqz (dplus x' y') (dopp (dplus x y)).
Proof. intros H H'. eapply eqz_trans; [apply dplus_eqz; [exact H|exact H']|]. apply dplus_opp. Qed.
Lemma opp_minus x y x' y' : eqz x' (dopp x) -> eqz y' (dopp y) -> eqz (dminus x' y') (dopp (dminus x y)).
Proof. intros H H'. apply (opp_plus x (dopp y)); [exact H|]. now apply dopp_eqz in H'. Qed.
Lemma opp_mult a a' x x' : eqz a' a -> eqz x' (dopp x) -> eqz (dmult a' x') (dopp (dmult a x)).
Proof. intros H H'. rewrite <- dmult_opp_r. now apply dmult_eqz. Qed.
Lemma minus_swap x y : eqz (dminus x y) (dopp (dminus y x)).
Proof.
  unfold dminus. apply eqz_sym. eapply eqz_trans; [apply eqz_sym, dplus_opp|]. rewrite dopp_opp. fold (dopp y). rewrite dplus_comm. apply eqz_refl.
Qed.

Lemma lax_exchange g UL UR Nn Nn' F0 Q0 F0' Q0' : eqz (Nn' 0) (dopp (Nn 0)) -> eqz (Nn' 1) (dopp (Nn 1)) ->
  number (kwavespeed double 2 g UL) -> number (kwavespeed double 2 g UR) ->
  forall i, 0 <= i < 4 -> eqz (klaxfriedrichs double 2 g UR UL Nn' F0' Q0' i) (dopp (klaxfriedrichs double 2 g UL UR Nn F0 Q0 i)).
Proof.
  intros H0 H1 NL NR i Hi.
  assert (CU : forall U J J' d, 0 <= d < 2 -> kconv_flux double 2 g U J (i + d * 4) = kconv_flux double 2 g U J' (i + d * 4)).
  { intros U J J' d Hd. apply (kconv_agree double 2 g U U J J'); [now left|apply agree_refl|lia]. }
  unfold klaxfriedrichs. cbv zeta. rewrite !inb_in by exact Hi.
  assert (Z2 : forall {S} (b : Z -> S -> S) s, zloop 2 b s = b 1 (b 0 s)) by reflexivity.
  rewrite !Z2. cbn [fadd fmul fdiv fsub fsqrt f0 fhalf flt double]. change (2 + 2) with 4.
  assert (EM : dplus (dplus (dint 0) (dmult (Nn' 0) (Nn' 0))) (dmult (Nn' 1) (Nn' 1)) = dplus (dplus (dint 0) (dmult (Nn 0) (Nn 0))) (dmult (Nn 1) (Nn 1))).
  { rewrite (dsquare_eqz _ _ H0), (dsquare_eqz _ _ H1). rewrite !dmult_opp_l, !dmult_opp_r, !dopp_opp. reflexivity. }
  rewrite EM. set (nm := dsqrt _).
  rewrite !(CU UL Q0 (fun _ => dint 0)), !(CU UR (kconv_flux double 2 g UL Q0) (fun _ => dint 0)), !(CU UR Q0' (fun _ => dint 0)), !(CU UL (kconv_flux double 2 g UR Q0') (fun _ => dint 0)) by lia.
  set (fL := fun d => kconv_flux double 2 g UL (fun _ => dint 0) (i + d * 4)). set (fR := fun d => kconv_flux double 2 g UR (fun _ => dint 0) (i + d * 4)).
  change (kconv_flux double 2 g UL (fun _ => dint 0) (i + 0 * 4)) with (fL 0). change (kconv_flux double 2 g UL (fun _ => dint 0) (i + 1 * 4)) with (fL 1).
  change (kconv_flux double 2 g UR (fun _ => dint 0) (i + 0 * 4)) with (fR 0). change (kconv_flux double 2 g UR (fun _ => dint 0) (i + 1 * 4)) with (fR 1).
  set (aL := kwavespeed double 2 g UL) in *. set (aR := kwavespeed double 2 g UR) in *. clearbody fL fR aL aR nm.
  assert (D0 : eqz (ddiv (Nn' 0) nm) (dopp (ddiv (Nn 0) nm))) by (rewrite <- ddiv_opp_l; now apply ddiv_eqz_l).
  assert (D1 : eqz (ddiv (Nn' 1) nm) (dopp (ddiv (Nn 1) nm))) by (rewrite <- ddiv_opp_l; now apply ddiv_eqz_l).
  apply opp_mult; [apply eqz_refl|]. apply opp_minus.
  - apply opp_mult; [apply eqz_refl|]. rewrite dplus_comm. apply opp_plus; now apply opp_sum2.
  - apply opp_mult; [|apply minus_swap]. apply dmult_eqz; [apply eqz_refl|]. now apply larger_eqz.
Qed.
(** If the flux is a number so is the wave speed of the left state. *)
Lemma lax_number g UL UR Nn F0 Q0 i : 0 <= i < 4 -> number (klaxfriedrichs double 2 g UL UR Nn F0 Q0 i) -> number (kwavespeed double 2 g UL).
Proof.
  intros Hi. unfold klaxfriedrichs. cbv zeta. rewrite !inb_in by exact Hi. cbn [fadd fmul fdiv fsub fsqrt f0 fhalf flt double].
  intros H. apply dmult_number in H. destruct H as [_ H]. apply dminus_number in H. destruct H as [_ H]. apply dmult_number in H. destruct H as [H _].
  apply dmult_number in H. destruct H as [_ H]. unfold number in *. destruct (dlt _ _) eqn:E; [|exact H].
  destruct (kwavespeed double 2 g UL); try reflexivity. discriminate E.
Qed.

(** ** Accumulation *)
Lemma dplus_not_mzero x y : not_mzero x -> not_mzero (dplus x y).
Proof.
  intros H E. unfold not_mzero in H.
  destruct (is_finite x) eqn:Fx; [|destruct x; try discriminate; destruct y as [sy|sy| |sy my ey Hy]; try discriminate; cbn in E; destruct (Bool.eqb _ _); discriminate].
  destruct (is_finite y) eqn:Fy; [|destruct y; try discriminate; destruct x; try discriminate].
  pose proof (Bplus_correct 53 1024 prec64 emax64 mode_NE x y Fx Fy) as X. change (Bplus mode_NE x y) with (dplus x y) in X. rewrite E in X.
  destruct (Rlt_bool _ _); [|destruct X as [X _]; cbn in X; destruct (Bsign x); discriminate].
  destruct X as (X1 & _ & X3). cbn [B2R Bsign] in X1, X3.
  destruct (Req_dec (B2R x + B2R y) 0) as [Z0|NZ].
  - rewrite Z0 in X3. rewrite Rcompare_Eq in X3 by reflexivity. symmetry in X3. apply andb_true_iff in X3. destruct X3 as [Sx Sy].
    destruct x as [sx|sx| |sx mx ex Hx]; try discriminate; cbn in Sx; subst; [now apply H|].
    cbn [B2R] in Z0. assert (X : (F2R (Float radix2 (SpecFloat.cond_Zopp true (Z.pos mx)) ex) < 0)%R) by (apply F2R_lt_0; cbn; lia).
    assert (Y : (B2R y <= 0)%R).
    { destruct y as [sy|sy| |sy my ey Hy]; cbn in Sy |- *; try lra. subst. apply F2R_le_0. cbn. lia. }
    cbn in X, Z0. lra.
  - symmetry in X1. revert X1. apply round_plus_neq_0; [apply (fexp_correct 53 1024 prec64)| |apply valid_rnd_N|apply generic_format_B2R|apply generic_format_B2R|exact NZ].
    apply (@monotone_exp_not_FTZ (SpecFloat.fexp 53 1024)); [apply (fexp_correct 53 1024 prec64)|apply (FLT_exp_monotone (SpecFloat.emin 53 1024) 53)].
Qed.

Lemma sum_eqz k (row col col' : Z -> d64) s : not_mzero s -> (forall p, 0 <= p < k -> eqz (col p) (col' p)) ->
  zloop k (fun p c => dplus c (dmult (row p) (col p))) s = zloop k (fun p c => dplus c (dmult (row p) (col' p))) s.
Proof.
  intros Hs H. apply (zloop_rel (fun a b : d64 => a = b /\ not_mzero a)) with (a := s) (b := s); [split; [reflexivity|exact Hs]|].
  intros i x y Hi [<- NM]. split; [|now apply dplus_not_mzero]. apply dplus_next; [exact NM|]. apply dmult_eqz_r. now apply H.
Qed.
Lemma sum_not_mzero k (f : Z -> d64 -> d64) s : not_mzero s -> (forall p x, not_mzero x -> not_mzero (f p x)) -> not_mzero (zloop k f s).
Proof. intros Hs H. apply (zloop_rel (fun a _ : d64 => not_mzero a) k f f s s); auto. Qed.
Lemma zero_not_mzero : not_mzero (dint 0).
Proof. rewrite zero64. unfold not_mzero. discriminate. Qed.

(** A sum is a number only if all terms are. *)
Lemma sum_number k (f : Z -> d64) s : number (zloop k (fun p c => dplus c (f p)) s) -> number s /\ forall p, 0 <= p < k -> number (f p).
Proof.
  assert (X : forall j, 0 <= j -> number (zloop j (fun p c => dplus c (f p)) s) -> number s /\ forall p, 0 <= p < j -> number (f p)).
  { intros j. induction j as [j Hj|j Hj IH] using zind; intros H0 H.
    - rewrite zloop_0 in H by lia. split; [exact H|lia].
    - rewrite zloop_S in H by lia. apply dplus_number in H. destruct H as [H H']. destruct (IH ltac:(lia) H) as [I1 I2]. split; [exact I1|].
      intros p Hp. destruct (Z.eq_dec p j) as [->|]; [exact H'|]. apply I2. lia. }
  destruct (Z.le_gt_cases 0 k); [apply X; lia|]. intros H'. rewrite zloop_0 in H' by lia. split; [exact H'|lia].
Qed.
