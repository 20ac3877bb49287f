(** ArithDouble.v -- the arithmetic of ArithModel.v in IEEE binary64, round to
    nearest even, with one NaN (Flocq's BinarySingleNaN): signs and zeros. *)
From Coq Require Import ZArith Reals List Lia Bool.
From Flocq Require Import Core BinarySingleNaN.
From Verif Require Import Base RBase PhysModel SolverSpec LinAlgProof ArithModel ArithProof ArithRun ArithLibrary.
Import ListNotations.
Local Open Scope Z_scope.

Definition d64 : Type := binary_float 53 1024.
Global Instance prec64 : Prec_gt_0 53. Proof. reflexivity. Qed.
Global Instance emax64 : Prec_lt_emax 53 1024. Proof. reflexivity. Qed.

Definition dplus : d64 -> d64 -> d64 := Bplus mode_NE.
Definition dmult : d64 -> d64 -> d64 := Bmult mode_NE.
Definition ddiv : d64 -> d64 -> d64 := Bdiv mode_NE.
Definition dopp : d64 -> d64 := Bopp.
Definition dminus (x y : d64) : d64 := Bplus mode_NE x (Bopp y).
Definition dsqrt : d64 -> d64 := Bsqrt mode_NE.
Definition dint (z : Z) : d64 := binary_normalize 53 1024 prec64 emax64 mode_NE z 0 false.
Definition dlt (x y : d64) : bool := Bltb x y.
Definition dle (x y : d64) : bool := Bleb x y.

(** [double]; fmax returns the other operand if one is NaN (IEEE 754 maxNum). *)
Definition double : arith :=
  mkArith d64 (dint 0) (dint 1) (ddiv (dint 1) (dint 2)) (dint 2) (dint 6) (dint (-1))
    dplus dminus dmult ddiv dopp dsqrt
    (fun a b => if is_nan a then b else if is_nan b then a else if dlt a b then b else a) dlt dle.

(** Equal, or zeros of possibly different sign. *)
Definition eqz (x y : d64) : Prop := x = y \/ exists s s', x = B754_zero s /\ y = B754_zero s'.
Lemma eqz_refl x : eqz x x.
Proof. now left. Qed.
Lemma eqz_sym x y : eqz x y -> eqz y x.
Proof. intros [->|(s & s' & -> & ->)]; [now left|right; eauto]. Qed.
Lemma eqz_trans x y z : eqz x y -> eqz y z -> eqz x z.
Proof. intros [->|(s & s' & -> & ->)] H; [exact H|]. destruct H as [<-|(t & t' & E & ->)]; right; [eauto|exists s, t'; auto]. Qed.

(** Rounding to nearest does not look at the sign. *)
Lemma round_aux_opp sx mx ex lx : binary_round_aux 53 1024 mode_NE (negb sx) mx ex lx = SpecFloat.SFopp (binary_round_aux 53 1024 mode_NE sx mx ex lx).
Proof.
  unfold binary_round_aux. destruct (SpecFloat.shr_fexp 53 1024 mx ex lx) as [mrs e'].
  unfold choice_mode. destruct (SpecFloat.shr_fexp 53 1024 _ e' SpecFloat.loc_Exact) as [mrs' e''].
  unfold binary_fit_aux. destruct (SpecFloat.shr_m mrs') as [|p|p]; [reflexivity| |reflexivity]. destruct (Z.leb e'' (1024 - 53)); reflexivity.
Qed.
Lemma round_opp sx mx ex : binary_round 53 1024 mode_NE (negb sx) mx ex = SpecFloat.SFopp (binary_round 53 1024 mode_NE sx mx ex).
Proof. unfold binary_round. destruct (shl_align_fexp 53 1024 mx ex) as [mz ez]. apply round_aux_opp. Qed.

Lemma B2SF_opp (x : d64) : B2SF (Bopp x) = SpecFloat.SFopp (B2SF x).
Proof. destruct x; reflexivity. Qed.

Lemma dmult_opp_l x y : dmult (dopp x) y = dopp (dmult x y).
Proof.
  unfold dmult, dopp. destruct x as [sx|sx| |sx mx ex Hx], y as [sy|sy| |sy my ey Hy]; cbn [Bopp Bmult]; try reflexivity;
    try (destruct sx, sy; reflexivity).
  apply B2SF_inj. rewrite B2SF_opp, !B2SF_SF2B. rewrite <- round_aux_opp. f_equal. now destruct sx, sy.
Qed.
Lemma dmult_opp_r x y : dmult x (dopp y) = dopp (dmult x y).
Proof.
  unfold dmult, dopp. destruct x as [sx|sx| |sx mx ex Hx], y as [sy|sy| |sy my ey Hy]; cbn [Bopp Bmult]; try reflexivity;
    try (destruct sx, sy; reflexivity).
  apply B2SF_inj. rewrite B2SF_opp, !B2SF_SF2B. rewrite <- round_aux_opp. f_equal. now destruct sx, sy.
Qed.

Lemma dplus_comm x y : dplus x y = dplus y x.
Proof.
  unfold dplus. destruct x as [sx|sx| |sx mx ex Hx], y as [sy|sy| |sy my ey Hy]; cbn [Bplus]; try reflexivity;
    try (destruct sx, sy; reflexivity).
  rewrite Z.min_comm. f_equal. unfold Fplus_naive. apply Z.add_comm.
Qed.

Lemma dplus_opp x y : eqz (dplus (dopp x) (dopp y)) (dopp (dplus x y)).
Proof.
  unfold dplus, dopp. destruct x as [sx|sx| |sx mx ex Hx], y as [sy|sy| |sy my ey Hy]; cbn [Bopp Bplus];
    try (left; reflexivity); try (destruct sx, sy; cbn; solve [left; reflexivity|right; eauto]).
  unfold binary_normalize. set (z := Fplus_naive sx mx ex sy my ey (Z.min ex ey)).
  assert (E : Fplus_naive (negb sx) mx ex (negb sy) my ey (Z.min ex ey) = - z).
  { unfold z, Fplus_naive. destruct sx, sy; cbn [negb SpecFloat.cond_Zopp]; lia. }
  rewrite E. clearbody z. destruct z as [|p|p]; cbn [Z.opp].
  - right. cbn. eauto.
  - left. apply B2SF_inj. rewrite B2SF_opp, !B2SF_SF2B. apply (round_opp false).
  - left. apply B2SF_inj. rewrite B2SF_opp, !B2SF_SF2B. apply (round_opp true).
Qed.

Lemma dopp_opp x : dopp (dopp x) = x.
Proof. apply Bopp_involutive. Qed.
Lemma dopp_eqz x y : eqz x y -> eqz (dopp x) (dopp y).
Proof. intros [->|(s & s' & -> & ->)]; [now left|right; cbn; eauto]. Qed.

Lemma dmult_eqz_r x y y' : eqz y y' -> eqz (dmult x y) (dmult x y').
Proof.
  intros [->|(s & s' & -> & ->)]; [now left|]. unfold dmult. destruct x; cbn [Bmult]; [right; eauto|now left|now left|right; eauto].
Qed.
Lemma ddiv_eqz_l x x' y : eqz x x' -> eqz (ddiv x y) (ddiv x' y).
Proof.
  intros [->|(s & s' & -> & ->)]; [now left|]. unfold ddiv. destruct y; cbn [Bdiv]; [now left|right; eauto|now left|right; eauto].
Qed.
Lemma dplus_eqz_r x y y' : eqz y y' -> eqz (dplus x y) (dplus x y').
Proof.
  intros [->|(s & s' & -> & ->)]; [now left|]. unfold dplus. destruct x as [sx|sx| |sx mx ex Hx]; cbn [Bplus]; [|now left|now left|now left].
  right. destruct sx, s, s'; cbn; eauto.
Qed.
Lemma dplus_eqz x x' y y' : eqz x x' -> eqz y y' -> eqz (dplus x y) (dplus x' y').
Proof.
  intros H H'. eapply eqz_trans; [apply dplus_eqz_r; exact H'|]. rewrite !(dplus_comm _ y'). now apply dplus_eqz_r.
Qed.

(** A square, and a sum that starts from +0, do not show the sign of a zero. *)
Lemma dsquare_eqz x x' : eqz x x' -> dmult x x = dmult x' x'.
Proof. intros [->|(s & s' & -> & ->)]; [reflexivity|]. destruct s, s'; reflexivity. Qed.
Definition not_mzero (x : d64) : Prop := x <> B754_zero true.
Lemma dplus_start p p' : eqz p p' -> dplus (B754_zero false) p = dplus (B754_zero false) p' /\ not_mzero (dplus (B754_zero false) p).
Proof.
  intros H. split.
  - destruct H as [->|(s & s' & -> & ->)]; [reflexivity|]. destruct s, s'; reflexivity.
  - unfold not_mzero. destruct p as [s|s| |s mp ep Hp]; cbn [dplus Bplus]; try discriminate. destruct s; discriminate.
Qed.
Lemma dplus_next x p p' : not_mzero x -> eqz p p' -> dplus x p = dplus x p'.
Proof.
  intros N [->|(s & s' & -> & ->)]; [reflexivity|]. destruct x as [sx|sx| |sx mx ex Hx]; cbn [dplus Bplus]; try reflexivity.
  destruct sx; [now destruct N|]. destruct s, s'; reflexivity.
Qed.
Lemma zero64 : dint 0 = B754_zero false.
Proof. reflexivity. Qed.

(** Two-term sums of products that start from +0. *)
Lemma dsum2 a0 a1 n0 n1 n0' n1' : eqz n0 n0' -> eqz n1 n1' ->
  dplus (dplus (dint 0) (dmult a0 n0)) (dmult a1 n1) = dplus (dplus (dint 0) (dmult a0 n0')) (dmult a1 n1').
Proof.
  intros H0 H1. rewrite zero64. destruct (dplus_start (dmult a0 n0) (dmult a0 n0') (dmult_eqz_r a0 _ _ H0)) as [E M].
  rewrite <- E. apply dplus_next; [exact M|]. now apply dmult_eqz_r.
Qed.

(** The Lax-Friedrichs flux in two dimensions does not depend on the sign of a
    zero component of the normal. *)
Lemma lax_zero_sign g UL UR Nn Nn' F0 Q0 : eqz (Nn 0) (Nn' 0) -> eqz (Nn 1) (Nn' 1) ->
  agree 4 (klaxfriedrichs double 2 g UL UR Nn F0 Q0) (klaxfriedrichs double 2 g UL UR Nn' F0 Q0).
Proof.
  intros H0 H1 i Hi. unfold klaxfriedrichs. cbv zeta. rewrite inb_in by exact Hi.
  assert (Z2 : forall {S} (b : Z -> S -> S) s, zloop 2 b s = b 1 (b 0 s)) by reflexivity.
  rewrite !Z2. cbn [fadd fmul fdiv fsub fsqrt f0 double].
  assert (EM : dplus (dplus (dint 0) (dmult (Nn 0) (Nn 0))) (dmult (Nn 1) (Nn 1)) = dplus (dplus (dint 0) (dmult (Nn' 0) (Nn' 0))) (dmult (Nn' 1) (Nn' 1))).
  { now rewrite (dsquare_eqz _ _ H0), (dsquare_eqz _ _ H1). }
  rewrite EM. set (nm := dsqrt _).
  rewrite !(dsum2 _ _ _ _ _ _ (ddiv_eqz_l _ _ nm H0) (ddiv_eqz_l _ _ nm H1)). reflexivity.
Qed.
