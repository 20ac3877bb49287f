(** PropTime.v -- C27: how many steps the solver takes. *)
From Coq Require Import ZArith Reals Lra Lia Bool.
From Flocq Require Import Core BinarySingleNaN Relative.
From Verif Require Import Base TimeModel.
Local Open Scope R_scope.

(** Rounding to double. *)
Definition dround (x : R) : R := round radix2 (FLT_exp (3 - 1024 - 53) 53) ZnearestE x.

Lemma int_format n : (Z.abs n <= 2 ^ 53)%Z -> generic_format radix2 (FLT_exp (3 - 1024 - 53) 53) (IZR n).
Proof.
  intros H. apply generic_format_FLT. destruct (Z.eq_dec (Z.abs n) (2 ^ 53)) as [E|E].
  - exists (Float radix2 (n / 2) 1).
    + unfold F2R. cbn [Fnum Fexp bpow]. assert (X : (n = 2 * (n / 2))%Z).
      { assert (n = 2 ^ 53 \/ n = - 2 ^ 53)%Z as [-> | ->] by lia; reflexivity. }
      rewrite X at 1. rewrite mult_IZR. cbn. lra.
    + cbn [Fnum]. assert (n = 2 ^ 53 \/ n = - 2 ^ 53)%Z as [-> | ->] by lia; reflexivity.
    + cbn. lia.
  - exists (Float radix2 n 0); [unfold F2R; cbn; lra|cbn; lia|cbn; lia].
Qed.

Lemma quotient_rounds (tf dt : dbl) : is_finite tf = true -> B2R dt <> 0 ->
  Rabs (dround (B2R tf / B2R dt)) < bpow radix2 1024 ->
  is_finite (ddiv tf dt) = true /\ B2R (ddiv tf dt) = dround (B2R tf / B2R dt).
Proof.
  intros F N L. unfold ddiv.
  pose proof (@Bdiv_correct 53 1024 dprec dmax mode_NE tf dt N) as C. 
  change (SpecFloat.fexp 53 1024) with (FLT_exp (3 - 1024 - 53) 53) in C. change (round_mode mode_NE) with ZnearestE in C.
  rewrite Rlt_bool_true in C by exact L. destruct C as (C1 & C2 & _). rewrite C2. split; [exact F|exact C1].
Qed.

Lemma trunc_value (q : dbl) : Btrunc q = Ztrunc (B2R q).
Proof.
  apply eq_IZR. rewrite Btrunc_correct by exact dmax. unfold round, scaled_mantissa, cexp, FIX_exp. cbn. unfold F2R. cbn. now rewrite !Rmult_1_r.
Qed.

Theorem C27_exact_multiple :
  forall (tfinal dt : dbl) n, is_finite tfinal = true -> is_finite dt = true -> B2R dt <> 0 -> (0 <= n < 2 ^ 31)%Z ->
  B2R tfinal = IZR n * B2R dt -> num_iterations tfinal dt = Ok n.
Proof.
  intros tf dt n Ft Fd N Hn E.
  assert (Q : B2R tf / B2R dt = IZR n) by (rewrite E; field; exact N).
  assert (RN : dround (B2R tf / B2R dt) = IZR n).
  { rewrite Q. apply round_generic; [apply valid_rnd_N|]. apply int_format. lia. }
  destruct (quotient_rounds tf dt Ft N) as [F V].
  { rewrite RN, <- abs_IZR. change (bpow radix2 1024) with (IZR (2 ^ 1024)). apply IZR_lt.
    apply Z.lt_trans with (2 ^ 31)%Z; [lia|reflexivity]. }
  unfold num_iterations. rewrite F, trunc_value, V, RN, Ztrunc_IZR.
  replace (- 2 ^ 31 <=? n)%Z with true by (symmetry; apply Z.leb_le; lia).
  replace (n <? 2 ^ 31)%Z with true by (symmetry; apply Z.ltb_lt; lia). cbn [andb].
  rewrite Z.mod_small by lia. reflexivity.
Qed.
Print Assumptions C27_exact_multiple.

(** 2 steps of 1/2 until 1. *)
Example C27_demo : is_finite (dint 1) = true /\ is_finite (ddiv (dint 1) (dint 2)) = true /\
  num_iterations (dint 1) (ddiv (dint 1) (dint 2)) = Ok 2%Z.
Proof. split; [|split]; reflexivity. Qed.

(** Inputs that are only nearest doubles of an exact multiple: n or n - 1 steps. *)
Theorem C66_rounded_multiple_partial :
  forall (tfinal dt : dbl) n (h : R), is_finite tfinal = true -> (1 <= n < 2 ^ 31)%Z ->
  bpow radix2 (-1022) <= h -> B2R dt = dround h -> B2R tfinal = dround (IZR n * h) ->
  num_iterations tfinal dt = Ok n \/ num_iterations tfinal dt = Ok (n - 1)%Z.
Proof.
  intros tf dt n h Ft Hn Hh Ed Et.
  assert (Hp : 0 < h) by (apply Rlt_le_trans with (2 := Hh); apply bpow_gt_0).
  assert (N1 : 1 <= IZR n) by (apply IZR_le; lia).
  assert (N2 : IZR n <= 2147483648) by (apply IZR_le; lia).
  assert (U : / 2 * bpow radix2 (- (53) + 1) <= / 9000000000000000).
  { change (bpow radix2 (- (53) + 1)) with (/ IZR (2 ^ 52)). rewrite <- Rinv_mult.
    apply Rinv_le; [lra|]. change (2 ^ 52)%Z with 4503599627370496%Z. lra. }
  destruct (relative_error_N_FLT_ex radix2 (3 - 1024 - 53) 53 eq_refl (fun z => negb (Z.even z)) h) as (e2 & B2 & E2).
  { rewrite Rabs_pos_eq by lra. exact Hh. }
  destruct (relative_error_N_FLT_ex radix2 (3 - 1024 - 53) 53 eq_refl (fun z => negb (Z.even z)) (IZR n * h)) as (e1 & B1 & E1).
  { rewrite Rabs_pos_eq by nra. apply Rle_trans with (1 := Hh). nra. }
  change (dround h = h * (1 + e2)) in E2. change (dround (IZR n * h) = IZR n * h * (1 + e1)) in E1.
  rewrite <- Ed in E2. rewrite <- Et in E1.
  assert (A1 : - / 9000000000000000 <= e1 <= / 9000000000000000).
  { destruct (Rabs_le_inv _ _ B1). lra. }
  assert (A2 : - / 9000000000000000 <= e2 <= / 9000000000000000).
  { destruct (Rabs_le_inv _ _ B2). lra. }
  set (g := (1 + e1) / (1 + e2)).
  assert (G : g * (1 + e2) = 1 + e1) by (unfold g; field; lra).
  assert (Gb : 1 - / 4000000000000000 <= g <= 1 + / 4000000000000000).
  { split; apply Rmult_le_reg_r with (1 + e2); try lra; rewrite G; nra. }
  assert (Q : B2R tf / B2R dt = IZR n * g) by (rewrite E1, E2; unfold g; field; lra).
  assert (NZ : B2R dt <> 0) by (rewrite E2; nra).
  destruct (relative_error_N_FLT_ex radix2 (3 - 1024 - 53) 53 eq_refl (fun z => negb (Z.even z)) (IZR n * g)) as (e3 & B3 & E3).
  { rewrite Rabs_pos_eq by nra. apply Rle_trans with (/ 2); [|nra].
    change (/ 2) with (bpow radix2 (-1)). apply bpow_le. lia. }
  change (dround (IZR n * g) = IZR n * g * (1 + e3)) in E3.
  assert (A3 : - / 9000000000000000 <= e3 <= / 9000000000000000).
  { destruct (Rabs_le_inv _ _ B3). lra. }
  set (p := g * (1 + e3)) in *.
  assert (Pb : 1 - / 2000000000000000 <= p <= 1 + / 2000000000000000) by (unfold p; nra).
  assert (E4 : dround (IZR n * g) = IZR n * p) by (rewrite E3; unfold p; ring).
  assert (NP : IZR n - / 4 <= IZR n * p <= IZR n + / 4).
  { assert (- (IZR n * / 2000000000000000) <= IZR n * (p - 1) <= IZR n * / 2000000000000000) by nra. lra. }
  assert (P0 : 0 <= IZR n * p) by lra.
  rewrite <- Q in E4.
  destruct (quotient_rounds tf dt Ft NZ) as [F V].
  { rewrite E4, Rabs_pos_eq by exact P0. apply Rle_lt_trans with (IZR (2 ^ 32)).
    - change (2 ^ 32)%Z with 4294967296%Z. lra.
    - change (bpow radix2 1024) with (IZR (2 ^ 1024)). apply IZR_lt. reflexivity. }
  assert (T : Btrunc (ddiv tf dt) = n \/ Btrunc (ddiv tf dt) = (n - 1)%Z).
  { rewrite trunc_value, V, E4, Ztrunc_floor by exact P0.
    destruct (Rle_lt_dec (IZR n) (IZR n * p)).
    - left. apply Zfloor_imp. rewrite plus_IZR. lra.
    - right. apply Zfloor_imp. rewrite plus_IZR, minus_IZR. lra. }
  unfold num_iterations. rewrite F.
  destruct T as [-> | ->]; [left|right].
  - replace (- 2 ^ 31 <=? n)%Z with true by (symmetry; apply Z.leb_le; lia).
    replace (n <? 2 ^ 31)%Z with true by (symmetry; apply Z.ltb_lt; lia). cbn [andb].
    rewrite Z.mod_small by lia. reflexivity.
  - replace (- 2 ^ 31 <=? n - 1)%Z with true by (symmetry; apply Z.leb_le; lia).
    replace (n - 1 <? 2 ^ 31)%Z with true by (symmetry; apply Z.ltb_lt; lia). cbn [andb].
    rewrite Z.mod_small by lia. reflexivity.
Qed.
Print Assumptions C66_rounded_multiple_partial.

(** Decimal inputs: "timestep = 0.1", "end = 0.3" gives 2 steps, not 3. *)
Lemma tenths_nearest k : (0 < k <= 10)%Z -> is_finite (tenths k) = true /\ B2R (tenths k) = dround (IZR k / 10).
Proof.
  intros Hk.
  assert (DI : forall m, (0 <= m <= 10)%Z -> is_finite (dint m) = true /\ B2R (dint m) = IZR m).
  { intros m Hm. unfold dint. pose proof (@binary_normalize_correct 53 1024 dprec dmax mode_NE m 0 false) as C. cbv zeta in C.
    change (SpecFloat.fexp 53 1024) with (FLT_exp (3 - 1024 - 53) 53) in C. change (round_mode mode_NE) with ZnearestE in C.
    replace (F2R (Float radix2 m 0)) with (IZR m) in C by (unfold F2R; cbn; ring).
    rewrite round_generic in C; [|apply valid_rnd_N|apply int_format; lia].
    rewrite Rlt_bool_true in C; [destruct C as (C1 & C2 & _); auto|].
    rewrite <- abs_IZR. change (bpow radix2 1024) with (IZR (2 ^ 1024)). apply IZR_lt.
    apply Z.le_lt_trans with 10%Z; [lia|reflexivity]. }
  destruct (DI k ltac:(lia)) as [F1 V1]. destruct (DI 10%Z ltac:(lia)) as [F2 V2].
  unfold tenths. destruct (quotient_rounds (dint k) (dint 10)) as [F V].
  - exact F1.
  - rewrite V2. lra.
  - rewrite V1, V2. apply Rle_lt_trans with 1; [|change 1 with (bpow radix2 0); apply bpow_lt; lia].
    assert (0 < IZR k <= 10) by (split; [apply IZR_lt|apply IZR_le]; lia).
    apply Rabs_le. split.
    + apply Rle_trans with 0; [lra|]. apply round_ge_generic; [apply FLT_exp_valid; reflexivity|apply valid_rnd_N|apply generic_format_0|].
      apply Rmult_le_pos; lra.
    + apply round_le_generic; [apply FLT_exp_valid; reflexivity|apply valid_rnd_N|apply (int_format 1); lia|]. lra.
  - rewrite V1, V2 in V. split; assumption.
Qed.

Theorem C66_decimal_refuted :
  B2R (tenths 1) = dround (1 / 10) /\ B2R (tenths 3) = dround (3 * (1 / 10)) /\
  num_iterations (tenths 3) (tenths 1) = Ok 2%Z.
Proof.
  split; [|split].
  - apply tenths_nearest. lia.
  - replace (3 * (1 / 10)) with (3 / 10) by lra. apply tenths_nearest. lia.
  - reflexivity.
Qed.
Print Assumptions C66_decimal_refuted.
