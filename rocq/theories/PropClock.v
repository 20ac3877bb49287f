(** PropClock.v -- C94: the time a run prints and stores. *)
From Coq Require Import ZArith Reals Lra Lia Bool.
From Flocq Require Import Core BinarySingleNaN Relative Mult_error.
From Verif Require Import Base TimeModel PropTime.
Local Open Scope R_scope.

(** Half a unit in the last place, relative. *)
Definition half_ulp : R := / IZR (2 ^ 53).

Lemma half_ulp_val : half_ulp = / 9007199254740992.
Proof. reflexivity. Qed.

Lemma round_rel x : bpow radix2 (-1022) <= x -> Rabs (dround x - x) <= half_ulp * x.
Proof.
  intros H. assert (P : 0 < x) by (apply Rlt_le_trans with (2 := H); apply bpow_gt_0).
  destruct (relative_error_N_FLT_ex radix2 (3 - 1024 - 53) 53 eq_refl (fun z => negb (Z.even z)) x) as (e & B & E).
  { rewrite Rabs_pos_eq by lra. exact H. }
  change (dround x = x * (1 + e)) in E. rewrite E. replace (x * (1 + e) - x) with (e * x) by ring.
  rewrite Rabs_mult, (Rabs_pos_eq x) by lra. apply Rmult_le_compat_r; [lra|].
  apply Rle_trans with (1 := B). right. unfold half_ulp.
  change (bpow radix2 (- (53) + 1)) with (/ IZR (2 ^ 52)).
  change (2 ^ 52)%Z with 4503599627370496%Z. change (2 ^ 53)%Z with 9007199254740992%Z. lra.
Qed.

Lemma plus_rounds (x y : dbl) : is_finite x = true -> is_finite y = true ->
  Rabs (dround (B2R x + B2R y)) < bpow radix2 1024 ->
  is_finite (dplus x y) = true /\ B2R (dplus x y) = dround (B2R x + B2R y).
Proof.
  intros Fx Fy L. unfold dplus.
  pose proof (@Bplus_correct 53 1024 dprec dmax mode_NE x y Fx Fy) as C.
  change (SpecFloat.fexp 53 1024) with (FLT_exp (3 - 1024 - 53) 53) in C. change (round_mode mode_NE) with ZnearestE in C.
  rewrite Rlt_bool_true in C by exact L. destruct C as (C1 & C2 & _). split; [exact C2|exact C1].
Qed.

Lemma dround_id (x : dbl) : dround (B2R x) = B2R x.
Proof. apply round_generic; [apply valid_rnd_N|]. exact (generic_format_B2R 53 1024 x). Qed.

(** Adding up [k] copies of [h]. *)
Fixpoint add_up (h : dbl) (k : nat) (t : dbl) : dbl :=
  match k with O => t | S j => add_up h j (dplus t h) end.

Lemma add_up_S h k : forall t, add_up h (S k) t = dplus (add_up h k t) h.
Proof. induction k; intros t; [reflexivity|]. cbn [add_up]. rewrite <- IHk. reflexivity. Qed.

Definition near (h : R) (k : Z) (t : dbl) : Prop :=
  is_finite t = true /\ Rabs (B2R t - IZR k * h) <= IZR k * IZR k * half_ulp * h.

Lemma zero_near h : near h 0 (dint 0).
Proof. split; [reflexivity|]. cbn. rewrite Rmult_0_l, Rminus_0_r, Rabs_R0. lra. Qed.

Lemma near_step (h t : dbl) k : is_finite h = true -> bpow radix2 (-1022) <= B2R h ->
  (0 <= k < 2 ^ 50)%Z -> IZR (k + 1) * B2R h <= bpow radix2 1022 -> near (B2R h) k t ->
  near (B2R h) (k + 1) (dplus t h) /\ B2R t < B2R (dplus t h).
Proof.
  intros Fh Hh Hk Hov (Ft & Et). set (x := B2R h) in *. set (s := B2R t) in *.
  assert (Hx : 0 < x) by (apply Rlt_le_trans with (2 := Hh); apply bpow_gt_0).
  assert (K0 : 0 <= IZR k) by (apply IZR_le; lia).
  assert (K1 : IZR k <= 1125899906842624) by (apply IZR_le; lia).
  rewrite plus_IZR in *. pose proof half_ulp_val as HU. set (u := half_ulp) in *. set (K := IZR k) in *.
  assert (U0 : 0 < u) by (rewrite HU; lra).
  assert (KU : K * u <= / 8) by (rewrite HU; lra).
  assert (KUx : 0 <= K * u * x <= / 8 * x) by nra.
  assert (KKu : 0 <= K * K * u * x <= K * (/ 8 * x)).
  { replace (K * K * u * x) with (K * (K * u * x)) by ring. nra. }
  apply Rabs_le_inv in Et.
  assert (S0 : 0 <= s) by nra.
  assert (S1 : s + x <= 9 / 8 * ((K + 1) * x)) by nra.
  assert (S2 : bpow radix2 (-1022) <= s + x) by lra.
  pose proof (round_rel (s + x) S2) as RR. fold u in RR. apply Rabs_le_inv in RR.
  assert (BP : bpow radix2 1024 = 4 * bpow radix2 1022).
  { change 4 with (bpow radix2 2). rewrite <- bpow_plus. reflexivity. }
  assert (Ub : u <= / 8) by (rewrite HU; lra).
  assert (SX : u * (s + x) <= / 8 * (s + x)) by (apply Rmult_le_compat_r; lra).
  assert (B0 : 0 < bpow radix2 1022) by apply bpow_gt_0.
  destruct (plus_rounds t h Ft Fh) as (F & V).
  { fold s x. apply Rabs_def1; [|]; lra. }
  fold s x in V. split; [split; [exact F|]|].
  - rewrite V, plus_IZR. fold K.
    assert (M : Rabs (dround (s + x) - (K + 1) * x) <= u * (s + x) + K * K * u * x).
    { apply Rabs_le. lra. }
    apply Rle_trans with (1 := M).
    assert (E1 : u * (s + x) <= u * (K * x + K * K * u * x + x)) by (apply Rmult_le_compat_l; lra).
    apply Rle_trans with (u * (K * x + K * K * u * x + x) + K * K * u * x); [lra|].
    assert (E2 : u * (K * K * u * x) <= K * u * x).
    { replace (u * (K * K * u * x)) with (K * u * x * (K * u)) by ring. rewrite <- (Rmult_1_r (K * u * x)) at 2. apply Rmult_le_compat_l; lra. }
    replace (u * (K * x + K * K * u * x + x) + K * K * u * x) with (K * K * u * x + K * u * x + u * x + u * (K * K * u * x)) by ring.
    fold u. replace ((K + 1) * (K + 1) * u * x) with (K * K * u * x + K * u * x + u * x + K * u * x) by ring. lra.
  - rewrite V. assert (u * (s + x) < x); [|lra].
    apply Rle_lt_trans with (u * (9 / 8 * ((K + 1) * x))); [apply Rmult_le_compat_l; lra|].
    replace (u * (9 / 8 * ((K + 1) * x))) with (9 / 8 * (K * u * x) + 9 / 8 * (u * x)) by ring.
    assert (u * x <= / 8 * x) by (apply Rmult_le_compat_r; lra). lra.
Qed.

Lemma add_up_near (h : dbl) : is_finite h = true -> bpow radix2 (-1022) <= B2R h ->
  forall k : nat, (Z.of_nat k <= 2 ^ 50)%Z -> IZR (Z.of_nat k) * B2R h <= bpow radix2 1022 ->
  near (B2R h) (Z.of_nat k) (add_up h k (dint 0)).
Proof.
  intros Fh Hh. assert (Hx : 0 < B2R h) by (apply Rlt_le_trans with (2 := Hh); apply bpow_gt_0).
  induction k; intros Hk Ho; [apply zero_near|].
  rewrite add_up_S. rewrite Nat2Z.inj_succ in *. unfold Z.succ in *.
  apply near_step; auto; [lia|]. apply IHk; [lia|]. rewrite plus_IZR in Ho. nra.
Qed.

(** Halving is exact above the subnormals. *)
Lemma dint_2 : B2R (dint 2) = 2.
Proof. cbn. unfold F2R. cbn. lra. Qed.

Lemma half_exact (dt : dbl) : is_finite dt = true -> bpow radix2 (-1021) <= B2R dt -> B2R dt <= bpow radix2 1022 ->
  is_finite (ddiv dt (dint 2)) = true /\ B2R (ddiv dt (dint 2)) = B2R dt / 2.
Proof.
  intros F H1 H2. assert (E : dround (B2R dt / 2) = B2R dt / 2).
  { apply round_generic; [apply valid_rnd_N|].
    pose proof (generic_format_B2R 53 1024 dt) as G. change (SpecFloat.fexp 53 1024) with (FLT_exp (3 - 1024 - 53) 53) in G.
    replace (B2R dt / 2) with (B2R dt * bpow radix2 (-1)) by (cbn; lra).
    apply mult_bpow_exact_FLT; [exact G|].
    assert (P : 0 < bpow radix2 (-1021)) by apply bpow_gt_0.
    assert (mag radix2 (B2R dt) > -1021)%Z.
    { assert (-1020 <= mag radix2 (B2R dt))%Z; [|lia]. apply mag_ge_bpow. rewrite Rabs_pos_eq by lra. exact H1. }
    lia. }
  assert (BP : bpow radix2 1024 = 4 * bpow radix2 1022).
  { change 4 with (bpow radix2 2). rewrite <- bpow_plus. reflexivity. }
  assert (P : 0 < bpow radix2 (-1021)) by apply bpow_gt_0.
  destruct (quotient_rounds dt (dint 2) F) as (A & B).
  - rewrite dint_2. lra.
  - rewrite dint_2, E. apply Rabs_def1; lra.
  - rewrite dint_2, E in B. split; [exact A|exact B].
Qed.

Lemma fe_clock dt n : forall t, clock_steps (tick_fe dt) n t = add_up dt n t.
Proof. induction n; intros t; [reflexivity|]. cbn [clock_steps add_up]. rewrite IHn. reflexivity. Qed.

Lemma rk4_clock dt n : forall t, clock_steps (tick_rk4 dt) n t = add_up (ddiv dt (dint 2)) (2 * n) t.
Proof.
  induction n; intros t; [reflexivity|]. replace (2 * S n)%nat with (S (S (2 * n))) by lia.
  cbn [clock_steps add_up]. rewrite IHn. reflexivity.
Qed.

(** The clock of a run of [n] steps. *)
Definition clock (rk4 : bool) (dt : dbl) (n : nat) : dbl :=
  clock_steps (if rk4 then tick_rk4 dt else tick_fe dt) n (dint 0).

Lemma clock_near rk4 (dt : dbl) (n : nat) : is_finite dt = true -> bpow radix2 (-1021) <= B2R dt ->
  (Z.of_nat n < 2 ^ 31)%Z -> IZR (Z.of_nat n) * B2R dt <= bpow radix2 1022 ->
  (B2R dt <= bpow radix2 1022) ->
  is_finite (clock rk4 dt n) = true /\
  Rabs (B2R (clock rk4 dt n) - IZR (Z.of_nat n) * B2R dt) <= IZR (Z.of_nat n) * / IZR (2 ^ 52) * (IZR (Z.of_nat n) * B2R dt).
Proof.
  intros F H1 Hn Ho H2. unfold clock.
  assert (P : 0 < bpow radix2 (-1022)) by apply bpow_gt_0.
  assert (BP : bpow radix2 (-1021) = 2 * bpow radix2 (-1022)).
  { change 2 with (bpow radix2 1) at 1. rewrite <- bpow_plus. reflexivity. }
  assert (N0 : 0 <= IZR (Z.of_nat n)) by (apply IZR_le; lia).
  assert (UU : / IZR (2 ^ 52) = 2 * half_ulp).
  { unfold half_ulp. change (2 ^ 52)%Z with 4503599627370496%Z. change (2 ^ 53)%Z with 9007199254740992%Z. lra. }
  assert (U0 : 0 < half_ulp) by (rewrite half_ulp_val; lra).
  rewrite UU. destruct rk4.
  - rewrite rk4_clock. destruct (half_exact dt F H1 H2) as (Fh & Vh).
    destruct (add_up_near (ddiv dt (dint 2)) Fh ltac:(rewrite Vh; lra) (2 * n) ltac:(lia)) as (A & B).
    { rewrite Vh, Nat2Z.inj_mul, mult_IZR. change (IZR (Z.of_nat 2)) with 2. lra. }
    split; [exact A|]. rewrite Vh, Nat2Z.inj_mul, mult_IZR in B. change (IZR (Z.of_nat 2)) with 2 in B.
    set (N := IZR (Z.of_nat n)) in *. set (x := B2R dt) in *.
    replace (2 * N * (x / 2)) with (N * x) in B by field. apply Rle_trans with (1 := B). right. field.
  - rewrite fe_clock. destruct (add_up_near dt F ltac:(lra) n ltac:(lia) Ho) as (A & B).
    split; [exact A|]. apply Rle_trans with (1 := B).
    assert (0 <= IZR (Z.of_nat n) * IZR (Z.of_nat n) * half_ulp * B2R dt).
    { repeat apply Rmult_le_pos; lra. }
    lra.
Qed.

Lemma clock_S rk4 dt n : clock rk4 dt (S n) = (if rk4 then tick_rk4 dt else tick_fe dt) (clock rk4 dt n).
Proof.
  unfold clock. set (f := if rk4 then _ else _). generalize (dint 0). induction n; intros t; [reflexivity|].
  cbn [clock_steps] in *. rewrite <- IHn. reflexivity.
Qed.

(** C94.  The time is never lost to rounding: it is finite, goes up in every step,
    and after n steps it is n dt up to a relative error of n 2^-52. *)
Theorem C94_time_of_a_run :
  forall (rk4 : bool) (dt : dbl) (n : nat),
  is_finite dt = true -> bpow radix2 (-1021) <= B2R dt -> (Z.of_nat n < 2 ^ 31)%Z ->
  IZR (Z.of_nat n + 1) * B2R dt <= bpow radix2 1022 ->
  is_finite (clock rk4 dt n) = true /\
  B2R (clock rk4 dt n) < B2R (clock rk4 dt (S n)) /\
  Rabs (B2R (clock rk4 dt n) - IZR (Z.of_nat n) * B2R dt) <= IZR (Z.of_nat n) * / IZR (2 ^ 52) * (IZR (Z.of_nat n) * B2R dt).
Proof.
  intros rk4 dt n F H1 Hn Ho.
  assert (P : 0 < bpow radix2 (-1022)) by apply bpow_gt_0.
  assert (BP : bpow radix2 (-1021) = 2 * bpow radix2 (-1022)).
  { change 2 with (bpow radix2 1) at 1. rewrite <- bpow_plus. reflexivity. }
  assert (N0 : 0 <= IZR (Z.of_nat n)) by (apply IZR_le; lia).
  assert (NX : 0 <= IZR (Z.of_nat n) * B2R dt) by (apply Rmult_le_pos; lra).
  rewrite plus_IZR, Rmult_plus_distr_r, Rmult_1_l in Ho.
  destruct (clock_near rk4 dt n F H1 Hn ltac:(lra) ltac:(lra)) as (A & B).
  split; [exact A|]. split; [|exact B].
  rewrite clock_S. unfold clock. destruct rk4.
  - rewrite rk4_clock. unfold tick_rk4. destruct (half_exact dt F H1 ltac:(lra)) as (Fh & Vh).
    set (h := ddiv dt (dint 2)) in *.
    assert (NR : near (B2R h) (Z.of_nat (2 * n)) (add_up h (2 * n) (dint 0))).
    { apply add_up_near; [exact Fh|rewrite Vh; lra|lia|]. rewrite Vh, Nat2Z.inj_mul, mult_IZR. change (IZR (Z.of_nat 2)) with 2. lra. }
    assert (E2 : IZR (Z.of_nat (2 * n)) = 2 * IZR (Z.of_nat n)).
    { rewrite Nat2Z.inj_mul, mult_IZR. reflexivity. }
    destruct (near_step h _ (Z.of_nat (2 * n)) Fh ltac:(rewrite Vh; lra) ltac:(lia) ltac:(rewrite plus_IZR, E2, Vh; lra) NR) as (NR1 & L1).
    destruct (near_step h _ (Z.of_nat (2 * n) + 1) Fh ltac:(rewrite Vh; lra) ltac:(lia) ltac:(rewrite !plus_IZR, E2, Vh; lra) NR1) as (_ & L2).
    lra.
  - rewrite fe_clock. unfold tick_fe.
    apply (near_step dt _ (Z.of_nat n) F); [lra|lia|rewrite plus_IZR; lra|]. apply (add_up_near dt F); [lra|lia|lra].
Qed.
Print Assumptions C94_time_of_a_run.

(** No rounding at all when every multiple of the (half) step fits in 53 bits. *)
Lemma dyadic_format m e : (Z.abs m <= 2 ^ 53)%Z -> (-1074 <= e)%Z ->
  generic_format radix2 (FLT_exp (3 - 1024 - 53) 53) (IZR m * bpow radix2 e).
Proof.
  intros Hm He. destruct (Z.eq_dec (Z.abs m) (2 ^ 53)) as [E|E].
  - apply generic_format_FLT. exists (Float radix2 (m / 2) (e + 1)).
    + unfold F2R. cbn [Fnum Fexp]. rewrite bpow_plus. change (bpow radix2 1) with 2.
      assert (X : (m = 2 * (m / 2))%Z).
      { assert (m = 2 ^ 53 \/ m = - 2 ^ 53)%Z as [-> | ->] by lia; reflexivity. }
      rewrite X at 1. rewrite mult_IZR. ring.
    + cbn [Fnum]. assert (m = 2 ^ 53 \/ m = - 2 ^ 53)%Z as [-> | ->] by lia; reflexivity.
    + cbn [Fexp]. lia.
  - apply generic_format_FLT. exists (Float radix2 m e); [reflexivity|change (Z.abs m < 2 ^ 53)%Z; lia|cbn [Fexp]; lia].
Qed.

Lemma add_up_exact (h : dbl) m e : is_finite h = true -> B2R h = IZR m * bpow radix2 e -> (0 < m)%Z -> (-1074 <= e <= 900)%Z ->
  forall k : nat, (Z.of_nat k * m <= 2 ^ 53)%Z ->
  is_finite (add_up h k (dint 0)) = true /\ B2R (add_up h k (dint 0)) = IZR (Z.of_nat k) * B2R h.
Proof.
  intros F V Hm He. induction k; intros Hk.
  - split; [reflexivity|]. cbn. lra.
  - rewrite add_up_S. destruct IHk as (A & B); [lia|].
    assert (E : B2R (add_up h k (dint 0)) + B2R h = IZR (Z.of_nat (S k) * m) * bpow radix2 e).
    { rewrite B, V, Nat2Z.inj_succ. unfold Z.succ. rewrite mult_IZR, plus_IZR. ring. }
    assert (RE : dround (B2R (add_up h k (dint 0)) + B2R h) = IZR (Z.of_nat (S k) * m) * bpow radix2 e).
    { rewrite E. apply round_generic; [apply valid_rnd_N|]. apply dyadic_format; lia. }
    destruct (plus_rounds (add_up h k (dint 0)) h A F) as (A' & B').
    + rewrite RE, Rabs_mult, (Rabs_pos_eq (bpow _ _)) by apply bpow_ge_0. rewrite <- abs_IZR.
      apply Rle_lt_trans with (IZR (2 ^ 53) * bpow radix2 900).
      * apply Rmult_le_compat; [apply IZR_le; lia|apply bpow_ge_0|apply IZR_le; lia|apply bpow_le; lia].
      * change (IZR (2 ^ 53)) with (bpow radix2 53). rewrite <- bpow_plus. apply bpow_lt. lia.
    + split; [exact A'|]. rewrite B', RE, mult_IZR, V. ring.
Qed.

Theorem C94_exact_time :
  forall (rk4 : bool) (dt : dbl) (m e : Z) (n : nat),
  is_finite dt = true -> B2R dt = IZR m * bpow radix2 e -> (0 < m)%Z -> (-1021 <= e <= 900)%Z ->
  (2 * Z.of_nat n * m <= 2 ^ 53)%Z ->
  B2R (clock rk4 dt n) = IZR (Z.of_nat n) * B2R dt.
Proof.
  intros rk4 dt m e n F V Hm He Hn.
  destruct (Nat.eq_dec n 0) as [->|N0].
  { unfold clock. destruct rk4; cbn; lra. }
  assert (M1 : 1 <= IZR m) by (apply IZR_le; lia).
  assert (Mb : (m <= 2 ^ 52)%Z) by nia.
  unfold clock. destruct rk4.
  - rewrite rk4_clock.
    assert (L1 : bpow radix2 (-1021) <= B2R dt).
    { rewrite V. apply Rle_trans with (1 * bpow radix2 e); [rewrite Rmult_1_l; apply bpow_le; lia|].
      apply Rmult_le_compat_r; [apply bpow_ge_0|exact M1]. }
    assert (L2 : B2R dt <= bpow radix2 1022).
    { rewrite V. apply Rle_trans with (IZR (2 ^ 52) * bpow radix2 900).
      - apply Rmult_le_compat; [lra|apply bpow_ge_0|apply IZR_le; lia|apply bpow_le; lia].
      - change (IZR (2 ^ 52)) with (bpow radix2 52). rewrite <- bpow_plus. apply bpow_le. lia. }
    destruct (half_exact dt F L1 L2) as (Fh & Vh).
    destruct (add_up_exact (ddiv dt (dint 2)) m (e - 1) Fh) with (k := (2 * n)%nat) as (_ & B); try lia.
    + rewrite Vh, V. replace (e - 1)%Z with (e + -1)%Z by lia. rewrite bpow_plus. change (bpow radix2 (-1)) with (/ 2). field.
    + rewrite B, Vh, Nat2Z.inj_mul, mult_IZR. change (IZR (Z.of_nat 2)) with 2. field.
  - rewrite fe_clock. apply (add_up_exact dt m e F V Hm); lia.
Qed.
Print Assumptions C94_exact_time.

(** The number of steps, whatever the two inputs are: n dt is at most one step
    short of the end time, up to rounding. *)
Lemma iterations_near (tf dt : dbl) n : is_finite tf = true -> 0 <= B2R tf -> 0 < B2R dt ->
  num_iterations tf dt = Ok n ->
  (0 <= n < 2 ^ 31)%Z /\ - / IZR (2 ^ 21) <= B2R tf / B2R dt - IZR n <= 1 + / IZR (2 ^ 21).
Proof.
  intros F T0 D0 H. unfold num_iterations in H.
  destruct (is_finite (ddiv tf dt)) eqn:FQ; [|discriminate H].
  assert (NZ : B2R dt <> 0) by lra.
  assert (V : B2R (ddiv tf dt) = dround (B2R tf / B2R dt)).
  { pose proof (@Bdiv_correct 53 1024 dprec dmax mode_NE tf dt NZ) as C.
    change (SpecFloat.fexp 53 1024) with (FLT_exp (3 - 1024 - 53) 53) in C. change (round_mode mode_NE) with ZnearestE in C.
    destruct (Rlt_bool_spec (Rabs (round radix2 (FLT_exp (3 - 1024 - 53) 53) ZnearestE (B2R tf / B2R dt))) (bpow radix2 1024)) as [L|L].
    - apply (proj1 C).
    - exfalso. change (Bdiv mode_NE tf dt) with (ddiv tf dt) in C. rewrite <- is_finite_SF_B2SF in FQ. rewrite C in FQ.
      destruct (xorb _ _) in FQ; discriminate FQ. }
  rewrite trunc_value, V in H. set (x := B2R tf / B2R dt) in *.
  assert (X0 : 0 <= x) by (unfold x; apply Rmult_le_pos; [lra|]; left; apply Rinv_0_lt_compat; lra).
  assert (Q0 : 0 <= dround x).
  { unfold dround. rewrite <- (round_0 radix2 (FLT_exp (3 - 1024 - 53) 53) ZnearestE). apply round_le; [apply FLT_exp_valid; exact dprec|apply valid_rnd_N|exact X0]. }
  rewrite (Ztrunc_floor _ Q0) in H.
  assert (FL0 : (0 <= Zfloor (dround x))%Z) by (apply Zfloor_lub; exact Q0).
  destruct (- 2 ^ 31 <=? Zfloor (dround x))%Z eqn:B1; [|discriminate H].
  destruct (Zfloor (dround x) <? 2 ^ 31)%Z eqn:B2; [|discriminate H].
  cbn [andb] in H. apply Z.ltb_lt in B2. rewrite Z.mod_small in H by lia. injection H as <-.
  split; [lia|].
  pose proof (Zfloor_lb (dround x)) as L1. pose proof (Zfloor_ub (dround x)) as L2.
  set (k := Zfloor (dround x)) in *.
  assert (K1 : IZR k <= 2147483647) by (apply IZR_le; lia).
  change (2 ^ 21)%Z with 2097152%Z.
  destruct (Rle_lt_dec (bpow radix2 (-1022)) x) as [C|C].
  - pose proof (round_rel x C) as RR. apply Rabs_le_inv in RR. rewrite half_ulp_val in RR.
    assert (x <= 2147483649) by lra. lra.
  - assert (B22 : bpow radix2 (-1022) <= / 2097152).
    { change (/ 2097152) with (bpow radix2 (-21)). apply bpow_le. lia. }
    assert (Q1 : dround x <= bpow radix2 (-1022)).
    { unfold dround. rewrite <- (round_generic radix2 (FLT_exp (3 - 1024 - 53) 53) ZnearestE (bpow radix2 (-1022))).
      - apply round_le; [apply FLT_exp_valid; exact dprec|apply valid_rnd_N|lra].
      - apply generic_format_bpow. unfold FLT_exp. lia. }
    assert (KZ : IZR k < 1) by lra. apply lt_IZR in KZ. assert (k = 0)%Z by lia. subst k. rewrite H in *. lra.
Qed.

Theorem C94_final_time :
  forall (rk4 : bool) (tfinal dt time : dbl),
  is_finite tfinal = true -> is_finite dt = true -> bpow radix2 (-1021) <= B2R dt ->
  0 <= B2R tfinal -> B2R tfinal + 2 * B2R dt <= bpow radix2 1022 ->
  B2R tfinal <= IZR (2 ^ 20) * B2R dt ->
  solve_clock rk4 tfinal dt = Ok time ->
  is_finite time = true /\
  - (/ 1000) * B2R dt <= B2R tfinal - B2R time <= (1 + / 1000) * B2R dt.
Proof.
  intros rk4 tf dt time Ft Fd D1 T0 TO TN H. unfold solve_clock in H.
  assert (P : 0 < bpow radix2 (-1021)) by apply bpow_gt_0.
  destruct (num_iterations tf dt) as [n|] eqn:EN; [|discriminate H]. injection H as H.
  assert (C : clock rk4 dt (Z.to_nat n) = time) by exact H. clear H.
  destruct (iterations_near tf dt n Ft T0 ltac:(lra) EN) as (Hn & Q).
  assert (D0 : 0 < B2R dt) by lra. set (x := B2R dt) in *. set (T := B2R tf) in *.
  assert (XT : T / x * x = T) by (field; lra). set (q := T / x) in *.
  assert (Q20 : q <= 1048576) by (apply Rmult_le_reg_r with x; [exact D0|]; rewrite XT; exact TN).
  change (2 ^ 21)%Z with 2097152%Z in Q. set (N := IZR n) in *.
  assert (N0 : 0 <= N) by (apply IZR_le; lia).
  assert (N1 : N <= 1048577) by lra.
  destruct (clock_near rk4 dt (Z.to_nat n) Fd D1 ltac:(rewrite Z2Nat.id; lia)) as (A & B).
  - rewrite Z2Nat.id by lia. fold N x. nra.
  - fold x. lra.
  - rewrite C in A, B. rewrite Z2Nat.id in B by lia. fold N x in B. split; [exact A|].
    change (2 ^ 52)%Z with 4503599627370496%Z in B.
    assert (E : N * / 4503599627370496 * (N * x) <= / 2000 * x).
    { replace (N * / 4503599627370496 * (N * x)) with ((N * N * / 4503599627370496) * x) by ring.
      apply Rmult_le_compat_r; [lra|].
      assert (N * N <= 1048577 * 1048577) by (apply Rmult_le_compat; lra). lra. }
    apply Rabs_le_inv in B.
    assert (- / 2097152 * x <= T - N * x <= (1 + / 2097152) * x) by (rewrite <- XT; split; nra).
    lra.
Qed.
Print Assumptions C94_final_time.

(** A tenth is not a double: ten steps of 0.1 end just before 1, with forward
    Euler, as the first two theorems allow and no better. *)
Example C94_demo :
  is_finite (tenths 1) = true /\ bpow radix2 (-1021) <= B2R (tenths 1) /\
  IZR (Z.of_nat 10 + 1) * B2R (tenths 1) <= bpow radix2 1022 /\
  num_iterations (dint 1) (tenths 1) = Ok 10%Z /\
  solve_clock false (dint 1) (tenths 1) = Ok (clock false (tenths 1) 10) /\
  B2R (clock false (tenths 1) 10) = 1 - / IZR (2 ^ 53).
Proof.
  assert (V : B2R (tenths 1) = 3602879701896397 / 36028797018963968).
  { cbn. unfold F2R. cbn. lra. }
  split; [reflexivity|]. split; [|split; [|split; [|split]]].
  - rewrite V. apply Rle_trans with (bpow radix2 (-4)); [apply bpow_le; lia|]. cbn. lra.
  - rewrite V. apply Rle_trans with (bpow radix2 4); [|apply bpow_le; lia]. cbn. lra.
  - reflexivity.
  - reflexivity.
  - rewrite <- SF2R_B2SF.
    replace (B2SF (clock false (tenths 1) 10)) with (SpecFloat.S754_finite false 9007199254740991 (-53)) by (vm_compute; reflexivity).
    cbn. unfold F2R. cbn. lra.
Qed.

(** Steps of 1/1024: exact, for both steppers. *)
Example C94_exact_demo : forall rk4,
  B2R (clock rk4 (ddiv (dint 1) (dint 1024)) 1024) = 1.
Proof.
  intros rk4. assert (V : B2R (ddiv (dint 1) (dint 1024)) = IZR 1 * bpow radix2 (-10)).
  { cbn. unfold F2R. cbn. lra. }
  rewrite (C94_exact_time rk4 (ddiv (dint 1) (dint 1024)) 1 (-10) 1024 eq_refl V); [|lia|lia|lia].
  rewrite V. cbn. lra.
Qed.
