(** Smooth.v -- rational functions of the coefficients are smooth along a curve (in the
    sense of [smooth_along], Converge.v), as long as the denominators stay away from
    zero.  Used by the concrete case of C105. *)
From Coq Require Import ZArith List Lia Reals Lra Psatz FunctionalExtensionality.
From Verif Require Import Base RBase DGSpec Converge.
Import ListNotations.
Local Open Scope R_scope.

Section Smooth.
Context (ok : Z -> Z -> Z -> Prop) (T : R) (Y : R -> arr3).

Definition comb (a : R) (v : arr3) (b : R) (w : arr3) : arr3 := fun e j k => a * v e j k + b * w e j k.
Definition plus3 (v w : arr3) : arr3 := fun e j k => v e j k + w e j k.
Definition tube (rho t : R) (u : arr3) : Prop := bounded_by ok (minus3 u (Y t)) rho.

Record sm (g : arr3 -> R) (A : R -> arr3 -> R) (B : R -> arr3 -> arr3 -> R) (K : R -> arr3 -> arr3 -> arr3 -> R) (M rho : R) : Prop := {
  s_M : 1 <= M; s_r : 0 < rho <= 1;
  s_A : forall t a v b w, A t (comb a v b w) = a * A t v + b * A t w;
  s_B : forall t a v b w x, B t (comb a v b w) x = a * B t v x + b * B t w x;
  s_sym : forall t v w, B t v w = B t w v;
  s_K1 : forall t a v b w x y, K t (comb a v b w) x y = a * K t v x y + b * K t w x y;
  s_K2 : forall t a v b w x y, K t x (comb a v b w) y = a * K t x v y + b * K t x w y;
  s_K3 : forall t a v b w x y, K t x y (comb a v b w) = a * K t x y v + b * K t x y w;
  s_g : forall t, 0 <= t <= T -> Rabs (g (Y t)) <= M;
  s_bA : forall t v a, 0 <= t <= T -> 0 <= a -> bounded_by ok v a -> Rabs (A t v) <= M * a;
  s_bB : forall t v w a b, 0 <= t <= T -> 0 <= a -> 0 <= b -> bounded_by ok v a -> bounded_by ok w b -> Rabs (B t v w) <= M * (a * b);
  s_bK : forall t v w x a b c, 0 <= t <= T -> 0 <= a -> 0 <= b -> 0 <= c -> bounded_by ok v a -> bounded_by ok w b -> bounded_by ok x c -> Rabs (K t v w x) <= M * (a * b * c);
  s_lip : forall t u v b, 0 <= t <= T -> 0 <= b -> tube rho t u -> tube rho t v -> bounded_by ok (minus3 u v) b -> Rabs (g u - g v) <= M * b;
  s_T : forall t v b, 0 <= t <= T -> 0 <= b <= rho -> bounded_by ok v b ->
    Rabs (g (plus3 (Y t) v) - (g (Y t) + A t v + B t v v / 2 + K t v v v / 6)) <= M * b ^ 4 }.
Definition smooth (g : arr3 -> R) (rho : R) : Prop := exists A B K M, sm g A B K M rho.

Lemma ab x y : Rabs x <= y <-> - y <= x <= y.
Proof. unfold Rabs. destruct (Rcase_abs x); lra. Qed.
Lemma ab_mul x y a b : Rabs x <= a -> Rabs y <= b -> Rabs (x * y) <= a * b.
Proof. intros H H'. rewrite Rabs_mult. pose proof (Rabs_pos x). pose proof (Rabs_pos y). apply Rmult_le_compat; lra. Qed.
Lemma ab_add x y a b : Rabs x <= a -> Rabs y <= b -> Rabs (x + y) <= a + b.
Proof. intros H H'. eapply Rle_trans; [apply Rabs_triang|]. lra. Qed.
Lemma ab_scale c x a : Rabs x <= a -> Rabs (c * x) <= Rabs c * a.
Proof. intros H. rewrite Rabs_mult. apply Rmult_le_compat_l; [apply Rabs_pos|exact H]. Qed.

Lemma sm_more g A B K M rho M' rho' : sm g A B K M rho -> M <= M' -> 0 < rho' <= rho -> sm g A B K M' rho'.
Proof.
  intros S HM Hr. pose proof (s_M _ _ _ _ _ _ S). pose proof (s_r _ _ _ _ _ _ S).
  assert (X : forall x y, 0 <= y -> Rabs x <= M * y -> Rabs x <= M' * y) by (intros x y Hy Hx; apply (Rle_trans _ _ _ Hx); now apply Rmult_le_compat_r).
  constructor; try lra; try apply S.
  - intros t Ht. pose proof (s_g _ _ _ _ _ _ S t Ht). lra.
  - intros t v a Ht Ha Hv. apply X; [exact Ha|]. now apply (s_bA _ _ _ _ _ _ S).
  - intros. apply X; [now apply Rmult_le_pos|]. now apply (s_bB _ _ _ _ _ _ S).
  - intros. apply X; [repeat apply Rmult_le_pos; assumption|]. now apply (s_bK _ _ _ _ _ _ S).
  - intros t u v b Ht Hb Hu Hv H1. apply X; [exact Hb|]. apply (s_lip _ _ _ _ _ _ S t); auto; intros e j k Ok; (eapply Rle_trans; [now apply Hu || now apply Hv|lra]).
  - intros t v b Ht Hb Hv. apply X; [apply pow_le; lra|]. apply (s_T _ _ _ _ _ _ S); auto. lra.
Qed.

Lemma smooth_const c rho : 0 < rho <= 1 -> smooth (fun _ => c) rho.
Proof.
  intros Hr. exists (fun _ _ => 0), (fun _ _ _ => 0), (fun _ _ _ _ => 0), (Rabs c + 1). pose proof (Rabs_pos c).
  constructor; intros; try lra; try (match goal with |- Rabs ?x <= _ => replace x with 0 by field; rewrite Rabs_R0 end;
    apply Rmult_le_pos; [lra|]; repeat apply Rmult_le_pos; try lra; apply pow_le; lra).
Qed.

Lemma smooth_entry e j k rho M : 0 < rho <= 1 -> ok e j k -> (forall t, 0 <= t <= T -> Rabs (Y t e j k) <= M) -> smooth (fun c => c e j k) rho.
Proof.
  intros Hr Ok HM. exists (fun _ v => v e j k), (fun _ _ _ => 0), (fun _ _ _ _ => 0), (Rmax M 1). pose proof (Rmax_l M 1). pose proof (Rmax_r M 1).
  assert (X : forall y, 0 <= y -> y <= Rmax M 1 * y) by (intros y Hy; nra).
  constructor; intros; try lra; try reflexivity.
  - specialize (HM t H1). lra.
  - eapply Rle_trans; [now apply H3|]. now apply X.
  - rewrite Rabs_R0. apply Rmult_le_pos; [lra|]. now apply Rmult_le_pos.
  - rewrite Rabs_R0. apply Rmult_le_pos; [lra|]. repeat apply Rmult_le_pos; assumption.
  - eapply Rle_trans; [apply (H5 e j k Ok)|]. now apply X.
  - unfold plus3. match goal with |- Rabs ?x <= _ => replace x with 0 by field; rewrite Rabs_R0 end. apply Rmult_le_pos; [lra|]. apply pow_le; lra.
Qed.

Lemma smooth_add g h rho : smooth g rho -> smooth h rho -> smooth (fun c => g c + h c) rho.
Proof.
  intros (A & B & K & M & S) (A' & B' & K' & M' & S').
  exists (fun t v => A t v + A' t v), (fun t v w => B t v w + B' t v w), (fun t v w x => K t v w x + K' t v w x), (M + M').
  pose proof (s_M _ _ _ _ _ _ S). pose proof (s_M _ _ _ _ _ _ S'). pose proof (s_r _ _ _ _ _ _ S).
  constructor; try lra; intros; rewrite ?Rmult_plus_distr_r.
  - rewrite (s_A _ _ _ _ _ _ S), (s_A _ _ _ _ _ _ S'). ring.
  - rewrite (s_B _ _ _ _ _ _ S), (s_B _ _ _ _ _ _ S'). ring.
  - rewrite (s_sym _ _ _ _ _ _ S), (s_sym _ _ _ _ _ _ S'). ring.
  - rewrite (s_K1 _ _ _ _ _ _ S), (s_K1 _ _ _ _ _ _ S'). ring.
  - rewrite (s_K2 _ _ _ _ _ _ S), (s_K2 _ _ _ _ _ _ S'). ring.
  - rewrite (s_K3 _ _ _ _ _ _ S), (s_K3 _ _ _ _ _ _ S'). ring.
  - apply ab_add; [now apply (s_g _ _ _ _ _ _ S)|now apply (s_g _ _ _ _ _ _ S')].
  - apply ab_add; [now apply (s_bA _ _ _ _ _ _ S)|now apply (s_bA _ _ _ _ _ _ S')].
  - apply ab_add; [now apply (s_bB _ _ _ _ _ _ S)|now apply (s_bB _ _ _ _ _ _ S')].
  - apply ab_add; [now apply (s_bK _ _ _ _ _ _ S)|now apply (s_bK _ _ _ _ _ _ S')].
  - replace (g u + h u - (g v + h v)) with ((g u - g v) + (h u - h v)) by ring. apply ab_add; [now apply (s_lip _ _ _ _ _ _ S t)|now apply (s_lip _ _ _ _ _ _ S' t)].
  - match goal with |- Rabs ?x <= _ => replace x with ((g (plus3 (Y t) v) - (g (Y t) + A t v + B t v v / 2 + K t v v v / 6)) + (h (plus3 (Y t) v) - (h (Y t) + A' t v + B' t v v / 2 + K' t v v v / 6))) by field end.
    apply ab_add; [now apply (s_T _ _ _ _ _ _ S)|now apply (s_T _ _ _ _ _ _ S')].
Qed.

(** The terms of fourth and higher order in the product of two cubic polynomials. *)
Definition rest (a b k a' b' k' : R) : R := (a * k' / 6 + b * b' / 4 + k * a' / 6) + (b * k' + k * b') / 12 + k * k' / 36.
Lemma rest_bound M M' d a b k a' b' k' : 0 <= M -> 0 <= M' -> 0 <= d <= 1 -> Rabs a <= M * d -> Rabs b <= M * (d * d) -> Rabs k <= M * (d * d * d) ->
  Rabs a' <= M' * d -> Rabs b' <= M' * (d * d) -> Rabs k' <= M' * (d * d * d) -> Rabs (rest a b k a' b' k') <= M * M' * d ^ 4.
Proof.
  intros HM HM' Hd Ha Hb Hk Ha' Hb' Hk'.
  pose proof (ab_mul _ _ _ _ Ha Hk') as X1. pose proof (ab_mul _ _ _ _ Hb Hb') as X2. pose proof (ab_mul _ _ _ _ Hk Ha') as X3.
  pose proof (ab_mul _ _ _ _ Hb Hk') as X4. pose proof (ab_mul _ _ _ _ Hk Hb') as X5. pose proof (ab_mul _ _ _ _ Hk Hk') as X6.
  set (m := M * M' * d ^ 4). assert (Hm : 0 <= m) by (unfold m; apply Rmult_le_pos; [now apply Rmult_le_pos|apply pow_le; lra]).
  replace (M * d * (M' * (d * d * d))) with m in X1 by (unfold m; ring). replace (M * (d * d) * (M' * (d * d))) with m in X2 by (unfold m; ring).
  replace (M * (d * d * d) * (M' * d)) with m in X3 by (unfold m; ring).
  assert (D5 : m * d <= m) by nra. assert (D6 : m * d * d <= m) by (assert (0 <= m * d) by (apply Rmult_le_pos; lra); nra).
  replace (M * (d * d) * (M' * (d * d * d))) with (m * d) in X4 by (unfold m; ring). replace (M * (d * d * d) * (M' * (d * d))) with (m * d) in X5 by (unfold m; ring).
  replace (M * (d * d * d) * (M' * (d * d * d))) with (m * d * d) in X6 by (unfold m; ring).
  apply ab in X1, X2, X3, X4, X5, X6. apply ab. unfold rest. lra.
Qed.

Lemma cubic_bound M d a b k g0 : 0 <= M -> 0 <= d <= 1 -> Rabs g0 <= M -> Rabs a <= M * d -> Rabs b <= M * (d * d) -> Rabs k <= M * (d * d * d) -> Rabs (g0 + a + b / 2 + k / 6) <= 3 * M.
Proof.
  intros HM Hd H0 Ha Hb Hk. assert (D1 : M * d <= M) by nra. assert (D2 : M * (d * d) <= M) by nra. assert (D3 : M * (d * d * d) <= M) by (assert (0 <= M * (d * d)) by nra; nra).
  apply ab in H0, Ha, Hb, Hk. apply ab. lra.
Qed.

Lemma tube_here rho t : 0 <= rho -> tube rho t (Y t).
Proof. intros Hr e j k Ok. unfold minus3. rewrite Rminus_diag_eq, Rabs_R0 by reflexivity. exact Hr. Qed.
Lemma tube_plus rho t v b : bounded_by ok v b -> b <= rho -> tube rho t (plus3 (Y t) v).
Proof. intros Hv Hb e j k Ok. replace (minus3 (plus3 (Y t) v) (Y t) e j k) with (v e j k) by (unfold minus3, plus3; ring). specialize (Hv e j k Ok). lra. Qed.

(** Values in the tube. *)
Lemma sm_value g A B K M rho t u : sm g A B K M rho -> 0 <= t <= T -> tube rho t u -> Rabs (g u) <= 2 * M.
Proof.
  intros S Ht Hu. pose proof (s_M _ _ _ _ _ _ S). pose proof (s_r _ _ _ _ _ _ S). pose proof (s_g _ _ _ _ _ _ S t Ht) as X.
  pose proof (s_lip _ _ _ _ _ _ S t u (Y t) rho Ht ltac:(lra) Hu (tube_here rho t ltac:(lra)) Hu) as Z. assert (M * rho <= M) by nra.
  apply ab in X, Z. apply ab. lra.
Qed.

Lemma smooth_mul g h rho : smooth g rho -> smooth h rho -> smooth (fun c => g c * h c) rho.
Proof.
  intros (A & B & K & M1 & S1) (A' & B' & K' & M2 & S2'). set (M := Rmax M1 M2).
  pose proof (s_r _ _ _ _ _ _ S1) as Hr.
  assert (S : sm g A B K M rho) by (apply (sm_more _ _ _ _ M1 rho); [exact S1|apply Rmax_l|lra]).
  assert (S' : sm h A' B' K' M rho) by (apply (sm_more _ _ _ _ M2 rho); [exact S2'|apply Rmax_r|lra]). clear S1 S2'. clearbody M.
  pose proof (s_M _ _ _ _ _ _ S) as HM.
  exists (fun t v => g (Y t) * A' t v + h (Y t) * A t v),
    (fun t v w => g (Y t) * B' t v w + A t v * A' t w + A t w * A' t v + h (Y t) * B t v w),
    (fun t v w x => g (Y t) * K' t v w x + 3 * (A t v * B' t w x) + 3 * (B t v w * A' t x) + h (Y t) * K t v w x), (8 * (M * M)).
  assert (MM : 1 <= M * M) by nra.
  constructor; intros.
  - lra.
  - lra.
  - rewrite (s_A _ _ _ _ _ _ S), (s_A _ _ _ _ _ _ S'). ring.
  - rewrite (s_A _ _ _ _ _ _ S), (s_A _ _ _ _ _ _ S'), (s_B _ _ _ _ _ _ S), (s_B _ _ _ _ _ _ S'). ring.
  - rewrite (s_sym _ _ _ _ _ _ S t v w), (s_sym _ _ _ _ _ _ S' t v w). ring.
  - rewrite (s_A _ _ _ _ _ _ S), (s_B _ _ _ _ _ _ S), (s_K1 _ _ _ _ _ _ S), (s_K1 _ _ _ _ _ _ S'). ring.
  - rewrite (s_sym _ _ _ _ _ _ S t x (comb a v b w)), (s_B _ _ _ _ _ _ S), (s_B _ _ _ _ _ _ S'), (s_K2 _ _ _ _ _ _ S), (s_K2 _ _ _ _ _ _ S'), (s_sym _ _ _ _ _ _ S t v x), (s_sym _ _ _ _ _ _ S t w x). ring.
  - rewrite (s_sym _ _ _ _ _ _ S' t y (comb a v b w)), (s_B _ _ _ _ _ _ S'), (s_A _ _ _ _ _ _ S'), (s_K3 _ _ _ _ _ _ S), (s_K3 _ _ _ _ _ _ S'), (s_sym _ _ _ _ _ _ S' t v y), (s_sym _ _ _ _ _ _ S' t w y). ring.
  - pose proof (ab_mul _ _ _ _ (s_g _ _ _ _ _ _ S t H) (s_g _ _ _ _ _ _ S' t H)). lra.
  - pose proof (ab_mul _ _ _ _ (s_g _ _ _ _ _ _ S t H) (s_bA _ _ _ _ _ _ S' t v a H H0 H1)) as X1.
    pose proof (ab_mul _ _ _ _ (s_g _ _ _ _ _ _ S' t H) (s_bA _ _ _ _ _ _ S t v a H H0 H1)) as X2.
    assert (0 <= M * M * a) by (apply Rmult_le_pos; lra). apply ab in X1, X2. apply ab. lra.
  - pose proof (ab_mul _ _ _ _ (s_g _ _ _ _ _ _ S t H) (s_bB _ _ _ _ _ _ S' t v w a b H H0 H1 H2 H3)) as X1.
    pose proof (ab_mul _ _ _ _ (s_g _ _ _ _ _ _ S' t H) (s_bB _ _ _ _ _ _ S t v w a b H H0 H1 H2 H3)) as X2.
    pose proof (ab_mul _ _ _ _ (s_bA _ _ _ _ _ _ S t v a H H0 H2) (s_bA _ _ _ _ _ _ S' t w b H H1 H3)) as X3.
    pose proof (ab_mul _ _ _ _ (s_bA _ _ _ _ _ _ S t w b H H1 H3) (s_bA _ _ _ _ _ _ S' t v a H H0 H2)) as X4.
    set (m := M * M * (a * b)). assert (0 <= m) by (unfold m; repeat apply Rmult_le_pos; lra).
    replace (M * (M * (a * b))) with m in * by (unfold m; ring). replace (M * a * (M * b)) with m in X3 by (unfold m; ring). replace (M * b * (M * a)) with m in X4 by (unfold m; ring).
    replace (8 * (M * M) * (a * b)) with (8 * m) by (unfold m; ring). apply ab in X1, X2, X3, X4. apply ab. lra.
  - pose proof (ab_mul _ _ _ _ (s_g _ _ _ _ _ _ S t H) (s_bK _ _ _ _ _ _ S' t v w x a b c H H0 H1 H2 H3 H4 H5)) as X1.
    pose proof (ab_mul _ _ _ _ (s_g _ _ _ _ _ _ S' t H) (s_bK _ _ _ _ _ _ S t v w x a b c H H0 H1 H2 H3 H4 H5)) as X2.
    pose proof (ab_mul _ _ _ _ (s_bA _ _ _ _ _ _ S t v a H H0 H3) (s_bB _ _ _ _ _ _ S' t w x b c H H1 H2 H4 H5)) as X3.
    pose proof (ab_mul _ _ _ _ (s_bB _ _ _ _ _ _ S t v w a b H H0 H1 H3 H4) (s_bA _ _ _ _ _ _ S' t x c H H2 H5)) as X4.
    set (m := M * M * (a * b * c)). assert (0 <= m) by (unfold m; repeat apply Rmult_le_pos; lra).
    replace (M * (M * (a * b * c))) with m in * by (unfold m; ring). replace (M * a * (M * (b * c))) with m in X3 by (unfold m; ring). replace (M * (a * b) * (M * c)) with m in X4 by (unfold m; ring).
    replace (8 * (M * M) * (a * b * c)) with (8 * m) by (unfold m; ring). apply ab in X1, X2, X3, X4. apply ab. lra.
  - replace (g u * h u - g v * h v) with (g u * (h u - h v) + h v * (g u - g v)) by ring.
    pose proof (ab_mul _ _ _ _ (sm_value _ _ _ _ _ _ t u S H H1) (s_lip _ _ _ _ _ _ S' t u v b H H0 H1 H2 H3)) as X1.
    pose proof (ab_mul _ _ _ _ (sm_value _ _ _ _ _ _ t v S' H H2) (s_lip _ _ _ _ _ _ S t u v b H H0 H1 H2 H3)) as X2.
    assert (0 <= M * M * b) by (apply Rmult_le_pos; lra). apply ab in X1, X2. apply ab. lra.
  - assert (Hb : 0 <= b <= 1) by lra. assert (HM0 : 0 <= M) by lra.
    pose proof (s_T _ _ _ _ _ _ S t v b H H0 H1) as R1. pose proof (s_T _ _ _ _ _ _ S' t v b H H0 H1) as R2.
    pose proof (s_bA _ _ _ _ _ _ S t v b H ltac:(lra) H1) as Y1. pose proof (s_bB _ _ _ _ _ _ S t v v b b H ltac:(lra) ltac:(lra) H1 H1) as Y2. pose proof (s_bK _ _ _ _ _ _ S t v v v b b b H ltac:(lra) ltac:(lra) ltac:(lra) H1 H1 H1) as Y3.
    pose proof (s_bA _ _ _ _ _ _ S' t v b H ltac:(lra) H1) as Z1. pose proof (s_bB _ _ _ _ _ _ S' t v v b b H ltac:(lra) ltac:(lra) H1 H1) as Z2. pose proof (s_bK _ _ _ _ _ _ S' t v v v b b b H ltac:(lra) ltac:(lra) ltac:(lra) H1 H1 H1) as Z3.
    pose proof (rest_bound M M b _ _ _ _ _ _ HM0 HM0 Hb Y1 Y2 Y3 Z1 Z2 Z3) as X1.
    pose proof (cubic_bound M b _ _ _ _ HM0 Hb (s_g _ _ _ _ _ _ S' t H) Z1 Z2 Z3) as X2.
    pose proof (ab_mul _ _ _ _ R1 X2) as X3.
    pose proof (ab_mul _ _ _ _ (sm_value _ _ _ _ _ _ t _ S H (tube_plus rho t v b H1 ltac:(lra))) R2) as X4.
    match goal with |- Rabs ?x <= _ => replace x with (rest (A t v) (B t v v) (K t v v v) (A' t v) (B' t v v) (K' t v v v) +
      (g (plus3 (Y t) v) - (g (Y t) + A t v + B t v v / 2 + K t v v v / 6)) * (h (Y t) + A' t v + B' t v v / 2 + K' t v v v / 6) +
      g (plus3 (Y t) v) * (h (plus3 (Y t) v) - (h (Y t) + A' t v + B' t v v / 2 + K' t v v v / 6))) by (unfold rest; field) end.
    assert (0 <= M * M * b ^ 4) by (apply Rmult_le_pos; [lra|apply pow_le; lra]). apply ab in X1, X3, X4. apply ab. lra.
Qed.

Lemma smooth_inv g rho d : 0 < d -> smooth g rho -> (forall t u, 0 <= t <= T -> tube rho t u -> d <= g u) -> smooth (fun c => / g c) rho.
Proof.
  intros Hd (A & B & K & M & S) HG. pose proof (s_M _ _ _ _ _ _ S) as HM. pose proof (s_r _ _ _ _ _ _ S) as Hr.
  set (D := Rmax (/ d) 1). assert (HD : 1 <= D) by apply Rmax_r.
  assert (HI : forall t u, 0 <= t <= T -> tube rho t u -> 0 < g u /\ Rabs (/ g u) <= D).
  { intros t u Ht Hu. specialize (HG t u Ht Hu). split; [lra|]. rewrite Rabs_pos_eq by (left; apply Rinv_0_lt_compat; lra).
    apply Rle_trans with (/ d); [|apply Rmax_l]. now apply Rinv_le_contravar. }
  set (i := fun t => / g (Y t)).
  assert (Hi : forall t, 0 <= t <= T -> Rabs (i t) <= D /\ g (Y t) * i t = 1).
  { intros t Ht. destruct (HI t (Y t) Ht (tube_here rho t ltac:(lra))) as (P & Q). split; [exact Q|]. unfold i. field. lra. }
  set (A' := fun t v => - (i t * i t * A t v)).
  set (B' := fun t v w => - (i t * i t * B t v w) + 2 * (i t * i t * i t * (A t v * A t w))).
  set (K' := fun t v w x => - (i t * i t * K t v w x) + 2 * (i t * i t * i t * (A t v * B t w x + A t w * B t v x + A t x * B t v w)) - 6 * (i t * i t * i t * i t * (A t v * A t w * A t x))).
  set (Q := D * D * D * D * (M * M * M)).
  assert (D2 : 1 <= D * D) by nra. assert (D3 : 1 <= D * D * D) by nra. assert (D4 : 1 <= D * D * D * D) by nra. assert (M2 : 1 <= M * M) by nra. assert (M3 : 1 <= M * M * M) by nra.
  assert (L2 : D * D <= D * D * D * D) by nra. assert (L3 : D * D * D <= D * D * D * D) by nra. assert (N1 : M <= M * M * M) by nra. assert (N2 : M * M <= M * M * M) by nra.
  assert (Q1 : D * D * M <= Q) by (unfold Q; apply Rmult_le_compat; nra). assert (Q2 : D * D * D * (M * M) <= Q) by (unfold Q; apply Rmult_le_compat; nra).
  assert (Q0 : 1 <= Q) by nra.
  assert (DQ : D <= Q).
  { apply Rle_trans with (D * D * D * D); [nra|]. unfold Q. rewrite <- (Rmult_1_r (D * D * D * D)) at 1. apply Rmult_le_compat_l; lra. }
  assert (BA : forall t v a, 0 <= t <= T -> 0 <= a -> bounded_by ok v a -> Rabs (A' t v) <= Q * a).
  { intros t v a Ht Ha Hv. unfold A'. rewrite Rabs_Ropp. pose proof (proj1 (Hi t Ht)) as X. pose proof (ab_mul _ _ _ _ (ab_mul _ _ _ _ X X) (s_bA _ _ _ _ _ _ S t v a Ht Ha Hv)) as X1.
    apply (Rle_trans _ _ _ X1). rewrite <- Rmult_assoc. now apply Rmult_le_compat_r. }
  assert (BB : forall t v w a b, 0 <= t <= T -> 0 <= a -> 0 <= b -> bounded_by ok v a -> bounded_by ok w b -> Rabs (B' t v w) <= 3 * Q * (a * b)).
  { intros t v w a b Ht Ha Hb Hv Hw. unfold B'. pose proof (proj1 (Hi t Ht)) as X.
    pose proof (ab_mul _ _ _ _ (ab_mul _ _ _ _ X X) (s_bB _ _ _ _ _ _ S t v w a b Ht Ha Hb Hv Hw)) as X1.
    pose proof (ab_mul _ _ _ _ (ab_mul _ _ _ _ (ab_mul _ _ _ _ X X) X) (ab_mul _ _ _ _ (s_bA _ _ _ _ _ _ S t v a Ht Ha Hv) (s_bA _ _ _ _ _ _ S t w b Ht Hb Hw))) as X2.
    assert (AB : 0 <= a * b) by (now apply Rmult_le_pos). pose proof (Rmult_le_compat_r _ _ _ AB Q1). pose proof (Rmult_le_compat_r _ _ _ AB Q2).
    replace (D * D * (M * (a * b))) with (D * D * M * (a * b)) in X1 by ring. replace (D * D * D * (M * a * (M * b))) with (D * D * D * (M * M) * (a * b)) in X2 by ring.
    apply ab in X1, X2. apply ab. lra. }
  assert (BK : forall t v w x a b c, 0 <= t <= T -> 0 <= a -> 0 <= b -> 0 <= c -> bounded_by ok v a -> bounded_by ok w b -> bounded_by ok x c -> Rabs (K' t v w x) <= 13 * Q * (a * b * c)).
  { intros t v w x a b c Ht Ha Hb Hc Hv Hw Hx. unfold K'. pose proof (proj1 (Hi t Ht)) as X.
    pose proof (s_bA _ _ _ _ _ _ S t v a Ht Ha Hv) as Av. pose proof (s_bA _ _ _ _ _ _ S t w b Ht Hb Hw) as Aw. pose proof (s_bA _ _ _ _ _ _ S t x c Ht Hc Hx) as Ax.
    pose proof (s_bB _ _ _ _ _ _ S t w x b c Ht Hb Hc Hw Hx) as Bwx. pose proof (s_bB _ _ _ _ _ _ S t v x a c Ht Ha Hc Hv Hx) as Bvx. pose proof (s_bB _ _ _ _ _ _ S t v w a b Ht Ha Hb Hv Hw) as Bvw.
    pose proof (ab_mul _ _ _ _ (ab_mul _ _ _ _ X X) (s_bK _ _ _ _ _ _ S t v w x a b c Ht Ha Hb Hc Hv Hw Hx)) as X1.
    pose proof (ab_mul _ _ _ _ (ab_mul _ _ _ _ (ab_mul _ _ _ _ X X) X) (ab_add _ _ _ _ (ab_add _ _ _ _ (ab_mul _ _ _ _ Av Bwx) (ab_mul _ _ _ _ Aw Bvx)) (ab_mul _ _ _ _ Ax Bvw))) as X2.
    pose proof (ab_mul _ _ _ _ (ab_mul _ _ _ _ (ab_mul _ _ _ _ (ab_mul _ _ _ _ X X) X) X) (ab_mul _ _ _ _ (ab_mul _ _ _ _ Av Aw) Ax)) as X3.
    assert (AB : 0 <= a * b * c) by (repeat apply Rmult_le_pos; assumption). pose proof (Rmult_le_compat_r _ _ _ AB Q1). pose proof (Rmult_le_compat_r _ _ _ AB Q2).
    replace (D * D * (M * (a * b * c))) with (D * D * M * (a * b * c)) in X1 by ring.
    replace (D * D * D * (M * a * (M * (b * c)) + M * b * (M * (a * c)) + M * c * (M * (a * b)))) with (3 * (D * D * D * (M * M) * (a * b * c))) in X2 by ring.
    replace (D * D * D * D * (M * a * (M * b) * (M * c))) with (Q * (a * b * c)) in X3 by (unfold Q; ring).
    apply ab in X1, X2, X3. apply ab. lra. }
  exists A', B', K', (160 * (D * M * Q)).
  assert (DMQ : Q <= D * M * Q) by (assert (1 <= D * M) by nra; nra).
  assert (Q160 : Q <= 160 * (D * M * Q) /\ 3 * Q <= 160 * (D * M * Q) /\ 13 * Q <= 160 * (D * M * Q) /\ D <= 160 * (D * M * Q) /\ D * D * M <= 160 * (D * M * Q) /\ 52 * (D * M * Q) <= 160 * (D * M * Q)) by (repeat split; lra).
  constructor.
  - lra.
  - exact Hr.
  - intros. unfold A'. rewrite (s_A _ _ _ _ _ _ S). ring.
  - intros. unfold B'. rewrite (s_A _ _ _ _ _ _ S), (s_B _ _ _ _ _ _ S). ring.
  - intros. unfold B'. rewrite (s_sym _ _ _ _ _ _ S t v w). ring.
  - intros. unfold K'. rewrite (s_A _ _ _ _ _ _ S), !(s_B _ _ _ _ _ _ S), (s_K1 _ _ _ _ _ _ S). ring.
  - intros. unfold K'. rewrite (s_A _ _ _ _ _ _ S), (s_sym _ _ _ _ _ _ S t x (comb a v b w)), !(s_B _ _ _ _ _ _ S), (s_K2 _ _ _ _ _ _ S), (s_sym _ _ _ _ _ _ S t x v), (s_sym _ _ _ _ _ _ S t x w). ring.
  - intros. unfold K'. rewrite (s_A _ _ _ _ _ _ S), (s_sym _ _ _ _ _ _ S t x (comb a v b w)), (s_sym _ _ _ _ _ _ S t y (comb a v b w)), !(s_B _ _ _ _ _ _ S), (s_K3 _ _ _ _ _ _ S),
      (s_sym _ _ _ _ _ _ S t x v), (s_sym _ _ _ _ _ _ S t x w), (s_sym _ _ _ _ _ _ S t y v), (s_sym _ _ _ _ _ _ S t y w). ring.
  - intros t Ht. apply Rle_trans with D; [apply Hi; exact Ht|]. lra.
  - intros t v a Ht Ha Hv. eapply Rle_trans; [exact (BA t v a Ht Ha Hv)|]. apply Rmult_le_compat_r; lra.
  - intros t v w a b Ht Ha Hb Hv Hw. eapply Rle_trans; [exact (BB t v w a b Ht Ha Hb Hv Hw)|]. apply Rmult_le_compat_r; [now apply Rmult_le_pos|]. lra.
  - intros t v w x a b c Ht Ha Hb Hc Hv Hw Hx. eapply Rle_trans; [exact (BK t v w x a b c Ht Ha Hb Hc Hv Hw Hx)|]. apply Rmult_le_compat_r; [repeat apply Rmult_le_pos; assumption|]. lra.
  - intros t u v b Ht Hb Hu Hv Huv. destruct (HI t u Ht Hu) as (Pu & Iu). destruct (HI t v Ht Hv) as (Pv & Iv).
    replace (/ g u - / g v) with (/ g u * / g v * - (g u - g v)) by (field; lra). pose proof (s_lip _ _ _ _ _ _ S t u v b Ht Hb Hu Hv Huv) as L. rewrite <- Rabs_Ropp in L.
    pose proof (ab_mul _ _ _ _ (ab_mul _ _ _ _ Iu Iv) L) as X. apply (Rle_trans _ _ _ X). replace (D * D * (M * b)) with (D * D * M * b) by ring. apply Rmult_le_compat_r; [exact Hb|]. lra.
  - intros t v b Ht Hb Hv. assert (Hb1 : 0 <= b <= 1) by lra. pose proof (tube_plus rho t v b Hv ltac:(lra)) as TV. destruct (HI t _ Ht TV) as (Pu & Iu). destruct (Hi t Ht) as (Ii & E1).
    pose proof (s_T _ _ _ _ _ _ S t v b Ht Hb Hv) as R1.
    pose proof (s_bA _ _ _ _ _ _ S t v b Ht ltac:(lra) Hv) as Y1. pose proof (s_bB _ _ _ _ _ _ S t v v b b Ht ltac:(lra) ltac:(lra) Hv Hv) as Y2. pose proof (s_bK _ _ _ _ _ _ S t v v v b b b Ht ltac:(lra) ltac:(lra) ltac:(lra) Hv Hv Hv) as Y3.
    assert (W : forall x y, 0 <= y -> Rabs x <= Q * y -> Rabs x <= 13 * Q * y) by (intros x y Hy Hx; assert (0 <= Q * y) by (apply Rmult_le_pos; lra); lra).
    assert (W3' : forall x y, 0 <= y -> Rabs x <= 3 * Q * y -> Rabs x <= 13 * Q * y) by (intros x y Hy Hx; assert (0 <= Q * y) by (apply Rmult_le_pos; lra); lra).
    assert (B2 : 0 <= b * b) by (apply Rmult_le_pos; lra).
    pose proof (W _ b (proj1 Hb1) (BA t v b Ht (proj1 Hb1) Hv)) as Z1. pose proof (W3' _ _ B2 (BB t v v b b Ht (proj1 Hb1) (proj1 Hb1) Hv Hv)) as Z2. pose proof (BK t v v v b b b Ht ltac:(lra) ltac:(lra) ltac:(lra) Hv Hv Hv) as Z3.
    assert (HM0 : 0 <= M) by lra. assert (HQ0 : 0 <= 13 * Q) by lra.
    pose proof (rest_bound M (13 * Q) b _ _ _ _ _ _ HM0 HQ0 Hb1 Y1 Y2 Y3 Z1 Z2 Z3) as X1.
    assert (I13 : Rabs (i t) <= 13 * Q) by lra.
    pose proof (cubic_bound (13 * Q) b _ _ _ _ HQ0 Hb1 I13 Z1 Z2 Z3) as X2.
    pose proof (ab_mul _ _ _ _ R1 X2) as X3. pose proof (ab_mul _ _ _ _ Iu (ab_add _ _ _ _ X1 X3)) as X4.
    set (P := i t + A' t v + B' t v v / 2 + K' t v v v / 6) in *.
    assert (E : / g (plus3 (Y t) v) - (/ g (Y t) + A' t v + B' t v v / 2 + K' t v v v / 6) =
      - (/ g (plus3 (Y t) v) * (rest (A t v) (B t v v) (K t v v v) (A' t v) (B' t v v) (K' t v v v) + (g (plus3 (Y t) v) - (g (Y t) + A t v + B t v v / 2 + K t v v v / 6)) * P))).
    { change (/ g (Y t)) with (i t). change (i t + A' t v + B' t v v / 2 + K' t v v v / 6) with P.
      assert (E2 : (g (Y t) + A t v + B t v v / 2 + K t v v v / 6) * P = 1 + rest (A t v) (B t v v) (K t v v v) (A' t v) (B' t v v) (K' t v v v)).
      { assert (E3 : forall g0 i0 a b k, g0 * i0 = 1 -> (g0 + a + b / 2 + k / 6) * (i0 + - (i0 * i0 * a) + (- (i0 * i0 * b) + 2 * (i0 * i0 * i0 * (a * a))) / 2 + (- (i0 * i0 * k) + 2 * (i0 * i0 * i0 * (a * b + a * b + a * b)) - 6 * (i0 * i0 * i0 * i0 * (a * a * a))) / 6) =
            1 + rest a b k (- (i0 * i0 * a)) (- (i0 * i0 * b) + 2 * (i0 * i0 * i0 * (a * a))) (- (i0 * i0 * k) + 2 * (i0 * i0 * i0 * (a * b + a * b + a * b)) - 6 * (i0 * i0 * i0 * i0 * (a * a * a)))).
        { clear. intros g0 i0 a b k E. assert (g0 <> 0) by (intros ->; lra). replace i0 with (/ g0) by (apply (Rmult_eq_reg_l g0); [rewrite E; field; assumption|assumption]). unfold rest. field. assumption. }
        unfold P, A', B', K'. now apply E3. }
      replace ((g (plus3 (Y t) v) - (g (Y t) + A t v + B t v v / 2 + K t v v v / 6)) * P) with (g (plus3 (Y t) v) * P - (g (Y t) + A t v + B t v v / 2 + K t v v v / 6) * P) by ring.
      rewrite E2. field. lra. }
    rewrite E, Rabs_Ropp. apply (Rle_trans _ _ _ X4).
    replace (D * (M * (13 * Q) * b ^ 4 + M * b ^ 4 * (3 * (13 * Q)))) with (52 * (D * M * Q) * b ^ 4) by ring. apply Rmult_le_compat_r; [apply pow_le; lra|]. lra.
Qed.

Lemma smooth_value g rho : smooth g rho -> exists M, 0 <= M /\ forall t u v b, 0 <= t <= T -> 0 <= b -> tube rho t u -> tube rho t v -> bounded_by ok (minus3 u v) b -> Rabs (g u - g v) <= M * b.
Proof. intros (A & B & K & M & S). exists M. pose proof (s_M _ _ _ _ _ _ S). split; [lra|]. exact (s_lip _ _ _ _ _ _ S). Qed.
Lemma smooth_less g rho rho' : smooth g rho -> 0 < rho' <= rho -> smooth g rho'.
Proof. intros (A & B & K & M & S) H. exists A, B, K, M. apply (sm_more _ _ _ _ M rho); auto. lra. Qed.
End Smooth.

(** Several functions at once. *)
Lemma smooth_all ok T Y rho (G : Z -> arr3 -> R) n : (forall k, (0 <= k < Z.of_nat n)%Z -> smooth ok T Y (G k) rho) -> 0 < rho <= 1 ->
  exists A B K M, 1 <= M /\ forall k, (0 <= k < Z.of_nat n)%Z -> sm ok T Y (G k) (A k) (B k) (K k) M rho.
Proof.
  intros H Hr. induction n as [|n IH].
  - exists (fun _ _ _ => 0), (fun _ _ _ _ => 0), (fun _ _ _ _ _ => 0), 1. split; [lra|]. intros k Hk. lia.
  - destruct IH as (A & B & K & M & HM & X); [intros k Hk; apply H; lia|]. destruct (H (Z.of_nat n) ltac:(lia)) as (A' & B' & K' & M' & X').
    exists (fun k => if (k =? Z.of_nat n)%Z then A' else A k), (fun k => if (k =? Z.of_nat n)%Z then B' else B k), (fun k => if (k =? Z.of_nat n)%Z then K' else K k), (Rmax M M').
    pose proof (Rmax_l M M'). pose proof (Rmax_r M M'). split; [lra|]. intros k Hk. destruct (Z.eqb_spec k (Z.of_nat n)) as [-> |N].
    + apply (sm_more _ _ _ _ _ _ _ M' rho); [exact X'|assumption|lra].
    + apply (sm_more _ _ _ _ _ _ _ M rho); [apply X; lia|assumption|lra].
Qed.

(** A system whose entries are multiples of finitely many smooth functions. *)
Lemma smooth_system ok T Y rho (f : arr3 -> arr3) (G : Z -> arr3 -> R) (s : Z -> R) sm0 n :
  0 < rho <= 1 -> (forall e, Rabs (s e) <= sm0) -> (forall k, (0 <= k < Z.of_nat n)%Z -> smooth ok T Y (G k) rho) -> (exists e j k, ok e j k) ->
  (forall e j k, ok e j k -> (0 <= k < Z.of_nat n)%Z) ->
  (forall t u e j k, 0 <= t <= T -> tube ok Y rho t u -> ok e j k -> f u e j k = s e * G k u) ->
  exists A B K M, smooth_along ok f T Y A B K M rho.
Proof.
  intros Hr Hs HG (e0 & j0 & k0 & NE) HK HF. destruct (smooth_all ok T Y rho G n HG Hr) as (A & B & K & M & HM & S).
  assert (S0 : 0 <= sm0) by (pose proof (Rabs_pos (s 0%Z)); pose proof (Hs 0%Z); lra).
  exists (fun t v e j k => s e * A k t v), (fun t v w e j k => s e * B k t v w), (fun t v w x e j k => s e * K k t v w x), (sm0 * M).
  assert (SM : forall e x y, Rabs x <= M * y -> Rabs (s e * x) <= sm0 * M * y).
  { intros e x y Hx. rewrite Rmult_assoc. apply ab_mul; [apply Hs|exact Hx]. }
  assert (NN : forall v a, bounded_by ok v a -> 0 <= a) by (intros v a Hv; pose proof (Hv _ _ _ NE); pose proof (Rabs_pos (v e0 j0 k0)); lra).
  constructor.
  - apply Rmult_le_pos; lra.
  - lra.
  - intros t a b v w e j k Ok. pose proof (s_A _ _ _ _ _ _ _ _ _ (S k (HK _ _ _ Ok)) t a v b w) as E. unfold comb in E. rewrite E. ring.
  - intros t x a b v w e j k Ok. pose proof (s_B _ _ _ _ _ _ _ _ _ (S k (HK _ _ _ Ok)) t a v b w x) as E. unfold comb in E. rewrite E. ring.
  - intros t x a b v w e j k Ok. rewrite (s_sym _ _ _ _ _ _ _ _ _ (S k (HK _ _ _ Ok))), (s_sym _ _ _ _ _ _ _ _ _ (S k (HK _ _ _ Ok)) t x v), (s_sym _ _ _ _ _ _ _ _ _ (S k (HK _ _ _ Ok)) t x w).
    pose proof (s_B _ _ _ _ _ _ _ _ _ (S k (HK _ _ _ Ok)) t a v b w x) as E. unfold comb in E. rewrite E. ring.
  - intros t v w e j k Ok. now rewrite (s_sym _ _ _ _ _ _ _ _ _ (S k (HK _ _ _ Ok))).
  - intros t x y a b v w e j k Ok. pose proof (s_K1 _ _ _ _ _ _ _ _ _ (S k (HK _ _ _ Ok)) t a v b w x y) as E. unfold comb in E. rewrite E. ring.
  - intros t x y a b v w e j k Ok. pose proof (s_K2 _ _ _ _ _ _ _ _ _ (S k (HK _ _ _ Ok)) t a v b w x y) as E. unfold comb in E. rewrite E. ring.
  - intros t x y a b v w e j k Ok. pose proof (s_K3 _ _ _ _ _ _ _ _ _ (S k (HK _ _ _ Ok)) t a v b w x y) as E. unfold comb in E. rewrite E. ring.
  - intros t Ht e j k Ok. assert (TH : tube ok Y rho t (Y t)) by (apply tube_here; lra). rewrite (HF t (Y t) e j k Ht TH Ok). apply ab_mul; [apply Hs|]. apply (s_g _ _ _ _ _ _ _ _ _ (S k (HK _ _ _ Ok)) t Ht).
  - intros t v a Ht Hv e j k Ok. apply SM. apply (s_bA _ _ _ _ _ _ _ _ _ (S k (HK _ _ _ Ok)) t v a Ht (NN v a Hv) Hv).
  - intros t v w a b Ht Hv Hw e j k Ok. rewrite Rmult_assoc. apply SM. apply (s_bB _ _ _ _ _ _ _ _ _ (S k (HK _ _ _ Ok)) t v w a b Ht (NN v a Hv) (NN w b Hw) Hv Hw).
  - intros t v w x a b c Ht Hv Hw Hx e j k Ok. replace (sm0 * M * a * b * c) with (sm0 * M * (a * b * c)) by ring. apply SM.
    apply (s_bK _ _ _ _ _ _ _ _ _ (S k (HK _ _ _ Ok)) t v w x a b c Ht (NN v a Hv) (NN w b Hw) (NN x c Hx) Hv Hw Hx).
  - intros t u v b Ht Hu Hv Huv e j k Ok. unfold minus3. rewrite (HF t u e j k Ht Hu Ok), (HF t v e j k Ht Hv Ok), <- Rmult_minus_distr_l. apply SM.
    apply (s_lip _ _ _ _ _ _ _ _ _ (S k (HK _ _ _ Ok)) t u v b Ht (NN _ b Huv) Hu Hv Huv).
  - intros t v b Ht Hv Hb e j k Ok. pose proof (tube_plus ok Y rho t v b Hv Hb) as TP. assert (TH : tube ok Y rho t (Y t)) by (apply tube_here; lra).
    change (fun e1 j1 k1 : Z => Y t e1 j1 k1 + v e1 j1 k1) with (plus3 (Y t) v). rewrite (HF t _ e j k Ht TP Ok), (HF t _ e j k Ht TH Ok).
    match goal with |- Rabs ?x <= _ => replace x with (s e * (G k (plus3 (Y t) v) - (G k (Y t) + A k t v + B k t v v / 2 + K k t v v v / 6))) by field end. apply SM.
    apply (s_T _ _ _ _ _ _ _ _ _ (S k (HK _ _ _ Ok)) t v b Ht (conj (NN v b Hv) Hb) Hv).
Qed.
