(** Converge.v -- accuracy of forward Euler and the classical Runge-Kutta method on
    nonlinear systems (used by C105).  States are coefficient arrays; [ok e j k]
    says which entries matter. *)
From Coq Require Import ZArith List Lia Reals Lra Psatz FunctionalExtensionality.
From Coquelicot Require Import Coquelicot.
From Verif Require Import Base RBase DGSpec.
Import ListNotations.
Local Open Scope R_scope.

(** * Specification *)

(** All entries of [v] that matter are at most [b] in absolute value. *)
Definition bounded_by (ok : Z -> Z -> Z -> Prop) (v : arr3) (b : R) : Prop := forall e j k, ok e j k -> Rabs (v e j k) <= b.
Definition minus3 (u v : arr3) : arr3 := fun e j k => u e j k - v e j k.
Definition linear (ok : Z -> Z -> Z -> Prop) (L : arr3 -> arr3) : Prop :=
  forall a b v w e j k, ok e j k -> L (fun e j k => a * v e j k + b * w e j k) e j k = a * L v e j k + b * L w e j k.

(** [Y] solves Y' = f(Y) on [0, T]. *)
Definition solves_ode (ok : Z -> Z -> Z -> Prop) (f : arr3 -> arr3) (T : R) (Y : R -> arr3) : Prop :=
  forall t e j k, 0 <= t <= T -> ok e j k -> derivable_pt_lim (fun s => Y s e j k) t (f (Y t) e j k).

(** Near the curve [Y] on [0, T], [f] is Lipschitz and has three derivatives
    [A], [B], [K] (linear, bilinear, trilinear) with a remainder of fourth order;
    all bounds are the same at all times. *)
Record smooth_along (ok : Z -> Z -> Z -> Prop) (f : arr3 -> arr3) (T : R) (Y : R -> arr3)
    (A : R -> arr3 -> arr3) (B : R -> arr3 -> arr3 -> arr3) (K : R -> arr3 -> arr3 -> arr3 -> arr3) (M rho : R) : Prop := {
  sa_M : 0 <= M;
  sa_rho : 0 < rho;
  sa_linA : forall t, linear ok (A t);
  sa_linB1 : forall t w, linear ok (fun v => B t v w);
  sa_linB2 : forall t v, linear ok (B t v);
  sa_sym : forall t v w e j k, ok e j k -> B t v w e j k = B t w v e j k;
  sa_linK1 : forall t w x, linear ok (fun v => K t v w x);
  sa_linK2 : forall t v x, linear ok (fun w => K t v w x);
  sa_linK3 : forall t v w, linear ok (K t v w);
  sa_f : forall t, 0 <= t <= T -> bounded_by ok (f (Y t)) M;
  sa_A : forall t v a, 0 <= t <= T -> bounded_by ok v a -> bounded_by ok (A t v) (M * a);
  sa_B : forall t v w a b, 0 <= t <= T -> bounded_by ok v a -> bounded_by ok w b -> bounded_by ok (B t v w) (M * a * b);
  sa_K : forall t v w x a b c, 0 <= t <= T -> bounded_by ok v a -> bounded_by ok w b -> bounded_by ok x c -> bounded_by ok (K t v w x) (M * a * b * c);
  sa_lip : forall t u v b, 0 <= t <= T -> bounded_by ok (minus3 u (Y t)) rho -> bounded_by ok (minus3 v (Y t)) rho ->
    bounded_by ok (minus3 u v) b -> bounded_by ok (minus3 (f u) (f v)) (M * b);
  sa_taylor : forall t v b, 0 <= t <= T -> bounded_by ok v b -> b <= rho ->
    bounded_by ok (fun e j k => f (fun e j k => Y t e j k + v e j k) e j k -
      (f (Y t) e j k + A t v e j k + B t v v e j k / 2 + K t v v v e j k / 6)) (M * b ^ 4) }.

(** One step of the two methods (as [dg_step] of DGSpec.v). *)
Definition ode_step (f : arr3 -> arr3) (st : stepper) (h : R) (c : arr3) : arr3 :=
  match st with
  | ForwardEuler => shift c h (f c)
  | RungeKutta4 =>
    let k1 := f c in
    let k2 := f (shift c (h / 2) k1) in
    let k3 := f (shift c (h / 2) k2) in
    let k4 := f (shift c h k3) in
    shift c (h / 6) (fun e j k => k1 e j k + 2 * k2 e j k + 2 * k3 e j k + k4 e j k)
  end.
Definition order_of (st : stepper) : nat := match st with ForwardEuler => 1 | RungeKutta4 => 4 end.

(** * Proof *)
Section Conv.
Context (ok : Z -> Z -> Z -> Prop) (f : arr3 -> arr3) (T : R) (Y : R -> arr3)
    (A : R -> arr3 -> arr3) (B : R -> arr3 -> arr3 -> arr3) (K : R -> arr3 -> arr3 -> arr3 -> arr3) (M rho : R).
Context (HT : 0 <= T) (SO : solves_ode ok f T Y) (SA : smooth_along ok f T Y A B K M rho).

Definition dom (d t h : R) : Prop := 0 <= t /\ 0 <= h <= d /\ t + h <= T.
Definition O (n : nat) (g : R -> R -> arr3) : Prop :=
  exists C d, 0 <= C /\ 0 < d <= 1 /\ forall t h, dom d t h -> bounded_by ok (g t h) (C * h ^ n).
Definition eqO n (g g' : R -> R -> arr3) : Prop := O n (fun t h => minus3 (g t h) (g' t h)).

Lemma dom_le d d' t h : d <= d' -> dom d t h -> dom d' t h.
Proof. unfold dom. lra. Qed.
Lemma dom_t d t h : dom d t h -> 0 <= t <= T.
Proof. unfold dom. lra. Qed.
Lemma hpow h n : 0 <= h -> 0 <= h ^ n. Proof. apply pow_le. Qed.
Lemma pow_less h n n' : 0 <= h <= 1 -> (n <= n')%nat -> h ^ n' <= h ^ n.
Proof.
  intros H L. replace n' with (n + (n' - n))%nat by lia. rewrite pow_add. pose proof (hpow h n ltac:(lra)).
  assert (h ^ (n' - n) <= 1) by (rewrite <- (pow1 (n' - n)); apply pow_incr; lra). nra.
Qed.

Lemma O_ext n g g' : (forall t h e j k, ok e j k -> g t h e j k = g' t h e j k) -> O n g -> O n g'.
Proof. intros E (C & d & HC & Hd & H). exists C, d. split; [exact HC|]. split; [exact Hd|]. intros t h D e j k Ok. rewrite <- E by exact Ok. now apply H. Qed.
Lemma O_le n n' g : (n <= n')%nat -> O n' g -> O n g.
Proof.
  intros L (C & d & HC & Hd & H). exists C, d. split; [exact HC|]. split; [exact Hd|]. intros t h D e j k Ok.
  apply Rle_trans with (C * h ^ n'); [now apply H|]. apply Rmult_le_compat_l; [exact HC|]. apply pow_less; [|exact L]. unfold dom in D. lra.
Qed.
Lemma O_add n g g' : O n g -> O n g' -> O n (fun t h e j k => g t h e j k + g' t h e j k).
Proof.
  intros (C & d & HC & Hd & H) (C' & d' & HC' & Hd' & H'). exists (C + C'), (Rmin d d'). split; [lra|]. split; [split; [apply Rmin_pos; lra|pose proof (Rmin_l d d'); lra]|].
  intros t h D e j k Ok. assert (D1 : dom d t h) by (apply (dom_le _ _ _ _ (Rmin_l d d') D)). assert (D2 : dom d' t h) by (apply (dom_le _ _ _ _ (Rmin_r d d') D)).
  eapply Rle_trans; [apply Rabs_triang|]. pose proof (H t h D1 e j k Ok). pose proof (H' t h D2 e j k Ok). lra.
Qed.
Lemma O_scale n a g : O n g -> O n (fun t h e j k => a * g t h e j k).
Proof.
  intros (C & d & HC & Hd & H). exists (Rabs a * C), d. split; [apply Rmult_le_pos; [apply Rabs_pos|exact HC]|]. split; [exact Hd|]. intros t h D e j k Ok.
  rewrite Rabs_mult, Rmult_assoc. apply Rmult_le_compat_l; [apply Rabs_pos|]. now apply H.
Qed.
Lemma O_h n p g : O n g -> O (p + n) (fun t h e j k => h ^ p * g t h e j k).
Proof.
  intros (C & d & HC & Hd & H). exists C, d. split; [exact HC|]. split; [exact Hd|]. intros t h D e j k Ok. pose proof (hpow h p ltac:(unfold dom in D; lra)) as P.
  rewrite Rabs_mult, (Rabs_pos_eq _ P), pow_add. pose proof (H t h D e j k Ok). replace (C * (h ^ p * h ^ n)) with (h ^ p * (C * h ^ n)) by ring. now apply Rmult_le_compat_l.
Qed.
Lemma O_zero n : O n (fun _ _ _ _ _ => 0).
Proof. exists 0, 1. split; [lra|]. split; [lra|]. intros t h D e j k Ok. rewrite Rabs_R0. lra. Qed.

Lemma O_A n v : O n v -> O n (fun t h => A t (v t h)).
Proof.
  intros (C & d & HC & Hd & H). exists (M * C), d. pose proof (sa_M _ _ _ _ _ _ _ _ _ SA). split; [nra|]. split; [exact Hd|]. intros t h D.
  rewrite Rmult_assoc. apply (sa_A _ _ _ _ _ _ _ _ _ SA); [now apply (dom_t d t h)|now apply H].
Qed.
Lemma O_B n n' v w : O n v -> O n' w -> O (n + n') (fun t h => B t (v t h) (w t h)).
Proof.
  intros (C & d & HC & Hd & H) (C' & d' & HC' & Hd' & H'). pose proof (sa_M _ _ _ _ _ _ _ _ _ SA). exists (M * C * C'), (Rmin d d').
  split; [apply Rmult_le_pos; nra|]. split; [split; [apply Rmin_pos; lra|pose proof (Rmin_l d d'); lra]|].
  intros t h D. assert (D1 : dom d t h) by (apply (dom_le _ _ _ _ (Rmin_l d d') D)). assert (D2 : dom d' t h) by (apply (dom_le _ _ _ _ (Rmin_r d d') D)).
  replace (M * C * C' * h ^ (n + n')) with (M * (C * h ^ n) * (C' * h ^ n')) by (rewrite pow_add; ring).
  apply (sa_B _ _ _ _ _ _ _ _ _ SA); [now apply (dom_t d t h)|now apply H|now apply H'].
Qed.
Lemma O_K n1 n2 n3 v w x : O n1 v -> O n2 w -> O n3 x -> O (n1 + n2 + n3) (fun t h => K t (v t h) (w t h) (x t h)).
Proof.
  intros (C & d & HC & Hd & H) (C' & d' & HC' & Hd' & H') (C2 & d2 & HC2 & Hd2 & H2). pose proof (sa_M _ _ _ _ _ _ _ _ _ SA). exists (M * C * C' * C2), (Rmin d (Rmin d' d2)).
  split; [repeat apply Rmult_le_pos; assumption|]. split; [split; [repeat apply Rmin_pos; lra|pose proof (Rmin_l d (Rmin d' d2)); lra]|].
  intros t h D. assert (D1 : dom d t h) by (apply (dom_le _ _ _ _ (Rmin_l d (Rmin d' d2)) D)).
  assert (D2 : dom d' t h) by (apply (dom_le (Rmin d (Rmin d' d2)) _ _ _); [eapply Rle_trans; [apply Rmin_r|apply Rmin_l]|exact D]).
  assert (D3 : dom d2 t h) by (apply (dom_le (Rmin d (Rmin d' d2)) _ _ _); [eapply Rle_trans; [apply Rmin_r|apply Rmin_r]|exact D]).
  replace (M * C * C' * C2 * h ^ (n1 + n2 + n3)) with (M * (C * h ^ n1) * (C' * h ^ n2) * (C2 * h ^ n3)) by (rewrite !pow_add; ring).
  apply (sa_K _ _ _ _ _ _ _ _ _ SA); [now apply (dom_t d t h)|now apply H|now apply H'|now apply H2].
Qed.

Lemma eqO_trans n g g' g'' : eqO n g g' -> eqO n g' g'' -> eqO n g g''.
Proof. intros H H'. apply (O_ext n (fun t h e j k => minus3 (g t h) (g' t h) e j k + minus3 (g' t h) (g'' t h) e j k)); [intros; unfold minus3; ring|now apply O_add]. Qed.
Lemma eqO_sym n g g' : eqO n g g' -> eqO n g' g.
Proof. intros H. apply (O_ext n (fun t h e j k => -1 * minus3 (g t h) (g' t h) e j k)); [intros; unfold minus3; ring|now apply O_scale]. Qed.
Lemma eqO_refl n g : eqO n g g.
Proof. apply (O_ext n (fun _ _ _ _ _ => 0)); [intros; unfold minus3; ring|apply O_zero]. Qed.
Lemma eqO_ext n g1 g2 g : (forall t h e j k, ok e j k -> g1 t h e j k = g2 t h e j k) -> eqO n g g1 -> eqO n g g2.
Proof. intros E H. apply (O_ext n (fun t h => minus3 (g t h) (g1 t h))); [intros; unfold minus3; rewrite E by assumption; reflexivity|exact H]. Qed.
Lemma eqO_O n g g' : eqO n g g' -> O n g' -> O n g.
Proof. intros H H'. apply (O_ext n (fun t h e j k => minus3 (g t h) (g' t h) e j k + g' t h e j k)); [intros; unfold minus3; ring|now apply O_add]. Qed.

(** Operators and differences. *)
Lemma lin_minus L v w e j k : linear ok L -> ok e j k -> L (minus3 v w) e j k = L v e j k - L w e j k.
Proof.
  intros HL Ok. replace (minus3 v w) with (fun e j k => 1 * v e j k + -1 * w e j k) by (extensionality a; extensionality b; extensionality c; unfold minus3; ring).
  rewrite HL by exact Ok. ring.
Qed.
Lemma lin_poly3 L a b c x y z e j k : linear ok L -> ok e j k -> L (fun e j k => a * x e j k + b * y e j k + c * z e j k) e j k = a * L x e j k + b * L y e j k + c * L z e j k.
Proof.
  intros HL Ok. replace (fun e j k => a * x e j k + b * y e j k + c * z e j k) with (fun e j k => 1 * (fun e j k => a * x e j k + b * y e j k) e j k + c * z e j k)
    by (extensionality u; extensionality v; extensionality w; ring).
  rewrite HL, HL by exact Ok. ring.
Qed.

Lemma eqO_A n v w : eqO n v w -> eqO n (fun t h => A t (v t h)) (fun t h => A t (w t h)).
Proof. intros H. apply (O_ext n (fun t h => A t (minus3 (v t h) (w t h)))); [|now apply O_A]. intros t h e j k Ok. unfold minus3 at 2. apply lin_minus; [apply SA|exact Ok]. Qed.
Lemma eqO_B n v w : O 0 v -> O 0 w -> eqO n v w -> eqO n (fun t h => B t (v t h) (v t h)) (fun t h => B t (w t h) (w t h)).
Proof.
  intros Hv Hw H. apply (O_ext n (fun t h e j k => B t (minus3 (v t h) (w t h)) (v t h) e j k + B t (w t h) (minus3 (v t h) (w t h)) e j k)).
  - intros t h e j k Ok. rewrite (lin_minus (B t (w t h))) by (exact Ok || apply SA).
    rewrite (lin_minus (fun x => B t x (v t h))) by (exact Ok || apply (sa_linB1 _ _ _ _ _ _ _ _ _ SA)). unfold minus3. ring.
  - apply O_add; [pose proof (O_B n 0 _ _ H Hv) as X; now rewrite Nat.add_0_r in X|exact (O_B 0 n _ _ Hw H)].
Qed.
Lemma eqO_K n v w : O 0 v -> O 0 w -> eqO n v w -> eqO n (fun t h => K t (v t h) (v t h) (v t h)) (fun t h => K t (w t h) (w t h) (w t h)).
Proof.
  intros Hv Hw H. apply (O_ext n (fun t h e j k => (K t (minus3 (v t h) (w t h)) (v t h) (v t h) e j k + K t (w t h) (minus3 (v t h) (w t h)) (v t h) e j k) + K t (w t h) (w t h) (minus3 (v t h) (w t h)) e j k)).
  - intros t h e j k Ok. rewrite (lin_minus (K t (w t h) (w t h))) by (exact Ok || apply SA).
    rewrite (lin_minus (fun x => K t x (v t h) (v t h))) by (exact Ok || apply (sa_linK1 _ _ _ _ _ _ _ _ _ SA)).
    rewrite (lin_minus (fun x => K t (w t h) x (v t h))) by (exact Ok || apply (sa_linK2 _ _ _ _ _ _ _ _ _ SA)). unfold minus3. ring.
  - apply O_add; [apply O_add|].
    + pose proof (O_K n 0 0 _ _ _ H Hv Hv) as X. now rewrite !Nat.add_0_r in X.
    + pose proof (O_K 0 n 0 _ _ _ Hw H Hv) as X. now rewrite !Nat.add_0_r in X.
    + exact (O_K 0 0 n _ _ _ Hw Hw H).
Qed.

(** Coefficient functions of the time only. *)
Definition bd (a : R -> arr3) : Prop := O 0 (fun t _ => a t).
Lemma bd_A a : bd a -> bd (fun t => A t (a t)). Proof. intros H. exact (O_A 0 _ H). Qed.
Lemma bd_B a b : bd a -> bd b -> bd (fun t => B t (a t) (b t)). Proof. intros H H'. exact (O_B 0 0 _ _ H H'). Qed.
Lemma bd_K a b c : bd a -> bd b -> bd c -> bd (fun t => K t (a t) (b t) (c t)). Proof. intros H H' H2. exact (O_K 0 0 0 _ _ _ H H' H2). Qed.
Lemma bd_add a b : bd a -> bd b -> bd (fun t e j k => a t e j k + b t e j k). Proof. intros H H'. exact (O_add 0 _ _ H H'). Qed.
Lemma bd_scale c a : bd a -> bd (fun t e j k => c * a t e j k). Proof. intros H. exact (O_scale 0 c _ H). Qed.
Lemma bd_zero : bd (fun _ _ _ _ => 0). Proof. apply O_zero. Qed.
Definition F (t : R) : arr3 := f (Y t).
Lemma bd_F : bd F.
Proof. exists M, 1. split; [apply SA|]. split; [lra|]. intros t h D. rewrite Rmult_1_r. apply (sa_f _ _ _ _ _ _ _ _ _ SA). now apply (dom_t 1 t h). Qed.

(** Polynomials in h. *)
Definition P3 (c0 c1 c2 c3 : R -> arr3) (t h : R) : arr3 := fun e j k => c0 t e j k + h * c1 t e j k + h ^ 2 * c2 t e j k + h ^ 3 * c3 t e j k.
Definition W3 (a b c : R -> arr3) (t h : R) : arr3 := fun e j k => h * a t e j k + h ^ 2 * b t e j k + h ^ 3 * c t e j k.
Definition nil (t : R) : arr3 := fun _ _ _ => 0.

Lemma term n p a : (n <= p)%nat -> bd a -> O n (fun t h e j k => h ^ p * a t e j k).
Proof. intros L H. apply (O_le n p _ L). pose proof (O_h 0 p _ H) as X. now rewrite Nat.add_0_r in X. Qed.

Lemma W3_O a b c : bd a -> bd b -> bd c -> O 1 (W3 a b c).
Proof.
  intros Ha Hb Hc. apply (O_ext 1 (fun t h e j k => (h ^ 1 * a t e j k + h ^ 2 * b t e j k) + h ^ 3 * c t e j k)); [intros; unfold W3; ring|].
  repeat apply O_add; apply term; auto; lia.
Qed.

Lemma B_poly a b c : bd a -> bd b -> bd c ->
  eqO 4 (fun t h => B t (W3 a b c t h) (W3 a b c t h)) (fun t h e j k => h ^ 2 * B t (a t) (a t) e j k + h ^ 3 * (2 * B t (a t) (b t) e j k)).
Proof.
  intros Ha Hb Hc.
  apply (O_ext 4 (fun t h e j k => (h ^ 4 * ((B t (b t) (b t) e j k + 2 * B t (a t) (c t) e j k)) + h ^ 5 * (2 * B t (b t) (c t) e j k)) + h ^ 6 * B t (c t) (c t) e j k)).
  - intros t h e j k Ok. unfold minus3, W3.
    rewrite (lin_poly3 (fun v => B t v _)) by (exact Ok || apply (sa_linB1 _ _ _ _ _ _ _ _ _ SA)).
    rewrite !(lin_poly3 (B t _)) by (exact Ok || apply SA).
    rewrite (sa_sym _ _ _ _ _ _ _ _ _ SA t (b t) (a t)), (sa_sym _ _ _ _ _ _ _ _ _ SA t (c t) (a t)), (sa_sym _ _ _ _ _ _ _ _ _ SA t (c t) (b t)) by exact Ok. ring.
  - apply O_add; [apply O_add|].
    + apply (term 4 4 (fun t e j k => B t (b t) (b t) e j k + 2 * B t (a t) (c t) e j k)); [lia|]. apply bd_add; [|apply bd_scale]; now apply bd_B.
    + apply (term 4 5 (fun t e j k => 2 * B t (b t) (c t) e j k)); [lia|]. apply bd_scale. now apply bd_B.
    + apply (term 4 6 (fun t e j k => B t (c t) (c t) e j k)); [lia|]. now apply bd_B.
Qed.

Lemma K_poly a b c : bd a -> bd b -> bd c ->
  eqO 4 (fun t h => K t (W3 a b c t h) (W3 a b c t h) (W3 a b c t h)) (fun t h e j k => h ^ 3 * K t (a t) (a t) (a t) e j k).
Proof.
  intros Ha Hb Hc. set (r := fun t h => fun e j k => h ^ 2 * b t e j k + h ^ 3 * c t e j k). set (s := fun t h => fun e j k => h * a t e j k).
  assert (Or : O 2 r) by (apply O_add; apply term; auto; lia).
  assert (Os : O 1 s). { apply (O_ext 1 (fun t h e j k => h ^ 1 * a t e j k)); [intros; unfold s; ring|apply term; auto]. }
  assert (Ow := W3_O a b c Ha Hb Hc).
  assert (E : forall t h, W3 a b c t h = fun e j k => 1 * s t h e j k + 1 * r t h e j k) by (intros; extensionality x; extensionality y; extensionality z; unfold W3, s, r; ring).
  apply (O_ext 4 (fun t h e j k => (K t (r t h) (W3 a b c t h) (W3 a b c t h) e j k + K t (s t h) (r t h) (W3 a b c t h) e j k) + K t (s t h) (s t h) (r t h) e j k)).
  - intros t h e j k Ok. unfold minus3.
    assert (L1 : forall x y, K t (W3 a b c t h) x y e j k = K t (s t h) x y e j k + K t (r t h) x y e j k) by (intros; rewrite E, (sa_linK1 _ _ _ _ _ _ _ _ _ SA t _ _ 1 1) by exact Ok; ring).
    assert (L2 : forall x y, K t x (W3 a b c t h) y e j k = K t x (s t h) y e j k + K t x (r t h) y e j k) by (intros; rewrite E, (sa_linK2 _ _ _ _ _ _ _ _ _ SA t _ _ 1 1) by exact Ok; ring).
    assert (L3 : forall x y, K t x y (W3 a b c t h) e j k = K t x y (s t h) e j k + K t x y (r t h) e j k) by (intros; rewrite E, (sa_linK3 _ _ _ _ _ _ _ _ _ SA t _ _ 1 1) by exact Ok; ring).
    rewrite (L1 (W3 a b c t h) (W3 a b c t h)), (L2 (s t h) (W3 a b c t h)), (L3 (s t h) (s t h)).
    assert (S : K t (s t h) (s t h) (s t h) e j k = h ^ 3 * K t (a t) (a t) (a t) e j k); [|rewrite S; ring].
    assert (Es : s t h = fun e j k => h * a t e j k + 0 * a t e j k) by (extensionality x; extensionality y; extensionality z; unfold s; ring).
    assert (M1 : forall x y, K t (s t h) x y e j k = h * K t (a t) x y e j k) by (intros; rewrite Es, (sa_linK1 _ _ _ _ _ _ _ _ _ SA t) by exact Ok; ring).
    assert (M2 : forall x y, K t x (s t h) y e j k = h * K t x (a t) y e j k) by (intros; rewrite Es, (sa_linK2 _ _ _ _ _ _ _ _ _ SA t) by exact Ok; ring).
    assert (M3 : forall x y, K t x y (s t h) e j k = h * K t x y (a t) e j k) by (intros; rewrite Es, (sa_linK3 _ _ _ _ _ _ _ _ _ SA t) by exact Ok; ring).
    rewrite M1, M2, M3. ring.
  - apply O_add; [apply O_add|].
    + exact (O_K 2 1 1 _ _ _ Or Ow Ow).
    + exact (O_K 1 2 1 _ _ _ Os Or Ow).
    + exact (O_K 1 1 2 _ _ _ Os Os Or).
Qed.

(** [f] near the curve, to the accuracy [n] to which the displacement is known. *)
Lemma taylor n v a b c : (1 <= n <= 4)%nat -> bd a -> bd b -> bd c -> eqO n v (W3 a b c) ->
  eqO n (fun t h => f (fun e j k => Y t e j k + v t h e j k))
    (P3 F (fun t => A t (a t)) (fun t e j k => A t (b t) e j k + B t (a t) (a t) e j k / 2)
       (fun t e j k => A t (c t) e j k + B t (a t) (b t) e j k + K t (a t) (a t) (a t) e j k / 6)).
Proof.
  intros Ln Ha Hb Hc Hv. assert (Ow := W3_O a b c Ha Hb Hc).
  assert (Ov : O 1 v) by (apply (eqO_O 1 v (W3 a b c)); [apply (O_le 1 n); [lia|exact Hv]|exact Ow]).
  assert (Ov0 := O_le 0 1 v ltac:(lia) Ov). assert (Ow0 := O_le 0 1 _ ltac:(lia) Ow).
  assert (E1 : eqO n (fun t h => f (fun e j k => Y t e j k + v t h e j k))
     (fun t h e j k => F t e j k + A t (v t h) e j k + B t (v t h) (v t h) e j k / 2 + K t (v t h) (v t h) (v t h) e j k / 6)).
  { apply (O_le n 4); [lia|]. destruct Ov as (C & d & HC & Hd & H). pose proof (sa_M _ _ _ _ _ _ _ _ _ SA) as HM. pose proof (sa_rho _ _ _ _ _ _ _ _ _ SA) as Hr.
    assert (Q : 0 < rho / (C + 1)) by (apply Rdiv_lt_0_compat; lra).
    exists (M * C ^ 4), (Rmin d (rho / (C + 1))). split; [apply Rmult_le_pos; [exact HM|now apply pow_le]|]. split; [split; [apply Rmin_pos; lra|pose proof (Rmin_l d (rho / (C + 1))); lra]|].
    intros t h D. pose proof (dom_le _ _ _ _ (Rmin_l _ _) D) as D1. pose proof (dom_le _ _ _ _ (Rmin_r _ _) D) as D2.
    replace (M * C ^ 4 * h ^ 4) with (M * (C * h) ^ 4) by ring. specialize (H t h D1). rewrite pow_1 in H.
    apply (sa_taylor _ _ _ _ _ _ _ _ _ SA t (v t h)); [exact (dom_t _ t h D1)|exact H|]. destruct D2 as (_ & D2 & _).
    apply Rle_trans with (C * (rho / (C + 1))); [apply Rmult_le_compat_l; lra|]. apply Rle_trans with ((C + 1) * (rho / (C + 1))); [apply Rmult_le_compat_r; lra|].
    right. field. lra. }
  apply (eqO_trans n _ _ _ E1).
  assert (E2 : eqO n (fun t h e j k => F t e j k + A t (v t h) e j k + B t (v t h) (v t h) e j k / 2 + K t (v t h) (v t h) (v t h) e j k / 6)
     (fun t h e j k => F t e j k + A t (W3 a b c t h) e j k + B t (W3 a b c t h) (W3 a b c t h) e j k / 2 + K t (W3 a b c t h) (W3 a b c t h) (W3 a b c t h) e j k / 6)).
  { apply (O_ext n (fun t h e j k => (minus3 (A t (v t h)) (A t (W3 a b c t h)) e j k + /2 * minus3 (B t (v t h) (v t h)) (B t (W3 a b c t h) (W3 a b c t h)) e j k) +
      /6 * minus3 (K t (v t h) (v t h) (v t h)) (K t (W3 a b c t h) (W3 a b c t h) (W3 a b c t h)) e j k)); [intros; unfold minus3; field|].
    apply O_add; [apply O_add|]; [|apply O_scale|apply O_scale]; [now apply eqO_A|now apply eqO_B|now apply eqO_K]. }
  apply (eqO_trans n _ _ _ E2). apply (O_le n 4); [lia|].
  apply (O_ext 4 (fun t h e j k =>
     /2 * minus3 (B t (W3 a b c t h) (W3 a b c t h)) ((fun t h e j k => h ^ 2 * B t (a t) (a t) e j k + h ^ 3 * (2 * B t (a t) (b t) e j k)) t h) e j k +
     /6 * minus3 (K t (W3 a b c t h) (W3 a b c t h) (W3 a b c t h)) ((fun t h e j k => h ^ 3 * K t (a t) (a t) (a t) e j k) t h) e j k)).
  - intros t h e j k Ok. unfold P3, minus3.
    assert (EA : A t (W3 a b c t h) e j k = h * A t (a t) e j k + h ^ 2 * A t (b t) e j k + h ^ 3 * A t (c t) e j k) by (unfold W3; apply lin_poly3; [apply SA|exact Ok]).
    rewrite EA. field.
  - apply O_add; apply O_scale; [now apply B_poly|now apply K_poly].
Qed.

(** Integration. *)
Definition YC (t h : R) : arr3 := fun e j k => Y (t + h) e j k - Y t e j k.
Lemma integrate n c0 c1 c2 c3 : eqO n (fun t h => f (Y (t + h))) (P3 c0 c1 c2 c3) ->
  eqO (S n) YC (fun t h e j k => h * c0 t e j k + h ^ 2 * (c1 t e j k / 2) + h ^ 3 * (c2 t e j k / 3) + h ^ 4 * (c3 t e j k / 4)).
Proof.
  intros (C & d & HC & Hd & H). exists C, d. split; [exact HC|]. split; [exact Hd|]. intros t h D e j k Ok.
  destruct D as (Dt & (Dh0 & Dh) & DT).
  set (P := fun s => s * c0 t e j k + s ^ 2 * (c1 t e j k / 2) + s ^ 3 * (c2 t e j k / 3) + s ^ 4 * (c3 t e j k / 4)).
  destruct Dh0 as [Dh0|<-].
  - destruct (MVT_cor2 (fun s => (Y (t + s) e j k - Y t e j k) - P s) (fun s => f (Y (t + s)) e j k - P3 c0 c1 c2 c3 t s e j k) 0 h Dh0) as (c & E & Hc).
    { intros c Hc. apply derivable_pt_lim_minus.
      - replace (f (Y (t + c)) e j k) with (f (Y (t + c)) e j k * 1 - 0) by ring. apply derivable_pt_lim_minus; [|apply derivable_pt_lim_const].
        apply (derivable_pt_lim_comp (fun s => t + s) (fun s => Y s e j k)); [|apply SO; [lra|exact Ok]].
        replace 1 with (0 + 1) by ring. apply derivable_pt_lim_plus; [apply derivable_pt_lim_const|apply derivable_pt_lim_id].
      - apply is_derive_Reals. unfold P, P3. auto_derive; [trivial|]. simpl. field. }
    unfold minus3, YC. change (h * c0 t e j k + h ^ 2 * (c1 t e j k / 2) + h ^ 3 * (c2 t e j k / 3) + h ^ 4 * (c3 t e j k / 4)) with (P h).
    replace (Y (t + h) e j k - Y t e j k - P h) with ((f (Y (t + c)) e j k - P3 c0 c1 c2 c3 t c e j k) * h).
    2:{ rewrite Rplus_0_r in E. unfold P at 2 in E. replace ((Y (t + h) e j k - Y t e j k - P h)) with ((f (Y (t + c)) e j k - P3 c0 c1 c2 c3 t c e j k) * (h - 0)); [ring|]. rewrite <- E. ring. }
    rewrite Rabs_mult, (Rabs_pos_eq h) by lra. assert (DC : dom d t c) by (unfold dom; lra). pose proof (H t c DC e j k Ok) as X. unfold minus3 in X.
    apply Rle_trans with (C * c ^ n * h); [apply Rmult_le_compat_r; lra|]. simpl. replace (C * (h * h ^ n)) with (C * h ^ n * h) by ring.
    apply Rmult_le_compat_r; [lra|]. apply Rmult_le_compat_l; [exact HC|]. apply pow_incr. lra.
  - unfold minus3, YC. rewrite Rplus_0_r. match goal with |- Rabs ?x <= _ => replace x with 0 by ring end. rewrite Rabs_R0. apply Rmult_le_pos; [exact HC|apply pow_le; lra].
Qed.

Lemma f_curve t h : f (Y (t + h)) = f (fun e j k => Y t e j k + YC t h e j k).
Proof. f_equal. extensionality e. extensionality j. extensionality k. unfold YC. ring. Qed.

Lemma along n a b c : (1 <= n <= 4)%nat -> bd a -> bd b -> bd c -> eqO n YC (W3 a b c) ->
  eqO (S n) YC (fun t h e j k => h * F t e j k + h ^ 2 * (A t (a t) e j k / 2) + h ^ 3 * ((A t (b t) e j k + B t (a t) (a t) e j k / 2) / 3) +
     h ^ 4 * ((A t (c t) e j k + B t (a t) (b t) e j k + K t (a t) (a t) (a t) e j k / 6) / 4)).
Proof.
  intros Ln Ha Hb Hc H. apply (integrate n F (fun t => A t (a t)) (fun t e j k => A t (b t) e j k + B t (a t) (a t) e j k / 2)
       (fun t e j k => A t (c t) e j k + B t (a t) (b t) e j k + K t (a t) (a t) (a t) e j k / 6)).
  pose proof (taylor n YC a b c Ln Ha Hb Hc H) as X. revert X. unfold eqO. apply O_ext. intros t h e j k _. now rewrite f_curve.
Qed.

Lemma bd_ext a b : (forall t e j k, ok e j k -> a t e j k = b t e j k) -> bd a -> bd b.
Proof. intros E. apply O_ext. intros t h e j k Ok. now apply E. Qed.
Ltac bds := repeat first [apply bd_F | apply bd_zero | apply bd_A | apply bd_B | apply bd_K | apply bd_add | apply bd_scale].

Definition c2 (t : R) : arr3 := fun e j k => /2 * A t (F t) e j k.
Definition c3 (t : R) : arr3 := fun e j k => /6 * (A t (A t (F t)) e j k + B t (F t) (F t) e j k).
Definition c4 (t : R) : arr3 := fun e j k =>
  /24 * (A t (A t (A t (F t))) e j k + A t (B t (F t) (F t)) e j k + 3 * B t (F t) (A t (F t)) e j k + K t (F t) (F t) (F t) e j k).
Lemma bd_c2 : bd c2. Proof. unfold c2. bds. Qed.
Lemma bd_c3 : bd c3. Proof. unfold c3. apply bd_scale, bd_add; bds. Qed.
Lemma bd_AAF : bd (fun t => A t (A t (F t))). Proof. bds. Qed.
Lemma bd_BFF : bd (fun t => B t (F t) (F t)). Proof. bds. Qed.

Lemma lin_scale L c v e j k : linear ok L -> ok e j k -> L (fun e j k => c * v e j k) e j k = c * L v e j k.
Proof.
  intros HL Ok. replace (fun e j k => c * v e j k) with (fun e j k => c * v e j k + 0 * v e j k) by (extensionality x; extensionality y; extensionality z; ring).
  rewrite HL by exact Ok. ring.
Qed.
Lemma lin_add L v w e j k : linear ok L -> ok e j k -> L (fun e j k => v e j k + w e j k) e j k = L v e j k + L w e j k.
Proof.
  intros HL Ok. replace (fun e j k => v e j k + w e j k) with (fun e j k => 1 * v e j k + 1 * w e j k) by (extensionality x; extensionality y; extensionality z; ring).
  rewrite HL by exact Ok. ring.
Qed.
Lemma A_scale t c v e j k : ok e j k -> A t (fun e j k => c * v e j k) e j k = c * A t v e j k.
Proof. intros Ok. apply lin_scale; [apply SA|exact Ok]. Qed.
Lemma A_add t v w e j k : ok e j k -> A t (fun e j k => v e j k + w e j k) e j k = A t v e j k + A t w e j k.
Proof. intros Ok. apply lin_add; [apply SA|exact Ok]. Qed.
Lemma B_scale1 t c v w e j k : ok e j k -> B t (fun e j k => c * v e j k) w e j k = c * B t v w e j k.
Proof. intros Ok. apply (lin_scale (fun v => B t v w)); [apply (sa_linB1 _ _ _ _ _ _ _ _ _ SA)|exact Ok]. Qed.
Lemma B_scale2 t c v w e j k : ok e j k -> B t v (fun e j k => c * w e j k) e j k = c * B t v w e j k.
Proof. intros Ok. apply (lin_scale (B t v)); [apply SA|exact Ok]. Qed.
Lemma K_scale t c v e j k : ok e j k -> K t (fun e j k => c * v e j k) (fun e j k => c * v e j k) (fun e j k => c * v e j k) e j k = c ^ 3 * K t v v v e j k.
Proof.
  intros Ok. rewrite (lin_scale (fun x => K t x _ _)) by (exact Ok || apply (sa_linK1 _ _ _ _ _ _ _ _ _ SA)).
  rewrite (lin_scale (fun x => K t _ x _)) by (exact Ok || apply (sa_linK2 _ _ _ _ _ _ _ _ _ SA)). rewrite (lin_scale (K t _ _)) by (exact Ok || apply SA). ring.
Qed.
Lemma A_nil t e j k : ok e j k -> A t (nil t) e j k = 0.
Proof. intros Ok. replace (nil t) with (fun e j k => 0 * F t e j k) by (extensionality x; extensionality y; extensionality z; unfold nil; ring). rewrite A_scale by exact Ok. ring. Qed.
Lemma B_nil t v e j k : ok e j k -> B t v (nil t) e j k = 0.
Proof. intros Ok. replace (nil t) with (fun e j k => 0 * F t e j k) by (extensionality x; extensionality y; extensionality z; unfold nil; ring). rewrite B_scale2 by exact Ok. ring. Qed.
Lemma bd_nil : bd nil. Proof. apply bd_zero. Qed.

Lemma drop n p g w x : (n <= p)%nat -> bd x -> eqO n g (fun t h e j k => w t h e j k + h ^ p * x t e j k) -> eqO n g w.
Proof.
  intros L Hx H. apply (O_ext n (fun t h e j k => minus3 (g t h) (fun e j k => w t h e j k + h ^ p * x t e j k) e j k + h ^ p * x t e j k)); [intros; unfold minus3; ring|].
  apply O_add; [exact H|now apply term].
Qed.

Lemma A_c2 t e j k : ok e j k -> A t (c2 t) e j k = /2 * A t (A t (F t)) e j k.
Proof. intros Ok. unfold c2. now rewrite A_scale. Qed.
Lemma B_c2 t v e j k : ok e j k -> B t v (c2 t) e j k = /2 * B t v (A t (F t)) e j k.
Proof. intros Ok. unfold c2. now rewrite B_scale2. Qed.
Lemma A_c3 t e j k : ok e j k -> A t (c3 t) e j k = /6 * (A t (A t (A t (F t))) e j k + A t (B t (F t) (F t)) e j k).
Proof. intros Ok. unfold c3. now rewrite A_scale, A_add. Qed.

(** The solution. *)
Lemma curve1 : eqO 1 YC (W3 nil nil nil).
Proof.
  assert (X : eqO 0 (fun t h => f (Y (t + h))) (P3 nil nil nil nil)).
  { exists M, 1. split; [apply SA|]. split; [lra|]. intros t h D e j k Ok. unfold minus3, P3, nil.
    match goal with |- Rabs ?x <= _ => replace x with (f (Y (t + h)) e j k) by ring end. rewrite pow_O, Rmult_1_r.
    apply (sa_f _ _ _ _ _ _ _ _ _ SA); [unfold dom in D; lra|exact Ok]. }
  apply integrate in X. revert X. apply eqO_ext. intros t h e j k Ok. unfold W3, nil. field.
Qed.
Lemma curve2 : eqO 2 YC (W3 F nil nil).
Proof.
  pose proof (along 1 nil nil nil ltac:(lia) bd_nil bd_nil bd_nil curve1) as X.
  apply (drop 2 3 _ _ (fun t e j k => (A t (nil t) e j k + B t (nil t) (nil t) e j k / 2) / 3)); [lia| |].
  - apply (bd_ext nil); [|apply bd_nil]. intros. rewrite A_nil, B_nil by assumption. unfold nil. field.
  - apply (drop 2 4 _ _ (fun t e j k => (A t (nil t) e j k + B t (nil t) (nil t) e j k + K t (nil t) (nil t) (nil t) e j k / 6) / 4)); [lia| |].
    + apply (bd_ext (fun t e j k => /24 * K t (nil t) (nil t) (nil t) e j k)); [|apply bd_scale, bd_K; apply bd_nil]. intros. rewrite A_nil, B_nil by assumption. field.
    + revert X. apply eqO_ext. intros t h e j k Ok. unfold W3. rewrite A_nil by exact Ok. change (nil t e j k) with 0. field.
Qed.
Lemma curve3 : eqO 3 YC (W3 F c2 nil).
Proof.
  pose proof (along 2 F nil nil ltac:(lia) bd_F bd_nil bd_nil curve2) as X.
  apply (drop 3 3 _ _ (fun t e j k => (A t (nil t) e j k + B t (F t) (F t) e j k / 2) / 3)); [lia| |].
  - apply (bd_ext (fun t e j k => /6 * B t (F t) (F t) e j k)); [|apply bd_scale, bd_BFF]. intros. rewrite A_nil by assumption. field.
  - apply (drop 3 4 _ _ (fun t e j k => (A t (nil t) e j k + B t (F t) (nil t) e j k + K t (F t) (F t) (F t) e j k / 6) / 4)); [lia| |].
    + apply (bd_ext (fun t e j k => /24 * K t (F t) (F t) (F t) e j k)); [|apply bd_scale, bd_K; apply bd_F]. intros. rewrite A_nil, B_nil by assumption. field.
    + revert X. apply eqO_ext. intros t h e j k Ok. unfold W3, c2. change (nil t e j k) with 0. field.
Qed.
Lemma curve4 : eqO 4 YC (W3 F c2 c3).
Proof.
  pose proof (along 3 F c2 nil ltac:(lia) bd_F bd_c2 bd_nil curve3) as X.
  apply (drop 4 4 _ _ (fun t e j k => (A t (nil t) e j k + B t (F t) (c2 t) e j k + K t (F t) (F t) (F t) e j k / 6) / 4)); [lia| |].
  - apply (bd_ext (fun t e j k => /4 * B t (F t) (c2 t) e j k + /24 * K t (F t) (F t) (F t) e j k)); [intros; rewrite A_nil by assumption; field|].
    apply bd_add; [apply bd_scale, bd_B; [apply bd_F|apply bd_c2]|apply bd_scale, bd_K; apply bd_F].
  - revert X. apply eqO_ext. intros t h e j k Ok. unfold W3, c3. rewrite A_c2 by exact Ok. unfold c2. field.
Qed.
Lemma curve5 : eqO 5 YC (fun t h e j k => W3 F c2 c3 t h e j k + h ^ 4 * c4 t e j k).
Proof.
  pose proof (along 4 F c2 c3 ltac:(lia) bd_F bd_c2 bd_c3 curve4) as X. revert X. apply eqO_ext. intros t h e j k Ok.
  unfold W3, c4. rewrite A_c2, A_c3, B_c2 by exact Ok. unfold c2, c3. field.
Qed.

(** The stages of the Runge-Kutta step from a point of the curve. *)
Definition k2 (t h : R) : arr3 := f (shift (Y t) (h / 2) (F t)).
Definition k3 (t h : R) : arr3 := f (shift (Y t) (h / 2) (k2 t h)).
Definition k4 (t h : R) : arr3 := f (shift (Y t) h (k3 t h)).

Lemma stage c k x0 x1 x2 x3 : bd x3 -> eqO 4 k (P3 x0 x1 x2 x3) ->
  eqO 4 (fun t h => fun e i l => h * c * k t h e i l) (W3 (fun t e i l => c * x0 t e i l) (fun t e i l => c * x1 t e i l) (fun t e i l => c * x2 t e i l)).
Proof.
  intros Hx H. apply (drop 4 4 _ _ (fun t e i l => c * x3 t e i l)); [lia|now apply bd_scale|].
  apply (O_ext 4 (fun t h e i l => h ^ 1 * (c * minus3 (k t h) (P3 x0 x1 x2 x3 t h) e i l))); [intros; unfold minus3, P3, W3; ring|].
  apply (O_le 4 5); [lia|]. apply (O_h 4 1). now apply O_scale.
Qed.

Lemma k2_expand : eqO 4 k2 (P3 F (fun t e i l => /2 * A t (F t) e i l) (fun t e i l => /8 * B t (F t) (F t) e i l) (fun t e i l => /48 * K t (F t) (F t) (F t) e i l)).
Proof.
  assert (BF : bd (fun t e i l => /2 * F t e i l)) by (apply bd_scale, bd_F).
  pose proof (taylor 4 (fun t h e i l => h / 2 * F t e i l) (fun t e i l => /2 * F t e i l) nil nil ltac:(lia) BF bd_nil bd_nil) as X.
  assert (E : eqO 4 (fun t h e i l => h / 2 * F t e i l) (W3 (fun t e i l => /2 * F t e i l) nil nil)).
  { apply (eqO_ext 4 (fun t h e i l => h / 2 * F t e i l)); [intros; unfold W3, nil; field|apply eqO_refl]. }
  specialize (X E). revert X. apply eqO_ext. intros t h e j k Ok. unfold P3.
  rewrite A_scale, A_nil, B_nil, B_scale1, B_scale2, K_scale by exact Ok. field.
Qed.
Lemma k3_expand : eqO 4 k3 (P3 F (fun t e i l => /2 * A t (F t) e i l) (fun t e i l => /4 * A t (A t (F t)) e i l + /8 * B t (F t) (F t) e i l)
  (fun t e i l => (/16 * A t (B t (F t) (F t)) e i l + /8 * B t (F t) (A t (F t)) e i l) + /48 * K t (F t) (F t) (F t) e i l)).
Proof.
  assert (BK : bd (fun t e i l => /48 * K t (F t) (F t) (F t) e i l)) by (apply bd_scale, bd_K; apply bd_F).
  pose proof (stage (/2) k2 _ _ _ _ BK k2_expand) as E.
  pose proof (taylor 4 (fun t h e i l => h * /2 * k2 t h e i l) _ _ _ ltac:(lia) (bd_scale (/2) F bd_F)
    (bd_scale (/2) _ (bd_scale (/2) _ (bd_A _ bd_F))) (bd_scale (/2) _ (bd_scale (/8) _ (bd_B _ _ bd_F bd_F))) E) as X.
  revert X. apply eqO_ext. intros t h e j k Ok. unfold P3.
  rewrite !A_scale, !B_scale1, !B_scale2, !K_scale by exact Ok. field.
Qed.
Lemma k4_expand : eqO 4 k4 (P3 F (fun t => A t (F t)) (fun t e i l => /2 * A t (A t (F t)) e i l + /2 * B t (F t) (F t) e i l)
  (fun t e i l => ((/4 * A t (A t (A t (F t))) e i l + /8 * A t (B t (F t) (F t)) e i l) + /2 * B t (F t) (A t (F t)) e i l) + /6 * K t (F t) (F t) (F t) e i l)).
Proof.
  pose proof k3_expand as X3. apply (stage 1) in X3.
  2:{ apply bd_add; [apply bd_add|]; apply bd_scale; [apply (bd_A (fun t => B t (F t) (F t))), bd_BFF|apply (bd_B F (fun t => A t (F t))); [apply bd_F|apply bd_A, bd_F]|apply bd_K; apply bd_F]. }
  apply (taylor 4) in X3.
  - revert X3. intros X. apply (O_ext 4 (fun t h => minus3 (k4 t h) (P3 F (fun t => A t (fun e i l => 1 * F t e i l)) (fun t e i l => A t (fun e i l => 1 * (/2 * A t (F t) e i l)) e i l + B t (fun e i l => 1 * F t e i l) (fun e i l => 1 * F t e i l) e i l / 2)
      (fun t e i l => A t (fun e i l => 1 * (/4 * A t (A t (F t)) e i l + /8 * B t (F t) (F t) e i l)) e i l + B t (fun e i l => 1 * F t e i l) (fun e i l => 1 * (/2 * A t (F t) e i l)) e i l + K t (fun e i l => 1 * F t e i l) (fun e i l => 1 * F t e i l) (fun e i l => 1 * F t e i l) e i l / 6) t h))).
    + intros t h e j k Ok. unfold minus3, P3. rewrite !A_scale, A_add, !A_scale, !B_scale1, !B_scale2, !K_scale by exact Ok. field.
    + revert X. apply O_ext. intros t h e j k Ok. unfold minus3, k4, shift. f_equal. f_equal. f_equal.
      extensionality a. extensionality b. extensionality c. ring.
  - lia.
  - apply bd_scale, bd_F.
  - apply bd_scale, bd_scale, bd_A, bd_F.
  - apply bd_scale, bd_add; apply bd_scale; [apply bd_AAF|apply bd_BFF].
Qed.

(** One step from a point of the curve. *)
Lemma rk_local : eqO 5 (fun t h => ode_step f RungeKutta4 h (Y t)) (fun t h => Y (t + h)).
Proof.
  set (Q := fun t h e i l => W3 F c2 c3 t h e i l + h ^ 4 * c4 t e i l).
  assert (X : eqO 5 (fun t h e i l => h / 6 * (F t e i l + 2 * k2 t h e i l + 2 * k3 t h e i l + k4 t h e i l)) Q).
  { apply (O_ext 5 (fun t h e i l => (/3 * (h ^ 1 * (fun t h => minus3 (k2 t h) (P3 F (fun t e i l => /2 * A t (F t) e i l) (fun t e i l => /8 * B t (F t) (F t) e i l) (fun t e i l => /48 * K t (F t) (F t) (F t) e i l) t h)) t h e i l) +
      /3 * (h ^ 1 * (fun t h => minus3 (k3 t h) (P3 F (fun t e i l => /2 * A t (F t) e i l) (fun t e i l => /4 * A t (A t (F t)) e i l + /8 * B t (F t) (F t) e i l)
  (fun t e i l => (/16 * A t (B t (F t) (F t)) e i l + /8 * B t (F t) (A t (F t)) e i l) + /48 * K t (F t) (F t) (F t) e i l) t h)) t h e i l)) +
      /6 * (h ^ 1 * (fun t h => minus3 (k4 t h) (P3 F (fun t => A t (F t)) (fun t e i l => /2 * A t (A t (F t)) e i l + /2 * B t (F t) (F t) e i l)
  (fun t e i l => ((/4 * A t (A t (A t (F t))) e i l + /8 * A t (B t (F t) (F t)) e i l) + /2 * B t (F t) (A t (F t)) e i l) + /6 * K t (F t) (F t) (F t) e i l) t h)) t h e i l))).
    - intros t h e j k Ok. unfold minus3, P3, Q, W3, c2, c3, c4. field.
    - apply O_add; [apply O_add|]; apply O_scale, (O_h 4 1); [exact k2_expand|exact k3_expand|exact k4_expand]. }
  apply (O_ext 5 (fun t h e i l => minus3 (fun e i l => h / 6 * (F t e i l + 2 * k2 t h e i l + 2 * k3 t h e i l + k4 t h e i l)) (Q t h) e i l + minus3 (Q t h) (YC t h) e i l)).
  - intros t h e j k Ok. unfold minus3, YC. cbn [ode_step]. unfold shift at 1. unfold k4, k3, k2, F. ring.
  - apply O_add; [exact X|]. exact (eqO_sym 5 _ _ curve5).
Qed.
Lemma fe_local : eqO 2 (fun t h => ode_step f ForwardEuler h (Y t)) (fun t h => Y (t + h)).
Proof.
  apply (O_ext 2 (fun t h => minus3 (W3 F nil nil t h) (YC t h))); [intros; unfold minus3, YC, W3, nil, F; cbn [ode_step]; unfold shift; ring|]. exact (eqO_sym 2 _ _ curve2).
Qed.

(** Small displacements stay in the tube. *)
Lemma O_tube g : O 1 g -> exists d, 0 < d <= 1 /\ forall t h, dom d t h -> bounded_by ok (g t h) (rho / 2).
Proof.
  intros (C & d & HC & Hd & H). pose proof (sa_rho _ _ _ _ _ _ _ _ _ SA) as Hr. assert (Q : 0 < rho / 2 / (C + 1)) by (apply Rdiv_lt_0_compat; lra).
  exists (Rmin d (rho / 2 / (C + 1))). split; [split; [apply Rmin_pos; lra|pose proof (Rmin_l d (rho / 2 / (C + 1))); lra]|].
  intros t h D e j k Ok. pose proof (dom_le _ _ _ _ (Rmin_l _ _) D) as D1. pose proof (dom_le _ _ _ _ (Rmin_r _ _) D) as D2.
  pose proof (H t h D1 e j k Ok) as X. rewrite pow_1 in X. destruct D2 as (_ & D2 & _). apply (Rle_trans _ _ _ X).
  apply Rle_trans with ((C + 1) * (rho / 2 / (C + 1))); [apply Rmult_le_compat; lra|]. right. field. lra.
Qed.

(** Two states near a point of the curve. *)
Lemma near_lip t v w b : 0 <= t <= T -> bounded_by ok (minus3 w (Y t)) (rho / 2) -> bounded_by ok (minus3 v w) b -> b <= rho / 2 -> bounded_by ok (minus3 (f v) (f w)) (M * b).
Proof.
  intros Ht Hw Hv Hb. pose proof (sa_rho _ _ _ _ _ _ _ _ _ SA) as Hr. apply (sa_lip _ _ _ _ _ _ _ _ _ SA t); [exact Ht| | |exact Hv].
  - intros e j k Ok. replace (minus3 v (Y t) e j k) with (minus3 v w e j k + minus3 w (Y t) e j k) by (unfold minus3; ring).
    eapply Rle_trans; [apply Rabs_triang|]. pose proof (Hw e j k Ok). pose proof (Hv e j k Ok). lra.
  - intros e j k Ok. pose proof (Hw e j k Ok). lra.
Qed.
Lemma shift_diff a u w ku kw b c c' : 0 <= a -> bounded_by ok (minus3 u w) b -> bounded_by ok (minus3 ku kw) c -> b + a * c <= c' -> bounded_by ok (minus3 (shift u a ku) (shift w a kw)) c'.
Proof.
  intros Ha H H' L e j k Ok. unfold minus3, shift. replace (u e j k + a * ku e j k - (w e j k + a * kw e j k)) with (minus3 u w e j k + a * minus3 ku kw e j k) by (unfold minus3; ring).
  eapply Rle_trans; [apply Rabs_triang|]. rewrite Rabs_mult, (Rabs_pos_eq a Ha). pose proof (H e j k Ok). pose proof (H' e j k Ok).
  assert (a * Rabs (minus3 ku kw e j k) <= a * c) by (now apply Rmult_le_compat_l). lra.
Qed.

Lemma stable st : exists d, 0 < d <= 1 /\ forall t h u b, dom d t h -> 0 <= b <= rho / 8 -> bounded_by ok (minus3 u (Y t)) b ->
  bounded_by ok (minus3 (ode_step f st h u) (ode_step f st h (Y t))) ((1 + 2 * M * h) * b).
Proof.
  pose proof (sa_M _ _ _ _ _ _ _ _ _ SA) as HM. pose proof (sa_rho _ _ _ _ _ _ _ _ _ SA) as Hr.
  assert (Z0 : forall t, bounded_by ok (minus3 (Y t) (Y t)) (rho / 2)) by (intros t e j k Ok; unfold minus3; rewrite Rminus_diag_eq, Rabs_R0 by reflexivity; lra).
  destruct st.
  - exists 1. split; [lra|]. intros t h u b D Hb Hu. pose proof (dom_t _ _ _ D) as Dt. destruct D as (_ & Dh & _). cbn [ode_step].
    apply (shift_diff h u (Y t) _ _ b (M * b)); [lra|exact Hu|apply (near_lip t); auto; lra|]. assert (0 <= M * (h * b)) by (apply Rmult_le_pos; nra). lra.
  - assert (O2 : O 0 k2) by (apply (eqO_O 0 _ _ (O_le 0 4 _ ltac:(lia) k2_expand)); unfold P3; apply O_add; [apply O_add; [apply O_add|]|]; [apply bd_F| | |];
      [apply (O_ext 0 (fun t h e i l => h ^ 1 * (/2 * A t (F t) e i l))); [intros; ring|] | |]; (eapply (term 0); [lia|]); bds).
    assert (O3 : O 0 k3) by (apply (eqO_O 0 _ _ (O_le 0 4 _ ltac:(lia) k3_expand)); unfold P3; apply O_add; [apply O_add; [apply O_add|]|]; [apply bd_F| | |];
      [apply (O_ext 0 (fun t h e i l => h ^ 1 * (/2 * A t (F t) e i l))); [intros; ring|] | apply (term 0 2 (fun t e i l => /4 * A t (A t (F t)) e i l + /8 * B t (F t) (F t) e i l)) |
       apply (term 0 3 (fun t e i l => (/16 * A t (B t (F t) (F t)) e i l + /8 * B t (F t) (A t (F t)) e i l) + /48 * K t (F t) (F t) (F t) e i l))]; [| lia | | lia |];
      [eapply (term 0); [lia|]; bds | apply bd_add; apply bd_scale; [apply bd_AAF|apply bd_BFF] |
       apply bd_add; [apply bd_add|]; apply bd_scale; [apply (bd_A (fun t => B t (F t) (F t))), bd_BFF|apply (bd_B F (fun t => A t (F t))); [apply bd_F|apply bd_A, bd_F]|apply bd_K; apply bd_F]]).
    assert (S : forall g c, O 0 g -> O 1 (fun t h e i l => h * c * g t h e i l)).
    { intros g c H. apply (O_ext 1 (fun t h e i l => h ^ 1 * (c * g t h e i l))); [intros; ring|]. apply (O_h 0 1). now apply O_scale. }
    destruct (O_tube _ (S _ (/2) bd_F)) as (d1 & Hd1 & T1). destruct (O_tube _ (S _ (/2) O2)) as (d2 & Hd2 & T2). destruct (O_tube _ (S _ 1 O3)) as (d3 & Hd3 & T3).
    assert (Q : 0 < / (M + 1)) by (apply Rinv_0_lt_compat; lra).
    exists (Rmin (Rmin d1 d2) (Rmin d3 (/ (M + 1)))). set (d := Rmin (Rmin d1 d2) (Rmin d3 (/ (M + 1)))).
    assert (L : d <= d1 /\ d <= d2 /\ d <= d3 /\ d <= / (M + 1)).
    { unfold d. pose proof (Rmin_l (Rmin d1 d2) (Rmin d3 (/ (M + 1)))). pose proof (Rmin_r (Rmin d1 d2) (Rmin d3 (/ (M + 1)))).
      pose proof (Rmin_l d1 d2). pose proof (Rmin_r d1 d2). pose proof (Rmin_l d3 (/ (M + 1))). pose proof (Rmin_r d3 (/ (M + 1))). lra. }
    split; [split; [unfold d; repeat apply Rmin_pos; lra|lra]|]. intros t h u b D Hb Hu. pose proof (dom_t _ _ _ D) as Dt.
    assert (C1 := T1 t h (dom_le d d1 t h ltac:(lra) D)). assert (C2 := T2 t h (dom_le d d2 t h ltac:(lra) D)). assert (C3 := T3 t h (dom_le d d3 t h ltac:(lra) D)).
    destruct D as (_ & Dh & _). assert (HMh : M * h <= 1).
    { apply Rle_trans with ((M + 1) * / (M + 1)); [|right; field; lra]. apply Rmult_le_compat; lra. }
    assert (HMh0 : 0 <= M * h) by (apply Rmult_le_pos; lra).
    assert (P1 : bounded_by ok (minus3 (shift (Y t) (h / 2) (F t)) (Y t)) (rho / 2)).
    { intros e j k Ok. replace (minus3 (shift (Y t) (h / 2) (F t)) (Y t) e j k) with (h * / 2 * F t e j k) by (unfold minus3, shift; field). now apply C1. }
    assert (P2 : bounded_by ok (minus3 (shift (Y t) (h / 2) (k2 t h)) (Y t)) (rho / 2)).
    { intros e j k Ok. replace (minus3 (shift (Y t) (h / 2) (k2 t h)) (Y t) e j k) with (h * / 2 * k2 t h e j k) by (unfold minus3, shift; field). now apply C2. }
    assert (P3' : bounded_by ok (minus3 (shift (Y t) h (k3 t h)) (Y t)) (rho / 2)).
    { intros e j k Ok. replace (minus3 (shift (Y t) h (k3 t h)) (Y t) e j k) with (h * 1 * k3 t h e j k) by (unfold minus3, shift; field). now apply C3. }
    cbn [ode_step]. cbv zeta. set (u1 := f u). set (u2 := f (shift u (h / 2) u1)). set (u3 := f (shift u (h / 2) u2)). set (u4 := f (shift u h u3)).
    change (f (Y t)) with (F t). change (f (shift (Y t) (h / 2) (F t))) with (k2 t h). change (f (shift (Y t) (h / 2) (k2 t h))) with (k3 t h). change (f (shift (Y t) h (k3 t h))) with (k4 t h).
    assert (X : M * h * b <= b) by nra. assert (X0 : 0 <= M * h * b) by (apply Rmult_le_pos; lra). 
    assert (D1 : bounded_by ok (minus3 u1 (F t)) (M * b)) by (apply (near_lip t); auto; lra).
    assert (D2 : bounded_by ok (minus3 u2 (k2 t h)) (M * (3 / 2 * b))).
    { apply (near_lip t); [exact Dt|exact P1| |lra]. apply (shift_diff (h / 2) u (Y t) u1 (F t) b (M * b)); [lra|exact Hu|exact D1|lra]. }
    assert (D3 : bounded_by ok (minus3 u3 (k3 t h)) (M * (7 / 4 * b))).
    { apply (near_lip t); [exact Dt|exact P2| |lra]. apply (shift_diff (h / 2) u (Y t) u2 (k2 t h) b (M * (3 / 2 * b))); [lra|exact Hu|exact D2|lra]. }
    assert (D4 : bounded_by ok (minus3 u4 (k4 t h)) (M * (11 / 4 * b))).
    { apply (near_lip t); [exact Dt|exact P3'| |lra]. apply (shift_diff h u (Y t) u3 (k3 t h) b (M * (7 / 4 * b))); [lra|exact Hu|exact D3|lra]. }
    apply (shift_diff (h / 6) u (Y t) _ _ b (M * (41 / 4 * b))); [lra|exact Hu| |lra].
    intros e j k Ok. pose proof (D1 e j k Ok) as E1. pose proof (D2 e j k Ok) as E2. pose proof (D3 e j k Ok) as E3. pose proof (D4 e j k Ok) as E4.
    unfold minus3 in *. revert E1 E2 E3 E4. unfold Rabs. repeat destruct (Rcase_abs _); lra.
Qed.

Lemma local st : eqO (S (order_of st)) (fun t h => ode_step f st h (Y t)) (fun t h => Y (t + h)).
Proof. destruct st; [exact fe_local|exact rk_local]. Qed.

Lemma exp_step x : 0 <= x -> 1 + x <= exp x.
Proof. intros [H| <-]; [left; apply exp_ineq1; lra|rewrite exp_0; lra]. Qed.

(** The error after any number of steps. *)
Theorem converges st : exists C d, 0 <= C /\ 0 < d /\ forall h n c, 0 < h <= d -> INR n * h <= T -> bounded_by ok (minus3 c (Y 0)) 0 ->
  bounded_by ok (minus3 (Nat.iter n (ode_step f st h) c) (Y (INR n * h))) (C * h ^ order_of st).
Proof.
  destruct (local st) as (C & d1 & HC & Hd1 & L). destruct (stable st) as (d2 & Hd2 & ST). pose proof (sa_M _ _ _ _ _ _ _ _ _ SA) as HM. pose proof (sa_rho _ _ _ _ _ _ _ _ _ SA) as Hr.
  set (G := C * T * exp (2 * M * T)). assert (HG : 0 <= G) by (unfold G; pose proof (exp_pos (2 * M * T)); apply Rmult_le_pos; [nra|lra]).
  assert (Q : 0 < rho / 8 / (G + 1)) by (apply Rdiv_lt_0_compat; lra).
  set (d := Rmin (Rmin d1 d2) (rho / 8 / (G + 1))). assert (Ld : d <= d1 /\ d <= d2 /\ d <= rho / 8 / (G + 1)).
  { unfold d. pose proof (Rmin_l (Rmin d1 d2) (rho / 8 / (G + 1))). pose proof (Rmin_r (Rmin d1 d2) (rho / 8 / (G + 1))). pose proof (Rmin_l d1 d2). pose proof (Rmin_r d1 d2). lra. }
  assert (Pd : 0 < d) by (unfold d; repeat apply Rmin_pos; lra).
  exists G, d. split; [exact HG|]. split; [exact Pd|]. intros h n c Hh HnT H0. set (p := order_of st) in *.
  assert (Hp : 0 <= h ^ p) by (apply pow_le; lra). assert (Hp1 : h ^ p <= h) by (rewrite <- (pow_1 h) at 2; apply pow_less; [lra|unfold p; destruct st; cbn; lia]).
  assert (X : forall n, INR n * h <= T -> bounded_by ok (minus3 (Nat.iter n (ode_step f st h) c) (Y (INR n * h))) (C * h ^ p * (INR n * h) * exp (2 * M * (INR n * h)))).
  { clear n HnT. intros n. induction n as [|n IH]; intros HnT.
    - simpl INR. rewrite !Rmult_0_l, Rmult_0_r, Rmult_0_l. exact H0.
    - rewrite S_INR in *. pose proof (pos_INR n) as Pn. assert (Hn : 0 <= INR n * h) by (apply Rmult_le_pos; lra).
      specialize (IH ltac:(lra)). set (b := C * h ^ p * (INR n * h) * exp (2 * M * (INR n * h))) in *.
      assert (B0 : 0 <= b) by (unfold b; pose proof (exp_pos (2 * M * (INR n * h))); repeat apply Rmult_le_pos; try assumption; lra).
      assert (B1 : b <= rho / 8).
      { apply Rle_trans with (G * h).
        - unfold b, G. replace (C * T * exp (2 * M * T) * h) with (C * h * T * exp (2 * M * T)) by ring.
          assert (E : exp (2 * M * (INR n * h)) <= exp (2 * M * T)). { destruct (Req_dec (2 * M * (INR n * h)) (2 * M * T)) as [->|NE]; [lra|]. left. apply exp_increasing. assert (2 * M * (INR n * h) <= 2 * M * T) by (apply Rmult_le_compat_l; lra). lra. }
          pose proof (exp_pos (2 * M * (INR n * h))). apply Rmult_le_compat; [|lra| |exact E]; [apply Rmult_le_pos; [apply Rmult_le_pos|]; lra|].
          apply Rmult_le_compat; [apply Rmult_le_pos; lra|lra| |lra]. apply Rmult_le_compat_l; lra.
        - apply Rle_trans with ((G + 1) * (rho / 8 / (G + 1))); [apply Rmult_le_compat; lra|]. right. field. lra. }
      assert (D1 : dom d1 (INR n * h) h) by (unfold dom; lra). assert (D2 : dom d2 (INR n * h) h) by (unfold dom; lra).
      pose proof (ST (INR n * h) h _ b D2 (conj B0 B1) IH) as E1. pose proof (L (INR n * h) h D1) as E2.
      intros e j k Ok. specialize (E1 e j k Ok). specialize (E2 e j k Ok). change (Nat.iter (Datatypes.S n) (ode_step f st h) c) with (ode_step f st h (Nat.iter n (ode_step f st h) c)).
      replace ((INR n + 1) * h) with (INR n * h + h) by ring.
      replace (minus3 (ode_step f st h (Nat.iter n (ode_step f st h) c)) (Y (INR n * h + h)) e j k) with
        (minus3 (ode_step f st h (Nat.iter n (ode_step f st h) c)) (ode_step f st h (Y (INR n * h))) e j k + minus3 (ode_step f st h (Y (INR n * h))) (Y (INR n * h + h)) e j k) by (unfold minus3; ring).
      eapply Rle_trans; [apply Rabs_triang|]. eapply Rle_trans; [apply Rplus_le_compat; [exact E1|exact E2]|].
      assert (HS : h ^ Datatypes.S p = h * h ^ p) by reflexivity. rewrite HS. replace (exp (2 * M * (INR n * h + h))) with (exp (2 * M * (INR n * h)) * exp (2 * M * h)) by (rewrite <- exp_plus; f_equal; ring).
      set (x := exp (2 * M * (INR n * h))) in *. assert (X1 : 1 <= x). { unfold x. assert (0 <= 2 * M * (INR n * h)) by (apply Rmult_le_pos; lra). pose proof (exp_step _ H). lra. }
      assert (Y1 : 1 + 2 * M * h <= exp (2 * M * h)) by (apply exp_step; apply Rmult_le_pos; lra). set (y := exp (2 * M * h)) in *.
      assert (Y2 : 1 <= y) by (assert (0 <= 2 * M * h) by (apply Rmult_le_pos; lra); lra).
      assert (Z1 : (1 + 2 * M * h) * b <= y * b) by (apply Rmult_le_compat_r; assumption).
      assert (Z2 : C * (h * h ^ p) <= C * h ^ p * h * (x * y)).
      { replace (C * (h * h ^ p)) with (C * h ^ p * h * 1) by ring. apply Rmult_le_compat_l; [apply Rmult_le_pos; [apply Rmult_le_pos|]; lra|].
        replace 1 with (1 * 1) by ring. apply Rmult_le_compat; lra. }
      unfold b in *. apply Rle_trans with (y * (C * h ^ p * (INR n * h) * x) + C * h ^ p * h * (x * y)); [lra|]. right. ring. }
  intros e j k Ok. eapply Rle_trans; [apply (X n HnT e j k Ok)|]. unfold G. pose proof (pos_INR n) as Pn. assert (Hn : 0 <= INR n * h) by (apply Rmult_le_pos; lra).
  assert (E : exp (2 * M * (INR n * h)) <= exp (2 * M * T)). { destruct (Req_dec (2 * M * (INR n * h)) (2 * M * T)) as [->|NE]; [lra|]. left. apply exp_increasing. assert (2 * M * (INR n * h) <= 2 * M * T) by (apply Rmult_le_compat_l; lra). lra. }
  pose proof (exp_pos (2 * M * (INR n * h))). replace (C * T * exp (2 * M * T) * h ^ p) with (C * h ^ p * T * exp (2 * M * T)) by ring.
  apply Rmult_le_compat; [|lra| |exact E]; [apply Rmult_le_pos; [apply Rmult_le_pos; assumption|exact Hn]|]. apply Rmult_le_compat_l; [apply Rmult_le_pos; assumption|exact HnT].
Qed.
End Conv.
