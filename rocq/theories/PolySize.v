(** PolySize.v -- polynomials with a bound on the sum of their absolute
    coefficients; the one-dimensional basis functions of order at most 11; the
    discrete integration by parts used by C80. *)
From Coq Require Import ZArith List Lia Reals Lra Bool Psatz.
From Coquelicot Require Import Coquelicot.
From Verif Require Import Base RBase QuadModel QuadProof PropQuad BasisModel BasisProof PropBasis.
Import ListNotations.
Local Open Scope R_scope.

(** [f] is a polynomial with [n] coefficients whose absolute values add up to at
    most [S]. *)
Definition sized (n : Z) (S : R) (f : R -> R) : Prop :=
  exists c : Z -> R, (forall x, f x = rsum n (fun k => c k * x ^ Z.to_nat k)) /\ rsum n (fun k => Rabs (c k)) <= S.

Lemma sized_ext n S f g : (forall x, f x = g x) -> sized n S f -> sized n S g.
Proof. intros E [c [H B]]. exists c. split; [intros x; now rewrite <- E|exact B]. Qed.

Lemma sized_le n S T f : S <= T -> sized n S f -> sized n T f.
Proof. intros E [c [H B]]. exists c. split; [exact H|lra]. Qed.

Lemma sized_nonneg n S f : sized n S f -> 0 <= S.
Proof.
  intros (c & _ & B). eapply Rle_trans; [|exact B]. rewrite <- (rsum_zero n (fun _ => 0)) by reflexivity. apply rsum_le. intros; apply Rabs_pos.
Qed.

Lemma sized_plus n S T f g : sized n S f -> sized n T g -> sized n (S + T) (fun x => f x + g x).
Proof.
  intros [c [Hc Bc]] [d [Hd Bd]]. exists (fun k => c k + d k). split.
  - intros x. rewrite Hc, Hd, <- rsum_plus. apply rsum_ext. intros; ring.
  - apply (Rle_trans _ (rsum n (fun k => Rabs (c k) + Rabs (d k)))); [apply rsum_le; intros; apply Rabs_triang|]. rewrite rsum_plus. lra.
Qed.

Lemma sized_scal n a S f : sized n S f -> sized n (Rabs a * S) (fun x => a * f x).
Proof.
  intros [c [Hc Bc]]. exists (fun k => a * c k). split.
  - intros x. rewrite Hc, <- rsum_scal. apply rsum_ext. intros; ring.
  - rewrite (rsum_ext n _ (fun k => Rabs a * Rabs (c k))) by (intros; apply Rabs_mult). rewrite rsum_scal. apply Rmult_le_compat_l; [apply Rabs_pos|exact Bc].
Qed.

Lemma sized_zero n : sized n 0 (fun _ => 0).
Proof. exists (fun _ => 0). split; [intros x; symmetry; apply rsum_zero; intros; ring|]. right. apply rsum_zero. intros; apply Rabs_R0. Qed.

Lemma sized_sum n m (f : Z -> R -> R) (S : Z -> R) : (forall k, (0 <= k < m)%Z -> sized n (S k) (f k)) ->
  sized n (rsum m S) (fun x => rsum m (fun k => f k x)).
Proof.
  induction m as [m H|m H IH] using zind; intros P.
  - rewrite rsum_0 by lia. apply (sized_ext n 0 (fun _ => 0)); [intros; now rewrite rsum_0|apply sized_zero].
  - rewrite rsum_S by lia. apply (sized_ext n _ (fun x => rsum m (fun k => f k x) + f m x)); [intros; now rewrite rsum_S|].
    apply sized_plus; [apply IH; intros; apply P; lia|apply P; lia].
Qed.

Lemma sized_mono n k : (0 <= k < n)%Z -> sized n 1 (fun x => x ^ Z.to_nat k).
Proof.
  intros Hk. exists (fun j => if (j =? k)%Z then 1 else 0). split.
  - intros x. rewrite <- (rsum_delta n k (fun j => x ^ Z.to_nat j) Hk). apply rsum_ext. intros j Hj. destruct (j =? k)%Z; ring.
  - right. transitivity (rsum n (fun j => if (j =? k)%Z then 1 else 0)); [|exact (rsum_delta n k (fun _ => 1) Hk)].
    apply rsum_ext. intros j Hj. destruct (j =? k)%Z; [apply Rabs_R1|apply Rabs_R0].
Qed.

Lemma sized_term n a k : (0 <= k < n)%Z -> sized n (Rabs a) (fun x => a * x ^ Z.to_nat k).
Proof. intros Hk. rewrite <- (Rmult_1_r (Rabs a)). now apply sized_scal, sized_mono. Qed.

Lemma sized_const n a : (0 < n)%Z -> sized n (Rabs a) (fun _ => a).
Proof. intros. apply (sized_ext n _ (fun x => a * x ^ Z.to_nat 0)); [intros; cbn; ring|]. apply sized_term. lia. Qed.

Lemma sized_weaken n m S f : (0 <= n)%Z -> (n <= m)%Z -> sized n S f -> sized m S f.
Proof.
  intros Hn Hm [c [Hc B]]. apply (sized_le m (rsum n (fun k => Rabs (c k)))); [exact B|].
  apply (sized_ext m _ (fun x => rsum n (fun k => c k * x ^ Z.to_nat k))); [intros; now rewrite Hc|].
  apply sized_sum. intros k Hk. apply sized_term. lia.
Qed.

Lemma sized_mulx n S f : (0 <= n)%Z -> sized n S f -> sized (n + 1) S (fun x => x * f x).
Proof.
  intros Hn [c [Hc B]]. apply (sized_le _ (rsum n (fun k => Rabs (c k)))); [exact B|].
  apply (sized_ext (n + 1) _ (fun x => rsum n (fun k => c k * x ^ Z.to_nat (k + 1)))).
  - intros x. rewrite Hc, <- rsum_scal. apply rsum_ext. intros k Hk.
    replace (Z.to_nat (k + 1)) with (Datatypes.S (Z.to_nat k)) by lia. cbn. ring.
  - apply sized_sum. intros k Hk. apply sized_term. lia.
Qed.

Lemma sized_linear n a b S f : (0 <= n)%Z -> sized n S f -> sized (n + 1) ((Rabs a + Rabs b) * S) (fun x => (a * x + b) * f x).
Proof.
  intros Hn P. apply (sized_le _ (Rabs a * S + Rabs b * S)); [lra|].
  apply (sized_ext (n + 1) _ (fun x => a * (x * f x) + b * f x)); [intros; ring|].
  apply sized_plus; apply sized_scal; [now apply sized_mulx|]. apply (sized_weaken n); auto; lia.
Qed.

Lemma sized_opp n S f : sized n S f -> sized n S (fun x => f (- x)).
Proof.
  intros [c [Hc B]]. exists (fun k => c k * (-1) ^ Z.to_nat k). split.
  - intros x. rewrite Hc. apply rsum_ext. intros k Hk. replace (- x) with (-1 * x) by ring. rewrite Rpow_mult_distr. ring.
  - eapply Rle_trans; [|exact B]. right. apply rsum_ext. intros k Hk. rewrite Rabs_mult, pow_1_abs. ring.
Qed.

(** Values on [-1, 1]. *)
Lemma sized_value n S f x : sized n S f -> -1 <= x <= 1 -> Rabs (f x) <= S.
Proof.
  intros [c [Hc B]] Hx. rewrite Hc. eapply Rle_trans; [apply rsum_Rabs|]. eapply Rle_trans; [|exact B]. apply rsum_le. intros k Hk.
  rewrite Rabs_mult. rewrite <- (Rmult_1_r (Rabs (c k))) at 2. apply Rmult_le_compat_l; [apply Rabs_pos|].
  rewrite <- RPow_abs. assert (A : 0 <= Rabs x <= 1) by (split; [apply Rabs_pos|apply Rabs_le; lra]).
  generalize (Z.to_nat k). intros j. induction j; cbn; [lra|]. assert (0 <= Rabs x ^ j) by (apply pow_le; lra). nra.
Qed.

(** The derivative, with as many coefficients. *)
Lemma sized_derive n S f : (0 < n)%Z -> sized n S f ->
  exists f', (forall x, is_derive f x (f' x)) /\ sized (n - 1) (IZR (n - 1) * S) f'.
Proof.
  intros Hn [c [Hc B]]. pose proof (rsum_S (n - 1) (fun k => Rabs (c k)) ltac:(lia)) as SS.
  exists (fun x => rsum (n - 1) (fun k => (IZR (k + 1) * c (k + 1)%Z) * x ^ Z.to_nat k)). split.
  - intros x. apply (is_derive_ext (fun x => rsum n (fun k => c k * x ^ Z.to_nat k))); [intros; now rewrite Hc|].
    clear -Hn. replace n with (n - 1 + 1)%Z by lia. replace (n - 1 + 1 - 1)%Z with (n - 1)%Z by lia. assert (H : (0 <= n - 1)%Z) by lia. revert H. generalize (n - 1)%Z. clear.
    intros n Hn. induction n as [n H|n H IH] using zind.
    + assert (n = 0)%Z as -> by lia. rewrite (rsum_0 _ 0) by lia. apply (is_derive_ext (fun _ => c 0%Z)); [intros; change (0 + 1)%Z with 1%Z; rewrite rsum_1; cbn; ring|].
      auto_derive; [exact I|reflexivity].
    + rewrite rsum_S by lia. apply (is_derive_ext (fun x => rsum (n + 1) (fun k => c k * x ^ Z.to_nat k) + c (n + 1)%Z * x ^ Z.to_nat (n + 1))).
      * intros t. now rewrite (rsum_S (n + 1)) by lia.
      * apply @is_derive_plus; [apply IH; lia|].
        replace (Z.to_nat (n + 1)) with (Datatypes.S (Z.to_nat n)) by lia.
        replace (IZR (n + 1)) with (INR (Datatypes.S (Z.to_nat n))) by (rewrite INR_IZR_INZ; f_equal; lia).
        auto_derive; [exact I|].
        change (match Z.to_nat n with 0%nat => 1 | Datatypes.S _ => INR (Z.to_nat n) + 1 end) with (INR (Datatypes.S (Z.to_nat n))). ring.
  - apply (sized_le _ (rsum (n - 1) (fun k => Rabs (IZR (k + 1) * c (k + 1)%Z)))).
    + apply (Rle_trans _ (IZR (n - 1) * rsum (n - 1) (fun k => Rabs (c (k + 1)%Z)))).
      * rewrite <- rsum_scal. apply rsum_le. intros k Hk. rewrite Rabs_mult. apply Rmult_le_compat_r; [apply Rabs_pos|].
        rewrite Rabs_pos_eq by (apply IZR_le; lia). apply IZR_le. lia.
      * apply Rmult_le_compat_l; [apply IZR_le; lia|]. eapply Rle_trans; [|exact B].
        assert (SH : forall m, (0 <= m)%Z -> rsum m (fun k => Rabs (c (k + 1)%Z)) <= rsum (m + 1) (fun k => Rabs (c k))).
        { intros m. induction m as [m H|m H IH] using zind; intros Hm.
          - rewrite rsum_0 by lia. assert (m = 0)%Z as -> by lia. change (0 + 1)%Z with 1%Z. rewrite rsum_1. apply Rabs_pos.
          - rewrite rsum_S, (rsum_S (m + 1)) by lia. specialize (IH ltac:(lia)). lra. }
        replace n with (n - 1 + 1)%Z at 2 by lia. apply SH. lia.
    + apply sized_sum. intros k Hk. apply sized_term. lia.
Qed.

(** ** Quadrature *)

(** The integral of a polynomial over [-1, 1]. *)
Lemma sized_integral n S f : (0 < n)%Z -> sized n S f -> exists I, is_RInt f (-1) 1 I /\ Rabs I <= 2 * S.
Proof.
  intros Hn [c [Hc B]]. exists (rsum n (fun k => c k * moment k)). split.
  - apply (is_RInt_ext (fun x => rsum n (fun k => c k * x ^ Z.to_nat k))); [intros; now rewrite Hc|].
    apply (is_RInt_rsum n (fun k t => c k * t ^ Z.to_nat k) (fun k => c k * moment k)).
    intros k Hk. apply (is_RInt_scal (fun t => t ^ Z.to_nat k) (-1) 1 (c k) (moment k)). apply is_RInt_monomial; lia.
  - eapply Rle_trans; [apply rsum_Rabs|]. apply (Rle_trans _ (rsum n (fun k => 2 * Rabs (c k)))).
    + apply rsum_le. intros k Hk. rewrite Rabs_mult. pose proof (moment_bound k ltac:(lia)). pose proof (Rabs_pos (c k)). nra.
    + rewrite rsum_scal. lra.
Qed.

Lemma RInt_same (f : R -> R) I J : is_RInt f (-1) 1 I -> is_RInt f (-1) 1 J -> I = J.
Proof. intros H1 H2. rewrite <- (is_RInt_unique (V := R_CompleteNormedModule) _ _ _ _ H1). now apply (is_RInt_unique (V := R_CompleteNormedModule)). Qed.

Lemma rule_error N d eps x w n S f I : good_rule N d eps x w -> 0 <= eps -> sized n S f -> (0 < n <= d + 1)%Z -> is_RInt f (-1) 1 I ->
  Rabs (rsum N (fun i => w i * f (x i)) - I) <= eps * S.
Proof.
  intros (_ & _ & G) He (c & Hc & B) Hn HI. destruct (G c (n - 1)%Z ltac:(lia)) as (I' & HI' & E). unfold poly in HI', E. replace (n - 1 + 1)%Z with n in HI', E by lia.
  assert (I = I') as ->.
  { apply (RInt_same f); [exact HI|]. apply (is_RInt_ext (fun t => rsum n (fun k => c k * t ^ Z.to_nat k))); [intros; now rewrite Hc|exact HI']. }
  rewrite (rsum_ext N _ (fun i => w i * rsum n (fun k => c k * x i ^ Z.to_nat k))) by (intros; now rewrite Hc).
  eapply Rle_trans; [exact E|]. apply Rmult_le_compat_l; assumption.
Qed.

Lemma RInt_opp (f : R -> R) I : is_RInt f (-1) 1 I -> is_RInt (fun t => f (- t)) (-1) 1 I.
Proof.
  intros H. apply (is_RInt_ext (fun t => scal (-1) (opp (f (-1 * t + 0))))).
  - intros t _. unfold scal, opp; cbn. unfold mult; cbn. replace (-1 * t + 0) with (- t) by ring. ring.
  - apply (is_RInt_comp_lin (fun t => opp (f t)) (-1) 0 (-1) 1).
    replace (-1 * -1 + 0) with 1 by ring. replace (-1 * 1 + 0) with (-1) by ring.
    apply is_RInt_swap in H. apply is_RInt_opp in H. rewrite opp_opp in H. exact H.
Qed.

(** Integration by parts against a linear function. *)
Lemma by_parts (f f' : R -> R) a b I J : (forall x, is_derive f x (f' x)) -> (forall x, continuous f' x) ->
  is_RInt f (-1) 1 I -> is_RInt (fun x => (a * x + b) * f' x) (-1) 1 J ->
  J = f 1 * (b + a) - f (-1) * (b - a) - a * I.
Proof.
  intros D C HI HJ.
  assert (K : is_RInt (fun x => a * f x + (a * x + b) * f' x) (-1) 1 (minus ((a * 1 + b) * f 1) ((a * (-1) + b) * f (-1)))).
  { apply (is_RInt_derive (V := R_CompleteNormedModule) (fun x => (a * x + b) * f x)).
    - intros x _. evar_last; [apply is_derive_mult with (f := fun x => a * x + b)|]; [auto_derive; [exact Logic.I|reflexivity]|apply D|intros; apply Rmult_comm|].
      unfold plus, mult; cbn. ring.
    - intros x _. apply @continuous_plus.
      + apply (continuous_mult (fun _ => a)); [apply continuous_const|]. apply (ex_derive_continuous (V := R_NormedModule)). eexists. apply D.
      + apply (continuous_mult (fun x => a * x + b)); [|apply C].
        apply @continuous_plus; [|apply continuous_const]. apply (continuous_mult (fun _ => a)); [apply continuous_const|apply continuous_id]. }
  assert (K2 : is_RInt (fun x => a * f x + (a * x + b) * f' x) (-1) 1 (a * I + J)).
  { apply (is_RInt_plus (V := R_NormedModule)); [|exact HJ]. apply (is_RInt_scal (V := R_NormedModule)). exact HI. }
  pose proof (RInt_same _ _ _ K K2) as E. unfold minus, plus, opp in E; cbn in E. lra.
Qed.

(** ** The one-dimensional basis functions *)

Lemma lagrange_sized n x i (G : Z -> R) : (0 <= n)%Z -> (forall j, (0 <= j < n)%Z -> j <> i -> x i <> x j /\ (1 + Rabs (x j)) / Rabs (x i - x j) <= G j) ->
  sized (n + 1) (rprod n (fun j => if (i =? j)%Z then 1 else G j)) (lagrange_poly n x i).
Proof.
  intros Hn H. unfold lagrange_poly.
  assert (K : forall k, (0 <= k)%Z -> (k <= n)%Z -> sized (k + 1) (rprod k (fun j => if (i =? j)%Z then 1 else G j))
     (fun t => rprod k (fun j => if (i =? j)%Z then 1 else (t - x j) / (x i - x j)))).
  { intros k. induction k as [k Hk|k Hk IH] using zind; intros H0 Hkn.
    - assert (k = 0)%Z as -> by lia. rewrite rprod_0 by lia. apply (sized_ext _ _ (fun _ => 1)); [intros; now rewrite rprod_0 by lia|].
      rewrite <- Rabs_R1 at 1. apply sized_const. lia.
    - specialize (IH ltac:(lia) ltac:(lia)). rewrite rprod_S by lia. set (S := rprod k _) in *.
      set (f := fun t => rprod k (fun j => if (i =? j)%Z then 1 else (t - x j) / (x i - x j))) in *.
      apply (sized_ext _ _ (fun t => f t * (if (i =? k)%Z then 1 else (t - x k) / (x i - x k)))); [intros t; now rewrite rprod_S by lia|].
      destruct (Z.eqb_spec i k) as [->|N].
      + rewrite Rmult_1_r. apply (sized_ext _ _ f); [intros; ring|]. apply (sized_weaken (k + 1)); [lia|lia|exact IH].
      + destruct (H k ltac:(lia) ltac:(lia)) as (D & B). pose proof (Rabs_pos_lt (x i - x k) ltac:(lra)) as P.
        apply (sized_le _ ((Rabs (/ (x i - x k)) + Rabs (- x k / (x i - x k))) * S)).
        * rewrite Rmult_comm. apply Rmult_le_compat_l; [eapply sized_nonneg; exact IH|]. eapply Rle_trans; [|exact B]. right.
          unfold Rdiv. rewrite Rabs_mult, Rabs_Ropp, Rabs_inv. field. lra.
        * apply (sized_ext _ _ (fun t => (/ (x i - x k) * t + - x k / (x i - x k)) * f t)); [intros t; field; lra|].
          apply (sized_linear (k + 1)); [lia|exact IH]. }
  now apply K.
Qed.

Definition zprod (n : Z) (f : Z -> Z) : Z := fold_right Z.mul 1%Z (map f (zseq n)).

Lemma zprod_ratio n i (a b : Z -> Z) : (forall j, (0 < b j)%Z) ->
  (0 < zprod n (fun j => if (i =? j)%Z then 1 else b j))%Z /\
  rprod n (fun j => if (i =? j)%Z then 1 else IZR (a j) / IZR (b j)) * IZR (zprod n (fun j => if (i =? j)%Z then 1 else b j)%Z) =
  IZR (zprod n (fun j => if (i =? j)%Z then 1 else a j)%Z).
Proof.
  intros P. unfold rprod, zprod. induction (zseq n) as [|j l (IH1 & IH2)]; cbn [map fold_right]; [split; [lia|apply Rmult_1_r]|].
  destruct (Z.eqb_spec i j).
  - rewrite !Z.mul_1_l, Rmult_1_l. auto.
  - specialize (P j). split; [nia|]. rewrite !mult_IZR, <- IH2. assert (0 < IZR (b j)) by (now apply IZR_lt). field. lra.
Qed.

Definition basis_bound : Z := 4000000.

Definition small_enough (p i : Z) : bool :=
  (zprod (p + 1) (fun j => if i =? j then 1 else p) <=? basis_bound * zprod (p + 1) (fun j => if i =? j then 1 else Z.max 1 (Z.abs (i - j))))%Z.
Lemma all_small : forallb (fun p => forallb (small_enough p) (zseq (p + 1))) (zseq 12) = true.
Proof. vm_compute. reflexivity. Qed.

Lemma fn1_sized bt p i : (0 <= p <= 11)%Z -> supported bt p -> (0 <= i <= p)%Z -> sized (p + 2) (IZR basis_bound) (fn1 bt p i).
Proof.
  intros Hp Sup Hi. unfold fn1. destruct (is_lagrange bt) eqn:EL.
  - set (G j := IZR p / IZR (Z.max 1 (Z.abs (i - j)))).
    apply (sized_le _ (rprod (p + 1) (fun j => if (i =? j)%Z then 1 else G j))).
    + destruct (zprod_ratio (p + 1) i (fun _ => p) (fun j => Z.max 1 (Z.abs (i - j))) ltac:(intros; lia)) as (P & E).
      pose proof all_small as A. rewrite forallb_forall in A. specialize (A p (proj2 (In_zseq 12 p) ltac:(lia))). rewrite forallb_forall in A.
      specialize (A i (proj2 (In_zseq (p + 1) i) ltac:(lia))). unfold small_enough in A. apply Z.leb_le in A.
      apply IZR_lt in P. apply IZR_le in A. rewrite mult_IZR, <- E in A. fold (G) in A. unfold G.
      set (D := IZR (zprod (p + 1) (fun j => if (i =? j)%Z then 1 else Z.max 1 (Z.abs (i - j))))%Z) in *. nra.
    + replace (p + 2)%Z with (p + 1 + 1)%Z by lia. apply lagrange_sized; [lia|]. intros j Hj N. unfold even_node.
      assert (P0 : (p <> 0)%Z) by lia. destruct (Z.eqb_spec p 0); [lia|].
      assert (Pp : 0 < IZR p) by (apply IZR_lt; lia).
      assert (ED : -1 + 2 * IZR i / IZR p - (-1 + 2 * IZR j / IZR p) = 2 * IZR (i - j) / IZR p) by (rewrite minus_IZR; field; lra).
      assert (ND : IZR (i - j) <> 0) by (apply IZR_neq; lia).
      assert (DN : 2 * IZR (i - j) / IZR p <> 0) by (unfold Rdiv; apply Rmult_integral_contrapositive_currified; [lra|apply Rinv_neq_0_compat; lra]).
      split; [lra|]. rewrite ED. unfold G. rewrite Z.max_r by lia.
      assert (EA : Rabs (2 * IZR (i - j) / IZR p) = 2 * IZR (Z.abs (i - j)) / IZR p).
      { unfold Rdiv. rewrite !Rabs_mult, Rabs_inv, (Rabs_pos_eq 2), (Rabs_pos_eq (IZR p)) by lra. rewrite abs_IZR. reflexivity. }
      assert (PA : 0 < IZR (Z.abs (i - j))) by (apply IZR_lt; lia).
      rewrite EA. apply (Rle_trans _ (2 / (2 * IZR (Z.abs (i - j)) / IZR p))); [|right; field; lra].
      unfold Rdiv. apply Rmult_le_compat_r; [left; apply Rinv_0_lt_compat; apply Rmult_lt_0_compat; [lra|now apply Rinv_0_lt_compat]|].
      assert (Rabs (-1 + 2 * IZR j * / IZR p) <= 1); [|lra]. apply Rabs_le.
      assert (0 <= IZR j * / IZR p <= 1). { assert (0 <= IZR j <= IZR p) by (split; apply IZR_le; lia). split; [apply Rmult_le_pos; [lra|left; now apply Rinv_0_lt_compat]|].
        apply (Rmult_le_reg_r (IZR p)); [lra|]. rewrite Rmult_assoc, Rinv_l by lra. lra. } lra.
  - destruct Sup as [C|L7]; [congruence|]. unfold legendre_poly.
    assert (K : forall k, sized (Z.of_nat k + 1) (3 ^ k) (fun t => fst (legendre_pair k t)) /\ sized (Z.of_nat k + 2) (3 ^ (Datatypes.S k)) (fun t => snd (legendre_pair k t))).
    { induction k as [|k (IH1 & IH2)].
      - cbn. split; [rewrite <- Rabs_R1 at 1; apply sized_const; lia|]. apply (sized_le _ 1); [lra|]. apply (sized_ext _ _ (fun t => t ^ Z.to_nat 1)); [intros; apply pow_1|]. apply sized_mono. lia.
      - assert (Q : forall t, legendre_pair (Datatypes.S k) t = (snd (legendre_pair k t), ((2 * INR k + 3) * t * snd (legendre_pair k t) - (INR k + 1) * fst (legendre_pair k t)) / (INR k + 2))).
        { intros t. cbn [legendre_pair]. destruct (legendre_pair k t). reflexivity. }
        split.
        + apply (sized_ext _ _ (fun t => snd (legendre_pair k t))); [intros; now rewrite Q|]. replace (Z.of_nat (Datatypes.S k) + 1)%Z with (Z.of_nat k + 2)%Z by lia. exact IH2.
        + pose proof (pos_INR k) as Pk.
          apply (sized_ext _ _ (fun t => (2 * INR k + 3) / (INR k + 2) * (t * snd (legendre_pair k t)) + - ((INR k + 1) / (INR k + 2)) * fst (legendre_pair k t))); [intros t; rewrite Q; cbn [snd]; field; lra|].
          apply (sized_le _ (Rabs ((2 * INR k + 3) / (INR k + 2)) * 3 ^ (Datatypes.S k) + Rabs (- ((INR k + 1) / (INR k + 2))) * 3 ^ k)).
          * rewrite Rabs_Ropp, !Rabs_pos_eq; try (apply Rdiv_le_0_compat; lra). cbn [pow].
            assert (0 < 3 ^ k) by (apply pow_lt; lra). set (T := 3 ^ k) in *.
            apply (Rmult_le_reg_r (INR k + 2)); [lra|].
            replace (((2 * INR k + 3) / (INR k + 2) * (3 * T) + (INR k + 1) / (INR k + 2) * T) * (INR k + 2)) with ((7 * INR k + 10) * T) by (field; lra). nra.
          * replace (Z.of_nat (Datatypes.S k) + 2)%Z with (Z.of_nat k + 2 + 1)%Z by lia. apply sized_plus; apply sized_scal.
            -- apply sized_mulx; [lia|exact IH2].
            -- apply (sized_weaken (Z.of_nat k + 1)); [lia|lia|exact IH1]. }
    destruct (K (Z.to_nat i)) as (K1 & _). apply (sized_weaken (Z.of_nat (Z.to_nat i) + 1)); [lia|lia|].
    apply (sized_le _ (3 ^ Z.to_nat i)); [|exact K1]. assert (C : (Z.to_nat i <= 7)%nat) by lia.
    apply (Rle_trans _ (3 ^ 7)); [apply Rle_pow; [lra|exact C]|]. unfold basis_bound. lra.
Qed.

(** ** Discrete integration by parts *)

Lemma prod_error q q' i j d d' m m' : Rabs (q - i) <= d -> Rabs (q' - j) <= d' -> Rabs i <= m -> Rabs j <= m' -> Rabs (q * q' - i * j) <= d * (m' + d') + m * d'.
Proof.
  intros H1 H2 H3 H4. replace (q * q' - i * j) with ((q - i) * (j + (q' - j)) + i * (q' - j)) by ring.
  pose proof (Rabs_pos (q - i)). pose proof (Rabs_pos (q' - j)). pose proof (Rabs_pos i). pose proof (Rabs_pos j).
  eapply Rle_trans; [apply Rabs_triang|]. rewrite !Rabs_mult. apply Rplus_le_compat.
  - apply Rmult_le_compat; auto using Rabs_pos. eapply Rle_trans; [apply Rabs_triang|]. lra.
  - apply Rmult_le_compat; auto.
Qed.

Lemma sized_continuous n S f x : sized n S f -> continuous f x.
Proof.
  intros Hf. destruct (Z_lt_le_dec 0 n) as [Hn|Hn].
  - destruct (sized_derive n S f Hn Hf) as (f' & D & _). apply (ex_derive_continuous (V := R_NormedModule)). eexists. apply D.
  - destruct Hf as (c & Hc & _). apply (continuous_ext (fun _ => 0)); [intros t; rewrite Hc; now rewrite rsum_0 by lia|apply continuous_const].
Qed.

Lemma discrete_parts N d eps x w n A f f' g g' a b c M If Ig F1 F2 F3 F4 :
  good_rule N d eps x w -> 0 <= eps <= 1 -> (2 <= n <= d + 1)%Z ->
  sized n A f -> (forall t, is_derive f t (f' t)) -> sized (n - 1) (IZR (n - 1) * A) f' ->
  sized n A g -> (forall t, is_derive g t (g' t)) -> sized (n - 1) (IZR (n - 1) * A) g' ->
  Rabs a + Rabs b <= M -> Rabs a + Rabs c <= M ->
  is_RInt f (-1) 1 If -> is_RInt g (-1) 1 Ig ->
  Rabs (F1 - Ig) <= eps * A -> Rabs (F2 - Ig) <= eps * A -> Rabs (F3 - If) <= eps * A -> Rabs (F4 - If) <= eps * A ->
  let Q h := rsum N (fun i => w i * h (x i)) in
  Rabs (Q g * Q (fun t => (a * t + b) * f' t) - Q f * Q (fun t => (a * t + c) * g' t)
        - (f 1 * (b + a) * F1 - f (-1) * (b - a) * F2 - g 1 * (c + a) * F3 + g (-1) * (c - a) * F4)) <= eps * ((10 * IZR (n - 1) + 4) * A * A * M).
Proof.
  intros G He Hn Hf Df Hf' Hg Dg Hg' Mb Mc HIf HIg E1 E2 E3 E4 Q.
  pose proof (sized_nonneg _ _ _ Hf) as PA. assert (Pn : 1 <= IZR (n - 1)) by (apply IZR_le; lia).
  assert (PM : 0 <= M) by (pose proof (Rabs_pos a); pose proof (Rabs_pos b); lra).
  set (L := IZR (n - 1)) in *.
  assert (LIN : forall h' e, Rabs a + Rabs e <= M -> sized (n - 1) (L * A) h' -> sized n (M * (L * A)) (fun t => (a * t + e) * h' t)).
  { intros h' e Me Hh. replace n with (n - 1 + 1)%Z by lia. apply (sized_le _ ((Rabs a + Rabs e) * (L * A))); [|apply sized_linear; [lia|exact Hh]].
    apply Rmult_le_compat_r; [nra|exact Me]. }
  assert (PART : forall h h' e Ih, sized n A h -> (forall t, is_derive h t (h' t)) -> sized (n - 1) (L * A) h' -> Rabs a + Rabs e <= M -> is_RInt h (-1) 1 Ih ->
    exists J, J = h 1 * (e + a) - h (-1) * (e - a) - a * Ih /\ Rabs J <= 2 * (M * (L * A)) /\ Rabs (Q (fun t => (a * t + e) * h' t) - J) <= eps * (M * (L * A))).
  { intros h h' e Ih Hh Dh Hh' Me HI. destruct (sized_integral n _ _ ltac:(lia) (LIN h' e Me Hh')) as (J & HJ & BJ). exists J. split; [|split].
    - apply (by_parts h h' a e Ih J Dh); auto. intros t. eapply sized_continuous; exact Hh'.
    - exact BJ.
    - apply (rule_error N d eps x w n); [exact G|lra|exact (LIN h' e Me Hh')|lia|exact HJ]. }
  destruct (PART f f' b If Hf Df Hf' Mb HIf) as (Jf & EJf & BJf & QJf).
  destruct (PART g g' c Ig Hg Dg Hg' Mc HIg) as (Jg & EJg & BJg & QJg).
  pose proof (rule_error N d eps x w n A f If G ltac:(lra) Hf ltac:(lia) HIf) as Qf.
  pose proof (rule_error N d eps x w n A g Ig G ltac:(lra) Hg ltac:(lia) HIg) as Qg.
  change (rsum N (fun i => w i * f (x i))) with (Q f) in Qf. change (rsum N (fun i => w i * g (x i))) with (Q g) in Qg.
  assert (BI : forall h Ih, sized n A h -> is_RInt h (-1) 1 Ih -> Rabs Ih <= 2 * A).
  { intros h Ih Hh HI. destruct (sized_integral n A h ltac:(lia) Hh) as (I' & HI' & B). now rewrite (RInt_same _ _ _ HI HI'). }
  pose proof (BI f If Hf HIf) as Bf. pose proof (BI g Ig Hg HIg) as Bg.
  pose proof (prod_error _ _ _ _ _ _ _ _ Qg QJf Bg BJf) as P1. pose proof (prod_error _ _ _ _ _ _ _ _ Qf QJg Bf BJg) as P2.
  set (q1 := Q g * Q (fun t => (a * t + b) * f' t)) in *. set (q2 := Q f * Q (fun t => (a * t + c) * g' t)) in *.
  replace (q1 - q2 - (f 1 * (b + a) * F1 - f (-1) * (b - a) * F2 - g 1 * (c + a) * F3 + g (-1) * (c - a) * F4))
    with ((q1 - Ig * Jf) - (q2 - If * Jg) - (f 1 * (b + a) * (F1 - Ig) - f (-1) * (b - a) * (F2 - Ig) - g 1 * (c + a) * (F3 - If) + g (-1) * (c - a) * (F4 - If)))
    by (rewrite EJf, EJg; ring).
  assert (T : forall v e D, Rabs v <= A -> Rabs a + Rabs e <= M -> Rabs D <= eps * A -> Rabs (v * (e + a) * D) <= A * M * (eps * A) /\ Rabs (v * (e - a) * D) <= A * M * (eps * A)).
  { intros v e D Hv Me HD. pose proof (Rabs_triang e a). pose proof (Rabs_triang e (- a)) as T2. rewrite Rabs_Ropp in T2. change (e + - a) with (e - a) in T2.
    split; rewrite !Rabs_mult; apply Rmult_le_compat; auto using Rabs_pos; try (apply Rmult_le_pos; apply Rabs_pos); apply Rmult_le_compat; auto using Rabs_pos; lra. }
  assert (V : forall h, sized n A h -> Rabs (h 1) <= A /\ Rabs (h (-1)) <= A) by (intros h Hh; split; eapply sized_value; eauto; lra).
  destruct (V f Hf) as (Vf1 & Vf2). destruct (V g Hg) as (Vg1 & Vg2).
  destruct (T (f 1) b (F1 - Ig) Vf1 Mb E1) as (T1 & _). destruct (T (f (-1)) b (F2 - Ig) Vf2 Mb E2) as (_ & T2).
  destruct (T (g 1) c (F3 - If) Vg1 Mc E3) as (T3 & _). destruct (T (g (-1)) c (F4 - If) Vg2 Mc E4) as (_ & T4).
  set (t1 := f 1 * (b + a) * (F1 - Ig)) in *. set (t2 := f (-1) * (b - a) * (F2 - Ig)) in *. set (t3 := g 1 * (c + a) * (F3 - If)) in *. set (t4 := g (-1) * (c - a) * (F4 - If)) in *.
  assert (EE : eps * A * (2 * (M * (L * A)) + eps * (M * (L * A))) + 2 * A * (eps * (M * (L * A))) <= eps * (5 * L * A * A * M)).
  { assert (0 <= A * A * M * L) by (repeat apply Rmult_le_pos; lra). assert (0 <= eps * (A * A * M * L)) by (apply Rmult_le_pos; lra).
    replace (eps * A * (2 * (M * (L * A)) + eps * (M * (L * A))) + 2 * A * (eps * (M * (L * A)))) with ((4 + eps) * (eps * (A * A * M * L))) by ring.
    replace (eps * (5 * L * A * A * M)) with (5 * (eps * (A * A * M * L))) by ring. apply Rmult_le_compat_r; lra. }
  replace (eps * ((10 * L + 4) * A * A * M)) with (eps * (5 * L * A * A * M) + eps * (5 * L * A * A * M) + 4 * (A * M * (eps * A))) by ring.
  repeat match goal with H : Rabs _ <= _ |- _ => apply Rabs_le_between in H end. apply Rabs_le. lra.
Qed.
