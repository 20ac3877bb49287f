(** RBase.v -- vocabulary of the numerical models: sums over loop counters,
    arrays of real numbers as functions of their indices, pure loops.

    Numbers of type [rtype] (float or double in the C++ code) are modelled as
    exact real numbers: rounding is not modelled unless a file says so. *)
From Coq Require Import ZArith List Lia Reals Lra Permutation FunctionalExtensionality.
From Verif Require Import Base.
Import ListNotations.
Local Open Scope R_scope.

(** Views of rank 1, 2, 3, 4 with real entries.  Extents are passed separately;
    an index outside the extents is simply another index of the function. *)
Definition arr1 := Z -> R.
Definition arr2 := Z -> Z -> R.
Definition arr3 := Z -> Z -> Z -> R.
Definition arr4 := Z -> Z -> Z -> Z -> R.

Definition upd1 (a : arr1) (i : Z) (v : R) : arr1 :=
  fun i' => if (i' =? i)%Z then v else a i'.
Definition upd2 (a : arr2) (i j : Z) (v : R) : arr2 :=
  fun i' j' => if ((i' =? i) && (j' =? j))%Z%bool then v else a i' j'.
Definition upd3 (a : arr3) (i j k : Z) (v : R) : arr3 :=
  fun i' j' k' => if ((i' =? i) && (j' =? j) && (k' =? k))%Z%bool then v else a i' j' k'.

(** [for (i = 0; i < n; i++) body] without failures. *)
Definition zloop {S} (n : Z) (body : Z -> S -> S) (s : S) : S :=
  fold_left (fun s i => body i s) (zseq n) s.

(** A parallel_for that executes its iterations in the order [order]. *)
Definition ploop {S} (order : list Z) (body : Z -> S -> S) (s : S) : S :=
  fold_left (fun s i => body i s) order s.

(** f(0) + ... + f(n-1) *)
Definition rsum (n : Z) (f : Z -> R) : R := fold_right Rplus 0 (map f (zseq n)).
Definition lsum (l : list Z) (f : Z -> R) : R := fold_right Rplus 0 (map f l).

(** f(0) * ... * f(n-1) *)
Definition rprod (n : Z) (f : Z -> R) : R := fold_right Rmult 1 (map f (zseq n)).

(* ------------------------------------------------------------------ *)

Lemma zloop_0 {S} (body : Z -> S -> S) s n : (n <= 0)%Z -> zloop n body s = s.
Proof. intros H. unfold zloop. now rewrite zseq_neg. Qed.

Lemma zloop_S {S} n (body : Z -> S -> S) s : (0 <= n)%Z ->
  zloop (n + 1) body s = body n (zloop n body s).
Proof. intros H. unfold zloop. rewrite zseq_S, fold_left_app by easy. reflexivity. Qed.

Lemma zloop_inv {S} (P : Z -> S -> Prop) n (body : Z -> S -> S) s0 :
  (0 <= n)%Z -> P 0%Z s0 ->
  (forall i s, (0 <= i < n)%Z -> P i s -> P (i + 1)%Z (body i s)) ->
  P n (zloop n body s0).
Proof.
  intros Hn H0 HS.
  assert (X : forall k, (k <= Z.to_nat n)%nat -> P (Z.of_nat k) (zloop (Z.of_nat k) body s0)).
  { induction k as [|k IH]; intros Hk; [now rewrite zloop_0|].
    replace (Z.of_nat (Datatypes.S k)) with (Z.of_nat k + 1)%Z by lia.
    rewrite zloop_S by lia. apply HS; [lia|]. apply IH; lia. }
  specialize (X (Z.to_nat n) ltac:(lia)). rewrite Z2Nat.id in X by lia. exact X.
Qed.

Lemma zloop_ext {S} n (b1 b2 : Z -> S -> S) s :
  (forall i s, (0 <= i < n)%Z -> b1 i s = b2 i s) -> zloop n b1 s = zloop n b2 s.
Proof.
  intros H. unfold zloop. assert (X : forall l, (forall i, In i l -> (0 <= i < n)%Z) -> forall s,
    fold_left (fun s i => b1 i s) l s = fold_left (fun s i => b2 i s) l s).
  { induction l as [|a l IH]; intros Hl s'; cbn; [easy|]. rewrite H by (apply Hl; now left).
    apply IH. intros; apply Hl; now right. }
  apply X. intros i Hi. now apply In_zseq.
Qed.

Lemma ploop_inv {S} (P : list Z -> S -> Prop) order (body : Z -> S -> S) s0 :
  P [] s0 -> (forall done i todo s, order = done ++ i :: todo -> P done s -> P (done ++ [i]) (body i s)) ->
  P order (ploop order body s0).
Proof.
  intros H0 HS. unfold ploop.
  assert (X : forall todo done s, order = done ++ todo -> P done s ->
     P order (fold_left (fun s i => body i s) todo s)).
  { induction todo as [|i t IH]; intros done s E HP; cbn.
    - rewrite app_nil_r in E. now subst.
    - apply (IH (done ++ [i])); [now rewrite <- app_assoc|]. eapply HS; eauto. }
  apply (X order []); auto.
Qed.

Lemma rsum_0 f n : (n <= 0)%Z -> rsum n f = 0.
Proof. intros. unfold rsum. now rewrite zseq_neg. Qed.

Lemma fold_Rplus_app l l' : fold_right Rplus 0 (l ++ l') = fold_right Rplus 0 l + fold_right Rplus 0 l'.
Proof. induction l as [|a l IH]; cbn; [lra|]. rewrite IH. lra. Qed.

Lemma rsum_S n f : (0 <= n)%Z -> rsum (n + 1) f = rsum n f + f n.
Proof. intros. unfold rsum. rewrite zseq_S, map_app, fold_Rplus_app by easy. cbn. lra. Qed.

Lemma natlike n : (0 <= n)%Z -> exists k, n = Z.of_nat k.
Proof. intros. exists (Z.to_nat n). lia. Qed.

(** Induction over a loop bound. *)
Lemma zind (P : Z -> Prop) : (forall n, (n <= 0)%Z -> P n) -> (forall n, (0 <= n)%Z -> P n -> P (n + 1)%Z) ->
  forall n, P n.
Proof.
  intros H0 HS n. destruct (Z_le_gt_dec n 0) as [|H]; [auto|].
  assert (X : forall k, P (Z.of_nat k)).
  { induction k as [|k IH]; [apply H0; lia|]. replace (Z.of_nat (S k)) with (Z.of_nat k + 1)%Z by lia.
    apply HS; [lia|auto]. }
  specialize (X (Z.to_nat n)). now rewrite Z2Nat.id in X by lia.
Qed.

Lemma rsum_ext n f g : (forall i, (0 <= i < n)%Z -> f i = g i) -> rsum n f = rsum n g.
Proof.
  intros H. unfold rsum. f_equal. apply map_ext_in. intros i Hi. apply H. now apply In_zseq.
Qed.

Lemma rsum_plus n f g : rsum n (fun i => f i + g i) = rsum n f + rsum n g.
Proof.
  induction n as [n H|n H IH] using zind; [rewrite !rsum_0 by easy; lra|].
  rewrite !rsum_S, IH by easy. lra.
Qed.

Lemma rsum_minus n f g : rsum n (fun i => f i - g i) = rsum n f - rsum n g.
Proof.
  induction n as [n H|n H IH] using zind; [rewrite !rsum_0 by easy; lra|].
  rewrite !rsum_S, IH by easy. lra.
Qed.

Lemma rsum_scal n c f : rsum n (fun i => c * f i) = c * rsum n f.
Proof.
  induction n as [n H|n H IH] using zind; [rewrite !rsum_0 by easy; lra|].
  rewrite !rsum_S, IH by easy. lra.
Qed.

Lemma rsum_scal_r n c f : rsum n (fun i => f i * c) = rsum n f * c.
Proof.
  induction n as [n H|n H IH] using zind; [rewrite !rsum_0 by easy; lra|].
  rewrite !rsum_S, IH by easy. lra.
Qed.

Lemma rsum_opp n f : rsum n (fun i => - f i) = - rsum n f.
Proof.
  induction n as [n H|n H IH] using zind; [rewrite !rsum_0 by easy; lra|].
  rewrite !rsum_S, IH by easy. lra.
Qed.

Lemma rsum_zero n f : (forall i, (0 <= i < n)%Z -> f i = 0) -> rsum n f = 0.
Proof.
  intros H. rewrite (rsum_ext n f (fun _ => 0) H).
  induction n as [n Hn|n Hn IH] using zind; [now rewrite rsum_0|].
  rewrite rsum_S, IH by (try easy; intros; apply H; lia). lra.
Qed.

Lemma rsum_swap n m f : rsum n (fun i => rsum m (fun j => f i j)) = rsum m (fun j => rsum n (fun i => f i j)).
Proof.
  induction n as [n H|n H IH] using zind.
  - rewrite rsum_0 by easy. symmetry. apply rsum_zero. intros. now apply rsum_0.
  - rewrite rsum_S, IH by easy. rewrite <- rsum_plus. apply rsum_ext. intros. now rewrite rsum_S.
Qed.

(** Kronecker selection. *)
Lemma rsum_delta n k f : (0 <= k < n)%Z ->
  rsum n (fun i => if (i =? k)%Z then f i else 0) = f k.
Proof.
  revert k. induction n as [n H|n H IH] using zind; intros k Hk; [lia|].
  rewrite rsum_S by easy. destruct (Z.eqb_spec n k) as [<-|Hne].
  - rewrite rsum_zero; [lra|]. intros i Hi. destruct (Z.eqb_spec i n); [lia|easy].
  - rewrite IH by lia. lra.
Qed.

Lemma rsum_delta_r n k f : (0 <= k < n)%Z ->
  rsum n (fun i => f i * (if (i =? k)%Z then 1 else 0)) = f k.
Proof.
  intros Hk. rewrite <- (rsum_delta n k f Hk). apply rsum_ext. intros i _.
  destruct (i =? k)%Z; lra.
Qed.

(** Sum over pairs as a sum over the combined index. *)
Lemma rsum_flat n m f : (0 <= m)%Z -> (0 < n)%Z ->
  rsum (m * n) (fun k => f (k mod n)%Z (k / n)%Z) = rsum m (fun j => rsum n (fun i => f i j)).
Proof.
  intros Hm Hn. revert Hm. induction m as [m H|m H IH] using zind; intros Hm.
  - rewrite !rsum_0 by nia. reflexivity.
  - rewrite rsum_S, <- IH by lia.
    assert (X : forall k, (0 <= k <= n)%Z ->
      rsum (m * n + k) (fun k => f (k mod n)%Z (k / n)%Z) =
      rsum (m * n) (fun k => f (k mod n)%Z (k / n)%Z) + rsum k (fun i => f i m)).
    { intros k. induction k as [k Hk|k Hk IHk] using zind; intros HH.
      - assert (k = 0)%Z by lia. subst. rewrite Z.add_0_r, (rsum_0 _ 0) by lia. lra.
      - rewrite Z.add_assoc, rsum_S, IHk, rsum_S by nia.
        replace ((m * n + k) mod n)%Z with k by (rewrite Z.add_comm, Z.mod_add, Z.mod_small by lia; lia).
        replace ((m * n + k) / n)%Z with m by (rewrite Z.add_comm, Z.div_add, Z.div_small by lia; lia).
        lra. }
    replace ((m + 1) * n)%Z with (m * n + n)%Z by lia. apply X. lia.
Qed.

Lemma rprod_0 n f : (n <= 0)%Z -> rprod n f = 1.
Proof. intros. unfold rprod. now rewrite zseq_neg. Qed.

Lemma fold_Rmult_app l l' : fold_right Rmult 1 (l ++ l') = fold_right Rmult 1 l * fold_right Rmult 1 l'.
Proof. induction l as [|a l IH]; cbn; [lra|]. rewrite IH. lra. Qed.

Lemma rprod_S n f : (0 <= n)%Z -> rprod (n + 1) f = rprod n f * f n.
Proof. intros. unfold rprod. rewrite zseq_S, map_app, fold_Rmult_app by easy. cbn. lra. Qed.

Lemma rprod_ext n f g : (forall i, (0 <= i < n)%Z -> f i = g i) -> rprod n f = rprod n g.
Proof. intros H. unfold rprod. f_equal. apply map_ext_in. intros i Hi. apply H. now apply In_zseq. Qed.

Lemma rprod_one n f : (forall i, (0 <= i < n)%Z -> f i = 1) -> rprod n f = 1.
Proof.
  intros H. rewrite (rprod_ext n f (fun _ => 1) H).
  induction n as [n Hn|n Hn IH] using zind; [now rewrite rprod_0|].
  rewrite rprod_S, IH by (try easy; intros; apply H; lia). lra.
Qed.

Lemma rprod_zero n f k : (0 <= k < n)%Z -> f k = 0 -> rprod n f = 0.
Proof.
  induction n as [n H|n H IH] using zind; intros Hk E; [lia|].
  rewrite rprod_S by easy. destruct (Z.eq_dec k n) as [->|]; [rewrite E; lra|]. rewrite IH by (auto; lia). lra.
Qed.

Lemma rprod_neq0 n f : (forall i, (0 <= i < n)%Z -> f i <> 0) -> rprod n f <> 0.
Proof.
  induction n as [n H|n H IH] using zind; intros HH; [rewrite rprod_0 by easy; lra|].
  rewrite rprod_S by easy. apply Rmult_integral_contrapositive. split; [apply IH; intros; apply HH; lia|apply HH; lia].
Qed.

(** Accumulation loop. *)
Lemma zloop_acc n (f : Z -> R) s : zloop n (fun i s => s + f i) s = s + rsum n f.
Proof.
  induction n as [n H|n H IH] using zind.
  - rewrite zloop_0, rsum_0 by easy. lra.
  - rewrite zloop_S, rsum_S, IH by easy. lra.
Qed.

Lemma upd1_eq a i v : upd1 a i v i = v.
Proof. unfold upd1. now rewrite Z.eqb_refl. Qed.
Lemma upd1_neq a i v i' : i' <> i -> upd1 a i v i' = a i'.
Proof. intros H. unfold upd1. now rewrite (proj2 (Z.eqb_neq i' i) H). Qed.
Lemma upd2_eq a i j v : upd2 a i j v i j = v.
Proof. unfold upd2. now rewrite !Z.eqb_refl. Qed.
Lemma upd2_neq a i j v i' j' : (i' <> i \/ j' <> j) -> upd2 a i j v i' j' = a i' j'.
Proof. intros H. unfold upd2. destruct (Z.eqb_spec i' i), (Z.eqb_spec j' j); cbn; auto; intuition. Qed.
Lemma upd3_eq a i j k v : upd3 a i j k v i j k = v.
Proof. unfold upd3. now rewrite !Z.eqb_refl. Qed.
Lemma upd3_neq a i j k v i' j' k' : (i' <> i \/ j' <> j \/ k' <> k) -> upd3 a i j k v i' j' k' = a i' j' k'.
Proof.
  intros H. unfold upd3. destruct (Z.eqb_spec i' i), (Z.eqb_spec j' j), (Z.eqb_spec k' k); cbn; auto; intuition.
Qed.

(** [for i < n: a(i) = f(i)]: entries below n are set, the others unchanged. *)
Lemma zloop_fill1 n (f : Z -> R) a i :
  zloop n (fun i a => upd1 a i (f i)) a i = if ((0 <=? i) && (i <? n))%Z%bool then f i else a i.
Proof.
  induction n as [n H|n H IH] using zind.
  - rewrite zloop_0 by easy. destruct (Z.leb_spec 0 i), (Z.ltb_spec i n); cbn; auto; lia.
  - rewrite zloop_S by easy. destruct (Z.eq_dec i n) as [->|Hne].
    + rewrite upd1_eq. destruct (Z.leb_spec 0 n), (Z.ltb_spec n (n + 1)); cbn; auto; lia.
    + rewrite upd1_neq, IH by easy.
      destruct (Z.leb_spec 0 i), (Z.ltb_spec i n), (Z.ltb_spec i (n + 1)); cbn; auto; lia.
Qed.

(** Doubly nested fill. *)
Lemma zloop_fill2 n m (f : Z -> Z -> R) a i j :
  zloop n (fun i a => zloop m (fun j a => upd2 a i j (f i j)) a) a i j =
  if ((0 <=? i) && (i <? n) && (0 <=? j) && (j <? m))%Z%bool then f i j else a i j.
Proof.
  assert (X : forall k a i' m, zloop m (fun j a => upd2 a k j (f k j)) a i' j =
     if ((i' =? k) && (0 <=? j) && (j <? m))%Z%bool then f i' j else a i' j).
  { intros k b i' m'. induction m' as [m' H|m' H IH] using zind.
    - rewrite zloop_0 by easy. destruct (Z.eqb_spec i' k), (Z.leb_spec 0 j), (Z.ltb_spec j m'); cbn; auto; lia.
    - rewrite zloop_S by easy.
      destruct (Z.eq_dec i' k) as [->|]; [destruct (Z.eq_dec j m') as [->|]|].
      + rewrite upd2_eq, Z.eqb_refl. destruct (Z.leb_spec 0 m'), (Z.ltb_spec m' (m' + 1)); cbn; auto; lia.
      + rewrite upd2_neq, IH by auto. rewrite Z.eqb_refl.
        destruct (Z.leb_spec 0 j), (Z.ltb_spec j m'), (Z.ltb_spec j (m' + 1)); cbn; auto; lia.
      + rewrite upd2_neq, IH by auto. rewrite (proj2 (Z.eqb_neq i' k)) by easy. reflexivity. }
  induction n as [n H|n H IH] using zind.
  - rewrite zloop_0 by easy. destruct (Z.leb_spec 0 i), (Z.ltb_spec i n); cbn; auto; lia.
  - rewrite zloop_S by easy. rewrite X. destruct (Z.eqb_spec i n) as [->|Hne]; cbn [andb].
    + rewrite IH.
      destruct (Z.leb_spec 0 n), (Z.ltb_spec n n), (Z.ltb_spec n (n+1)), (Z.leb_spec 0 j), (Z.ltb_spec j m); cbn; auto; lia.
    + rewrite IH.
      destruct (Z.leb_spec 0 i), (Z.ltb_spec i n), (Z.ltb_spec i (n+1)); cbn; auto; lia.
Qed.

Lemma fold_Rplus_perm l l' : Permutation l l' -> fold_right Rplus 0 l = fold_right Rplus 0 l'.
Proof. induction 1; cbn; try lra; congruence. Qed.

Lemma lsum_perm l l' f : Permutation l l' -> lsum l f = lsum l' f.
Proof. intros P. unfold lsum. apply fold_Rplus_perm. now apply Permutation_map. Qed.

Lemma rsum_lsum n f : rsum n f = lsum (zseq n) f.
Proof. reflexivity. Qed.

(** Sums are bounded termwise. *)
Lemma rsum_le n f g : (forall i, (0 <= i < n)%Z -> f i <= g i) -> rsum n f <= rsum n g.
Proof.
  induction n as [n H|n H IH] using zind; intros HH; [rewrite !rsum_0 by easy; lra|].
  rewrite !rsum_S by easy. pose proof (HH n ltac:(lia)). assert (rsum n f <= rsum n g) by (apply IH; intros; apply HH; lia). lra.
Qed.

Lemma rsum_Rabs n f : Rabs (rsum n f) <= rsum n (fun i => Rabs (f i)).
Proof.
  induction n as [n H|n H IH] using zind; [rewrite !rsum_0 by easy; rewrite Rabs_R0; lra|].
  rewrite !rsum_S by easy. eapply Rle_trans; [apply Rabs_triang|]. lra.
Qed.

(** Short sums, written out. *)
Lemma rsum_1 f : rsum 1 f = f 0%Z.
Proof. unfold rsum. change (zseq 1) with [0%Z]. cbn [map fold_right]. lra. Qed.
Lemma rsum_2 f : rsum 2 f = f 0%Z + f 1%Z.
Proof. unfold rsum. change (zseq 2) with [0; 1]%Z. cbn [map fold_right]. lra. Qed.
Lemma rsum_3 f : rsum 3 f = f 0%Z + f 1%Z + f 2%Z.
Proof. unfold rsum. change (zseq 3) with [0; 1; 2]%Z. cbn [map fold_right]. lra. Qed.
Lemma rsum_4 f : rsum 4 f = f 0%Z + f 1%Z + f 2%Z + f 3%Z.
Proof. unfold rsum. change (zseq 4) with [0; 1; 2; 3]%Z. cbn [map fold_right]. lra. Qed.
Lemma rsum_5 f : rsum 5 f = f 0%Z + f 1%Z + f 2%Z + f 3%Z + f 4%Z.
Proof. unfold rsum. change (zseq 5) with [0; 1; 2; 3; 4]%Z. cbn [map fold_right]. lra. Qed.
