(** PropLinAlg.v -- property theorems C28-C30 and C59 (dense linear algebra). *)
From Coq Require Import ZArith List Lia Reals Lra Bool Psatz.
From Verif Require Import Base RBase LinAlgModel LinAlgProof.
Import ListNotations.
Local Open Scope R_scope.

(** ** Specification *)

(** X is a two-sided inverse of the n x n matrix A. *)
Definition inverse_of (n : Z) (A X : arr2) : Prop :=
  forall i j, (0 <= i < n)%Z -> (0 <= j < n)%Z ->
    rsum n (fun k => A i k * X k j) = (if (i =? j)%Z then 1 else 0) /\
    rsum n (fun k => X i k * A k j) = (if (i =? j)%Z then 1 else 0).

(** The determinant by expansion along the first row (textbook). *)
Definition det1 (A : arr2) : R := A 0%Z 0%Z.
Definition minor2 (A : arr2) (r0 r1 c0 c1 : Z) : R := A r0 c0 * A r1 c1 - A r0 c1 * A r1 c0.
Definition det2 (A : arr2) : R := minor2 A 0 1 0 1.
Definition det3 (A : arr2) : R :=
  A 0%Z 0%Z * minor2 A 1 2 1 2 - A 0%Z 1%Z * minor2 A 1 2 0 2 + A 0%Z 2%Z * minor2 A 1 2 0 1.
Definition small_det (n : Z) (A : arr2) : R :=
  if (n =? 1)%Z then det1 A else if (n =? 2)%Z then det2 A else det3 A.

Lemma small_cases (n : Z) (P : Z -> Prop) : (1 <= n <= 3)%Z -> P 1%Z -> P 2%Z -> P 3%Z -> P n.
Proof. intros H H1 H2 H3. assert (n = 1 \/ n = 2 \/ n = 3)%Z as [->|[->| ->]] by lia; auto. Qed.

Ltac idx3 := repeat match goal with
  | H : (0 <= ?i < 1)%Z |- _ => assert (i = 0)%Z by lia; clear H; subst i
  | H : (0 <= ?i < 2)%Z |- _ => assert (i = 0 \/ i = 1)%Z as [?|?] by lia; clear H; subst i
  | H : (0 <= ?i < 3)%Z |- _ => assert (i = 0 \/ i = 1 \/ i = 2)%Z as [?|[?|?]] by lia; clear H; subst i
  end.

(** ** C28: inversion of 1x1, 2x2 and 3x3 matrices; whatever the output array
    contained, and nothing outside the n x n block is touched. *)
Theorem C28_small_inverse : forall n A X0, (1 <= n <= 3)%Z ->
  (forall d0, det n A d0 = small_det n A) /\
  (small_det n A <> 0 -> inverse_of n A (invA n A X0)) /\
  (forall i j, ~ ((0 <= i < n)%Z /\ (0 <= j < n)%Z) -> invA n A X0 i j = X0 i j).
Proof.
  intros n A X0 Hn. pattern n. apply small_cases; [exact Hn| | |]; (split; [|split]).
  - reflexivity.
  - unfold small_det, det1, inverse_of, invA, upd2; cbn -[IZR rsum]. intros Hd i j Hi Hj. idx3; rewrite ?rsum_1, ?rsum_2, ?rsum_3; cbn -[IZR]; split; field; auto.
  - intros i j H. unfold invA, upd2. cbn. destruct (Z.eqb_spec i 0), (Z.eqb_spec j 0); cbn; auto; lia.
  - reflexivity.
  - unfold small_det, det2, minor2, inverse_of, invA, upd2; cbn -[IZR rsum]. intros Hd i j Hi Hj. idx3; rewrite ?rsum_1, ?rsum_2, ?rsum_3; cbn -[IZR]; split; field; auto.
  - intros i j H. unfold invA, upd2. cbn.
    destruct (Z.eqb_spec i 0), (Z.eqb_spec j 0), (Z.eqb_spec i 1), (Z.eqb_spec j 1); cbn; auto; lia.
  - intros d0. unfold det, small_det, det3, minor2. cbn -[IZR]. ring.
  - unfold small_det, det3, minor2, inverse_of, invA, upd2; cbn -[IZR rsum]. intros Hd i j Hi Hj.
    assert (Hd' : A 0%Z 0%Z * A 1%Z 1%Z * A 2%Z 2%Z - A 0%Z 0%Z * A 1%Z 2%Z * A 2%Z 1%Z
      - A 0%Z 1%Z * A 1%Z 0%Z * A 2%Z 2%Z + A 0%Z 1%Z * A 1%Z 2%Z * A 2%Z 0%Z
      + A 0%Z 2%Z * A 1%Z 0%Z * A 2%Z 1%Z - A 0%Z 2%Z * A 1%Z 1%Z * A 2%Z 0%Z <> 0).
    { intros E. apply Hd. rewrite <- E. ring. }
    idx3; rewrite ?rsum_1, ?rsum_2, ?rsum_3; cbn -[IZR]; split; field; auto.
  - intros i j H. unfold invA, upd2. cbn.
    destruct (Z.eqb_spec i 0), (Z.eqb_spec j 0), (Z.eqb_spec i 1), (Z.eqb_spec j 1), (Z.eqb_spec i 2), (Z.eqb_spec j 2);
      cbn; auto; lia.
Qed.
Print Assumptions C28_small_inverse.

(** A non-symmetric 3x3 matrix with determinant 1. *)
Definition demo3 : arr2 := fun i j =>
  if (i =? 0)%Z then (if (j =? 0)%Z then 1 else if (j =? 1)%Z then 2 else 3)
  else if (i =? 1)%Z then (if (j =? 0)%Z then 0 else if (j =? 1)%Z then 1 else 4)
  else (if (j =? 0)%Z then 5 else if (j =? 1)%Z then 6 else 0).
Example demo3_det : small_det 3 demo3 <> 0.
Proof. unfold small_det, det3, minor2, demo3; cbn -[IZR]. lra. Qed.

(** ** C29: [identity] only writes the diagonal. *)
Theorem C29_identity_partial : forall e0 e1 M i j,
  identity e0 e1 M i j =
    if ((0 <=? i) && (i <? e0) && ((0 <=? j) && (j <? e1)) && (i =? j))%Z%bool then 1 else M i j.
Proof. intros. apply identity_entry. Qed.
Print Assumptions C29_identity_partial.

(** With the off-diagonal entries zero beforehand the result is the identity. *)
Theorem C29_identity_of_zeroed_partial : forall n M,
  (forall i j, (0 <= i < n)%Z -> (0 <= j < n)%Z -> i <> j -> M i j = 0) ->
  forall i j, (0 <= i < n)%Z -> (0 <= j < n)%Z -> identity n n M i j = if (i =? j)%Z then 1 else 0.
Proof.
  intros n M H i j Hi Hj. rewrite identity_entry. rewrite (proj2 (inb_true n i) Hi), (proj2 (inb_true n j) Hj). cbn [andb].
  destruct (Z.eqb_spec i j); auto.
Qed.
Print Assumptions C29_identity_of_zeroed_partial.

(** Without that it is not, whatever the size above one; and then [invA] of
    every matrix larger than 3x3 whose factorisation exists is not its inverse. *)
Theorem C29_identity_refuted :
  (forall n, (2 <= n)%Z -> exists M, ~ forall i j, (0 <= i < n)%Z -> (0 <= j < n)%Z ->
     identity n n M i j = if (i =? j)%Z then 1 else 0) /\
  (forall m A M i j, (3 < m)%Z -> pivots m A -> (0 <= i < m)%Z -> (0 <= j < m)%Z -> i <> j -> M i j <> 0 ->
     ~ inverse_of m A (invA m A M)).
Proof.
  split.
  - intros n Hn. exists (fun _ _ => 7). intros H. specialize (H 0%Z 1%Z ltac:(lia) ltac:(lia)).
    rewrite identity_entry in H. rewrite andb_false_r in H. cbn -[IZR] in H. lra.
  - intros m A M i j Hm HP Hi Hj Hij HM H. destruct (H i j Hi Hj) as [H1 _].
    rewrite invA_lu_gen in H1 by auto. destruct (Z.eqb_spec i j); auto.
Qed.
Print Assumptions C29_identity_refuted.

(** ** C59: larger matrices (mass matrices): for every size above three, if the
    matrix is symmetric positive definite and the output array had zero
    off-diagonal entries, the library factorisation never meets a zero pivot and
    the result is the two-sided inverse. *)
Theorem C59_spd_inverse : forall m A X0, (3 < m)%Z ->
  (forall i j, (0 <= i < m)%Z -> (0 <= j < m)%Z -> A i j = A j i) ->
  (forall x, (exists i, (0 <= i < m)%Z /\ x i <> 0) ->
     0 < rsum m (fun i => rsum m (fun j => x i * (A i j * x j)))) ->
  (forall i j, (0 <= i < m)%Z -> (0 <= j < m)%Z -> i <> j -> X0 i j = 0) ->
  inverse_of m A (invA m A X0).
Proof.
  intros m A X0 Hm HS HP HX.
  pose proof (invA_lu m A X0 Hm (pos_def_pivots m A ltac:(lia) (conj HS HP)) HX) as HR.
  destruct (sym_right_left m A (invA m A X0) ltac:(lia) HS HR) as [_ HL].
  intros i j Hi Hj. split; [apply HR|apply HL]; auto.
Qed.
Print Assumptions C59_spd_inverse.

(** For a general matrix: a right inverse whenever no pivot vanishes. *)
Theorem C59_lu_right_inverse : forall m A X0, (3 < m)%Z -> pivots m A ->
  (forall i j, (0 <= i < m)%Z -> (0 <= j < m)%Z -> i <> j -> X0 i j = 0) ->
  forall i j, (0 <= i < m)%Z -> (0 <= j < m)%Z ->
  rsum m (fun k => A i k * invA m A X0 k j) = if (i =? j)%Z then 1 else 0.
Proof. intros. now apply invA_lu. Qed.

(** The hypothesis on pivots is needed: a regular 4x4 permutation matrix. *)
Definition perm4 : arr2 := fun i j => if ((i + j =? 3))%Z then 1 else 0.
Theorem C59_no_pivoting_refuted :
  inverse_of 4 perm4 perm4 /\ ~ pivots 4 perm4.
Proof.
  split.
  - intros i j Hi Hj. unfold perm4. rewrite !rsum_4.
    assert (i = 0 \/ i = 1 \/ i = 2 \/ i = 3)%Z as [->|[->|[->| ->]]] by lia;
    assert (j = 0 \/ j = 1 \/ j = 2 \/ j = 3)%Z as [->|[->|[->| ->]]] by lia; cbn -[IZR]; lra.
  - intros H. apply (H 0%Z ltac:(lia)). cbn. reflexivity.
Qed.

(** Positive definite matrices of any size exist: diagonal ones. *)
Example demo_spd : forall m, (0 <= m)%Z -> pos_def m (fun i j => if (i =? j)%Z then 2 else 0).
Proof.
  intros m Hm. split; [intros i j _ _; rewrite Z.eqb_sym; reflexivity|].
  intros x [i [Hi Hx]]. unfold quad_form.
  rewrite (rsum_ext m _ (fun i => 2 * (x i * x i))).
  - assert (X : forall n, (n <= m)%Z -> 0 <= rsum n (fun i => 2 * (x i * x i)) /\ ((i < n)%Z -> 0 < rsum n (fun i => 2 * (x i * x i)))).
    { intros n. induction n as [n H|n H IH] using zind; intros Hn; [rewrite rsum_0 by easy; split; [lra|lia]|].
      rewrite rsum_S by easy. destruct (IH ltac:(lia)) as [I1 I2].
      split; [pose proof (Rle_0_sqr (x n)) as Q; unfold Rsqr in Q; lra|]. intros Hin.
      destruct (Z.eq_dec i n) as [->|Hne].
      - pose proof (Rlt_0_sqr (x n) Hx) as Q; unfold Rsqr in Q; lra.
      - specialize (I2 ltac:(lia)). pose proof (Rle_0_sqr (x n)) as Q; unfold Rsqr in Q; lra. }
    apply (X m); lia.
  - intros k Hk. rewrite (rsum_ext m _ (fun j => if (j =? k)%Z then x k * (2 * x k) else 0)).
    + rewrite (rsum_delta m k (fun j => x k * (2 * x k))) by easy. lra.
    + intros j Hj. rewrite (Z.eqb_sym k j). destruct (Z.eqb_spec j k) as [->|]; lra.
Qed.

(** ** C30 *)
Theorem C30_dot : forall n a b, dot_inst n a b = rsum n (fun i => a i * b i).
Proof.
  intros n a b. unfold dot_inst.
  destruct (Z.eqb_spec n 2) as [->|]; [now rewrite rsum_2|].
  destruct (Z.eqb_spec n 3) as [->|]; [now rewrite rsum_3|].
  destruct (Z.eqb_spec n 4) as [->|]; [now rewrite rsum_4|].
  destruct (Z.eqb_spec n 5) as [->|]; [now rewrite rsum_5|].
  unfold dot. rewrite zloop_acc. lra.
Qed.
Print Assumptions C30_dot.

(** The cross product is orthogonal to both factors, has the area of the
    parallelogram as its length (Lagrange), is right-handed, and entries other
    than 0..2 of the output are not touched. *)
Theorem C30_cross : forall a b c,
  let d n x y := rsum n (fun i => x i * y i) in
  let w := cross a b c in
  d 3%Z w a = 0 /\ d 3%Z w b = 0 /\
  d 3%Z w w = d 3%Z a a * d 3%Z b b - d 3%Z a b * d 3%Z a b /\
  small_det 3 (fun i j => if (i =? 0)%Z then a j else if (i =? 1)%Z then b j else w j) = d 3%Z w w /\
  (forall c', forall i, (0 <= i < 3)%Z -> cross b a c' i = - w i) /\
  (forall i, ~ (0 <= i < 3)%Z -> w i = c i).
Proof.
  intros a b c d w. unfold d, w. rewrite !rsum_3. unfold cross, upd1, small_det, det3, minor2; cbn -[IZR].
  repeat split; try ring.
  - intros c' i Hi. idx3; cbn -[IZR]; ring.
  - intros i Hi. destruct (Z.eqb_spec i 2), (Z.eqb_spec i 1), (Z.eqb_spec i 0); auto; lia.
Qed.
Print Assumptions C30_cross.

Theorem C30_vector_kernels : forall n c A B C i,
  (0 <= n)%Z ->
  ((0 <= i < n)%Z ->
     cA_to_A1 n c A i = c * A i /\ fill n A c i = c /\
     cApB_to_B n c A B i = c * A i + B i /\ cApB_to_C n c A B C i = c * A i + B i) /\
  (~ (0 <= i < n)%Z ->
     cA_to_A1 n c A i = A i /\ fill n A c i = A i /\
     cApB_to_B n c A B i = B i /\ cApB_to_C n c A B C i = C i).
Proof.
  intros n c A B C i Hn. rewrite cA_to_A1_entry, fill_entry, cApB_to_B_entry, cApB_to_C_entry.
  split; intros Hi.
  - rewrite (proj2 (inb_true n i) Hi). repeat split; ring.
  - rewrite (proj2 (inb_false n i) Hi). auto.
Qed.
Print Assumptions C30_vector_kernels.

(** The four matrix products, with the shapes the code uses: A is m x k (k x m
    when transposed), B is k x n (n x k when transposed), C is m x n. *)
Theorem C30_matrix_kernels : forall m n k c A B C i j,
  ((0 <= i < m)%Z /\ (0 <= j < n)%Z ->
     cAxBT_to_C m n k c A B C i j = c * rsum k (fun p => A i p * B j p) /\
     cATxB_to_C m n k c A B C i j = c * rsum k (fun p => A p i * B p j) /\
     cATxBpC_to_C m n k c A B C i j = C i j + c * rsum k (fun p => A p i * B p j) /\
     cAxB_to_C m n k c A B C i j = c * rsum k (fun p => A i p * B p j) /\
     cA_to_A2 m n c A i j = c * A i j /\ copy_A_to_B m n A C i j = A i j) /\
  (~ ((0 <= i < m)%Z /\ (0 <= j < n)%Z) ->
     cAxBT_to_C m n k c A B C i j = C i j /\ cATxB_to_C m n k c A B C i j = C i j /\
     cATxBpC_to_C m n k c A B C i j = C i j /\ cAxB_to_C m n k c A B C i j = C i j /\
     cA_to_A2 m n c A i j = A i j /\ copy_A_to_B m n A C i j = C i j).
Proof.
  intros m n k c A B C i j. unfold cAxBT_to_C, cATxB_to_C, cATxBpC_to_C, cAxB_to_C.
  rewrite !gemm_entry, cA_to_A2_entry, copy_entry.
  split; intros Hij.
  - destruct Hij as [Hi Hj]. rewrite (proj2 (inb_true m i) Hi), (proj2 (inb_true n j) Hj). cbn [andb].
    repeat split; lra.
  - replace (inb m i && inb n j)%bool with false; [auto 10|].
    symmetry. apply not_true_is_false. rewrite andb_true_iff, !inb_true. exact Hij.
Qed.
Print Assumptions C30_matrix_kernels.

(** A 2x3 times 3x2 product, non-trivially. *)
Example demo_gemm : cAxB_to_C 2 2 3 2 (fun i j => IZR (i + j)) (fun i j => IZR (i - j)) (fun _ _ => 9) 1%Z 0%Z = 16.
Proof. rewrite (proj1 (proj2 (proj2 (proj2 (proj1 (C30_matrix_kernels 2 2 3 2 _ _ _ 1 0) ltac:(lia)))))). rewrite rsum_3. cbn -[IZR]. lra. Qed.
