(** LinAlgProof.v -- facts about LinAlgModel.v. *)
From Coq Require Import ZArith List Lia Reals Lra Bool Psatz.
From Verif Require Import Base RBase LinAlgModel.
Import ListNotations.
Local Open Scope R_scope.

Definition inb (n i : Z) : bool := ((0 <=? i) && (i <? n))%Z%bool.
Lemma inb_true n i : inb n i = true <-> (0 <= i < n)%Z.
Proof. unfold inb. rewrite andb_true_iff, Z.leb_le, Z.ltb_lt. tauto. Qed.
Lemma inb_false n i : inb n i = false <-> ~ (0 <= i < n)%Z.
Proof. rewrite <- inb_true. destruct (inb n i); split; congruence. Qed.

Lemma inb_S n i : (0 <= n)%Z -> inb (n + 1) i = (inb n i || (i =? n)%Z)%bool.
Proof.
  intros H. unfold inb.
  destruct (Z.leb_spec 0 i), (Z.ltb_spec i n), (Z.ltb_spec i (n + 1)), (Z.eqb_spec i n); cbn; auto; lia.
Qed.

(** A loop over one index whose iteration k changes only row k. *)
Lemma identity_entry e0 e1 M i j :
  identity e0 e1 M i j = if (inb e0 i && inb e1 j && (i =? j)%Z)%bool then 1 else M i j.
Proof.
  unfold identity.
  assert (X : forall k M i, zloop e1 (fun j mat => if (k =? j)%Z then upd2 mat k j 1 else mat) M i j =
     if ((i =? k)%Z && inb e1 j && (i =? j)%Z)%bool then 1 else M i j).
  { intros k N i'. generalize e1 as n. intros n. induction n as [n H|n H IH] using zind.
    - rewrite zloop_0 by easy. unfold inb. destruct (Z.eqb_spec i' k), (Z.leb_spec 0 j), (Z.ltb_spec j n), (Z.eqb_spec i' j); cbn; auto; lia.
    - rewrite zloop_S by easy. rewrite inb_S by easy. destruct (Z.eqb_spec k n) as [Hk|Hne].
      + unfold upd2 at 1. rewrite IH. unfold inb.
        destruct (Z.eqb_spec i' k), (Z.eqb_spec j n), (Z.leb_spec 0 j), (Z.ltb_spec j n), (Z.eqb_spec i' j); cbn; auto; lia.
      + rewrite IH. destruct (Z.eqb_spec i' k), (inb n j), (Z.eqb_spec j n), (Z.eqb_spec i' j); cbn; auto; lia. }
  induction e0 as [n H|n H IH] using zind.
  - rewrite zloop_0 by easy. replace (inb n i) with false; [reflexivity|].
    symmetry; apply inb_false; lia.
  - rewrite zloop_S, X, IH, inb_S by easy.
    destruct (Z.eqb_spec i n), (inb n i), (inb e1 j), (Z.eqb_spec i j); cbn; auto.
Qed.

Lemma cA_to_A2_entry e0 e1 c A i j :
  cA_to_A2 e0 e1 c A i j = if (inb e0 i && inb e1 j)%bool then c * A i j else A i j.
Proof.
  unfold cA_to_A2.
  assert (X : forall k M i, zloop e1 (fun j A => upd2 A k j (c * A k j)) M i j =
     if ((i =? k)%Z && inb e1 j)%bool then c * M i j else M i j).
  { intros k N i'. generalize e1 as n. intros n. induction n as [n H|n H IH] using zind.
    - rewrite zloop_0 by easy. replace (inb n j) with false by (symmetry; apply inb_false; lia).
      now rewrite andb_false_r.
    - rewrite zloop_S, inb_S by easy. unfold upd2 at 1.
      destruct (Z.eqb_spec i' k) as [->|Hne]; cbn [andb].
      + destruct (Z.eqb_spec j n) as [->|Hn].
        * rewrite IH. replace (inb n n) with false by (symmetry; apply inb_false; lia).
          rewrite ?andb_false_r. cbn. reflexivity.
        * rewrite IH. rewrite ?Z.eqb_refl. cbn [andb]. now rewrite orb_false_r.
      + rewrite IH. rewrite ?(proj2 (Z.eqb_neq i' k)) by easy. reflexivity. }
  induction e0 as [n H|n H IH] using zind.
  - rewrite zloop_0 by easy. replace (inb n i) with false by (symmetry; apply inb_false; lia). reflexivity.
  - rewrite zloop_S, X, inb_S by easy. destruct (Z.eqb_spec i n) as [->|Hne].
    + rewrite !IH. replace (inb n n) with false by (symmetry; apply inb_false; lia). reflexivity.
    + rewrite IH. now rewrite orb_false_r.
Qed.

Lemma cA_to_A1_entry n c A i :
  cA_to_A1 n c A i = if inb n i then c * A i else A i.
Proof.
  unfold cA_to_A1. induction n as [n H|n H IH] using zind.
  - rewrite zloop_0 by easy. replace (inb n i) with false by (symmetry; apply inb_false; lia). reflexivity.
  - rewrite zloop_S, inb_S by easy. unfold upd1 at 1. destruct (Z.eqb_spec i n) as [->|Hne].
    + rewrite IH. replace (inb n n) with false by (symmetry; apply inb_false; lia). reflexivity.
    + rewrite IH, orb_false_r. reflexivity.
Qed.

Lemma cApB_to_B_entry n c A B i :
  cApB_to_B n c A B i = if inb n i then c * A i + B i else B i.
Proof.
  unfold cApB_to_B. induction n as [n H|n H IH] using zind.
  - rewrite zloop_0 by easy. replace (inb n i) with false by (symmetry; apply inb_false; lia). reflexivity.
  - rewrite zloop_S, inb_S by easy. unfold upd1 at 1. destruct (Z.eqb_spec i n) as [->|Hne].
    + rewrite IH. replace (inb n n) with false by (symmetry; apply inb_false; lia). reflexivity.
    + rewrite IH, orb_false_r. reflexivity.
Qed.

Lemma cApB_to_C_entry n c A B C i :
  cApB_to_C n c A B C i = if inb n i then c * A i + B i else C i.
Proof.
  unfold cApB_to_C. induction n as [n H|n H IH] using zind.
  - rewrite zloop_0 by easy. replace (inb n i) with false by (symmetry; apply inb_false; lia). reflexivity.
  - rewrite zloop_S, inb_S by easy. unfold upd1 at 1. destruct (Z.eqb_spec i n) as [->|Hne].
    + rewrite orb_true_r. ring.
    + rewrite IH, orb_false_r. reflexivity.
Qed.

Lemma fill_entry n A c i : fill n A c i = if inb n i then c else A i.
Proof. unfold fill. rewrite (zloop_fill1 n (fun _ => c)). reflexivity. Qed.

Lemma copy_entry e0 e1 A B i j :
  copy_A_to_B e0 e1 A B i j = if (inb e0 i && inb e1 j)%bool then A i j else B i j.
Proof.
  unfold copy_A_to_B. rewrite (zloop_fill2 e0 e1 A). unfold inb. rewrite andb_assoc. reflexivity.
Qed.

(** Product kernel: every entry of the block gets the full sum, everything else
    is unchanged. *)
Lemma gemm_entry m n k alpha At Bt beta C i j :
  gemm m n k alpha At Bt beta C i j =
  if (inb m i && inb n j)%bool
  then beta * C i j + alpha * rsum k (fun p => At i p * Bt p j)
  else C i j.
Proof.
  unfold gemm. set (C1 := zloop m _ C).
  assert (E1 : forall i j, C1 i j = if (inb m i && inb n j)%bool then beta * C i j else C i j).
  { intros i' j'. exact (cA_to_A2_entry m n beta C i' j'). }
  assert (X1 : forall k' l M i j, zloop k (fun p C => upd2 C k' l (C k' l + alpha * (At k' p * Bt p l))) M i j =
     if ((i =? k')%Z && (j =? l)%Z)%bool then M i j + alpha * rsum k (fun p => At i p * Bt p j) else M i j).
  { intros k' l M i' j'. generalize k as q. intros q. induction q as [q H|q H IH] using zind.
    - rewrite zloop_0, rsum_0 by easy. destruct ((i' =? k')%Z && (j' =? l)%Z)%bool; [lra|easy].
    - rewrite zloop_S, rsum_S by easy. unfold upd2 at 1.
      destruct (Z.eqb_spec i' k') as [->|]; [destruct (Z.eqb_spec j' l) as [->|]|]; cbn [andb] in *; rewrite ?IH; [|reflexivity|reflexivity].
      lra. }
  assert (X2 : forall k' M i j, zloop n (fun j C => zloop k (fun p C => upd2 C k' j (C k' j + alpha * (At k' p * Bt p j))) C) M i j =
     if ((i =? k')%Z && inb n j)%bool then M i j + alpha * rsum k (fun p => At i p * Bt p j) else M i j).
  { intros k' M i' j'. generalize n as q. intros q. induction q as [q H|q H IH] using zind.
    - rewrite zloop_0 by easy. replace (inb q j') with false by (symmetry; apply inb_false; lia).
      now rewrite andb_false_r.
    - rewrite zloop_S, X1, inb_S by easy. rewrite IH.
      destruct (Z.eqb_spec i' k'); cbn [andb]; [|reflexivity].
      destruct (Z.eqb_spec j' q) as [->|].
      + replace (inb q q) with false by (symmetry; apply inb_false; lia). reflexivity.
      + now rewrite orb_false_r. }
  assert (X3 : forall q, zloop q (fun i C => zloop n (fun j C => zloop k (fun p C => upd2 C i j (C i j + alpha * (At i p * Bt p j))) C) C) C1 i j =
     if (inb q i && inb n j)%bool then C1 i j + alpha * rsum k (fun p => At i p * Bt p j) else C1 i j).
  { intros q. induction q as [q H|q H IH] using zind.
    - rewrite zloop_0 by easy. replace (inb q i) with false by (symmetry; apply inb_false; lia). reflexivity.
    - rewrite zloop_S, X2, inb_S, IH by easy. destruct (Z.eqb_spec i q) as [->|].
      + replace (inb q q) with false by (symmetry; apply inb_false; lia). reflexivity.
      + cbn. now rewrite orb_false_r. }
  rewrite X3, E1. destruct (inb m i && inb n j)%bool; reflexivity.
Qed.

(** * LU factorisation *)

Definition Lf (A : arr2) (i k : Z) : R := if (k <? i)%Z then A i k else if (k =? i)%Z then 1 else 0.
Definition Uf (A : arr2) (k j : Z) : R := if (k <=? j)%Z then A k j else 0.

(** One step of the factorisation. *)
Definition lu_step (m p : Z) (A : arr2) : arr2 := fun i j =>
  if ((p <? i) && (i <? m))%Z%bool then
    if (j =? p)%Z then A i p / A p p
    else if ((p <? j) && (j <? m))%Z%bool then A i j - A i p / A p p * A p j else A i j
  else A i j.

Lemma lu_step_spec m p A i j : (0 <= p)%Z ->
  zloop (m - p - 1) (fun i A =>
      let i := (p + 1 + i)%Z in
      let A := upd2 A i p (A i p / A p p) in
      zloop (m - p - 1) (fun j A =>
        let j := (p + 1 + j)%Z in
        upd2 A i j (A i j - A i p * A p j)) A) A i j = lu_step m p A i j.
Proof.
  intros Hp. cbv zeta.
  (* inner loop *)
  assert (X1 : forall k n M i j, (p < k)%Z ->
    zloop n (fun j A => upd2 A k (p + 1 + j) (A k (p + 1 + j)%Z - A k p * A p (p + 1 + j)%Z)) M i j =
    if ((i =? k)%Z && (p <? j)%Z && (j <? p + 1 + n)%Z)%bool then M k j - M k p * M p j else M i j).
  { intros k n M i' j' Hk. revert i' j'. induction n as [n H|n H IH] using zind; intros i' j'.
    - rewrite zloop_0 by easy. destruct (Z.eqb_spec i' k), (Z.ltb_spec p j'), (Z.ltb_spec j' (p + 1 + n)); cbn; auto; lia.
    - rewrite zloop_S by easy. unfold upd2 at 1.
      rewrite (IH k (p + 1 + n)%Z), (IH k p), (IH p (p + 1 + n)%Z), (IH i' j').
      rewrite Z.eqb_refl. rewrite (proj2 (Z.eqb_neq p k)) by lia.
      replace (p <? p + 1 + n)%Z with true by (symmetry; apply Z.ltb_lt; lia).
      rewrite Z.ltb_irrefl. rewrite (proj2 (Z.ltb_ge p p)) by lia. cbn [andb].
      destruct (Z.eqb_spec i' k) as [->|]; cbn [andb]; [|reflexivity].
      destruct (Z.eqb_spec j' (p + 1 + n)) as [->|]; cbn [andb].
      + replace (p <? p + 1 + n)%Z with true by (symmetry; apply Z.ltb_lt; lia).
        replace (p + 1 + n <? p + 1 + (n + 1))%Z with true by (symmetry; apply Z.ltb_lt; lia). reflexivity.
      + destruct (Z.ltb_spec p j'), (Z.ltb_spec j' (p + 1 + n)), (Z.ltb_spec j' (p + 1 + (n + 1))); cbn; auto; lia. }
  assert (X2 : forall n, (n <= m - p - 1)%Z -> forall i j,
    zloop n (fun i A => zloop (m - p - 1) (fun j A =>
        upd2 A (p + 1 + i) (p + 1 + j) (A (p + 1 + i)%Z (p + 1 + j)%Z - A (p + 1 + i)%Z p * A p (p + 1 + j)%Z))
       (upd2 A (p + 1 + i) p (A (p + 1 + i)%Z p / A p p))) A i j =
    if ((p <? i) && (i <? p + 1 + n))%Z%bool then
      if (j =? p)%Z then A i p / A p p
      else if ((p <? j) && (j <? m))%Z%bool then A i j - A i p / A p p * A p j else A i j
    else A i j).
  { intros n. induction n as [n H|n H IH] using zind; intros Hn i' j'.
    - rewrite zloop_0 by easy. destruct (Z.ltb_spec p i'), (Z.ltb_spec i' (p + 1 + n)); cbn; auto; lia.
    - rewrite zloop_S by easy. specialize (IH ltac:(lia)).
      set (A1 := zloop n _ A) in *. rewrite X1 by lia.
      assert (Epp : A1 p p = A p p) by (rewrite IH, Z.ltb_irrefl; reflexivity).
      assert (Erow : forall j, A1 (p + 1 + n)%Z j = A (p + 1 + n)%Z j).
      { intros j0. rewrite IH. rewrite Z.ltb_irrefl, andb_false_r. reflexivity. }
      assert (Ep : forall j, A1 p j = A p j) by (intros j0; rewrite IH, Z.ltb_irrefl; reflexivity).
      assert (Hc : (p + 1 + n =? p)%Z = false) by (apply Z.eqb_neq; lia).
      replace (p + 1 + (m - p - 1))%Z with m by lia.
      unfold upd2. rewrite !Z.eqb_refl. rewrite (Z.eqb_sym p (p + 1 + n)), Hc. cbn [andb].
      rewrite Epp, !Erow, !Ep.
      destruct (Z.eqb_spec i' (p + 1 + n)) as [->|Hne]; cbn [andb].
      + replace (p <? p + 1 + n)%Z with true by (symmetry; apply Z.ltb_lt; lia).
        replace (p + 1 + n <? p + 1 + (n + 1))%Z with true by (symmetry; apply Z.ltb_lt; lia). cbn [andb].
        destruct (Z.eqb_spec j' p) as [->|]; cbn [andb].
        * rewrite Z.ltb_irrefl. reflexivity.
        * destruct ((p <? j') && (j' <? m))%Z%bool; [reflexivity|]. apply Erow.
      + rewrite IH.
        destruct (Z.ltb_spec p i'), (Z.ltb_spec i' (p + 1 + n)), (Z.ltb_spec i' (p + 1 + (n + 1))); cbn [andb]; auto; lia. }
  rewrite (X2 (m - p - 1)%Z ltac:(lia)). unfold lu_step.
  replace (p + 1 + (m - p - 1))%Z with m by lia. reflexivity.
Qed.

(** The matrix after p steps. *)
Fixpoint lu_iter (m : Z) (A : arr2) (p : nat) : arr2 :=
  match p with O => A | S p => lu_step m (Z.of_nat p) (lu_iter m A p) end.

Lemma lu_is_iter m A i j : (0 <= m)%Z -> lu m A i j = lu_iter m A (Z.to_nat m) i j.
Proof.
  intros Hm. unfold lu.
  set (body := fun p A => zloop (m - p - 1) _ A).
  assert (X : forall k, zloop (Z.of_nat k) body A = lu_iter m A k).
  { induction k as [|k IH]; [now rewrite zloop_0|].
    replace (Z.of_nat (S k)) with (Z.of_nat k + 1)%Z by lia.
    rewrite zloop_S by lia. rewrite IH. cbn.
    apply FunctionalExtensionality.functional_extensionality. intros i'.
    apply FunctionalExtensionality.functional_extensionality. intros j'.
    unfold body. apply lu_step_spec. lia. }
  specialize (X (Z.to_nat m)). rewrite Z2Nat.id in X by lia. now rewrite X.
Qed.

(** All pivots met by the factorisation are non-zero. *)
Definition pivots (m : Z) (A : arr2) : Prop :=
  forall p, (0 <= p < m)%Z -> lu_iter m A (Z.to_nat p) p p <> 0.

Lemma lu_iter_factor m A0 p : (Z.of_nat p <= m)%Z -> pivots m A0 ->
  forall i j, (0 <= i < m)%Z -> (0 <= j < m)%Z ->
  let A := lu_iter m A0 p in
  A0 i j = rsum (Z.of_nat p) (fun k => Lf A i k * Uf A k j) +
           (if ((Z.of_nat p <=? i) && (Z.of_nat p <=? j))%Z%bool then A i j else 0).
Proof.
  intros Hp Hpiv. induction p as [|p IH]; intros i j Hi Hj.
  - cbn zeta. cbn [lu_iter Z.of_nat]. rewrite rsum_0 by lia. destruct (Z.leb_spec 0 i), (Z.leb_spec 0 j); cbn; try lia. lra.
  - specialize (IH ltac:(lia) i j Hi Hj). cbn zeta in *. cbn [lu_iter].
    set (A := lu_iter m A0 p) in *. set (P := Z.of_nat p) in *.
    replace (Z.of_nat (S p)) with (P + 1)%Z in * by lia.
    assert (Hpp : A P P <> 0).
    { unfold A. replace p with (Z.to_nat P) by lia. apply Hpiv. lia. }
    rewrite rsum_S by lia.
    assert (E : rsum P (fun k => Lf (lu_step m P A) i k * Uf (lu_step m P A) k j) =
                rsum P (fun k => Lf A i k * Uf A k j)).
    { apply rsum_ext. intros k Hk. f_equal.
      - unfold Lf, lu_step. destruct (k <? i)%Z; [|reflexivity].
        rewrite (proj2 (Z.eqb_neq k P)) by lia. rewrite (proj2 (Z.ltb_ge P k)) by lia. cbn.
        destruct ((P <? i) && (i <? m))%Z%bool; reflexivity.
      - unfold Uf, lu_step. destruct (k <=? j)%Z; [|reflexivity].
        rewrite (proj2 (Z.ltb_ge P k)) by lia. reflexivity. }
    rewrite E. rewrite IH. rewrite Rplus_assoc. f_equal.
    unfold Lf, Uf, lu_step.
    rewrite (proj2 (Z.ltb_ge P P)) by lia. cbn [andb].
    rewrite !Z.eqb_refl.
    replace (i <? m)%Z with true by (symmetry; apply Z.ltb_lt; lia).
    replace (j <? m)%Z with true by (symmetry; apply Z.ltb_lt; lia).
    destruct (Z.ltb_spec P i), (Z.leb_spec P i), (Z.eqb_spec P i), (Z.leb_spec P j), (Z.ltb_spec P j), (Z.eqb_spec j P),
      (Z.leb_spec (P + 1) i), (Z.leb_spec (P + 1) j); cbn [andb]; try lia; subst; try lra; field; auto.
Qed.

Lemma lu_factor m A0 : (0 <= m)%Z -> pivots m A0 ->
  forall i j, (0 <= i < m)%Z -> (0 <= j < m)%Z ->
  A0 i j = rsum m (fun k => Lf (lu m A0) i k * Uf (lu m A0) k j).
Proof.
  intros Hm Hp i j Hi Hj.
  pose proof (lu_iter_factor m A0 (Z.to_nat m) ltac:(lia) Hp i j Hi Hj) as E. cbn zeta in E.
  rewrite Z2Nat.id in E by lia.
  rewrite (proj2 (Z.leb_gt m i)) in E by lia. cbn in E. rewrite Rplus_0_r in E. rewrite E.
  apply rsum_ext. intros k Hk. unfold Lf, Uf. rewrite !lu_is_iter by lia. reflexivity.
Qed.

Lemma lu_iter_later m A p q : (p <= q)%nat -> (Z.of_nat q <= m)%Z ->
  lu_iter m A q (Z.of_nat p) (Z.of_nat p) = lu_iter m A p (Z.of_nat p) (Z.of_nat p).
Proof.
  intros Hpq Hq. induction Hpq as [|q Hpq IH]; [reflexivity|].
  cbn. unfold lu_step. rewrite (proj2 (Z.ltb_ge (Z.of_nat q) (Z.of_nat p))) by lia. cbn. apply IH. lia.
Qed.

Lemma lu_diag m A p : (0 <= p < m)%Z -> pivots m A -> lu m A p p <> 0.
Proof.
  intros Hp HP. rewrite lu_is_iter by lia.
  pose proof (lu_iter_later m A (Z.to_nat p) (Z.to_nat m) ltac:(lia) ltac:(lia)) as E.
  rewrite Z2Nat.id in E by lia. rewrite E. now apply HP.
Qed.

(** * Forward substitution *)
Lemma solve_row m n A p B i j q : (0 <= p)%Z -> (q <= m - p - 1)%Z ->
  zloop q (fun i B => zloop n (fun j B => upd2 B (p + 1 + i) j (B (p + 1 + i)%Z j - A (p + 1 + i)%Z p * B p j)) B) B i j =
  if ((p <? i) && (i <? p + 1 + q) && inb n j)%Z%bool then B i j - A i p * B p j else B i j.
Proof.
  intros Hp. revert i j.
  assert (X1 : forall k c n M i j, (k <> p)%Z ->
    zloop n (fun j B => upd2 B k j (B k j - c * B p j)) M i j =
    if ((i =? k)%Z && inb n j)%bool then M k j - c * M p j else M i j).
  { intros k c n' M i' j' Hk. revert i' j'. induction n' as [n' H|n' H IH] using zind; intros i' j'.
    - rewrite zloop_0 by easy. replace (inb n' j') with false by (symmetry; apply inb_false; lia). now rewrite andb_false_r.
    - rewrite zloop_S, inb_S by easy. unfold upd2 at 1. rewrite (IH k n'), (IH p n'), (IH i' j').
      rewrite (proj2 (Z.eqb_neq p k)) by lia. rewrite Z.eqb_refl.
      replace (inb n' n') with false by (symmetry; apply inb_false; lia). cbn [andb].
      destruct (Z.eqb_spec i' k) as [->|]; cbn [andb]; [|reflexivity].
      destruct (Z.eqb_spec j' n') as [->|]; [now rewrite orb_true_r|now rewrite orb_false_r]. }
  induction q as [q H|q H IH] using zind; intros i j Hq.
  - rewrite zloop_0 by easy. destruct (Z.ltb_spec p i), (Z.ltb_spec i (p + 1 + q)); cbn; auto; lia.
  - rewrite zloop_S by easy. rewrite X1 by lia.
    rewrite !(fun i j => IH i j ltac:(lia)).
    rewrite Z.ltb_irrefl, (proj2 (Z.ltb_ge p p)) by lia. rewrite andb_false_r. cbn [andb].
    destruct (Z.eqb_spec i (p + 1 + q)) as [->|].
    + replace (p <? p + 1 + q)%Z with true by (symmetry; apply Z.ltb_lt; lia).
      replace (p + 1 + q <? p + 1 + (q + 1))%Z with true by (symmetry; apply Z.ltb_lt; lia). cbn [andb].
      rewrite Z.ltb_irrefl. cbn [andb]. reflexivity.
    + destruct (Z.ltb_spec p i), (Z.ltb_spec i (p + 1 + q)), (Z.ltb_spec i (p + 1 + (q + 1))); cbn; auto; lia.
Qed.

Lemma solve_lower_ok m n A B : (0 <= m)%Z ->
  forall i j, (0 <= i < m)%Z -> (0 <= j < n)%Z ->
  rsum m (fun k => Lf A i k * solve_lower m n A B k j) = B i j.
Proof.
  intros Hm. unfold solve_lower.
  set (body := fun p B => zloop (m - p - 1) _ B).
  (* after p outer steps *)
  assert (Inv : forall p, (p <= m)%Z -> forall i j, (0 <= i < m)%Z -> (0 <= j < n)%Z ->
     zloop p body B i j + rsum p (fun k => (if (k <? i)%Z then A i k else 0) * zloop p body B k j) = B i j).
  { intros p. induction p as [p H|p H IH] using zind; intros Hp i j Hi Hj.
    - rewrite zloop_0, rsum_0 by easy. lra.
    - rewrite zloop_S, rsum_S by easy. specialize (IH ltac:(lia)).
      set (B1 := zloop p body B) in *.
      assert (E : forall i j, (0 <= j < n)%Z -> body p B1 i j =
         if ((p <? i) && (i <? m))%Z%bool then B1 i j - A i p * B1 p j else B1 i j).
      { intros i' j' Hj'. unfold body. rewrite (solve_row m n A p B1 i' j' (m - p - 1)) by lia.
        replace (inb n j') with true by (symmetry; apply inb_true; lia).
        replace (p + 1 + (m - p - 1))%Z with m by lia. now rewrite andb_true_r. }
      rewrite !E by easy. rewrite (proj2 (Z.ltb_ge p p)) by lia. cbn [andb].
      rewrite (rsum_ext p _ (fun k => (if (k <? i)%Z then A i k else 0) * B1 k j)).
      2:{ intros k Hk. rewrite E by easy. rewrite (proj2 (Z.ltb_ge p k)) by lia. reflexivity. }
      rewrite <- (IH i j Hi Hj).
      replace (i <? m)%Z with true by (symmetry; apply Z.ltb_lt; lia). rewrite andb_true_r.
      destruct (p <? i)%Z; lra. }
  intros i j Hi Hj. rewrite <- (Inv m ltac:(lia) i j Hi Hj).
  set (X := zloop m body B).
  rewrite (rsum_ext m (fun k => Lf A i k * X k j)
    (fun k => (if (k =? i)%Z then X k j else 0) + (if (k <? i)%Z then A i k else 0) * X k j)).
  - rewrite rsum_plus, (rsum_delta m i (fun k => X k j) Hi). reflexivity.
  - intros k Hk. unfold Lf. destruct (Z.ltb_spec k i), (Z.eqb_spec k i); try lia; lra.
Qed.

(** * Backward substitution *)
Lemma solve_upper_ok m n A B : (0 <= m)%Z -> (forall p, (0 <= p < m)%Z -> A p p <> 0) ->
  forall i j, (0 <= i < m)%Z -> (0 <= j < n)%Z ->
  rsum m (fun k => Uf A i k * solve_upper m n A B k j) = B i j.
Proof.
  intros Hm HA. unfold solve_upper. cbv zeta.
  set (body := fun q B => zloop (m - 1 - q) _ _).
  assert (EB : forall q B1, (0 <= q < m)%Z -> forall i j, (0 <= j < n)%Z -> (0 <= i)%Z ->
     let p := (m - 1 - q)%Z in
     body q B1 i j = if (i =? p)%Z then B1 p j / A p p
                     else if (i <? p)%Z then B1 i j - A i p * (B1 p j / A p p) else B1 i j).
  { intros q B1 Hq i j Hj Hi p. unfold body. fold p.
    set (B2 := zloop n (fun j B => upd2 B p j (B p j / A p p)) B1).
    assert (E2 : forall i j, (0 <= j < n)%Z -> B2 i j = if (i =? p)%Z then B1 p j / A p p else B1 i j).
    { intros i' j' Hj'. unfold B2.
      assert (X : forall n i j, zloop n (fun j B => upd2 B p j (B p j / A p p)) B1 i j =
         if ((i =? p)%Z && inb n j)%bool then B1 p j / A p p else B1 i j).
      { intros n'. induction n' as [n' H|n' H IH] using zind; intros i1 j1.
        - rewrite zloop_0 by easy. replace (inb n' j1) with false by (symmetry; apply inb_false; lia). now rewrite andb_false_r.
        - rewrite zloop_S, inb_S by easy. unfold upd2 at 1. rewrite (IH p n'), (IH i1 j1).
          replace (inb n' n') with false by (symmetry; apply inb_false; lia). rewrite andb_false_r.
          destruct (Z.eqb_spec i1 p) as [->|]; cbn [andb]; [|reflexivity].
          destruct (Z.eqb_spec j1 n') as [->|]; [now rewrite orb_true_r|now rewrite orb_false_r]. }
      rewrite X. replace (inb n j') with true by (symmetry; apply inb_true; lia). now rewrite andb_true_r. }
    assert (X3 : forall r, (r <= p)%Z -> forall i j, (0 <= j < n)%Z -> (0 <= i)%Z ->
      zloop r (fun i B => zloop n (fun j B => upd2 B i j (B i j - A i p * B p j)) B) B2 i j =
      if (i <? r)%Z then B2 i j - A i p * B2 p j else B2 i j).
    { assert (X1 : forall k n M i j, (k <> p)%Z ->
        zloop n (fun j B => upd2 B k j (B k j - A k p * B p j)) M i j =
        if ((i =? k)%Z && inb n j)%bool then M k j - A k p * M p j else M i j).
      { intros k n' M i' j' Hk. revert i' j'. induction n' as [n' H|n' H IH] using zind; intros i' j'.
        - rewrite zloop_0 by easy. replace (inb n' j') with false by (symmetry; apply inb_false; lia). now rewrite andb_false_r.
        - rewrite zloop_S, inb_S by easy. unfold upd2 at 1. rewrite (IH k n'), (IH p n'), (IH i' j').
          rewrite (proj2 (Z.eqb_neq p k)) by lia. rewrite Z.eqb_refl.
          replace (inb n' n') with false by (symmetry; apply inb_false; lia). cbn [andb].
          destruct (Z.eqb_spec i' k) as [->|]; cbn [andb]; [|reflexivity].
          destruct (Z.eqb_spec j' n') as [->|]; [now rewrite orb_true_r|now rewrite orb_false_r]. }
      intros r. induction r as [r H|r H IH] using zind; intros Hr i' j' Hj' Hi'.
      - rewrite zloop_0 by easy. rewrite (proj2 (Z.ltb_ge i' r)) by lia. reflexivity.
      - rewrite zloop_S by easy. specialize (IH ltac:(lia)). rewrite X1 by lia.
        rewrite (IH r j'), (IH p j'), (IH i' j') by lia.
        rewrite Z.ltb_irrefl. rewrite (proj2 (Z.ltb_ge p r)) by lia.
        replace (inb n j') with true by (symmetry; apply inb_true; lia). rewrite andb_true_r.
        destruct (Z.eqb_spec i' r) as [->|].
        + rewrite (proj2 (Z.ltb_lt r (r + 1))) by lia. reflexivity.
        + destruct (Z.ltb_spec i' r), (Z.ltb_spec i' (r + 1)); auto; lia. }
    rewrite X3 by lia. rewrite !E2 by easy. rewrite Z.eqb_refl.
    destruct (Z.eqb_spec i p) as [->|]; [rewrite Z.ltb_irrefl; reflexivity|]. reflexivity. }
  (* after q outer steps, rows >= m - q are final *)
  assert (Inv : forall q, (q <= m)%Z -> forall i j, (0 <= i < m)%Z -> (0 <= j < n)%Z ->
     let X := zloop q body B in
     (if (i <? m - q)%Z then X i j else 0) +
       rsum m (fun k => (if ((m - q <=? k) && (i <=? k))%Z%bool then A i k else 0) * X k j) = B i j).
  { intros q. induction q as [q H|q H IH] using zind; intros Hq i j Hi Hj; cbn zeta.
    - rewrite zloop_0 by easy. rewrite (proj2 (Z.ltb_lt i (m - q))) by lia.
      rewrite rsum_zero; [lra|]. intros k Hk. rewrite (proj2 (Z.leb_gt (m - q) k)) by lia. cbn. lra.
    - rewrite zloop_S by easy. specialize (IH ltac:(lia) i j Hi Hj). cbn zeta in IH.
      set (X := zloop q body B) in *. set (p := (m - 1 - q)%Z).
      replace (m - (q + 1))%Z with p by lia. replace (m - q)%Z with (p + 1)%Z in IH by lia.
      rewrite (EB q X ltac:(lia) i j Hj ltac:(lia)). fold p.
      rewrite (rsum_ext m _ (fun k => (if ((p + 1 <=? k) && (i <=? k))%Z%bool then A i k else 0) * X k j +
         (if (k =? p)%Z then (if (i <=? p)%Z then A i p else 0) * (X p j / A p p) else 0))).
      2:{ intros k Hk. rewrite (EB q X ltac:(lia) k j Hj ltac:(lia)). fold p.
          destruct (Z.eqb_spec k p) as [->|].
          - rewrite (proj2 (Z.leb_le p p)) by lia. rewrite (proj2 (Z.leb_gt (p + 1) p)) by lia. cbn [andb]. lra.
          - destruct (Z.ltb_spec k p), (Z.leb_spec p k), (Z.leb_spec (p + 1) k); try lia; cbn [andb]; lra. }
      rewrite rsum_plus. rewrite (rsum_delta m p (fun _ => (if (i <=? p)%Z then A i p else 0) * (X p j / A p p))) by lia.
      assert (Ap : A p p <> 0) by (apply HA; lia).
      rewrite <- IH.
      destruct (Z.eqb_spec i p) as [->|].
      + rewrite Z.ltb_irrefl. rewrite (proj2 (Z.leb_le p p)) by lia. rewrite (proj2 (Z.ltb_lt p (p + 1))) by lia.
        replace (A p p * (X p j / A p p)) with (X p j) by (field; auto). lra.
      + destruct (Z.ltb_spec i p), (Z.leb_spec i p), (Z.ltb_spec i (p + 1)); try lia; lra. }
  intros i j Hi Hj. pose proof (Inv m ltac:(lia) i j Hi Hj) as E. cbn zeta in E.
  rewrite (proj2 (Z.ltb_ge i (m - m))) in E by lia. rewrite Rplus_0_l in E.
  rewrite <- E. apply rsum_ext. intros k Hk. unfold Uf.
  rewrite (proj2 (Z.leb_le (m - m) k)) by lia. reflexivity.
Qed.

(** * Inversion through LU *)
Lemma invA_lu_gen m A I0 : (3 < m)%Z -> pivots m A ->
  forall i j, (0 <= i < m)%Z -> (0 <= j < m)%Z ->
  rsum m (fun k => A i k * invA m A I0 k j) = if (i =? j)%Z then 1 else I0 i j.
Proof.
  intros Hm HP i j Hi Hj. unfold invA.
  rewrite (proj2 (Z.eqb_neq m 1)), (proj2 (Z.eqb_neq m 2)), (proj2 (Z.eqb_neq m 3)) by lia. cbv zeta.
  set (F := lu m A). set (Y := solve_lower m m F (identity m m I0)). set (X := solve_upper m m F Y).
  rewrite (rsum_ext m _ (fun k => rsum m (fun l => Lf F i l * (Uf F l k * X k j)))).
  2:{ intros k Hk. rewrite (lu_factor m A ltac:(lia) HP i k Hi Hk). fold F.
      rewrite <- rsum_scal_r. apply rsum_ext. intros l Hl. ring. }
  rewrite rsum_swap.
  rewrite (rsum_ext m _ (fun l => Lf F i l * Y l j)).
  2:{ intros l Hl. rewrite rsum_scal. f_equal. unfold X. apply solve_upper_ok; auto; try lia.
      intros p Hp. apply lu_diag; auto. }
  unfold Y. rewrite solve_lower_ok by lia.
  rewrite identity_entry. rewrite (proj2 (inb_true m i)), (proj2 (inb_true m j)) by lia. reflexivity.
Qed.

Lemma invA_lu m A I0 : (3 < m)%Z -> pivots m A ->
  (forall i j, (0 <= i < m)%Z -> (0 <= j < m)%Z -> i <> j -> I0 i j = 0) ->
  forall i j, (0 <= i < m)%Z -> (0 <= j < m)%Z ->
  rsum m (fun k => A i k * invA m A I0 k j) = if (i =? j)%Z then 1 else 0.
Proof.
  intros Hm HP HI i j Hi Hj. rewrite invA_lu_gen by auto.
  destruct (Z.eqb_spec i j); [reflexivity|]. now apply HI.
Qed.

(** A right inverse of a symmetric matrix is a left inverse. *)
Lemma sym_right_left m A X :
  (0 <= m)%Z ->
  (forall i j, (0 <= i < m)%Z -> (0 <= j < m)%Z -> A i j = A j i) ->
  (forall i j, (0 <= i < m)%Z -> (0 <= j < m)%Z -> rsum m (fun k => A i k * X k j) = if (i =? j)%Z then 1 else 0) ->
  (forall i j, (0 <= i < m)%Z -> (0 <= j < m)%Z -> X i j = X j i) /\
  (forall i j, (0 <= i < m)%Z -> (0 <= j < m)%Z -> rsum m (fun k => X i k * A k j) = if (i =? j)%Z then 1 else 0).
Proof.
  intros Hm HS HR.
  assert (HX : forall i j, (0 <= i < m)%Z -> (0 <= j < m)%Z -> X i j = X j i).
  { intros i j Hi Hj.
    (* X j i = sum_k X k i * delta k j = sum_k X k i sum_l A k l X l j *)
    assert (E : rsum m (fun k => rsum m (fun l => X k i * (A k l * X l j))) = X j i).
    { rewrite (rsum_ext m _ (fun k => X k i * (if (k =? j)%Z then 1 else 0))).
      - apply (rsum_delta_r m j (fun k => X k i) Hj).
      - intros k Hk. rewrite rsum_scal. now rewrite HR. }
    rewrite <- E. rewrite rsum_swap.
    rewrite (rsum_ext m _ (fun l => X l j * (if (l =? i)%Z then 1 else 0))).
    - symmetry. apply (rsum_delta_r m i (fun k => X k j) Hi).
    - intros l Hl. rewrite <- (HR l i Hl Hi).
      rewrite <- rsum_scal. apply rsum_ext. intros k Hk. rewrite (HS k l Hk Hl). ring. }
  split; [exact HX|]. intros i j Hi Hj.
  rewrite (rsum_ext m _ (fun k => A j k * X k i)).
  - rewrite HR by easy. now rewrite Z.eqb_sym.
  - intros k Hk. rewrite (HX i k Hi Hk), (HS k j Hk Hj). ring.
Qed.

(** * Positive definite matrices have non-zero pivots *)
Definition quad_form (m : Z) (A : arr2) (x : arr1) : R :=
  rsum m (fun i => rsum m (fun j => x i * (A i j * x j))).
Definition pos_def (m : Z) (A : arr2) : Prop :=
  (forall i j, (0 <= i < m)%Z -> (0 <= j < m)%Z -> A i j = A j i) /\
  (forall x, (exists i, (0 <= i < m)%Z /\ x i <> 0) -> 0 < quad_form m A x).

(** Positive definite on the indices from p on. *)
Definition pd_from (p m : Z) (A : arr2) : Prop :=
  (forall i j, (p <= i < m)%Z -> (p <= j < m)%Z -> A i j = A j i) /\
  (forall x, (forall i, (i < p)%Z -> x i = 0) -> (exists i, (p <= i < m)%Z /\ x i <> 0) -> 0 < quad_form m A x).

Lemma pd_pivot p m A : (0 <= p < m)%Z -> pd_from p m A -> 0 < A p p.
Proof.
  intros Hp [_ H]. pose (e := fun i : Z => if (i =? p)%Z then 1 else 0).
  assert (E : quad_form m A e = A p p).
  { unfold quad_form. rewrite (rsum_ext m _ (fun i => if (i =? p)%Z then A i p else 0)).
    - now rewrite (rsum_delta m p (fun i => A i p)).
    - intros i Hi. unfold e. destruct (Z.eqb_spec i p) as [->|].
      + rewrite (rsum_ext m _ (fun j => if (j =? p)%Z then A p j else 0)).
        * now rewrite (rsum_delta m p (fun j => A p j)).
        * intros j Hj. destruct (j =? p)%Z; lra.
      + apply rsum_zero. intros. lra. }
  rewrite <- E. apply H.
  - intros i Hi. unfold e. rewrite (proj2 (Z.eqb_neq i p)) by lia. reflexivity.
  - exists p. split; [lia|]. unfold e. rewrite Z.eqb_refl. lra.
Qed.

Lemma pd_step p m A : (0 <= p < m)%Z -> pd_from p m A -> pd_from (p + 1) m (lu_step m p A).
Proof.
  intros Hp HD. pose proof (pd_pivot p m A Hp HD) as Hpos. destruct HD as [HS HQ].
  assert (Hin : forall i j, (p + 1 <= i < m)%Z -> (p + 1 <= j < m)%Z ->
     lu_step m p A i j = A i j - A i p / A p p * A p j).
  { intros i j Hi Hj. unfold lu_step.
    rewrite (proj2 (Z.ltb_lt p i)), (proj2 (Z.ltb_lt i m)), (proj2 (Z.eqb_neq j p)), (proj2 (Z.ltb_lt p j)), (proj2 (Z.ltb_lt j m)) by lia.
    reflexivity. }
  split.
  - intros i j Hi Hj. rewrite !Hin by easy. rewrite (HS i j), (HS i p), (HS p j) by lia. field. lra.
  - intros x Hx0 (i0 & Hi0 & Hxi).
    set (s := rsum m (fun j => A p j * x j)).
    pose (y := fun i : Z => if (i =? p)%Z then - s / A p p else x i).
    assert (Hy : 0 < quad_form m A y).
    { apply HQ.
      - intros i Hi. unfold y. rewrite (proj2 (Z.eqb_neq i p)) by lia. apply Hx0. lia.
      - exists i0. split; [lia|]. unfold y. rewrite (proj2 (Z.eqb_neq i0 p)) by lia. exact Hxi. }
    assert (Hxp : x p = 0) by (apply Hx0; lia).
    (* A y in coordinates *)
    assert (Ey : forall i, rsum m (fun j => A i j * y j) = rsum m (fun j => A i j * x j) + A i p * (- s / A p p)).
    { intros i. rewrite (rsum_ext m _ (fun j => A i j * x j + (if (j =? p)%Z then A i j * (- s / A p p) else 0))).
      - rewrite rsum_plus, (rsum_delta m p (fun j => A i j * (- s / A p p)) Hp). reflexivity.
      - intros j Hj. unfold y. destruct (Z.eqb_spec j p) as [->|]; [rewrite Hxp|]; lra. }
    assert (E : quad_form m (lu_step m p A) x = quad_form m A y).
    { unfold quad_form.
      rewrite (rsum_ext m (fun i => rsum m (fun j => y i * (A i j * y j)))
        (fun i => x i * (rsum m (fun j => A i j * x j) + A i p * (- s / A p p)))).
      2:{ intros i Hi. rewrite rsum_scal, Ey. unfold y. destruct (Z.eqb_spec i p) as [->|]; [|reflexivity].
          fold s. rewrite Hxp.
          replace (s + A p p * (- s / A p p)) with 0 by (field; lra). ring. }
      apply rsum_ext. intros i Hi.
      destruct (Z_le_gt_dec (p + 1) i) as [Hge|Hlt].
      - rewrite (rsum_ext m _ (fun j => x i * (A i j * x j) - x i * (A i p / A p p) * (A p j * x j))).
        + rewrite rsum_minus, !rsum_scal. fold s. field. lra.
        + intros j Hj. destruct (Z_le_gt_dec (p + 1) j) as [Hj2|Hj2].
          * rewrite Hin by lia. ring.
          * rewrite (Hx0 j) by lia. ring.
      - rewrite (Hx0 i) by lia. rewrite Rmult_0_l. apply rsum_zero. intros. ring. }
    rewrite E. exact Hy.
Qed.

Lemma pos_def_pivots m A : (0 <= m)%Z -> pos_def m A -> pivots m A.
Proof.
  intros Hm [HS HQ].
  assert (X : forall p, (Z.of_nat p < m)%Z -> pd_from (Z.of_nat p) m (lu_iter m A p)).
  { induction p as [|p IH]; intros Hp.
    - split; [intros; apply HS; lia|]. intros x _ HX. apply HQ. exact HX.
    - cbn [lu_iter]. replace (Z.of_nat (S p)) with (Z.of_nat p + 1)%Z by lia.
      apply pd_step; [lia|]. apply IH; lia. }
  intros p Hp. pose proof (X (Z.to_nat p) ltac:(lia)) as D. rewrite Z2Nat.id in D by lia.
  pose proof (pd_pivot p m _ ltac:(lia) D). lra.
Qed.
