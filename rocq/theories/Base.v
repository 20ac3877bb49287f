(** Base.v -- common vocabulary of the model.

    C++ integers are modelled by [Z]; C++ arrays, [std::vector]s and Kokkos
    views by lists.  Every access to an array is checked: an access outside
    the array is the outcome [Fail OutOfBounds], the use of a variable that
    was never assigned is [Fail Uninitialised], a C++ [throw] is
    [Fail Thrown], a dereferenced null pointer is [Fail NullDeref], a failed
    assertion [Fail Aborted], a division by zero or the square root of a
    negative number [Fail BadArith].  No access
    has a default value.  (This file models no particular source file; it is
    the vocabulary in which the others are written.) *)
From Coq Require Import ZArith List Lia Bool Permutation.
Import ListNotations.
Local Open Scope Z_scope.

(** Outcomes of a C++ operation that do not return normally. *)
Inductive err := OutOfBounds | Uninitialised | Thrown | NullDeref | Aborted | BadArith.

Inductive res (A : Type) : Type :=
| Ok (a : A)
| Fail (e : err).
Arguments Ok {A} a.
Arguments Fail {A} e.

Definition bind {A B} (x : res A) (k : A -> res B) : res B :=
  match x with Ok a => k a | Fail e => Fail e end.

Declare Scope res_scope.
Delimit Scope res_scope with res.
Notation "x <- e ;; k" := (bind e (fun x => k))
  (at level 61, e at next level, right associativity) : res_scope.
Notation "' p <- e ;; k" := (bind e (fun p => k))
  (at level 61, p pattern, e at next level, right associativity) : res_scope.
Open Scope res_scope.

(** Length of an array as a C++ integer. *)
Definition zlen {A} (l : list A) : Z := Z.of_nat (length l).

(** [0, 1, ..., n-1]: the values of a loop counter. *)
Definition zseq (n : Z) : list Z := map Z.of_nat (seq 0 (Z.to_nat n)).

(** Checked read [l[i]]. *)
Definition rd {A} (l : list A) (i : Z) : res A :=
  if i <? 0 then Fail OutOfBounds
  else match nth_error l (Z.to_nat i) with
       | Some a => Ok a
       | None => Fail OutOfBounds
       end.

Fixpoint set_nth {A} (l : list A) (n : nat) (v : A) : list A :=
  match l, n with
  | [], _ => []
  | _ :: t, O => v :: t
  | x :: t, S n' => x :: set_nth t n' v
  end.

(** Checked write [l[i] = v]. *)
Definition wr {A} (l : list A) (i : Z) (v : A) : res (list A) :=
  if (i <? 0) || (zlen l <=? i) then Fail OutOfBounds
  else Ok (set_nth l (Z.to_nat i) v).

(** Checked accesses to a two-dimensional array (list of rows). *)
Definition rd2 {A} (m : list (list A)) (i j : Z) : res A :=
  row <- rd m i ;; rd row j.

Definition wr2 {A} (m : list (list A)) (i j : Z) (v : A) : res (list (list A)) :=
  row <- rd m i ;; row' <- wr row j v ;; wr m i row'.

(** [for (x : l) body] with an early exit on failure. *)
Fixpoint foreach {A S} (l : list A) (body : A -> S -> res S) (s : S) : res S :=
  match l with
  | [] => Ok s
  | x :: t => s' <- body x s ;; foreach t body s'
  end.

(** [for (i = 0; i < n; i++) body]. *)
Definition zfor {S} (n : Z) (body : Z -> S -> res S) (s : S) : res S :=
  foreach (zseq n) body s.

(** [std::vector<T>(n, d)] / a freshly resized (zero-filled) Kokkos view. *)
Definition vec {A} (n : Z) (d : A) : list A := repeat d (Z.to_nat n).

(** [UINT_MAX] of a 32-bit unsigned. *)
Definition UINT_MAX : Z := 4294967295.

(* ------------------------------------------------------------------ *)
(** * Facts *)

Lemma zlen_nonneg {A} (l : list A) : 0 <= zlen l.
Proof. unfold zlen; lia. Qed.

Lemma zlen_app {A} (l l' : list A) : zlen (l ++ l') = zlen l + zlen l'.
Proof. unfold zlen; rewrite app_length; lia. Qed.

Lemma zlen_cons {A} (x : A) l : zlen (x :: l) = zlen l + 1.
Proof. unfold zlen; simpl length; lia. Qed.

Lemma zlen_nil {A} : zlen (@nil A) = 0.
Proof. reflexivity. Qed.

Lemma zlen_map {A B} (f : A -> B) l : zlen (map f l) = zlen l.
Proof. unfold zlen; now rewrite map_length. Qed.

Lemma zlen_repeat {A} (d : A) n : zlen (repeat d n) = Z.of_nat n.
Proof. unfold zlen; now rewrite repeat_length. Qed.

Lemma zlen_vec {A} (d : A) n : 0 <= n -> zlen (vec n d) = n.
Proof. intros; unfold vec; rewrite zlen_repeat; lia. Qed.

Lemma zlen_zseq n : 0 <= n -> zlen (zseq n) = n.
Proof. intros; unfold zseq; rewrite zlen_map; unfold zlen; rewrite seq_length; lia. Qed.

Lemma In_zseq n i : In i (zseq n) <-> 0 <= i < n.
Proof.
  unfold zseq; rewrite in_map_iff; split.
  - intros (k & <- & Hk); apply in_seq in Hk; lia.
  - intros H; exists (Z.to_nat i); split; [lia | apply in_seq; lia].
Qed.

Lemma NoDup_zseq n : NoDup (zseq n).
Proof.
  unfold zseq; apply FinFun.Injective_map_NoDup; [intros x y; lia | apply seq_NoDup].
Qed.

Lemma zseq_S n : 0 <= n -> zseq (n + 1) = zseq n ++ [n].
Proof.
  intros H; unfold zseq.
  replace (Z.to_nat (n + 1)) with (Datatypes.S (Z.to_nat n)) by lia.
  rewrite seq_S, map_app; simpl; f_equal; f_equal; lia.
Qed.

Lemma zseq_0 : zseq 0 = [].
Proof. reflexivity. Qed.

Lemma zseq_neg n : n <= 0 -> zseq n = [].
Proof. intros; unfold zseq; replace (Z.to_nat n) with O by lia; reflexivity. Qed.

Lemma nth_error_zseq n i : 0 <= i < n -> nth_error (zseq n) (Z.to_nat i) = Some i.
Proof.
  intros H; unfold zseq.
  rewrite nth_error_map, nth_error_nth' with (d := O) by (rewrite seq_length; lia).
  rewrite seq_nth by lia; simpl; f_equal; lia.
Qed.

Lemma rd_Ok {A} (l : list A) i a :
  rd l i = Ok a <-> 0 <= i /\ nth_error l (Z.to_nat i) = Some a.
Proof.
  unfold rd; destruct (Z.ltb_spec i 0).
  - split; [discriminate | lia].
  - destruct (nth_error l (Z.to_nat i)); split.
    + intros [= ->]; split; [lia | easy].
    + intros [_ [= ->]]; easy.
    + discriminate.
    + intros [_ [=]].
Qed.

Lemma rd_in_range {A} (l : list A) i a : rd l i = Ok a -> 0 <= i < zlen l.
Proof.
  rewrite rd_Ok; intros [H E]; split; [lia|].
  assert (Z.to_nat i < length l)%nat by (apply nth_error_Some; congruence).
  unfold zlen; lia.
Qed.

Lemma rd_nth {A} (d : A) (l : list A) i :
  0 <= i < zlen l -> rd l i = Ok (nth (Z.to_nat i) l d).
Proof.
  intros H; apply rd_Ok; split; [lia|].
  apply nth_error_nth'; unfold zlen in H; lia.
Qed.

Lemma rd_total {A} (l : list A) i : 0 <= i < zlen l -> exists a, rd l i = Ok a.
Proof.
  intros H; destruct (nth_error l (Z.to_nat i)) eqn:E.
  - exists a; apply rd_Ok; split; [lia | easy].
  - apply nth_error_None in E; unfold zlen in H; lia.
Qed.

Lemma rd_In {A} (l : list A) i a : rd l i = Ok a -> In a l.
Proof. rewrite rd_Ok; intros [_ E]; eapply nth_error_In; eauto. Qed.

Lemma rd_fail {A} (l : list A) i : ~ (0 <= i < zlen l) -> rd l i = Fail OutOfBounds.
Proof.
  intros H; unfold rd; destruct (Z.ltb_spec i 0); [easy|].
  destruct (nth_error l (Z.to_nat i)) eqn:E; [|easy].
  assert (Z.to_nat i < length l)%nat by (apply nth_error_Some; congruence).
  unfold zlen in H; lia.
Qed.

Lemma length_set_nth {A} (l : list A) n v : length (set_nth l n v) = length l.
Proof. revert n; induction l; destruct n; simpl; auto. Qed.

Lemma nth_error_set_nth_eq {A} (l : list A) n v :
  (n < length l)%nat -> nth_error (set_nth l n v) n = Some v.
Proof. revert n; induction l; destruct n; simpl; intros; try lia; auto; apply IHl; lia. Qed.

Lemma nth_error_set_nth_neq {A} (l : list A) n m v :
  n <> m -> nth_error (set_nth l n v) m = nth_error l m.
Proof. revert n m; induction l; destruct n, m; simpl; intros; auto; try lia; apply IHl; lia. Qed.

Lemma wr_ok {A} (l : list A) i v :
  0 <= i < zlen l -> wr l i v = Ok (set_nth l (Z.to_nat i) v).
Proof.
  intros H; unfold wr.
  destruct (Z.ltb_spec i 0), (Z.leb_spec (zlen l) i); simpl; auto; lia.
Qed.

Lemma wr_Ok_inv {A} (l : list A) i v l' :
  wr l i v = Ok l' -> 0 <= i < zlen l /\ l' = set_nth l (Z.to_nat i) v.
Proof.
  unfold wr; destruct (Z.ltb_spec i 0), (Z.leb_spec (zlen l) i); simpl; intros E;
    try discriminate; split; [lia | congruence].
Qed.

Lemma wr_fail {A} (l : list A) i v : ~ (0 <= i < zlen l) -> wr l i v = Fail OutOfBounds.
Proof.
  intros H; unfold wr.
  destruct (Z.ltb_spec i 0), (Z.leb_spec (zlen l) i); simpl; auto; lia.
Qed.

Lemma zlen_set_nth {A} (l : list A) n v : zlen (set_nth l n v) = zlen l.
Proof. unfold zlen; now rewrite length_set_nth. Qed.

Lemma rd_set_nth_eq {A} (l : list A) i v :
  0 <= i < zlen l -> rd (set_nth l (Z.to_nat i) v) i = Ok v.
Proof.
  intros H; apply rd_Ok; split; [lia|].
  apply nth_error_set_nth_eq; unfold zlen in H; lia.
Qed.

Lemma rd_set_nth_neq {A} (l : list A) i j v :
  0 <= i -> i <> j -> rd (set_nth l (Z.to_nat i) v) j = rd l j.
Proof.
  intros Hi H; unfold rd; destruct (Z.ltb_spec j 0); [easy|].
  rewrite nth_error_set_nth_neq by lia; reflexivity.
Qed.

(** Writing at the first free position of a partially filled array. *)
Lemma set_nth_app {A} (p q : list A) n v :
  set_nth (p ++ q) (length p + n) v = p ++ set_nth q n v.
Proof. induction p; simpl; auto; now rewrite IHp. Qed.

Lemma wr_fill {A} (p : list A) (d : A) k v :
  wr (p ++ repeat d (S k)) (zlen p) v = Ok ((p ++ [v]) ++ repeat d k).
Proof.
  rewrite wr_ok.
  - replace (Z.to_nat (zlen p)) with (length p + 0)%nat by (unfold zlen; lia).
    rewrite set_nth_app; simpl; now rewrite <- app_assoc.
  - rewrite zlen_app, zlen_repeat; pose proof (zlen_nonneg p); lia.
Qed.

(** Loop rule. *)
Lemma foreach_inv {A S} (P : list A -> S -> Prop) (body : A -> S -> res S) :
  forall l s0,
  P [] s0 ->
  (forall done x todo s, l = done ++ x :: todo -> P done s ->
     exists s', body x s = Ok s' /\ P (done ++ [x]) s') ->
  exists s', foreach l body s0 = Ok s' /\ P l s'.
Proof.
  intros l s0 H0 Hstep.
  assert (G : forall todo done s, l = done ++ todo -> P done s ->
            exists s', foreach todo body s = Ok s' /\ P l s').
  { induction todo as [|x todo IH]; intros done s E HP.
    - exists s; split; [easy|]. rewrite app_nil_r in E; now subst.
    - destruct (Hstep done x todo s E HP) as (s1 & E1 & H1).
      simpl; rewrite E1; simpl.
      apply (IH (done ++ [x])); [now rewrite <- app_assoc | easy]. }
  now apply (G l [] s0).
Qed.

Lemma zseq_split n done x todo :
  zseq n = done ++ x :: todo -> 0 <= x < n /\ done = zseq x.
Proof.
  intros E.
  assert (Hx : In x (zseq n)) by (rewrite E; apply in_or_app; right; now left).
  apply In_zseq in Hx; split; [easy|].
  assert (Hl : nth_error (zseq n) (length done) = Some x).
  { rewrite E, nth_error_app2 by lia. now rewrite Nat.sub_diag. }
  assert (Hb : (length done < length (zseq n))%nat) by (apply nth_error_Some; congruence).
  assert (Hn : zlen (zseq n) = n) by (apply zlen_zseq; lia).
  unfold zlen in Hn.
  pose proof (nth_error_zseq n (Z.of_nat (length done)) ltac:(lia)) as Hd.
  rewrite Nat2Z.id, Hl in Hd; injection Hd as Hd.
  assert (F : firstn (length done) (zseq n) = done).
  { rewrite E, firstn_app, Nat.sub_diag, firstn_all; simpl; apply app_nil_r. }
  rewrite <- F; unfold zseq. rewrite firstn_map; f_equal.
  rewrite Hd. clear - Hb Hd Hn.
  assert (Hlt : (length done <= Z.to_nat n)%nat) by lia.
  rewrite Nat2Z.id.
  revert Hlt; generalize (length done) as k, (Z.to_nat n) as m, O as s; clear.
  induction k; intros m s H; simpl; auto.
  destruct m; [lia|]; simpl; f_equal; apply IHk; lia.
Qed.

Lemma zfor_inv {S} (P : Z -> S -> Prop) n (body : Z -> S -> res S) s0 :
  0 <= n ->
  P 0 s0 ->
  (forall i s, 0 <= i < n -> P i s -> exists s', body i s = Ok s' /\ P (i + 1) s') ->
  exists s', zfor n body s0 = Ok s' /\ P n s'.
Proof.
  intros Hn H0 Hstep.
  destruct (foreach_inv (fun done s => P (zlen done) s) body (zseq n) s0) as (s' & E & HP).
  - exact H0.
  - intros done x todo s E HP.
    apply zseq_split in E; destruct E as [Hx ->].
    rewrite zlen_zseq in HP by lia.
    destruct (Hstep x s Hx HP) as (s1 & E1 & H1).
    exists s1; split; [easy|]. rewrite zlen_app, zlen_zseq by lia. exact H1.
  - exists s'; split; [exact E|]. now rewrite zlen_zseq in HP by lia.
Qed.

(** A loop that fails: if the body fails at the first index where it is
    evaluated in state satisfying the invariant, the loop fails. *)
Lemma foreach_app {A S} (l1 l2 : list A) (body : A -> S -> res S) s :
  foreach (l1 ++ l2) body s = bind (foreach l1 body s) (foreach l2 body).
Proof.
  revert s; induction l1; intros; simpl; auto.
  destruct (body a s); simpl; auto.
Qed.

Lemma zfor_S {S} n (body : Z -> S -> res S) s :
  0 <= n -> zfor (n + 1) body s = bind (zfor n body s) (body n).
Proof.
  intros H; unfold zfor; rewrite zseq_S, foreach_app by easy.
  destruct (foreach (zseq n) body s); simpl; auto.
  destruct (body n a); reflexivity.
Qed.

Lemma bind_Ok {A B} (x : res A) (k : A -> res B) b :
  bind x k = Ok b <-> exists a, x = Ok a /\ k a = Ok b.
Proof.
  destruct x; simpl; split.
  - eauto.
  - intros (? & [= ->] & ?); easy.
  - discriminate.
  - intros (? & ? & ?); discriminate.
Qed.

Lemma filter_app_one {A} (f : A -> bool) l x :
  filter f (l ++ [x]) = filter f l ++ (if f x then [x] else []).
Proof. rewrite filter_app; simpl; now destruct (f x). Qed.

Lemma NoDup_app_one {A} (l : list A) x : NoDup l -> ~ In x l -> NoDup (l ++ [x]).
Proof.
  intros H Hx.
  apply Permutation_NoDup with (l := x :: l); [|now constructor].
  apply Permutation_cons_append.
Qed.
