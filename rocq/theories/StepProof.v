(** StepProof.v -- lemmas about the steppers. *)
From Coq Require Import ZArith List Lia Reals Lra Bool Permutation FunctionalExtensionality.
From Verif Require Import Base RBase LinAlgModel LinAlgProof QuadModel QuadProof PhysModel PhysSpec PhysProof SolverModel SolverProof StepModel.
Import ListNotations.
Local Open Scope R_scope.

Definition inbox (x : ext3) (i j k : Z) : Prop :=
  let '(e0, e1, e2) := x in (0 <= i < e0)%Z /\ (0 <= j < e1)%Z /\ (0 <= k < e2)%Z.

Lemma within3_spec x i j k : within3 x i j k = true <-> inbox x i j k.
Proof. destruct x as [[e0 e1] e2]. unfold within3, inbox. rewrite !andb_true_iff, !Z.leb_le, !Z.ltb_lt. tauto. Qed.

Definition flatpos (l : layout) (x : ext3) (i j k : Z) : Z :=
  let '(e0, e1, e2) := x in
  match l with LRight => ((i * e1 + j) * e2 + k)%Z | LLeft => (i + e0 * (j + e1 * k))%Z end.

Lemma flat_unflat l x i j k : inbox x i j k ->
  (0 <= flatpos l x i j k < entries x)%Z /\ unflat l x (flatpos l x i j k) = (i, j, k).
Proof.
  destruct x as [[e0 e1] e2]. intros (H0 & H1 & H2). unfold entries, flatpos, unflat. destruct l.
  - assert (B : (0 <= i * e1 + j < e0 * e1)%Z) by nia. split; [nia|].
    assert (Q1 : (((i * e1 + j) * e2 + k) / e2 = i * e1 + j)%Z) by (symmetry; apply Z.div_unique with k; lia).
    assert (Q2 : (((i * e1 + j) * e2 + k) mod e2 = k)%Z) by (symmetry; apply Z.mod_unique with (i * e1 + j)%Z; lia).
    rewrite Q1, Q2. f_equal. f_equal.
    + symmetry. apply Z.div_unique with (j * e2 + k)%Z; [left; nia|ring].
    + symmetry. apply Z.mod_unique with i; lia.
  - assert (B : (0 <= j + e1 * k < e1 * e2)%Z) by nia. split; [nia|].
    assert (Q1 : ((i + e0 * (j + e1 * k)) / e0 = j + e1 * k)%Z) by (symmetry; apply Z.div_unique with i; lia).
    assert (Q2 : ((i + e0 * (j + e1 * k)) mod e0 = i)%Z) by (symmetry; apply Z.mod_unique with (j + e1 * k)%Z; lia).
    rewrite Q1, Q2. f_equal; [f_equal|].
    + symmetry. apply Z.mod_unique with k; lia.
    + symmetry. apply Z.div_unique with (i + e0 * j)%Z; [left; nia|ring].
Qed.

Lemma unflat_flat l x p : (0 <= p < entries x)%Z -> (0 < entries x)%Z ->
  (let '(e0, e1, e2) := x in (0 < e0)%Z /\ (0 < e1)%Z /\ (0 < e2)%Z) ->
  let '(i, j, k) := unflat l x p in inbox x i j k /\ flatpos l x i j k = p.
Proof.
  destruct x as [[e0 e1] e2]. intros Hp _ (P0 & P1 & P2). unfold entries in Hp. unfold unflat, flatpos, inbox. destruct l.
  - pose proof (Z.mod_pos_bound p e2 P2). pose proof (Z.mod_pos_bound (p / e2) e1 P1).
    assert (D : (p / (e1 * e2) = p / e2 / e1)%Z) by (rewrite Z.mul_comm; symmetry; apply Z.div_div; lia).
    rewrite D. split.
    + split; [|auto]. split; [apply Z.div_pos; [apply Z.div_pos; lia|lia]|].
      rewrite <- D. apply Z.div_lt_upper_bound; nia.
    + pose proof (Z.div_mod p e2 ltac:(lia)). pose proof (Z.div_mod (p / e2) e1 ltac:(lia)). nia.
  - pose proof (Z.mod_pos_bound p e0 P0). pose proof (Z.mod_pos_bound (p / e0) e1 P1).
    assert (D : (p / (e0 * e1) = p / e0 / e1)%Z) by (symmetry; apply Z.div_div; lia).
    rewrite D. split.
    + split; [auto|]. split; [auto|]. split; [apply Z.div_pos; [apply Z.div_pos; lia|lia]|].
      rewrite <- D. apply Z.div_lt_upper_bound; nia.
    + pose proof (Z.div_mod p e0 ltac:(lia)). pose proof (Z.div_mod (p / e0) e1 ltac:(lia)). nia.
Qed.

Definition extents_ok (x : ext3) : Prop := let '(e0, e1, e2) := x in (0 <= e0 /\ 0 <= e1 /\ 0 <= e2)%Z.

Lemma entrywise_loop l x (f : Z -> Z -> Z -> R -> R) (A : arr3) : extents_ok x ->
  zloop (entries x) (fun p B => let '(i, j, k) := unflat l x p in upd3 B i j k (f i j k (B i j k))) A =
  (fun i j k => if within3 x i j k then f i j k (A i j k) else A i j k).
Proof.
  intros Hx. extensionality a. extensionality b. extensionality c.
  destruct (Z.eq_dec (entries x) 0) as [E0|E0].
  - rewrite E0, zloop_0 by lia. destruct (within3 x a b c) eqn:W; [|reflexivity].
    apply within3_spec in W. destruct (flat_unflat l x a b c W) as [B _]. lia.
  - assert (Pos : (0 < entries x)%Z /\ (let '(e0, e1, e2) := x in (0 < e0)%Z /\ (0 < e1)%Z /\ (0 < e2)%Z)).
    { destruct x as [[e0 e1] e2]. unfold entries in *. destruct Hx as (H0 & H1 & H2).
      assert (e0 <> 0%Z) by (intros ->; apply E0; ring). assert (e1 <> 0%Z) by (intros ->; apply E0; ring). assert (e2 <> 0%Z) by (intros ->; apply E0; ring). nia. }
    destruct Pos as [Pos Pos3].
    assert (X : forall i j k,
      zloop (entries x) (fun p B => let '(i, j, k) := unflat l x p in upd3 B i j k (f i j k (B i j k))) A i j k =
      if within3 x i j k && (flatpos l x i j k <? entries x)%Z then f i j k (A i j k) else A i j k).
    { apply (zloop_inv (fun q B => forall i j k, B i j k = if within3 x i j k && (flatpos l x i j k <? q)%Z then f i j k (A i j k) else A i j k)).
      - lia.
      - intros i j k. destruct (within3 x i j k) eqn:W; [|reflexivity].
        apply within3_spec in W. destruct (flat_unflat l x i j k W) as [B _].
        replace (_ <? _)%Z with false by (symmetry; apply Z.ltb_ge; lia). reflexivity.
      - intros p B Hp IH i j k.
        pose proof (unflat_flat l x p Hp Pos Pos3) as U.
        destruct (unflat l x p) as [[i0 j0] k0] eqn:EU. destruct U as [Bx F].
        destruct (Z.eq_dec i i0) as [Ei|Ei]; [destruct (Z.eq_dec j j0) as [Ej|Ej]; [destruct (Z.eq_dec k k0) as [Ek|Ek]|]|].
        + subst i j k. rewrite upd3_eq, IH. rewrite F.
          rewrite Z.ltb_irrefl, andb_false_r. rewrite (proj2 (within3_spec x i0 j0 k0) Bx).
          replace (_ <? _)%Z with true by (symmetry; apply Z.ltb_lt; lia). reflexivity.
        + rewrite upd3_neq, IH by tauto. destruct (within3 x i j k) eqn:W; [|reflexivity]. cbn [andb].
          apply within3_spec in W. destruct (flat_unflat l x i j k W) as [_ B2].
          assert (flatpos l x i j k <> p) by (intros E2; rewrite E2, EU in B2; congruence).
          destruct (Z.ltb_spec (flatpos l x i j k) p), (Z.ltb_spec (flatpos l x i j k) (p + 1)); lia || reflexivity.
        + rewrite upd3_neq, IH by tauto. destruct (within3 x i j k) eqn:W; [|reflexivity]. cbn [andb].
          apply within3_spec in W. destruct (flat_unflat l x i j k W) as [_ B2].
          assert (flatpos l x i j k <> p) by (intros E2; rewrite E2, EU in B2; congruence).
          destruct (Z.ltb_spec (flatpos l x i j k) p), (Z.ltb_spec (flatpos l x i j k) (p + 1)); lia || reflexivity.
        + rewrite upd3_neq, IH by tauto. destruct (within3 x i j k) eqn:W; [|reflexivity]. cbn [andb].
          apply within3_spec in W. destruct (flat_unflat l x i j k W) as [_ B2].
          assert (flatpos l x i j k <> p) by (intros E2; rewrite E2, EU in B2; congruence).
          destruct (Z.ltb_spec (flatpos l x i j k) p), (Z.ltb_spec (flatpos l x i j k) (p + 1)); lia || reflexivity. }
    rewrite X. clear X. destruct (within3 x a b c) eqn:W; [|reflexivity].
    apply within3_spec in W. destruct (flat_unflat l x a b c W) as [B _].
    replace (_ <? _)%Z with true by (symmetry; apply Z.ltb_lt; lia). reflexivity.
Qed.

Lemma axpy_data_eq l x c (A B : arr3) : extents_ok x ->
  axpy_data l x (entries x) c A B = (fun i j k => if within3 x i j k then c * A i j k + B i j k else B i j k).
Proof. intros H. exact (entrywise_loop l x (fun i j k b => c * A i j k + b) B H). Qed.

Lemma update_data_eq l x c (A B C : arr3) : extents_ok x ->
  update_data l x (entries x) c A B C = (fun i j k => if within3 x i j k then c * A i j k + B i j k else C i j k).
Proof.
  intros H. unfold update_data. etransitivity.
  - exact (entrywise_loop l x (fun i j k b => c * A i j k + 1 * B i j k + 0 * b) C H).
  - extensionality i. extensionality j. extensionality k. destruct within3; ring.
Qed.

Lemma copy_data_eq l x (src dst : arr3) : extents_ok x ->
  copy_data l x src dst = (fun i j k => if within3 x i j k then src i j k else dst i j k).
Proof. intros H. exact (entrywise_loop l x (fun i j k _ => src i j k) dst H). Qed.

Lemma mult_inv_mass_box order e0 e1 e2 dt iMM rs dU i j k : Permutation order (zseq e0) ->
  within3 (e0, e1, e2) i j k = true ->
  mult_inv_mass_matrix order e1 e2 dt iMM rs dU i j k = dt * rsum e1 (fun b => iMM i j b * rs i b k).
Proof.
  intros P W. rewrite (mult_inv_mass_entry order e0) by assumption.
  apply within3_spec in W. destruct W as (W0 & W1 & W2).
  rewrite (proj2 (inb_true e0 i)), (proj2 (inb_true e1 j)), (proj2 (inb_true e2 k)) by assumption. reflexivity.
Qed.
