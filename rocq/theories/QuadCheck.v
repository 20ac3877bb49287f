(** QuadCheck.v -- the computation behind C36: all tables but one pass the
    checks of QuadProof.rule_ok. *)
From Coq Require Import ZArith List Lia Bool.
From Verif Require Import Base RBase QuadTables QuadModel QuadProof.
Import ListNotations.
Local Open Scope Z_scope.

(** Orders 2o and 2o+1 share a table; 36 and 37 (o = 18) are the exception of C36. *)
Definition good_halves : list Z := filter (fun o => negb (o =? 18)%Z)%bool (zseq 25).

Lemma rules_ok : forallb (fun o => rule_ok (2 * o)) good_halves = true.
Proof. vm_cast_no_check (eq_refl true). Qed.

Lemma tables_shared o : (0 <= o < 25)%Z ->
  gl_node_assignments (2 * o + 1) = gl_node_assignments (2 * o) /\
  gl_weight_assignments (2 * o + 1) = gl_weight_assignments (2 * o).
Proof.
  intros H. apply In_zseq in H. cbv in H.
  repeat (destruct H as [<-|H]; [split; reflexivity|]). contradiction.
Qed.

Lemma rule_ok_order o : (0 <= o < 50)%Z -> o <> 36%Z -> o <> 37%Z -> rule_ok o = true.
Proof.
  intros H H1 H2. pose proof rules_ok as HA. rewrite forallb_forall in HA.
  specialize (HA (o / 2)%Z).
  assert (Hm : (o = 2 * (o / 2) + o mod 2)%Z) by (apply Z.div_mod; lia).
  pose proof (Z.mod_pos_bound o 2 ltac:(lia)) as Hb.
  assert (HI : In (o / 2)%Z good_halves).
  { unfold good_halves. apply filter_In. split; [apply In_zseq; lia|].
    apply negb_true_iff, Z.eqb_neq. lia. }
  specialize (HA HI). assert (o mod 2 = 0 \/ o mod 2 = 1)%Z as [E|E] by lia; rewrite E in Hm.
  - rewrite Hm, Z.add_0_r. exact HA.
  - unfold rule_ok in *. rewrite Hm. destruct (tables_shared (o / 2)%Z ltac:(lia)) as [-> ->].
    replace ((2 * (o / 2) + 1) / 2)%Z with (2 * (o / 2) / 2)%Z; [exact HA|].
    rewrite Z.mul_comm, Z.div_mul by lia. rewrite Z.div_add_l by lia. cbn. lia.
Qed.

