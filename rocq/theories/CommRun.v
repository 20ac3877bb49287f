(** CommRun.v -- whole executions of the exchange: safety, absence of deadlock,
    bounded length, final states. *)
From Coq Require Import ZArith List Lia Bool Permutation Sorted.
From Verif Require Import Base MeshModel MeshSpec MeshProof MeshReadProof MeshProof2
  CommModel CommSpec CommProof CommInv.
Import ListNotations.
Local Open Scope Z_scope.
Open Scope res_scope.

Section Run.
Context {A V : Type} (iter : Z -> list Z -> list Z) (zero : A) (m : gmesh A) (ep : list Z) (c : cfg A V).
Hypothesis CW : comm_wf iter zero m ep c.
Hypothesis Hdev : c_device c = false.
Context (s0 : Z -> fstate V).
Hypothesis Hs0 : sized (c_n c) (c_pm c) s0.

Notation n := (c_n c).
Notation pm := (c_pm c).
Notation nbr := (nb c).
Notation nnr := (nn c).
Notation btw := (between m ep).
Notation H k := (hist m ep c s0 k).
Notation pkd S r s := (packed m ep c S r s).
Notation Inv := (Inv m ep c s0).

Lemma set_nth_split {T} (l : list T) j x y :
  nth_error l j = Some x -> exists l1 l2, l = l1 ++ x :: l2 /\ set_nth l j y = l1 ++ y :: l2.
Proof.
  revert j; induction l as [|a l IH]; intros [|j]; cbn; try discriminate.
  - intros [= ->]. exists [], l. easy.
  - intros E. destruct (IH j E) as (l1 & l2 & -> & ->). exists (a :: l1), l2. easy.
Qed.

Lemma copy_step_shape j g g' : Inv g -> copy_step j g = Some g' ->
  exists l1 x l2 d, g_net g = l1 ++ x :: l2 /\ m_data x = None /\
    msg_content g x = Ok d /\
    g' = set_net g (l1 ++ mkMsg (m_src x) (m_dst x) (m_tag x) (m_ref x) (Some d) :: l2).
Proof.
  intros HI. unfold copy_step. destruct (nth_error (g_net g) j) as [x|] eqn:E; [|discriminate].
  destruct (m_data x) eqn:Ed; [discriminate|]. intros Hst. apply Some_inj in Hst. subst g'.
  assert (Hx : In x (g_net g)) by (eapply nth_error_In; eauto).
  pose proof (msg_content_ok m ep c s0 g x HI Hx) as Hc.
  unfold msg_content in Hc. rewrite Ed in Hc. rewrite Hc. cbn [bind or_crash].
  destruct (set_nth_split (g_net g) j x
    (mkMsg (m_src x) (m_dst x) (m_tag x) (m_ref x)
      (Some (pkd (H (k_rnd (g_rk g (m_src x))) (m_src x)) (m_src x) (m_dst x)))) E) as (l1 & l2 & En & Es).
  exists l1, x, l2. eexists. split; [exact En|]. split; [exact Ed|].
  split; [unfold msg_content; rewrite Ed; exact Hc|]. now rewrite Es.
Qed.

Lemma copy_step_Inv j g g' : Inv g -> copy_step j g = Some g' -> Inv g'.
Proof.
  intros HI Hst. destruct (copy_step_shape j g g' HI Hst) as (l1 & x & l2 & d & En & Ed & Hc & ->).
  assert (Hx : In x (g_net g)) by (rewrite En; apply in_or_app; right; now left).
  rewrite (msg_content_ok m ep c s0 g x HI Hx) in Hc. injection Hc as Hc.
  set (y := mkMsg (m_src x) (m_dst x) (m_tag x) (m_ref x) (Some d)).
  assert (Ek : map (key (V:=V)) (l1 ++ y :: l2) = map key (g_net g)).
  { rewrite En, !map_app. reflexivity. }
  destruct HI as [I1 I2 I3 I4 I5 I6].
  constructor; cbn; auto.
  - intros z Hz. apply in_app_or in Hz.
    assert (Hz' : z = y \/ In z (g_net g)).
    { rewrite En. destruct Hz as [Hz|[Hz|Hz]]; [right; apply in_or_app; now left | now left |
        right; apply in_or_app; right; now right]. }
    destruct Hz' as [->|Hz'].
    + destruct (I3 x Hx) as [M1 M2 M3 M4 M5 M6 M7]. constructor; cbn; auto.
      intros d' [= <-]. now symmetry.
    + destruct (I3 z Hz') as [M1 M2 M3 M4 M5 M6 M7]. constructor; auto.
  - rewrite Ek; exact I4.
  - intros s d' i j'. rewrite Ek. apply I5.
Qed.

Lemma step_Inv g g' : Inv g -> step c g g' -> Inv g'.
Proof.
  intros HI [r g'' Hr E|j g'' E].
  - eapply rank_step_Inv; eauto.
  - eapply copy_step_Inv; eauto.
Qed.

Lemma steps_Inv k g : steps c k (init c s0) g -> Inv g.
Proof.
  remember (init c s0) as g0. induction 1 as [|k g0 g' g'' HH IH S].
  - subst. eapply init_Inv; eauto.
  - eapply step_Inv; eauto.
Qed.

Lemma Inv_no_crash g : Inv g -> ~ crashed c g.
Proof.
  intros HI (r & e & Hr & E). pose proof (ri_idx _ _ _ _ _ _ (inv_rk _ _ _ _ _ HI r Hr)) as X.
  rewrite E in X. exact X.
Qed.

Lemma Inv_finished_net g : Inv g -> finished c g -> g_net g = [].
Proof.
  intros HI HF. destruct (g_net g) as [|x l] eqn:E; [easy|].
  assert (Hx : In x (g_net g)) by (rewrite E; now left).
  destruct (inv_msg _ _ _ _ _ HI x Hx) as [M1 _ _ _ M5 _ _]. rewrite (HF _ M1) in M5. easy.
Qed.

Lemma Inv_finished_state g r : Inv g -> finished c g -> 0 <= r < n ->
  k_st (g_rk g r) = H (c_rounds c) r /\ k_rnd (g_rk g r) = c_rounds c.
Proof.
  intros HI HF Hr. destruct (inv_rk _ _ _ _ _ HI r Hr) as [R1 R2 R3 R4 R5 R6].
  pose proof (proj1 R3 (HF r Hr)) as E. unfold st_ok in R5. rewrite (HF r Hr) in R5. now rewrite <- E.
Qed.

(** * Progress *)

Lemma min_ent_nat (f : Z -> nat) k : (0 < k)%nat ->
  exists r, 0 <= r < Z.of_nat k /\ forall s, 0 <= s < Z.of_nat k -> (f r <= f s)%nat.
Proof.
  induction k as [|k IH]; [lia|]. intros _. destruct k as [|k].
  - exists 0. split; [lia|]. intros s Hs. assert (s = 0) by lia. now subst.
  - destruct IH as (r & Hr & Hm); [lia|].
    destruct (le_lt_dec (f r) (f (Z.of_nat (S k)))) as [Hle|Hlt].
    + exists r. split; [lia|]. intros s Hs. destruct (Z.eq_dec s (Z.of_nat (S k))) as [->|]; [easy|]. apply Hm. lia.
    + exists (Z.of_nat (S k)). split; [lia|]. intros s Hs.
      destruct (Z.eq_dec s (Z.of_nat (S k))) as [->|]; [easy|].
      pose proof (Hm s ltac:(lia)). lia.
Qed.

Lemma steps_unless g r : Inv g -> 0 <= r < n ->
  (forall i, k_ph (g_rk g r) <> PRecv i) -> k_ph (g_rk g r) <> PWait -> k_ph (g_rk g r) <> PDone ->
  exists g', step c g g'.
Proof.
  intros HI Hr N1 N2 N3. pose proof (ri_idx _ _ _ _ _ _ (inv_rk _ _ _ _ _ HI r Hr)) as X.
  assert (E : exists g', rank_step c r g = Some g').
  { unfold rank_step. destruct (k_ph (g_rk g r)) as [i|i|i|i| | |i| |e] eqn:Eph; try congruence; cbn in X; try easy; eauto.
    - destruct (i <? _); eexists; reflexivity.
    - destruct (i <? _); eexists; reflexivity.
    - destruct (i <? _); eexists; reflexivity. }
  destruct E as (g' & E). exists g'. eapply step_rank; eauto.
Qed.

Lemma steps_wait g r : Inv g -> 0 <= r < n -> k_ph (g_rk g r) = PWait ->
  (forall s, 0 <= s < n -> (k_ent (g_rk g r) <= k_ent (g_rk g s))%nat) ->
  exists g', step c g g'.
Proof.
  intros HI Hr E Hm. eexists. apply (step_rank c g r); [easy|]. unfold rank_step. rewrite E.
  assert (X : forallb (fun s => Nat.leb (k_ent (g_rk g r)) (k_ent (g_rk g s))) (zseq n) = true).
  { apply forallb_forall. intros s Hs. apply Nat.leb_le, Hm. now apply In_zseq in Hs. }
  rewrite X. reflexivity.
Qed.

Lemma progress g : Inv g -> finished c g \/ exists g', step c g g'.
Proof.
  intros HI.
  destruct (Z.le_gt_cases n 0) as [Hn|Hn]; [left; intros r Hr; lia|].
  destruct (min_ent_nat (fun r => k_ent (g_rk g r)) (Z.to_nat n)) as (r & Hr & Hm); [lia|].
  rewrite Z2Nat.id in Hr, Hm by lia.
  pose proof (inv_rk _ _ _ _ _ HI r Hr) as [R1 R2 R3 R4 R5 R6].
  destruct (k_ph (g_rk g r)) as [i|i|i|i| | |i| |e] eqn:Eph;
    try (right; apply (steps_unless g r); auto; rewrite Eph; try discriminate; intros; discriminate);
    try contradiction.
  - (* PRecv *)
    right. cbn in R1.
    destruct (pmf iter zero m ep c CW r Hr) as (Enn & _).
    destruct (Z.ltb_spec i (nnr r)) as [Hi|Hi].
    2:{ eexists. apply (step_rank c g r); [easy|]. unfold rank_step. rewrite Eph, Enn.
        rewrite (proj2 (Z.ltb_ge _ _) Hi). reflexivity. }
    destruct (rd_total (nbr r) i ltac:(unfold nn in *; lia)) as (s & Rs).
    destruct (nb_facts iter zero m ep c CW r Hr) as (_ & _ & HNb).
    destruct (HNb s (rd_In _ _ _ Rs)) as (Hs & Hrs & Hsr).
    destruct (In_rd _ _ Hrs) as (i0 & Ri0).
    pose proof (rd_in_range _ _ _ Ri0) as Bi0. change (zlen (nbr s)) with (nnr s) in Bi0.
    pose proof (inv_rk _ _ _ _ _ HI s Hs) as [S1 S2 S3 S4 S5 S6].
    assert (Hdone : k_rnd (g_rk g r) <> c_rounds c) by (intros E; apply R3 in E; discriminate).
    assert (Hsent : has_sent c (g_rk g s) s (k_rnd (g_rk g r)) i0 -> exists g', step c g g').
    { intros HS.
      assert (Hin : In (s, r) (map key (g_net g))).
      { apply (inv_compl _ _ _ _ _ HI s r i0 i Hs Hr Ri0 Rs).
        - unfold next_rnd. rewrite Eph. cbn. rewrite Z.ltb_irrefl. exact HS.
        - rewrite Eph; discriminate. }
      apply in_map_iff in Hin. destruct Hin as (x & Ex & Hx). injection Ex as Ex1 Ex2.
      pose proof (mi_tag _ _ _ _ _ _ (inv_msg _ _ _ _ _ HI x Hx)) as Ex3.
      destruct (take_msg_In s r s (g_net g)) as ([y net'] & Ey).
      { exists x. rewrite Ex3. auto. }
      eexists. apply (step_rank c g r); [easy|]. unfold rank_step. rewrite Eph, Enn.
      rewrite (proj2 (Z.ltb_lt _ _) Hi).  change (pm_neighbor_ranks (pm r)) with (nbr r); rewrite Rs, Ey. reflexivity. }
    pose proof (Hm s Hs) as Hms. cbn in Hms. rewrite R4, S4 in Hms. cbn in Hms.
    pose proof (inv_sync _ _ _ _ _ HI r s Hr Hs) as Hsy. unfold passed in Hsy. rewrite Eph, S4 in Hsy. cbn in Hsy.
    pose proof (inv_sync _ _ _ _ _ HI s r Hs Hr) as Hsy2. unfold passed in Hsy2. rewrite R4 in Hsy2. cbn in Hsy2.
    destruct (Nat.eq_dec (k_rnd (g_rk g s)) (k_rnd (g_rk g r))) as [Eq|Nq].
    + destruct (k_ph (g_rk g s)) as [j|j|j|j| | |j| |e] eqn:Es; cbn in *; try contradiction;
        try (apply (steps_unless g s); auto; rewrite Es; try discriminate; intros; discriminate);
        try (apply Hsent; right; rewrite Es; split; [easy|cbn; lia]).
      exfalso. apply Hdone. rewrite <- Eq. now apply S3.
    + destruct (k_ph (g_rk g s)) as [j|j|j|j| | |j| |e] eqn:Es; cbn in *; try contradiction; try lia.
      * apply (steps_wait g s); auto. intros a Ha. rewrite S4. pose proof (Hm a Ha) as Q. cbn in Q. rewrite R4 in Q; cbn in Q. lia.
      * apply (steps_unless g s); auto; rewrite Es; try discriminate; intros; discriminate.
  - (* PWait *)
    right. apply (steps_wait g r); auto.
  - (* PDone *)
    assert (Hdec : (forall s, 0 <= s < n -> k_ph (g_rk g s) = PDone) \/
                   exists s, 0 <= s < n /\ k_ph (g_rk g s) <> PDone).
    { assert (D : forall k, (forall s, 0 <= s < Z.of_nat k -> k_ph (g_rk g s) = PDone) \/
                   exists s, 0 <= s < Z.of_nat k /\ k_ph (g_rk g s) <> PDone).
      { induction k as [|k IH]; [left; lia|]. destruct IH as [IH|(s & Hs & Hd)]; [|right; exists s; split; [lia|easy]].
        destruct (k_ph (g_rk g (Z.of_nat k))) eqn:E;
          try (right; exists (Z.of_nat k); split; [lia|congruence]).
        left. intros s Hs. destruct (Z.eq_dec s (Z.of_nat k)) as [->|]; [easy|]. apply IH; lia. }
      specialize (D (Z.to_nat n)). rewrite Z2Nat.id in D by lia. exact D. }
    destruct Hdec as [HD|(s & Hs & HD)]; [left; exact HD|right].
    pose proof (inv_rk _ _ _ _ _ HI s Hs) as [S1 S2 S3 S4 S5 S6].
    pose proof (Hm s Hs) as Q; cbn in Q. rewrite R4, S4 in Q. cbn in Q.
    assert (ER : k_rnd (g_rk g r) = c_rounds c) by now apply R3. rewrite ER in Q.
    assert (k_rnd (g_rk g s) <> c_rounds c) by (intros E; apply S3 in E; congruence).
    destruct (k_ph (g_rk g s)) as [j|j|j|j| | |j| |e] eqn:Es; cbn in *; try contradiction; try lia.
    * apply (steps_wait g s); auto. intros a Ha. rewrite S4. pose proof (Hm a Ha) as Q'. cbn in Q'. rewrite R4, ER in Q'; cbn in Q'. lia.
    * apply (steps_unless g s); auto; rewrite Es; try discriminate; intros; discriminate.
Qed.

(** * Termination *)

Definition len (r : Z) : Z := 4 * (nnr r + 1) + 2.
Definition pos r (ph : phase) : Z :=
  match ph with
  | PPack i => i
  | PSend i => nnr r + 1 + i
  | PSendEnd i => 0
  | PRecv i => 2 * (nnr r + 1) + i
  | PEnter => 3 * (nnr r + 1)
  | PWait => 3 * (nnr r + 1) + 1
  | PUnpack i => 3 * (nnr r + 1) + 2 + i
  | PDone => 0
  | PCrash _ => 0
  end.
Definition rem r (k : rk V) : Z := (Z.of_nat (c_rounds c) - Z.of_nat (k_rnd k)) * len r - pos r (k_ph k).
Definition uncopied (l : list (msg V)) : Z :=
  zlen (filter (fun x => match m_data x with None => true | Some _ => false end) l).
Definition phi (g : gstate V) : Z :=
  2 * sumZ (map (fun r => rem r (g_rk g r)) (zseq n)) + uncopied (g_net g).

Lemma sumZ_cons a l : sumZ (a :: l) = a + sumZ l.
Proof. reflexivity. Qed.

Lemma sumZ_upd (f : Z -> Z) (g : Z -> Z) l r : NoDup l -> In r l -> (forall x, x <> r -> g x = f x) ->
  sumZ (map g l) = sumZ (map f l) + (g r - f r).
Proof.
  intros ND Hr Hx. induction l as [|a l IH]; [easy|]. inversion ND as [|? ? Ha ND']; subst. cbn [map]. rewrite !sumZ_cons.
  destruct (Z.eq_dec a r) as [->|Hne].
  - assert (E : map g l = map f l).
    { apply map_ext_in. intros x Hin. apply Hx. intros ->. contradiction. }
    rewrite E. lia.
  - destruct Hr as [->|Hr]; [congruence|]. rewrite (IH ND' Hr). rewrite (Hx a Hne). lia.
Qed.

Lemma rem_upd g r k' net : 0 <= r < n ->
  phi (mkG (fun r' => if r' =? r then k' else g_rk g r') net) =
  phi g + 2 * (rem r k' - rem r (g_rk g r)) + uncopied net - uncopied (g_net g).
Proof.
  intros Hr. unfold phi. cbn [g_rk g_net].
  rewrite (sumZ_upd (fun x => rem x (g_rk g x)) _ (zseq n) r).
  - rewrite Z.eqb_refl. lia.
  - apply NoDup_zseq.
  - now apply In_zseq.
  - intros x Hx. apply Z.eqb_neq in Hx. now rewrite Hx.
Qed.

Lemma uncopied_app l1 l2 : uncopied (l1 ++ l2) = uncopied l1 + uncopied l2.
Proof. unfold uncopied. now rewrite filter_app, zlen_app. Qed.

Lemma uncopied_nonneg l : 0 <= uncopied l.
Proof. apply zlen_nonneg. Qed.

Lemma rem_nonneg g r : Inv g -> 0 <= r < n -> 0 <= rem r (g_rk g r).
Proof.
  intros HI Hr. destruct (inv_rk _ _ _ _ _ HI r Hr) as [R1 R2 R3 R4 R5 R6].
  pose proof (nn_nonneg c r) as Hnn. unfold rem.
  set (t := Z.of_nat (c_rounds c) - Z.of_nat (k_rnd (g_rk g r))).
  assert (Ht : k_ph (g_rk g r) <> PDone -> len r <= t * len r).
  { intros HD. assert (k_rnd (g_rk g r) <> c_rounds c) by (intros E; apply R3 in E; congruence).
    assert (1 <= t) by lia. unfold len. nia. }
  assert (Ht0 : 0 <= t * len r) by (unfold len; nia).
  destruct (k_ph (g_rk g r)) as [j|j|j|j| | |j| |e] eqn:Es; cbn in R1; cbn [pos]; try contradiction; try lia;
    (assert (Ht' : len r <= t * len r) by (apply Ht; discriminate); unfold len in *; lia).
Qed.

Lemma sumZ_nonneg l : (forall x, In x l -> 0 <= x) -> 0 <= sumZ l.
Proof.
  induction l as [|a l IH]; [cbn; lia|]. rewrite sumZ_cons. intros HH. pose proof (HH a (or_introl eq_refl)).
  assert (0 <= sumZ l) by (apply IH; intros; apply HH; now right). lia.
Qed.

Lemma phi_nonneg g : Inv g -> 0 <= phi g.
Proof.
  intros HI. unfold phi. pose proof (uncopied_nonneg (g_net g)).
  assert (0 <= sumZ (map (fun r => rem r (g_rk g r)) (zseq n))); [|lia].
  apply sumZ_nonneg. intros x Hx. apply in_map_iff in Hx. destruct Hx as (r & <- & Hr).
  apply rem_nonneg; auto. now apply In_zseq.
Qed.

Lemma or_crash_case g r (x : res (gstate V)) g' : or_crash g r x = g' ->
  (~ crashed c g') -> 0 <= r < n -> x = Ok g'.
Proof.
  intros E Hc Hr. destruct x as [y|e]; cbn in E; [congruence|]. subst g'. exfalso. apply Hc.
  exists r, e. split; [easy|]. cbn. now rewrite Z.eqb_refl.
Qed.

Ltac bnd := match goal with
  | E : bind ?a _ = Ok _ |- _ => destruct a eqn:?; cbn [bind] in E; [|discriminate]
  end.

Lemma phi_rank r g g' : Inv g -> 0 <= r < n -> rank_step c r g = Some g' -> phi g' < phi g.
Proof.
  intros HI Hr Hst.
  pose proof (rank_step_Inv iter zero m ep c CW Hdev s0 Hs0 r g g' HI Hr Hst) as HI'.
  pose proof (Inv_no_crash g' HI') as HC.
  destruct (inv_rk _ _ _ _ _ HI r Hr) as [R1 R2 R3 R4 R5 R6].
  destruct (pmf iter zero m ep c CW r Hr) as (Enn & _).
  pose proof (nn_nonneg c r) as Hnn.
  unfold rank_step in Hst. rewrite Enn in Hst.
  destruct (k_ph (g_rk g r)) as [i|i|i|i| | |i| |e] eqn:Eph; cbn in R1; try discriminate; try contradiction.
  - destruct (Z.ltb_spec i (nnr r)) as [Hi|Hi]; apply Some_inj in Hst.
    + apply or_crash_case in Hst; auto. repeat bnd. injection Hst as <-. unfold set_rk.
      rewrite rem_upd by easy. unfold set_send in *. repeat bnd.
      match goal with E : Ok _ = Ok _ |- _ => injection E as <- end. unfold rem. rewrite Eph. cbn [pos k_rnd k_ph with_ph]. lia.
    + subst g'. unfold set_rk. rewrite rem_upd by easy. unfold rem. rewrite Eph. cbn [pos k_rnd k_ph with_ph]. lia.
  - destruct (Z.ltb_spec i (nnr r)) as [Hi|Hi]; apply Some_inj in Hst.
    + apply or_crash_case in Hst; auto. do 2 bnd. rewrite Hdev in Hst. injection Hst as <-.
      rewrite rem_upd by easy. rewrite uncopied_app. unfold rem. rewrite Eph. cbn [pos k_rnd k_ph with_ph].
      change (uncopied [_]) with 1. lia.
    + subst g'. unfold set_rk. rewrite rem_upd by easy. unfold rem. rewrite Eph. cbn [pos k_rnd k_ph with_ph]. lia.
  - destruct (Z.ltb_spec i (nnr r)) as [Hi|Hi].
    + destruct (rd (pm_neighbor_ranks (pm r)) i) as [src|e] eqn:Es.
      2:{ apply Some_inj in Hst. subst g'. exfalso. apply HC. exists r, e. split; [easy|]. cbn. now rewrite Z.eqb_refl. }
      destruct (take_msg src r src (g_net g)) as [[x net']|] eqn:Et; [|discriminate]. apply Some_inj in Hst.
      apply or_crash_case in Hst; auto. repeat bnd. injection Hst as <-. unfold set_rk, set_net; cbn.
      rewrite rem_upd by easy. unfold set_recv in *. repeat bnd.
      match goal with E : Ok _ = Ok _ |- _ => injection E as <- end.
      destruct (take_msg_Some _ _ _ _ _ _ Et) as (l1 & l2 & En & -> & _).
      rewrite En. change (l1 ++ x :: l2) with (l1 ++ [x] ++ l2). rewrite !uncopied_app.
      pose proof (uncopied_nonneg [x]). unfold rem. rewrite Eph. cbn [pos k_rnd k_ph with_ph]. lia.
    + apply Some_inj in Hst. subst g'. unfold set_rk. rewrite rem_upd by easy. unfold rem. rewrite Eph. cbn [pos k_rnd k_ph with_ph]. lia.
  - apply Some_inj in Hst. subst g'. unfold set_rk. rewrite rem_upd by easy. unfold rem. rewrite Eph. cbn [pos k_rnd k_ph with_ph]. lia.
  - destruct (forallb _ _); [|discriminate].
    apply Some_inj in Hst. subst g'. unfold set_rk. rewrite rem_upd by easy. unfold rem. rewrite Eph. cbn [pos k_rnd k_ph with_ph]. lia.
  - destruct (Z.ltb_spec i (nnr r)) as [Hi|Hi]; apply Some_inj in Hst.
    + apply or_crash_case in Hst; auto. repeat bnd. injection Hst as <-. unfold set_rk.
      rewrite rem_upd by easy. unfold rem. rewrite Eph. cbn [pos k_rnd k_ph with_ph]. lia.
    + subst g'. unfold set_rk. rewrite rem_upd by easy. unfold rem. rewrite Eph.
      assert (i = nnr r) by lia. subst i. unfold start. destruct (Nat.eqb_spec (S (k_rnd (g_rk g r))) (c_rounds c)) as [E|E];
        cbn [pos k_rnd k_ph with_ph]; rewrite ?Nat2Z.inj_succ, ?Z.sub_succ_r, <- ?Z.sub_1_r, ?Z.mul_sub_distr_r, ?Z.mul_1_l;
        unfold len; lia.
Qed.

Lemma phi_step g g' : Inv g -> step c g g' -> phi g' < phi g.
Proof.
  intros HI [r g'' Hr E|j g'' E].
  - eapply phi_rank; eauto.
  - destruct (copy_step_shape j g _ HI E) as (l1 & x & l2 & d & En & Ed & Hc & ->).
    unfold phi, set_net; cbn. rewrite En.
    change (l1 ++ x :: l2) with (l1 ++ [x] ++ l2).
    change (l1 ++ ?y :: l2) with (l1 ++ [y] ++ l2). rewrite !uncopied_app.
    change (uncopied [mkMsg _ _ _ _ _]) with 0.
    assert (Eu : uncopied [x] = 1) by (unfold uncopied; cbn; rewrite Ed; reflexivity). lia.
Qed.

Lemma phi_init : phi (init c s0) =
  2 * Z.of_nat (c_rounds c) * sumZ (map (fun r => 4 * (pm_num_neighbor_ranks (pm r) + 1) + 2) (zseq n)).
Proof.
  unfold phi. cbn [g_net init g_rk]. change (uncopied []) with 0.
  assert (E : map (fun r => rem r (start c r 0 (s0 r) 0)) (zseq n) =
    map (fun r => Z.of_nat (c_rounds c) * (4 * (pm_num_neighbor_ranks (pm r) + 1) + 2)) (zseq n)).
  { apply map_ext_in. intros r Hr. apply In_zseq in Hr.
    destruct (pmf iter zero m ep c CW r Hr) as (Enn & _). rewrite Enn.
    unfold rem, start, len. destruct (Nat.eqb 0 (c_rounds c)); cbn; lia. }
  rewrite E. clear E. generalize (zseq n) as l. intros l.
  assert (X : sumZ (map (fun r => Z.of_nat (c_rounds c) * (4 * (pm_num_neighbor_ranks (pm r) + 1) + 2)) l) =
     Z.of_nat (c_rounds c) * sumZ (map (fun r => 4 * (pm_num_neighbor_ranks (pm r) + 1) + 2) l)).
  { induction l as [|a l IH]; cbn [map]; [cbn; lia|]. rewrite !sumZ_cons, IH. lia. }
  lia.
Qed.

Lemma steps_bound k g : steps c k (init c s0) g -> Z.of_nat k + phi g <= phi (init c s0).
Proof.
  remember (init c s0) as g0. induction 1 as [|k g0 g' g'' HH IH S]; [cbn; lia|].
  subst g0. specialize (IH eq_refl). pose proof (phi_step g' g'' (steps_Inv k g' HH) S). lia.
Qed.

End Run.
