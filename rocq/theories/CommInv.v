(** CommInv.v -- the inductive invariant of the exchange and its consequences. *)
From Coq Require Import ZArith List Lia Bool Permutation Sorted.
From Verif Require Import Base MeshModel MeshSpec MeshProof MeshReadProof MeshProof2
  CommModel CommSpec CommProof.
Import ListNotations.
Local Open Scope Z_scope.
Open Scope res_scope.

Section Inv.
Context {A V : Type} (iter : Z -> list Z -> list Z) (zero : A) (m : gmesh A) (ep : list Z) (c : cfg A V).
Hypothesis CW : comm_wf iter zero m ep c.
Hypothesis Hdev : c_device c = false.
Context (s0 : Z -> fstate V).
Hypothesis Hs0 : sized (c_n c) (c_pm c) s0.

Notation n := (c_n c).
Notation pm := (c_pm c).
Notation nbr := (nb c).
Notation nnr := (nn c).
Notation btw := (between m ep).
Notation H k := (hist m ep c s0 k).
Notation pkd S r s := (packed m ep c S r s).

Definition pk_upto r (ph : phase) := match ph with PPack i => i | _ => nnr r end.
Definition sd_upto r (ph : phase) := match ph with PPack _ | PDone => 0 | PSend i => i | _ => nnr r end.
Definition rc_upto r (ph : phase) :=
  match ph with PPack _ | PSend _ => 0 | PRecv i => i | _ => nnr r end.
Definition entered (ph : phase) : nat := match ph with PWait | PUnpack _ => 1 | _ => 0 end.
Definition past (ph : phase) : nat := match ph with PUnpack _ => 1 | _ => 0 end.
Definition sending (ph : phase) : Prop :=
  match ph with PSend _ | PRecv _ | PEnter | PWait => True | _ => False end.
Definition idx_ok r (ph : phase) : Prop :=
  match ph with
  | PPack i | PSend i | PRecv i | PUnpack i => 0 <= i <= nnr r
  | PEnter | PWait | PDone => True
  | PSendEnd _ | PCrash _ => False
  end.

Definition st_ok r (k : rk V) : Prop :=
  match k_ph k with
  | PUnpack i => k_st k = upd_state m ep c (H (k_rnd k)) r (firstn (Z.to_nat i) (nbr r))
  | _ => k_st k = H (k_rnd k) r
  end.

Definition bufs_ok r (k : rk V) : Prop :=
  zlen (k_send k) = nnr r /\ zlen (k_recv k) = nnr r /\
  forall i s, rd (nbr r) i = Ok s ->
    (exists b, rd (k_send k) i = Ok (Some b) /\ zlen b = zlen (btw r s) /\
       (i < pk_upto r (k_ph k) -> b = pkd (H (k_rnd k) r) r s)) /\
    (exists b, rd (k_recv k) i = Ok b /\ zlen b = zlen (btw r s) /\
       (i < rc_upto r (k_ph k) -> b = pkd (H (k_rnd k) s) s r)).

Record RI (r : Z) (k : rk V) : Prop := {
  ri_idx : idx_ok r (k_ph k);
  ri_le : (k_rnd k <= c_rounds c)%nat;
  ri_done : k_ph k = PDone <-> k_rnd k = c_rounds c;
  ri_ent : k_ent k = (k_rnd k + entered (k_ph k))%nat;
  ri_st : st_ok r k;
  ri_bufs : k_ph k <> PDone -> bufs_ok r k
}.

Definition passed (k : rk V) : nat := (k_rnd k + past (k_ph k))%nat.

Record MI (g : gstate V) (x : msg V) : Prop := {
  mi_src : 0 <= m_src x < n;
  mi_dst : 0 <= m_dst x < n;
  mi_tag : m_tag x = m_src x;
  mi_ref : exists i, rd (nbr (m_src x)) i = Ok (m_dst x) /\ m_ref x = RBuf i /\
     i < sd_upto (m_src x) (k_ph (g_rk g (m_src x)));
  mi_send : sending (k_ph (g_rk g (m_src x)));
  mi_data : forall d, m_data x = Some d ->
     d = pkd (H (k_rnd (g_rk g (m_src x))) (m_src x)) (m_src x) (m_dst x);
  mi_round : (k_rnd (g_rk g (m_dst x)) = k_rnd (g_rk g (m_src x)) /\
              forall j, rd (nbr (m_dst x)) j = Ok (m_src x) ->
                rc_upto (m_dst x) (k_ph (g_rk g (m_dst x))) <= j) \/
             k_rnd (g_rk g (m_src x)) = S (k_rnd (g_rk g (m_dst x)))
}.

Definition key (x : msg V) : Z * Z := (m_src x, m_dst x).

(** Rank [s] has sent for round [q] its message to its [i]-th neighbour. *)
Definition has_sent (k : rk V) s (q : nat) (i : Z) : Prop :=
  (q < k_rnd k)%nat \/ (k_rnd k = q /\ i < sd_upto s (k_ph k)).

(** The round of the next message rank [d] will receive from its [j]-th
    neighbour. *)
Definition next_rnd (k : rk V) d (j : Z) : nat :=
  if j <? rc_upto d (k_ph k) then S (k_rnd k) else k_rnd k.

Record Inv (g : gstate V) : Prop := {
  inv_rk : forall r, 0 <= r < n -> RI r (g_rk g r);
  inv_sync : forall r s, 0 <= r < n -> 0 <= s < n -> (passed (g_rk g r) <= k_ent (g_rk g s))%nat;
  inv_msg : forall x, In x (g_net g) -> MI g x;
  inv_uniq : NoDup (map key (g_net g));
  inv_compl : forall s d i j, 0 <= s < n -> 0 <= d < n ->
     rd (nbr s) i = Ok d -> rd (nbr d) j = Ok s ->
     has_sent (g_rk g s) s (next_rnd (g_rk g d) d j) i ->
     k_ph (g_rk g d) <> PDone ->
     In (s, d) (map key (g_net g));
  inv_recvd : forall s d i j, 0 <= s < n -> 0 <= d < n ->
     rd (nbr s) i = Ok d -> rd (nbr d) j = Ok s ->
     j < rc_upto d (k_ph (g_rk g d)) -> k_ph (g_rk g d) <> PDone ->
     has_sent (g_rk g s) s (k_rnd (g_rk g d)) i
}.

Lemma Hfits k r : 0 <= r < n -> fits m ep r (H k r).
Proof.
  intros Hr. destruct (pmf iter zero m ep c CW r Hr) as (_ & _ & _ & _ & _ & _ & E).
  unfold fits, F. unfold F in E. rewrite <- E. now apply (hist_sized iter zero m ep c CW s0 k Hs0).
Qed.

Lemma nn_nonneg r : 0 <= nnr r.
Proof. apply zlen_nonneg. Qed.

Lemma start_RI r k : 0 <= r < n -> (k <= c_rounds c)%nat -> RI r (start c r k (H k r) k).
Proof.
  intros Hr Hk. unfold start. destruct (Nat.eqb_spec k (c_rounds c)) as [E|E].
  - constructor; cbn; auto; try lia; try tauto.
  - destruct (pmf iter zero m ep c CW r Hr) as (_ & _ & _ & EC & _ & _ & _).
    constructor; cbn; auto; try lia.
    + pose proof (nn_nonneg r); lia.
    + split; [discriminate | congruence].
    + intros _. unfold bufs_ok; cbn. rewrite EC, !map_map, !zlen_map. split; [easy|]. split; [easy|].
      intros i s R. pose proof (rd_in_range _ _ _ R). split.
      * eexists. rewrite (rd_map _ _ _ _ R). split; [reflexivity|]. split; [apply zlen_vec, zlen_nonneg | lia].
      * eexists. rewrite (rd_map _ _ _ _ R). split; [reflexivity|]. split; [apply zlen_vec, zlen_nonneg | lia].
Qed.

Lemma init_Inv : Inv (init c s0).
Proof.
  constructor; cbn.
  - intros r Hr. apply (start_RI r O Hr). lia.
  - intros r s Hr Hs. unfold passed, start. destruct (Nat.eqb 0 (c_rounds c)); cbn; lia.
  - intros x [].
  - constructor.
  - intros s d i j Hs Hd Ri Rj [Hq|[_ Hq]]; apply rd_in_range in Ri.
    + unfold start in Hq. destruct (Nat.eqb 0 (c_rounds c)); cbn in Hq; lia.
    + unfold start in Hq. destruct (Nat.eqb 0 (c_rounds c)); cbn in Hq; lia.
  - intros s d i j Hs Hd Ri Rj Hlt HD. unfold start in *.
    destruct (Nat.eqb 0 (c_rounds c)); cbn in *; [congruence|]. apply rd_in_range in Rj. lia.
Qed.

(** A rank step that leaves the network alone and keeps the counters. *)
Lemma Inv_same g r k' :
  Inv g -> 0 <= r < n -> RI r k' ->
  let k := g_rk g r in
  k_rnd k' = k_rnd k ->
  sd_upto r (k_ph k') = sd_upto r (k_ph k) ->
  rc_upto r (k_ph k') = rc_upto r (k_ph k) ->
  (k_ent k <= k_ent k')%nat ->
  past (k_ph k') = past (k_ph k) ->
  (sending (k_ph k) -> sending (k_ph k')) ->
  (k_ph k' <> PDone -> k_ph k <> PDone) ->
  Inv (set_rk g r k').
Proof.
  intros HI Hr HR k E1 E2 E3 E4 E5 E6 E7. subst k. destruct HI as [I1 I2 I3 I4 I5 I6].
  constructor; cbn.
  - intros s Hs. destruct (Z.eqb_spec s r) as [->|]; auto.
  - intros a b Ha Hb. pose proof (I2 a b Ha Hb). unfold passed in *.
    destruct (Z.eqb_spec a r) as [->|], (Z.eqb_spec b r) as [->|]; rewrite ?E1, ?E5; lia.
  - intros x Hx. destruct (I3 x Hx) as [M1 M2 M3 M4 M5 M6 M7].
    constructor; cbn; auto.
    + destruct (Z.eqb_spec (m_src x) r) as [Ex|]; [rewrite Ex in *; rewrite E2|]; auto.
    + destruct (Z.eqb_spec (m_src x) r) as [Ex|]; [rewrite Ex in *|]; auto.
    + destruct (Z.eqb_spec (m_src x) r) as [Ex|]; [rewrite Ex in *; rewrite E1|]; auto.
    + destruct (Z.eqb_spec (m_src x) r) as [Ex|], (Z.eqb_spec (m_dst x) r) as [Ey|];
        try rewrite Ex in *; try rewrite Ey in *; rewrite ?E1, ?E3; auto.
  - exact I4.
  - intros s d i j Hs Hd Ri Rj HS HD. apply (I5 s d i j Hs Hd Ri Rj).
    + unfold has_sent, next_rnd in *.
      destruct (Z.eqb_spec s r) as [->|], (Z.eqb_spec d r) as [->|]; rewrite ?E1, ?E2, ?E3 in HS; auto.
    + destruct (Z.eqb_spec d r) as [->|]; auto.
  - intros s d i j Hs Hd Ri Rj Hlt HD.
    assert (X : has_sent (g_rk g s) s (k_rnd (g_rk g d)) i).
    { apply (I6 s d i j Hs Hd Ri Rj); destruct (Z.eqb_spec d r) as [->|]; rewrite <- ?E3; auto. }
    unfold has_sent in *.
    destruct (Z.eqb_spec s r) as [->|], (Z.eqb_spec d r) as [->|]; rewrite ?E1, ?E2; auto.
Qed.

Lemma take_msg_Some s d t (l : list (msg V)) x l' :
  take_msg s d t l = Some (x, l') ->
  exists l1 l2, l = l1 ++ x :: l2 /\ l' = l1 ++ l2 /\ m_src x = s /\ m_dst x = d /\ m_tag x = t.
Proof.
  revert l'; induction l as [|y l IH]; intros l'; cbn; [discriminate|].
  destruct ((m_src y =? s) && (m_dst y =? d) && (m_tag y =? t)) eqn:E.
  - intros [= <- <-]. rewrite !andb_true_iff, !Z.eqb_eq in E.
    exists [], l; cbn; intuition.
  - destruct (take_msg s d t l) as [[z l'']|]; [|discriminate]. intros [= -> <-].
    destruct (IH l'' eq_refl) as (l1 & l2 & -> & -> & HH). exists (y :: l1), l2. cbn; intuition.
Qed.

Lemma take_msg_In s d t (l : list (msg V)) : (exists x, In x l /\ m_src x = s /\ m_dst x = d /\ m_tag x = t) ->
  exists y, take_msg s d t l = Some y.
Proof.
  induction l as [|y l IH]; intros (x & Hx & E1 & E2 & E3); [easy|]. cbn.
  destruct ((m_src y =? s) && (m_dst y =? d) && (m_tag y =? t)) eqn:E; [eauto|].
  destruct Hx as [->|Hx].
  - rewrite E1, E2, E3, !Z.eqb_refl in E. discriminate.
  - destruct IH as ([z l'] & ->); [eauto|]. eauto.
Qed.

Lemma rd_nb_unique r i j s : rd (nbr r) i = Ok s -> rd (nbr r) j = Ok s -> 0 <= r < n -> i = j.
Proof.
  intros Ri Rj Hr. destruct (nb_facts iter zero m ep c CW r Hr) as (ND & _).
  eapply rd_NoDup_inj; eauto.
Qed.

Lemma deref_ok g r i s : Inv g -> 0 <= r < n -> k_ph (g_rk g r) <> PDone ->
  rd (nbr r) i = Ok s ->
  exists b, deref g r (RBuf i) = Ok b /\ zlen b = zlen (btw r s) /\
     (i < pk_upto r (k_ph (g_rk g r)) -> b = pkd (H (k_rnd (g_rk g r)) r) r s).
Proof.
  intros HI Hr Hd Ri. destruct (inv_rk g HI r Hr) as [_ _ _ _ _ HB].
  destruct (HB Hd) as (_ & _ & HX). destruct (HX i s Ri) as [(b & R & L & E) _].
  exists b. cbn. rewrite R; cbn. auto.
Qed.

(** What a message in flight contains. *)
Lemma msg_content_ok g x : Inv g -> In x (g_net g) ->
  msg_content g x = Ok (pkd (H (k_rnd (g_rk g (m_src x))) (m_src x)) (m_src x) (m_dst x)).
Proof.
  intros HI Hx. destruct (inv_msg g HI x Hx) as [M1 M2 M3 (i & Ri & Er & Hi) M5 M6 M7].
  unfold msg_content. destruct (m_data x) as [d|] eqn:Ed; [f_equal; auto|].
  rewrite Er. destruct (deref_ok g (m_src x) i (m_dst x) HI M1) as (b & -> & L & E); auto.
  - intros E; rewrite E in M5; exact M5.
  - f_equal. apply E. pose proof (rd_in_range _ _ _ Ri). change (zlen (nbr (m_src x))) with (nnr (m_src x)) in *.
    destruct (k_ph (g_rk g (m_src x))); cbn in *; try easy; lia.
Qed.

Lemma NoDup_key_remove l1 (x : msg V) l2 :
  NoDup (map key (l1 ++ x :: l2)) -> NoDup (map key (l1 ++ l2)) /\
  ~ In (key x) (map key (l1 ++ l2)).
Proof.
  rewrite !map_app. cbn. intros ND. split.
  - eapply NoDup_remove_1; eauto.
  - eapply NoDup_remove_2; eauto.
Qed.

Lemma Some_inj {T} (x y : T) : Some x = Some y -> x = y.
Proof. congruence. Qed.

Lemma rank_step_Inv r g g' : Inv g -> 0 <= r < n -> rank_step c r g = Some g' -> Inv g'.
Proof.
  intros HI Hr Hst. pose proof (inv_rk g HI r Hr) as HRI.
  destruct (pmf iter zero m ep c CW r Hr) as (Enn & EF & EI & EC & EG & HN & EL).
  assert (Hnn := nn_nonneg r).
  unfold rank_step in Hst. rewrite Enn in Hst.
  destruct HRI as [R1 R2 R3 R4 R5 R6]. unfold st_ok in R5.
  destruct (k_ph (g_rk g r)) as [i|i|i|i| | |i| |e] eqn:Eph; cbn in R1; try discriminate; try contradiction.
  - (* PPack *)
    assert (Hnd : PPack i <> PDone) by discriminate. specialize (R6 Hnd). clear Hnd.
    destruct R6 as (B1 & B2 & B3).
    destruct (Z.ltb_spec i (nnr r)) as [Hi|Hi]; apply Some_inj in Hst; subst g'.
    + destruct (rd_total (nbr r) i ltac:(unfold nn in *; lia)) as (s & Rs).
      rewrite EC, (rd_map _ _ _ _ Rs). cbn [bind].
      destruct (deref_ok g r i s HI Hr) as (b & -> & Lb & _); [rewrite Eph; discriminate | easy |]. cbn [bind].
      rewrite (pack_ok iter zero m ep c CW r s i (k_st (g_rk g r)) b (k_rnd (g_rk g r)) Hr Rs); auto.
      2:{ rewrite R5. now apply Hfits. }
      cbn [bind]. unfold set_send. rewrite wr_ok by lia. cbn [bind or_crash].
      apply Inv_same; auto; cbn; rewrite ?Eph; cbn; auto; try discriminate.
      constructor; cbn; auto; try lia.
      * split; [discriminate|]. intros E; apply R3 in E; discriminate.
      * intros _. unfold bufs_ok; cbn. rewrite zlen_set_nth. split; [easy|]. split; [easy|].
        intros i' s' Rs'. destruct (B3 i' s' Rs') as [(b1 & X1 & X2 & X3) Y]. split; [|rewrite Eph in Y; exact Y].
        rewrite Eph in X3; cbn in X3.
        destruct (Z.eq_dec i' i) as [->|Hne].
        -- exists (pkd (k_st (g_rk g r)) r s). rewrite rd_set_nth_eq by lia.
           assert (s' = s) by congruence; subst s'. split; [reflexivity|].
           split; [apply zlen_map|]. intros _. now rewrite R5.
        -- exists b1. rewrite rd_set_nth_neq by lia. split; [easy|]. split; [easy|]. intros. apply X3. lia.
    + apply Inv_same; auto; cbn; rewrite ?Eph; cbn; auto; try discriminate.
      constructor; cbn; auto; try lia.
      * split; [discriminate|]. intros E; apply R3 in E; discriminate.
      * intros _. unfold bufs_ok; cbn. split; [easy|]. split; [easy|].
        intros i' s' Rs'. destruct (B3 i' s' Rs') as [(b1 & X1 & X2 & X3) Y]. split; [|].
        -- exists b1. rewrite Eph in X3; cbn in X3. split; [easy|]. split; [easy|]. intros. apply X3. lia.
        -- rewrite Eph in Y; exact Y.
  - (* PSend *)
    assert (Hnd : PSend i <> PDone) by discriminate. specialize (R6 Hnd). clear Hnd.
    destruct R6 as (B1 & B2 & B3).
    destruct (Z.ltb_spec i (nnr r)) as [Hi|Hi]; apply Some_inj in Hst; subst g'.
    + destruct (rd_total (nbr r) i ltac:(unfold nn in *; lia)) as (d & Rd).
      fold (nbr r). rewrite Rd; cbn [bind].
      destruct (deref_ok g r i d HI Hr) as (b & -> & _); [rewrite Eph; discriminate | easy |]. cbn [bind].
      rewrite Hdev. cbn [or_crash].
      destruct (nb_facts iter zero m ep c CW r Hr) as (_ & _ & HNb).
      destruct (HNb d (rd_In _ _ _ Rd)) as (Hd & Hrd & Hdr).
      set (k' := with_ph (g_rk g r) (PSend (i + 1))).
      assert (HRI' : RI r k').
      { constructor; cbn; auto; try lia.
        - split; [discriminate|]. intros E; apply R3 in E; discriminate.
        - intros _. unfold bufs_ok; cbn. rewrite Eph in B3; cbn in B3. auto. }
      destruct HI as [I1 I2 I3 I4 I5 I6].
      assert (Hno : ~ In (r, d) (map key (g_net g))).
      { intros Hin. apply in_map_iff in Hin. destruct Hin as (x & Ek & Hx).
        injection Ek as Es Edst. destruct (I3 x Hx) as [_ _ _ (i' & Ri' & _ & Hlt) _ _ _].
        rewrite Es in Ri', Hlt. rewrite Edst in Ri'. rewrite Eph in Hlt; cbn in Hlt.
        assert (i' = i) by (eapply rd_nb_unique; eauto). lia. }
      constructor; cbn.
      * intros s Hs. destruct (Z.eqb_spec s r) as [->|]; auto.
      * intros a b' Ha Hb. pose proof (I2 a b' Ha Hb). unfold passed in *.
        destruct (Z.eqb_spec a r) as [->|], (Z.eqb_spec b' r) as [->|]; rewrite ?Eph in *; cbn in *; lia.
      * intros x Hx. apply in_app_or in Hx. destruct Hx as [Hx|[<-|[]]].
        -- destruct (I3 x Hx) as [M1 M2 M3 (i' & Ri' & Er & Hlt) M5 M6 M7].
           constructor; cbn; auto.
           ++ exists i'. split; [easy|]. split; [easy|].
              destruct (Z.eqb_spec (m_src x) r) as [Ex|]; [|easy]. rewrite Ex, Eph in Hlt; cbn in *. rewrite ?Ex. cbn. lia.
           ++ destruct (Z.eqb_spec (m_src x) r) as [Ex|]; [cbn|]; auto.
           ++ destruct (Z.eqb_spec (m_src x) r) as [Ex|]; [rewrite Ex in *; cbn|]; auto.
           ++ destruct (Z.eqb_spec (m_src x) r) as [Ex|], (Z.eqb_spec (m_dst x) r) as [Ey|];
              try rewrite Ex in *; try rewrite Ey in *; rewrite ?Eph in *; cbn in *; auto.
        -- constructor; cbn; auto; try discriminate.
           ++ rewrite Z.eqb_refl; cbn. exists i. split; [easy|]. split; [easy|]. lia.
           ++ rewrite Z.eqb_refl; exact I.
           ++ rewrite Z.eqb_refl. rewrite (proj2 (Z.eqb_neq d r)) by easy. cbn.
              pose proof (I2 r d Hr Hd) as S1. pose proof (I2 d r Hd Hr) as S2.
              unfold passed in *. rewrite Eph in *; cbn in *.
              destruct (I1 d Hd) as [D1 D2 D3 D4 D5 D6]. rewrite D4 in S1. rewrite R4 in S2.
              destruct (Nat.eq_dec (k_rnd (g_rk g d)) (k_rnd (g_rk g r))) as [Eq|Nq].
              ** left; split; [easy|]. intros j Rj.
                 destruct (Z.le_gt_cases (rc_upto d (k_ph (g_rk g d))) j) as [|Hgt]; [easy|].
                 exfalso.
                 assert (HD : k_ph (g_rk g d) <> PDone).
                 { intros E. apply D3 in E. rewrite Eq in E. apply R3 in E. discriminate. }
                 pose proof (I6 r d i j Hr Hd Rd Rj Hgt HD) as [HS|[_ HS]]; [lia|].
                 rewrite Eph in HS; cbn in HS; lia.
              ** right. destruct (k_ph (g_rk g d)); cbn in *; lia.
      * rewrite map_app; cbn. apply NoDup_app_one; auto.
      * intros s d' i' j Hs Hd' Ri' Rj HS HD. rewrite map_app. apply in_or_app. cbn.
        destruct (Z.eq_dec s r) as [->|Hsr]; [destruct (Z.eq_dec d' d) as [->|Hdd]|].
        -- right; now left.
        -- left. apply (I5 r d' i' j Hr Hd' Ri' Rj).
           ++ rewrite Z.eqb_refl in HS. unfold has_sent, next_rnd in *. cbn in HS. rewrite ?Eph; cbn.
              assert (i' <> i) by congruence.
              destruct (Z.eqb_spec d' r) as [->|]; rewrite ?Eph; cbn in *; destruct HS as [HS|[HS HS2]]; (try (left; exact HS)); right; (split; [exact HS|lia]).
           ++ destruct (Z.eqb_spec d' r) as [->|]; [rewrite Eph; discriminate|exact HD].
        -- left. apply (I5 s d' i' j Hs Hd' Ri' Rj).
           ++ rewrite (proj2 (Z.eqb_neq s r) Hsr) in HS. unfold has_sent, next_rnd in *. destruct (Z.eqb_spec d' r) as [->|]; rewrite ?Eph; cbn in *; exact HS.
           ++ destruct (Z.eqb_spec d' r) as [->|]; [rewrite Eph; discriminate|exact HD].
      * intros s d' i' j Hs Hd' Ri' Rj Hlt HD.
        assert (X : has_sent (g_rk g s) s (k_rnd (g_rk g d')) i').
        { apply (I6 s d' i' j Hs Hd' Ri' Rj); destruct (Z.eqb_spec d' r) as [->|]; rewrite ?Eph; cbn in *; auto; discriminate. }
        unfold has_sent in *.
        destruct (Z.eqb_spec s r) as [->|], (Z.eqb_spec d' r) as [->|]; rewrite ?Eph in X; cbn in *;
          (destruct X as [X|[X X2]]; [left; exact X|right; split; [exact X|lia]]).
    + apply Inv_same; auto; cbn; rewrite ?Eph; cbn; auto; try discriminate; try lia.
      constructor; cbn; auto; try lia.
      * split; [discriminate|]. intros E; apply R3 in E; discriminate.
      * intros _. unfold bufs_ok; cbn. rewrite Eph in B3; cbn in B3. auto.
  - (* PRecv *)
    assert (Hnd : PRecv i <> PDone) by discriminate. specialize (R6 Hnd). clear Hnd.
    destruct R6 as (B1 & B2 & B3).
    destruct (Z.ltb_spec i (nnr r)) as [Hi|Hi].
    + destruct (rd_total (nbr r) i ltac:(unfold nn in *; lia)) as (s & Rs).
      fold (nbr r) in Hst. rewrite Rs in Hst.
      destruct (take_msg s r s (g_net g)) as [[x net']|] eqn:Et; [|discriminate].
      apply Some_inj in Hst; subst g'.
      destruct (take_msg_Some _ _ _ _ _ _ Et) as (l1 & l2 & Enet & -> & Xs & Xd & Xt).
      assert (Hx : In x (g_net g)) by (rewrite Enet; apply in_or_app; right; now left).
      rewrite (msg_content_ok g x HI Hx). cbn [bind].
      destruct (nb_facts iter zero m ep c CW r Hr) as (_ & _ & HNb).
      destruct (HNb s (rd_In _ _ _ Rs)) as (Hs & Hrs & Hsr).
      destruct (In_rd _ _ Hrs) as (i0 & Ri0).
      destruct (B3 i s Rs) as (_ & (b & Rb & Lb & _)). rewrite Rb. cbn [bind].
      destruct HI as [I1 I2 I3 I4 I5 I6].
      destruct (I3 x Hx) as [M1 M2 M3 (i1 & Ri1 & Er & Hlt) M5 M6 M7].
      rewrite Xs, Xd in *.
      assert (Ernd : k_rnd (g_rk g s) = k_rnd (g_rk g r)).
      { destruct M7 as [[E _]|E]; [easy|].
        pose proof (I2 s r Hs Hr) as S1. unfold passed in S1. rewrite R4 in S1. cbn in S1. lia. }
      assert (Lp : zlen (pkd (H (k_rnd (g_rk g s)) s) s r) = zlen b).
      { unfold packed. rewrite zlen_map, Lb. now rewrite between_sym. }
      unfold recv_into. rewrite Lp, Z.ltb_irrefl. cbn [bind].
      rewrite skipn_all2 by (unfold zlen in Lp; lia). rewrite app_nil_r.
      unfold set_recv. rewrite wr_ok by lia. cbn [bind or_crash].
      set (k' := with_ph _ (PRecv (i + 1))).
      assert (HRI' : RI r k').
      { constructor; cbn; auto; try lia.
        - split; [discriminate|]. intros E; apply R3 in E; discriminate.
        - intros _. unfold bufs_ok; cbn. rewrite zlen_set_nth. split; [easy|]. split; [easy|].
          intros i' s' Rs'. destruct (B3 i' s' Rs') as [X (b1 & Y1 & Y2 & Y3)]. rewrite Eph in X, Y3; cbn in X, Y3.
          split; [exact X|]. destruct (Z.eq_dec i' i) as [->|Hne].
          + rewrite rd_set_nth_eq by lia. assert (s' = s) by congruence; subst s'.
            eexists; split; [reflexivity|]. split; [now rewrite Lp|]. intros _. now rewrite Ernd.
          + rewrite rd_set_nth_neq by lia. exists b1. split; [easy|]. split; [easy|]. intros; apply Y3; lia. }
      rewrite Enet in I4. apply NoDup_key_remove in I4. destruct I4 as [I4 I4'].
      assert (Hsub : forall y, In y (l1 ++ l2) -> In y (g_net g)).
      { intros y Hy. rewrite Enet. apply in_app_or in Hy. apply in_or_app. destruct Hy; [now left|right; now right]. }
      constructor; cbn.
      * intros a Ha. destruct (Z.eqb_spec a r) as [->|]; auto.
      * intros a b' Ha Hb. pose proof (I2 a b' Ha Hb). unfold passed in *.
        destruct (Z.eqb_spec a r) as [->|], (Z.eqb_spec b' r) as [->|]; rewrite ?Eph in *; cbn in *; lia.
      * intros y Hy. destruct (I3 y (Hsub y Hy)) as [N1 N2 N3 N4 N5 N6 N7].
        constructor; cbn; auto.
        -- destruct (Z.eqb_spec (m_src y) r) as [Ex|]; [rewrite Ex in *; rewrite Eph in N4; exact N4|]; auto.
        -- destruct (Z.eqb_spec (m_src y) r) as [Ex|]; [cbn|]; auto.
        -- destruct (Z.eqb_spec (m_src y) r) as [Ex|]; [rewrite Ex in *; cbn|]; auto.
        -- assert (Hrc : m_dst y = r -> forall j, rd (nbr r) j = Ok (m_src y) -> i <= j -> i + 1 <= j).
           { intros Ey j Rj Hij. destruct (Z.eq_dec j i) as [->|]; [|lia].
             exfalso. apply I4'. apply in_map_iff. exists y. split; [|easy].
             unfold key. rewrite Ey, Xs, Xd. f_equal. congruence. }
           destruct (Z.eqb_spec (m_src y) r) as [Ex|], (Z.eqb_spec (m_dst y) r) as [Ey|];
            try rewrite Ex in *; try rewrite Ey in *; rewrite ?Eph in *; cbn in *; auto;
            (destruct N7 as [[Q1 Q2]|Q]; [left; split; [exact Q1|]; intros j Rj; apply Hrc; auto | right; exact Q]).
      * exact I4.
      * intros a d' i' j Ha Hd' Ri' Rj HS HD.
        assert (Hnot : (a, d') <> (s, r)).
        { intros X. injection X as -> ->. rewrite (proj2 (Z.eqb_neq s r)) in HS by easy.
          rewrite Z.eqb_refl in HS. unfold next_rnd in HS. cbn in HS.
          assert (j = i) by (eapply rd_nb_unique; eauto). subst j.
          rewrite (proj2 (Z.ltb_lt i (i + 1))) in HS by lia. destruct HS as [HS|[HS _]]; lia. }
        assert (X : In (a, d') (map key (g_net g))).
        { apply (I5 a d' i' j Ha Hd' Ri' Rj).
          - assert (Enx : d' = r -> next_rnd (g_rk g r) r j = (if j <? i + 1 then S (k_rnd (g_rk g r)) else k_rnd (g_rk g r)) \/ (d' = r /\ j = i)).
            { intros ->. unfold next_rnd. rewrite Eph. cbn.
              destruct (Z.ltb_spec j i), (Z.ltb_spec j (i + 1)); auto; try lia. }
            destruct (Z.eqb_spec d' r) as [->|].
            + destruct (Enx eq_refl) as [En|[_ ->]].
              * rewrite En. destruct (Z.eqb_spec a r) as [->|]; unfold has_sent, next_rnd in *; rewrite ?Eph; cbn in *; auto.
              * exfalso. apply Hnot. f_equal. congruence.
            + destruct (Z.eqb_spec a r) as [->|]; unfold has_sent, next_rnd in *; rewrite ?Eph; cbn in *; auto.
          - destruct (Z.eqb_spec d' r) as [->|]; [rewrite Eph; discriminate|exact HD]. }
        rewrite Enet, map_app in X. cbn in X. rewrite map_app. apply in_app_or in X. apply in_or_app.
        destruct X as [X|[X|X]]; [now left| |now right].
        exfalso. apply Hnot. rewrite <- X. unfold key. now rewrite Xs, Xd.
      * intros a d' i' j Ha Hd' Ri' Rj Hlt' HD.
        destruct (Z.eqb_spec d' r) as [->|Hd'r]; cbn in Hlt'.
        -- cbn. destruct (Z.eq_dec j i) as [->|Hji].
           ++ assert (a = s) by congruence; subst a.
              rewrite (proj2 (Z.eqb_neq s r)) by easy.
              right. split; [easy|]. assert (i' = i1) by (eapply rd_nb_unique; eauto). subst; exact Hlt.
           ++ assert (X : has_sent (g_rk g a) a (k_rnd (g_rk g r)) i').
              { apply (I6 a r i' j Ha Hr Ri' Rj); rewrite Eph; cbn; [lia|discriminate]. }
              destruct (Z.eqb_spec a r) as [->|]; unfold has_sent in *; rewrite ?Eph in X; cbn in *; exact X.
        -- assert (X : has_sent (g_rk g a) a (k_rnd (g_rk g d')) i') by (apply (I6 a d' i' j); auto).
           destruct (Z.eqb_spec a r) as [->|]; unfold has_sent in *; rewrite ?Eph in X; cbn in *; exact X.
    + apply Some_inj in Hst; subst g'. apply Inv_same; auto; cbn; rewrite ?Eph; cbn; auto; try discriminate; try lia.
      constructor; cbn; auto; try lia.
      * split; [discriminate|]. intros E; apply R3 in E; discriminate.
      * intros _. unfold bufs_ok; cbn. rewrite Eph in B3; cbn in B3. split; [easy|]. split; [easy|].
        intros i' s' Rs'. destruct (B3 i' s' Rs') as [X (b1 & Y1 & Y2 & Y3)]. split; [exact X|].
        exists b1. split; [easy|]. split; [easy|]. intros; apply Y3. lia.
  - (* PEnter *)
    apply Some_inj in Hst; subst g'. apply Inv_same; auto; cbn; rewrite ?Eph; cbn; auto; try discriminate; try lia.
    cbn [entered] in R4. constructor; cbn; auto; try lia.
    + split; [discriminate|]. intros E; apply R3 in E; discriminate.
    + intros _. assert (Hnd : PEnter <> PDone) by discriminate. specialize (R6 Hnd).
      unfold bufs_ok in *; cbn. rewrite Eph in R6; cbn in R6. exact R6.
  - (* PWait *)
    destruct (forallb _ _) eqn:Eall; [|discriminate]. apply Some_inj in Hst; subst g'.
    assert (Hall : forall s, 0 <= s < n -> (k_ent (g_rk g r) <= k_ent (g_rk g s))%nat).
    { intros s Hs. rewrite forallb_forall in Eall. apply Nat.leb_le. apply Eall. now apply In_zseq. }
    assert (Hnd : PWait <> PDone) by discriminate. specialize (R6 Hnd). clear Hnd.
    assert (HRI' : RI r (with_ph (g_rk g r) (PUnpack 0))).
    { constructor; cbn; auto; try lia.
      - split; [discriminate|]. intros E; apply R3 in E; discriminate.
      - unfold st_ok; cbn. rewrite R5. symmetry. apply (upd_state_nil iter zero m ep c CW); auto. now apply Hfits.
      - intros _. unfold bufs_ok in *; cbn. rewrite Eph in R6; cbn in R6. exact R6. }
    destruct HI as [I1 I2 I3 I4 I5 I6].
    assert (Hno : forall x, In x (g_net g) -> m_src x <> r).
    { intros x Hx Ex. destruct (I3 x Hx) as [M1 M2 M3 M4 M5 M6 M7]. rewrite Ex in *.
      pose proof (Hall (m_dst x) M2) as HA. rewrite R4 in HA. cbn in HA.
      destruct (I1 (m_dst x) M2) as [D1 D2 D3 D4 D5 D6]. rewrite D4 in HA.
      destruct M4 as (i & Ri & _ & _).
      destruct (nb_facts iter zero m ep c CW r Hr) as (_ & _ & HNb).
      destruct (HNb _ (rd_In _ _ _ Ri)) as (_ & Hin & _). apply In_rd in Hin. destruct Hin as (j & Rj).
      pose proof (rd_in_range _ _ _ Rj) as Hj. change (zlen (nbr (m_dst x))) with (nnr (m_dst x)) in Hj.
      destruct M7 as [[E1 E2]|E].
      - specialize (E2 j Rj). destruct (k_ph (g_rk g (m_dst x))); cbn in *; lia.
      - destruct (k_ph (g_rk g (m_dst x))); cbn in *; lia. }
    constructor; cbn.
    + intros a Ha. destruct (Z.eqb_spec a r) as [->|]; auto.
    + intros a b' Ha Hb. pose proof (I2 a b' Ha Hb). pose proof (Hall b' Hb). pose proof (Hall a Ha). unfold passed in *.
      destruct (Z.eqb_spec a r) as [->|], (Z.eqb_spec b' r) as [->|]; rewrite ?Eph in *; cbn in *; lia.
    + intros x Hx. pose proof (Hno x Hx) as Hsr. destruct (I3 x Hx) as [M1 M2 M3 M4 M5 M6 M7].
      constructor; cbn; auto; rewrite (proj2 (Z.eqb_neq _ _) Hsr); auto.
      destruct (Z.eqb_spec (m_dst x) r) as [Ey|]; [rewrite Ey in *; rewrite Eph in M7; exact M7 | exact M7].
    + exact I4.
    + intros a d' i' j Ha Hd' Ri' Rj HS HD. apply (I5 a d' i' j Ha Hd' Ri' Rj).
      * destruct (Z.eqb_spec a r) as [->|], (Z.eqb_spec d' r) as [->|]; unfold has_sent, next_rnd in *; rewrite ?Eph; cbn in *; auto.
      * destruct (Z.eqb_spec d' r) as [->|]; [rewrite Eph; discriminate|exact HD].
    + intros a d' i' j Ha Hd' Ri' Rj Hlt HD.
      assert (X : has_sent (g_rk g a) a (k_rnd (g_rk g d')) i').
      { apply (I6 a d' i' j Ha Hd' Ri' Rj); destruct (Z.eqb_spec d' r) as [->|]; rewrite ?Eph; cbn in *; auto; discriminate. }
      destruct (Z.eqb_spec a r) as [->|], (Z.eqb_spec d' r) as [->|]; unfold has_sent in *; rewrite ?Eph in X; cbn in *; exact X.
  - (* PUnpack *)
    assert (Hnd : PUnpack i <> PDone) by discriminate. specialize (R6 Hnd). clear Hnd.
    destruct R6 as (B1 & B2 & B3).
    destruct (Z.ltb_spec i (nnr r)) as [Hi|Hi]; apply Some_inj in Hst; subst g'.
    + destruct (rd_total (nbr r) i ltac:(unfold nn in *; lia)) as (s & Rs).
      rewrite EC, (rd_map _ _ _ _ Rs). cbn [bind].
      destruct (B3 i s Rs) as (_ & (b & Rb & Lb & Eb)). rewrite Rb; cbn [bind].
      rewrite Eph in Eb; cbn in Eb. rewrite (Eb Hi), R5.
      rewrite (unpack_ok iter zero m ep c CW r s i (k_rnd (g_rk g r)) (H (k_rnd (g_rk g r))) Hr Rs).
      cbn [bind or_crash].
      apply Inv_same; auto; cbn; rewrite ?Eph; cbn; auto; try discriminate; try lia.
      constructor; cbn; auto; try lia.
      * split; [discriminate|]. intros E; apply R3 in E; discriminate.
      * intros _. unfold bufs_ok in *; cbn. rewrite Eph in B3; cbn in B3. auto.
    + assert (i = nnr r) by lia. subst i.
      assert (Est : c_compute c (k_rnd (g_rk g r)) r (k_st (g_rk g r)) = H (S (k_rnd (g_rk g r))) r).
      { rewrite R5. cbn. unfold exch. f_equal. f_equal. unfold nn, zlen. rewrite Nat2Z.id. apply firstn_all. }
      rewrite Est. rewrite R4. cbn [entered]. rewrite Nat.add_1_r.
      set (q := k_rnd (g_rk g r)) in *.
      assert (Hq : (q < c_rounds c)%nat).
      { destruct (Nat.eq_dec q (c_rounds c)) as [E|]; [apply R3 in E; discriminate|lia]. }
      pose proof (start_RI r (S q) Hr ltac:(lia)) as HRI'.
      set (k' := start c r (S q) (H (S q) r) (S q)) in *.
      assert (K1 : k_rnd k' = S q) by (unfold k', start; destruct (Nat.eqb _ _); reflexivity).
      assert (K2 : k_ent k' = S q) by (unfold k', start; destruct (Nat.eqb _ _); reflexivity).
      assert (K3 : past (k_ph k') = O) by (unfold k', start; destruct (Nat.eqb _ _); reflexivity).
      assert (K4 : k_ph k' = PDone \/ k_ph k' = PPack 0) by (unfold k', start; destruct (Nat.eqb _ _); [left|right]; reflexivity).
      destruct HI as [I1 I2 I3 I4 I5 I6].
      assert (Hno : forall x, In x (g_net g) -> m_src x <> r).
      { intros x Hx Ex. destruct (I3 x Hx) as [M1 M2 M3 M4 M5 M6 M7]. rewrite Ex, Eph in M5. exact M5. }
      assert (Hto : forall x, In x (g_net g) -> m_dst x = r -> k_rnd (g_rk g (m_src x)) = S q /\ S q <> c_rounds c).
      { intros x Hx Ex. destruct (I3 x Hx) as [M1 M2 M3 M4 M5 M6 M7]. rewrite Ex in *.
        assert (E : k_rnd (g_rk g (m_src x)) = S q).
        { destruct M7 as [[E1 E2]|E]; [|exact E]. exfalso.
          destruct M4 as (i & Ri & _ & _).
          destruct (nb_facts iter zero m ep c CW _ M1) as (_ & _ & HNb).
          destruct (HNb _ (rd_In _ _ _ Ri)) as (_ & Hin & _). apply In_rd in Hin. destruct Hin as (j & Rj).
          pose proof (rd_in_range _ _ _ Rj) as Hj. specialize (E2 j Rj). rewrite Eph in E2; cbn in E2.
          unfold nn in E2. lia. }
        split; [exact E|]. intros EK. rewrite EK in E. apply (ri_done _ _ (I1 _ M1)) in E. rewrite E in M5. exact M5. }
      constructor; cbn.
      * intros a Ha. destruct (Z.eqb_spec a r) as [->|]; auto.
      * intros a b' Ha Hb. pose proof (I2 a b' Ha Hb) as J1. pose proof (I2 r b' Hr Hb) as J2. pose proof (I2 a r Ha Hr) as J3. unfold passed in *.
        rewrite Eph in J2; cbn in J2; fold q in J2; rewrite R4 in J3; cbn in J3; cbn in R4.
        destruct (Z.eqb_spec a r) as [->|], (Z.eqb_spec b' r) as [->|]; rewrite ?K1, ?K2, ?K3; lia.
      * intros x Hx. pose proof (Hno x Hx) as Hsr. destruct (I3 x Hx) as [M1 M2 M3 M4 M5 M6 M7].
        constructor; cbn; auto; rewrite (proj2 (Z.eqb_neq _ _) Hsr); auto.
        destruct (Z.eqb_spec (m_dst x) r) as [Ey|]; [|exact M7].
        destruct (Hto x Hx Ey) as [E EK]. left. rewrite K1, E. split; [easy|]. intros j Rj.
        destruct K4 as [K4|K4]; rewrite K4.
        -- exfalso. apply EK. rewrite <- K1. apply (ri_done _ _ HRI'). exact K4.
        -- cbn. apply rd_in_range in Rj. lia.
      * exact I4.
      * intros a d' i' j Ha Hd' Ri' Rj HS HD.
        pose proof (rd_in_range _ _ _ Ri') as Bi. pose proof (rd_in_range _ _ _ Rj) as Bj.
        assert (Hsent : forall Q, has_sent (if a =? r then k' else g_rk g a) a Q i' -> has_sent (g_rk g a) a Q i').
        { intros Q HQ. destruct (Z.eqb_spec a r) as [->|]; [|exact HQ].
          unfold has_sent in *. rewrite K1 in HQ. fold q. rewrite Eph. cbn.
          destruct HQ as [HQ|[HQ HQ2]].
          - destruct (Nat.eq_dec Q q); [right; split; [easy|unfold nn; lia] | left; lia].
          - exfalso. destruct K4 as [K4|K4]; rewrite K4 in HQ2; cbn in HQ2; lia. }
        apply Hsent in HS. apply (I5 a d' i' j Ha Hd' Ri' Rj).
        -- destruct (Z.eqb_spec d' r) as [->|]; [|exact HS].
           unfold next_rnd in *. rewrite K1 in HS. fold q. rewrite Eph; cbn. unfold nn.
           rewrite (proj2 (Z.ltb_lt j (zlen (nbr r)))) by lia.
           destruct K4 as [K4|K4]; [congruence|]. rewrite K4 in HS; cbn in HS.
           rewrite (proj2 (Z.ltb_ge j 0)) in HS by lia. exact HS.
        -- destruct (Z.eqb_spec d' r) as [->|]; [rewrite Eph; discriminate|exact HD].
      * intros a d' i' j Ha Hd' Ri' Rj Hlt HD.
        destruct (Z.eqb_spec d' r) as [->|Hd'r].
        -- exfalso. destruct K4 as [K4|K4]; [congruence|]. rewrite K4 in Hlt. cbn in Hlt. apply rd_in_range in Rj; lia.
        -- pose proof (I6 a d' i' j Ha Hd' Ri' Rj Hlt HD) as X.
           destruct (Z.eqb_spec a r) as [->|]; [|exact X].
           unfold has_sent in *. rewrite K1. fold q in X. destruct X as [X|[X X2]]; left; lia.
Qed.

End Inv.
