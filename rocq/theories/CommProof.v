(** CommProof.v -- proofs about the exchange of CommModel.v. *)
From Coq Require Import ZArith List Lia Bool Permutation Sorted.
From Verif Require Import Base MeshModel MeshSpec MeshProof MeshReadProof MeshProof2 CommModel CommSpec.
Import ListNotations.
Local Open Scope Z_scope.
Open Scope res_scope.

Lemma rd_map_inv {B C} (f : B -> C) l i c : rd (map f l) i = Ok c -> exists b, rd l i = Ok b /\ c = f b.
Proof.
  rewrite rd_Ok; intros [H E]. rewrite nth_error_map in E.
  destruct (nth_error l (Z.to_nat i)) as [b|] eqn:Eb; [|discriminate].
  exists b; rewrite rd_Ok; split; [easy|]. cbn in E; congruence.
Qed.

Lemma In_rd {B} (x : B) l : In x l -> exists i, rd l i = Ok x.
Proof.
  intros H; apply In_nth_error in H; destruct H as [k H]. exists (Z.of_nat k).
  apply rd_Ok; rewrite Nat2Z.id; split; [lia|easy].
Qed.

Lemma existsb_Zeqb x l : existsb (Z.eqb x) l = true <-> In x l.
Proof.
  rewrite existsb_exists; split; [intros (y & Hy & E); apply Z.eqb_eq in E; congruence|].
  intros H; exists x; split; [easy|apply Z.eqb_refl].
Qed.

Lemma firstn_S_rd (l : list Z) i x : rd l i = Ok x -> firstn (Z.to_nat (i + 1)) l = firstn (Z.to_nat i) l ++ [x].
Proof.
  rewrite rd_Ok; intros [Hi E].
  replace (Z.to_nat (i + 1)) with (S (Z.to_nat i)) by lia.
  apply nth_error_split in E; destruct E as (l1 & l2 & -> & Hl).
  rewrite <- Hl, !firstn_app.
  replace (length l1 - length l1)%nat with O by lia.
  replace (S (length l1) - length l1)%nat with 1%nat by lia.
  rewrite firstn_all, (firstn_all2 (n := S (length l1))) by lia. cbn. now rewrite app_nil_r.
Qed.

Section Run.
Context {A V : Type} (iter : Z -> list Z -> list Z) (zero : A) (m : gmesh A) (ep : list Z) (c : cfg A V).
Hypothesis CW : comm_wf iter zero m ep c.

Notation n := (c_n c).
Notation pm := (c_pm c).
Notation v0 := (c_v0 c).
Let W := cw_run _ _ _ _ _ CW.
Let P := cw_pm _ _ _ _ _ CW.
Let Hm := run_mesh _ _ _ _ W.
Let He := run_ep _ _ _ _ W.

Definition nb (r : Z) : list Z := pm_neighbor_ranks (pm r).
Definition nn (r : Z) : Z := zlen (nb r).
Definition F (r : Z) : list Z := faces_of m ep r.
Definition lid (r f : Z) : Z := search_for_local_ID f (F r).

Lemma pmf r : 0 <= r < n ->
  pm_num_neighbor_ranks (pm r) = nn r /\
  pm_l2g_iface (pm r) = F r /\
  pm_interior_faces (pm r) = map (face_row m ep r) (F r) /\
  pm_num_faces_per_rank_boundary (pm r) = map (fun x => zlen (between m ep r x)) (nb r) /\
  pm_ghost_faces (pm r) = map (between m ep r) (nb r) /\
  nbrs_exact m ep r (nb r) /\ pm_num_ifaces_part (pm r) = zlen (F r).
Proof.
  intros Hr. destruct (pm_form zero iter n m ep pm W P r Hr) as (ids & nbr & E & _ & _ & HN).
  unfold nn, nb. rewrite E. cbn. do 5 (split; [reflexivity|]). split; [exact HN|reflexivity].
Qed.

Lemma nb_facts r : 0 <= r < n -> NoDup (nb r) /\ ~ In r (nb r) /\
  (forall s, In s (nb r) -> 0 <= s < n /\ In r (nb s) /\ s <> r).
Proof.
  intros Hr. destruct (neighbors zero iter n m ep pm W P r Hr) as (H1 & H2 & _ & H4 & H5).
  repeat split; auto; try (now apply H5).
  - apply (neighbors_sym zero iter n m ep pm W P r s Hr); [now apply H5|easy].
  - apply H4 in H. tauto.
Qed.

Lemma F_lookup r f : 0 <= r < n -> In f (F r) ->
  0 <= lid r f < zlen (F r) /\ rd (F r) (lid r f) = Ok f.
Proof.
  intros Hr Hf. destruct (search_found f (F r)) as (k & Hk & E & R); auto.
  - apply NoDup_faces.
  - apply (zlen_faces_small m ep Hm).
  - unfold lid. rewrite E. auto.
Qed.

Lemma lid_of r lf f : rd (F r) lf = Ok f -> lid r f = lf.
Proof.
  intros R. unfold lid. apply search_round_trip; auto.
  - apply NoDup_faces.
  - apply (zlen_faces_small m ep Hm).
Qed.

Lemma between_in r s f : 0 <= r < n -> In f (between m ep r s) ->
  In f (F r) /\ 0 <= f < gm_nIF m /\ is_ghost m ep f = true /\ on_rank m ep r f = true /\ other m ep r f = s.
Proof.
  intros Hr Hf. unfold between in Hf. apply filter_In in Hf. destruct Hf as [Hg J].
  unfold ghosts_of in Hg. apply filter_In in Hg. destruct Hg as [Hz G]. apply In_zseq in Hz.
  destruct (joins_other m ep r s f G J) as [O Eo]. repeat split; auto; try lia.
  apply filter_In. split; [now apply In_zseq | easy].
Qed.

Lemma is_left_ok r f : 0 <= r < n -> In f (F r) ->
  is_left (pm r) r (lid r f) = Ok (rkL m ep f =? r).
Proof.
  intros Hr Hf. destruct (pmf r Hr) as (_ & _ & E & _). destruct (F_lookup r f Hr Hf) as [_ R].
  unfold is_left, rd2. rewrite E, (rd_map _ _ _ _ R). reflexivity.
Qed.

(** Blocks *)
Definition valL (S : fstate V) r f := nth (Z.to_nat (lid r f)) (fs_L S) v0.
Definition valR (S : fstate V) r f := nth (Z.to_nat (lid r f)) (fs_R S) v0.
Definition own (S : fstate V) r f := if rkL m ep f =? r then valL S r f else valR S r f.
Definition packed (S : fstate V) r s := map (own S r) (between m ep r s).

Definition fits r (S : fstate V) := zlen (fs_L S) = zlen (F r) /\ zlen (fs_R S) = zlen (F r).

Lemma rd_val r S f : 0 <= r < n -> fits r S -> In f (F r) ->
  rd (fs_L S) (lid r f) = Ok (valL S r f) /\ rd (fs_R S) (lid r f) = Ok (valR S r f).
Proof.
  intros Hr [L R] Hf. destruct (F_lookup r f Hr Hf) as [Hb _].
  split; apply rd_nth; lia.
Qed.

Lemma order_In r k i cnt x : In x (c_order c r k i cnt) <-> 0 <= x < cnt.
Proof.
  rewrite <- In_zseq. split; apply Permutation_in; [|symmetry]; apply (cw_order _ _ _ _ _ CW).
Qed.

Lemma pack_ok r s i S buf k :
  0 <= r < n -> rd (nb r) i = Ok s -> fits r S -> zlen buf = zlen (between m ep r s) ->
  pack (pm r) r S (c_order c r k i (zlen (between m ep r s))) i buf = Ok (packed S r s).
Proof.
  intros Hr Hi Hfit Hb. destruct (pmf r Hr) as (_ & EF & _ & _ & EG & _ & _).
  unfold pack. rewrite EG, (rd_map _ _ _ _ Hi), EF; cbn [bind].
  set (G := between m ep r s) in *. set (ord := c_order c r k i (zlen G)).
  match goal with |- foreach ord ?b ?s0 = _ =>
    destruct (foreach_inv (fun done B => zlen B = zlen G /\
       forall j f, In j done -> rd G j = Ok f -> rd B j = Ok (own S r f)) b ord s0) as (B & E & L & R) end.
  - split; [easy|]. intros j f [].
  - intros done j todo B Eo [L R].
    assert (Hj : 0 <= j < zlen G).
    { apply (order_In r k i (zlen G)). fold ord. rewrite Eo. apply in_or_app; right; now left. }
    destruct (rd_total G j Hj) as (f & Rf). rewrite Rf; cbn [bind]. cbv zeta.
    destruct (between_in r s f Hr (rd_In _ _ _ Rf)) as (HF & _).
    fold (lid r f). rewrite is_left_ok by easy; cbn [bind].
    destruct (rd_val r S f Hr Hfit HF) as [RL RR].
    assert (Rv : rd (if rkL m ep f =? r then fs_L S else fs_R S) (lid r f) = Ok (own S r f)).
    { unfold own. destruct (rkL m ep f =? r); easy. }
    rewrite Rv; cbn [bind]. rewrite wr_ok by lia. eexists; split; [reflexivity|].
    rewrite zlen_set_nth. split; [easy|]. intros j' f' Hj' Rf'.
    destruct (Z.eq_dec j' j) as [->|Hne].
    + rewrite rd_set_nth_eq by lia. congruence.
    + rewrite rd_set_nth_neq by lia. apply R; [|easy].
      apply in_app_or in Hj'. destruct Hj' as [|[|[]]]; [easy|congruence].
  - rewrite E. f_equal. unfold packed. fold G. apply rd_ext; [now rewrite zlen_map|].
    intros j Hj. rewrite L in Hj. destruct (rd_total G j Hj) as (f & Rf).
    rewrite (rd_map _ _ _ _ Rf). apply R; [|easy]. unfold ord. apply order_In. easy.
Qed.

(** State after the blocks of the ranks in [l] have been unpacked. *)
Definition upL (S : Z -> fstate V) r (l : list Z) f :=
  if existsb (Z.eqb (rkL m ep f)) l then own (S (rkL m ep f)) (rkL m ep f) f else valL (S r) r f.
Definition upR (S : Z -> fstate V) r (l : list Z) f :=
  if existsb (Z.eqb (rkR m ep f)) l then own (S (rkR m ep f)) (rkR m ep f) f else valR (S r) r f.
Definition upd_state (S : Z -> fstate V) r l : fstate V :=
  mkFS (map (upL S r l) (F r)) (map (upR S r l) (F r)).

Lemma upd_state_nil S r : 0 <= r < n -> fits r (S r) -> upd_state S r [] = S r.
Proof.
  intros Hr [HL HR]. unfold upd_state, upL, upR; cbn [existsb]. destruct (S r) as [L R]; cbn [fs_L fs_R] in *.
  f_equal; (apply rd_ext; [rewrite zlen_map; lia|]); intros i Hi; rewrite zlen_map in Hi;
    destruct (rd_total (F r) i Hi) as (f & Rf); rewrite (rd_map _ _ _ _ Rf).
  - unfold valL; cbn. rewrite (lid_of r i f Rf). symmetry; apply rd_nth; lia.
  - unfold valR; cbn. rewrite (lid_of r i f Rf). symmetry; apply rd_nth; lia.
Qed.

Lemma upd_state_fits S r l : fits r (upd_state S r l).
Proof. split; cbn; apply zlen_map. Qed.

Lemma unpack_ok r s i k S :
  0 <= r < n -> rd (nb r) i = Ok s ->
  unpack (pm r) r (c_order c r k i (zlen (between m ep r s))) i (packed (S s) s r)
    (upd_state S r (firstn (Z.to_nat i) (nb r)))
  = Ok (upd_state S r (firstn (Z.to_nat (i + 1)) (nb r))).
Proof.
  intros Hr Hi. destruct (pmf r Hr) as (_ & EF & _ & _ & EG & _ & _).
  destruct (nb_facts r Hr) as (ND & HNr & HN). destruct (HN s (rd_In _ _ _ Hi)) as (Hs & _ & Hne).
  unfold unpack. rewrite EG, (rd_map _ _ _ _ Hi), EF; cbn [bind].
  set (l0 := firstn (Z.to_nat i) (nb r)).
  assert (Hsl : ~ In s l0).
  { intros Hin. apply In_rd in Hin. destruct Hin as (j & Rj).
    pose proof (rd_in_range _ _ _ Rj) as Hj. unfold l0 in Rj.
    assert (Hlt : j < i).
    { unfold l0, zlen in Hj. rewrite firstn_length in Hj. lia. }
    assert (rd (nb r) j = Ok s).
    { rewrite rd_Ok in *. destruct Rj as [? Rj]; split; [easy|].
      rewrite <- (firstn_skipn (Z.to_nat i) (nb r)). rewrite nth_error_app1; [easy|].
      unfold zlen in Hj; fold l0 in Hj. unfold l0 in Hj. lia. }
    assert (j = i) by (eapply rd_NoDup_inj; eauto). lia. }
  set (G := between m ep r s) in *. set (ord := c_order c r k i (zlen G)).
  assert (Epk : packed (S s) s r = map (own (S s) s) G).
  { unfold packed, G. now rewrite between_sym. }
  rewrite Epk.
  (* invariant: faces whose number is in G at a done position have been updated *)
  set (dn done f := existsb (fun j => match rd G j with Ok g => g =? f | _ => false end) done).
  match goal with |- foreach ord ?b ?s0 = _ =>
    destruct (foreach_inv (fun done (st : fstate V) =>
       st = mkFS (map (fun f => if dn done f && (rkL m ep f =? s) then own (S s) s f else upL S r l0 f) (F r))
                 (map (fun f => if dn done f && (rkR m ep f =? s) then own (S s) s f else upR S r l0 f) (F r)))
       b ord s0) as (st & E & ->) end.
  - reflexivity.
  - intros done j todo st Eo ->.
    assert (Hj : 0 <= j < zlen G).
    { apply (order_In r k i (zlen G)). fold ord. rewrite Eo. apply in_or_app; right; now left. }
    destruct (rd_total G j Hj) as (f & Rf). rewrite Rf; cbn [bind]. cbv zeta.
    destruct (between_in r s f Hr (rd_In _ _ _ Rf)) as (HF & _ & Gf & Of & Oth).
    fold (lid r f). rewrite is_left_ok by easy; cbn [bind].
    rewrite (rd_map _ _ _ _ Rf); cbn [bind fs_L fs_R].
    destruct (F_lookup r f Hr HF) as [Hlb Rlf].
    assert (Hdn : forall f', dn (done ++ [j]) f' = dn done f' || (f =? f')).
    { intros f'. unfold dn. rewrite existsb_app; cbn [existsb]. rewrite Rf. now rewrite orb_false_r. }
    assert (Hother : forall f' lf', rd (F r) lf' = Ok f' -> lf' <> lid r f -> (f =? f') = false).
    { intros f' lf' R' Hne'. apply Z.eqb_neq. intros <-. apply Hne'. symmetry; now apply lid_of. }
    unfold other in Oth. unfold is_ghost in Gf. apply negb_true_iff, Z.eqb_neq in Gf.
    unfold on_rank in Of. rewrite orb_true_iff, !Z.eqb_eq in Of.
    destruct (Z.eqb_spec (rkL m ep f) r) as [El|El].
    + rewrite wr_ok by (rewrite zlen_map; lia); cbn [bind]. eexists; split; [reflexivity|].
      rewrite (proj2 (Z.eqb_eq r (rkL m ep f)) (eq_sym El)) in Oth.
      f_equal.
      * apply map_ext_in. intros f' _. rewrite Hdn.
        destruct (Z.eqb_spec f f') as [<-|]; [|now rewrite orb_false_r].
        rewrite El. rewrite (proj2 (Z.eqb_neq r s)) by congruence. now rewrite !andb_false_r.
      * apply rd_ext; [now rewrite zlen_set_nth, !zlen_map|]. intros lf' Hlf'.
        rewrite zlen_set_nth, zlen_map in Hlf'. destruct (rd_total (F r) lf' Hlf') as (f' & R').
        rewrite (rd_map _ _ _ _ R'), Hdn.
        destruct (Z.eq_dec lf' (lid r f)) as [->|Hne'].
        -- rewrite rd_set_nth_eq by (rewrite zlen_map; lia).
           assert (f' = f) by congruence; subst f'. rewrite Z.eqb_refl, orb_true_r, Oth, Z.eqb_refl. reflexivity.
        -- rewrite rd_set_nth_neq by lia. rewrite (rd_map _ _ _ _ R').
           rewrite (Hother f' lf' R' Hne'), orb_false_r. reflexivity.
    + rewrite wr_ok by (rewrite zlen_map; lia); cbn [bind]. eexists; split; [reflexivity|].
      rewrite (proj2 (Z.eqb_neq r (rkL m ep f)) (not_eq_sym El)) in Oth.
      f_equal.
      * apply rd_ext; [now rewrite zlen_set_nth, !zlen_map|]. intros lf' Hlf'.
        rewrite zlen_set_nth, zlen_map in Hlf'. destruct (rd_total (F r) lf' Hlf') as (f' & R').
        rewrite (rd_map _ _ _ _ R'), Hdn.
        destruct (Z.eq_dec lf' (lid r f)) as [->|Hne'].
        -- rewrite rd_set_nth_eq by (rewrite zlen_map; lia).
           assert (f' = f) by congruence; subst f'. rewrite Z.eqb_refl, orb_true_r, Oth, Z.eqb_refl. reflexivity.
        -- rewrite rd_set_nth_neq by lia. rewrite (rd_map _ _ _ _ R').
           rewrite (Hother f' lf' R' Hne'), orb_false_r. reflexivity.
      * apply map_ext_in. intros f' _. rewrite Hdn.
        destruct (Z.eqb_spec f f') as [<-|]; [|now rewrite orb_false_r].
        destruct Of as [Of|Of]; [congruence|]. rewrite <- Of.
        rewrite (proj2 (Z.eqb_neq r s)) by congruence. now rewrite !andb_false_r.
  - rewrite E. f_equal. unfold upd_state. rewrite (firstn_S_rd _ _ _ Hi). fold l0.
    assert (Hall : forall f, In f (F r) -> (rkL m ep f = s \/ rkR m ep f = s) -> dn ord f = true).
    { intros f HF Hk. apply filter_In in HF. destruct HF as [Hz Of]. unfold on_rank in Of.
      assert (Hg : In f G).
      { unfold G, between, ghosts_of. apply filter_In. split; [apply filter_In; split; [easy|]|].
        - unfold is_ghost. apply negb_true_iff, Z.eqb_neq. rewrite orb_true_iff, !Z.eqb_eq in Of. intuition congruence.
        - unfold joins_b. rewrite orb_true_iff, !andb_true_iff, !Z.eqb_eq.
          rewrite orb_true_iff, !Z.eqb_eq in Of. intuition congruence. }
      apply In_rd in Hg. destruct Hg as (j & Rj). unfold dn. apply existsb_exists. exists j.
      split; [|rewrite Rj; apply Z.eqb_refl]. unfold ord. apply order_In. eapply rd_in_range; eauto. }
    f_equal; apply map_ext_in; intros f HF; unfold upL, upR; rewrite existsb_app; cbn [existsb]; rewrite orb_false_r.
    + destruct (Z.eqb_spec (rkL m ep f) s) as [Ek|Ek].
      * rewrite (Hall f HF (or_introl Ek)), Ek, orb_true_r. reflexivity.
      * rewrite andb_false_r, orb_false_r. reflexivity.
    + destruct (Z.eqb_spec (rkR m ep f) s) as [Ek|Ek].
      * rewrite (Hall f HF (or_intror Ek)), Ek, orb_true_r. reflexivity.
      * rewrite andb_false_r, orb_false_r. reflexivity.
Qed.

Definition exch (S : Z -> fstate V) r := upd_state S r (nb r).

(** exch satisfies the specification. *)
Lemma exch_ok S : sized n pm S -> exchanged n m ep pm S (exch S).
Proof.
  intros HS.
  assert (Hfit : forall r, 0 <= r < n -> fits r (S r)).
  { intros r Hr. destruct (pmf r Hr) as (_ & _ & _ & _ & _ & _ & E). unfold fits. rewrite <- E. now apply HS. }
  split.
  - intros r Hr. destruct (pmf r Hr) as (_ & _ & _ & _ & _ & _ & E). rewrite E. split; apply zlen_map.
  - intros r lf f rL rR Hr R Hfr. destruct (pmf r Hr) as (_ & EF & _ & _ & _ & HN & _). rewrite EF in R.
    assert (HF : In f (F r)) by (eapply rd_In; eauto).
    pose proof (proj1 (face_ranks_rk m n ep Hm He f rL rR) Hfr) as (Hf & EL & ER).
    destruct (rk_range m n ep Hm He f Hf) as [HrL HrR].
    assert (InL : In f (F rL)).
    { apply filter_In. split; [now apply In_zseq|]. unfold on_rank. rewrite EL, Z.eqb_refl. reflexivity. }
    assert (InR : In f (F rR)).
    { apply filter_In. split; [now apply In_zseq|]. unfold on_rank. rewrite ER, Z.eqb_refl. apply orb_true_r. }
    assert (Hon : rL = r \/ rR = r).
    { apply filter_In in HF. destruct HF as [_ O]. unfold on_rank in O.
      rewrite orb_true_iff, !Z.eqb_eq in O. intuition congruence. }
    rewrite EL in HrL. rewrite ER in HrR.
    destruct (pmf rL HrL) as (_ & EFL & _). destruct (pmf rR HrR) as (_ & EFR & _).
    split.
    + exists (lid rL f), (valL (S rL) rL f). rewrite EFL.
      split; [now apply F_lookup|]. split; [now apply rd_val; auto|].
      unfold exch, upd_state; cbn. rewrite (rd_map _ _ _ _ R). f_equal. unfold upL. rewrite EL.
      destruct (existsb (Z.eqb rL) (nb r)) eqn:X.
      * unfold own. rewrite EL, Z.eqb_refl. reflexivity.
      * destruct (Z.eq_dec rL r) as [->|Hne]; [reflexivity|].
        assert (In rL (nb r)); [|apply existsb_Zeqb in H; congruence].
        apply HN. split; [easy|]. exists f. right. destruct Hon as [Hx|Hx]; [congruence|]. rewrite <- Hx. exact Hfr.
    + exists (lid rR f), (valR (S rR) rR f). rewrite EFR.
      split; [now apply F_lookup|]. split; [now apply rd_val; auto|].
      unfold exch, upd_state; cbn. rewrite (rd_map _ _ _ _ R). f_equal. unfold upR. rewrite ER.
      destruct (existsb (Z.eqb rR) (nb r)) eqn:X.
      * unfold own. destruct (Z.eqb_spec (rkL m ep f) rR) as [Eq|]; [|reflexivity].
        exfalso. apply existsb_Zeqb in X. destruct (nb_facts r Hr) as (_ & Hnr & _).
        apply Hnr. destruct Hon as [H|H]; congruence.
      * destruct (Z.eq_dec rR r) as [->|Hne]; [reflexivity|].
        assert (In rR (nb r)); [|apply existsb_Zeqb in H; congruence].
        apply HN. split; [easy|]. exists f. left. destruct Hon as [Hx|Hx]; [|congruence]. rewrite <- Hx. exact Hfr.
Qed.

Fixpoint hist (s0 : Z -> fstate V) (k : nat) : Z -> fstate V :=
  match k with
  | O => s0
  | S k => fun r => c_compute c k r (exch (hist s0 k) r)
  end.

Lemma hist_sized s0 k : sized n pm s0 -> sized n pm (hist s0 k).
Proof.
  intros H; induction k; [easy|]. cbn. apply (cw_compute _ _ _ _ _ CW).
  apply (exch_ok _ IHk).
Qed.

End Run.
