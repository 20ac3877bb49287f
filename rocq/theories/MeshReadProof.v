(** MeshReadProof.v -- proofs about read_faces, read_bgroups, read_coords, read_eptr. *)
From Coq Require Import ZArith List Lia Bool Permutation Sorted.
From Verif Require Import Base MeshModel MeshSpec MeshProof.
Import ListNotations.
Local Open Scope Z_scope.
Open Scope res_scope.

Lemma firstn_set_nth (row l : list Z) c v :
  zlen l = c -> firstn (Z.to_nat c) row = l -> 0 <= c < zlen row ->
  firstn (Z.to_nat (c + 1)) (set_nth row (Z.to_nat c) v) = l ++ [v].
Proof.
  intros Hl Hf Hc.
  replace (Z.to_nat (c + 1)) with (S (Z.to_nat c)) by lia.
  assert (Hk : (Z.to_nat c < length row)%nat) by (unfold zlen in Hc; lia).
  revert Hf Hk. generalize (Z.to_nat c) as k. clear. intros k; revert l row.
  induction k as [|k IH]; intros l [|x row] Hf Hk; simpl in *; try lia; subst l; [reflexivity|].
  simpl; f_equal. apply IH; [reflexivity|lia].
Qed.

Lemma firstn_set_nth_ge (row : list Z) k c v :
  (k <= c)%nat -> firstn k (set_nth row c v) = firstn k row.
Proof.
  revert k c; induction row as [|x row IH]; intros k c H; [now destruct k|].
  destruct k; [reflexivity|]. destruct c; [lia|]. simpl; f_equal; apply IH; lia.
Qed.

(** The reverse table [t] with counters [cnt] records the lists [L e]. *)
Definition records (ne : Z) (t : list (list Z)) (cnt : list Z) (L : Z -> list Z) : Prop :=
  zlen t = ne /\ zlen cnt = ne /\
  forall e, 0 <= e < ne -> exists row, rd t e = Ok row /\ zlen row = 6 /\
     rd cnt e = Ok (zlen (L e)) /\ firstn (Z.to_nat (zlen (L e))) row = L e.

Lemma records_init ne : 0 <= ne -> records ne (vec ne (vec 6 0)) (vec ne 0) (fun _ => []).
Proof.
  intros H; repeat split; try (now apply zlen_vec).
  intros e He. exists (vec 6 0). rewrite (rd_nth []) by (rewrite zlen_vec; lia).
  rewrite (rd_nth 0) by (rewrite zlen_vec; lia).
  unfold vec. rewrite nth_repeat. split.
  - f_equal. erewrite nth_indep by (rewrite repeat_length; lia). apply nth_repeat.
  - repeat split.
Qed.

Lemma records_push ne t cnt L a v :
  records ne t cnt L -> 0 <= a < ne -> zlen (L a) < 6 ->
  exists t', wr2 t a (zlen (L a)) v = Ok t' /\
    records ne t' (set_nth cnt (Z.to_nat a) (zlen (L a) + 1))
      (fun e => if e =? a then L a ++ [v] else L e) /\
    rd cnt a = Ok (zlen (L a)).
Proof.
  intros (L1 & L2 & R) Ha H6. destruct (R a Ha) as (row & Rt & Lr & Rc & Hf).
  unfold wr2; rewrite Rt; cbn [bind]. pose proof (zlen_nonneg (L a)).
  rewrite wr_ok by lia; cbn [bind]. rewrite wr_ok by lia. eexists; split; [reflexivity|].
  split; [|easy]. unfold records. rewrite !zlen_set_nth. split; [easy|]; split; [easy|].
  intros e He. destruct (Z.eqb_spec e a) as [->|Hne].
  - rewrite !rd_set_nth_eq by lia. eexists; split; [reflexivity|]. rewrite zlen_set_nth.
    split; [easy|]. rewrite zlen_app. change (zlen [v]) with 1. split; [easy|].
    apply firstn_set_nth; auto; lia.
  - rewrite !rd_set_nth_neq by lia. apply R; easy.
Qed.

Lemma records_ext ne t cnt L L' :
  (forall e, 0 <= e < ne -> L e = L' e) -> records ne t cnt L -> records ne t cnt L'.
Proof.
  intros H (L1 & L2 & R); repeat split; auto.
  intros e He; rewrite <- (H e He); auto.
Qed.

Definition fsel (buff : list Z) e i :=
  match rd buff (6 * i), rd buff (6 * i + 3) with
  | Ok a, Ok b => (a =? e) || (b =? e)
  | _, _ => false
  end.

Lemma read_faces_ok ne nIF buff :
  face_file_wf ne nIF buff -> no_self_face nIF buff ->
  exists IF t cnt, read_faces ne nIF buff = Ok (IF, t, cnt) /\
    zlen IF = nIF /\
    (forall i, 0 <= i < nIF -> exists a b c d e f, rd IF i = Ok [a; b; c; d; e; f] /\
        rd buff (6 * i) = Ok a /\ rd buff (6 * i + 1) = Ok b /\ rd buff (6 * i + 2) = Ok c /\
        rd buff (6 * i + 3) = Ok d /\ rd buff (6 * i + 4) = Ok e /\ rd buff (6 * i + 5) = Ok f) /\
    records ne t cnt (faces_of_elem nIF buff).
Proof.
  intros [Hne Hnif Hlen Hel Hsix] Hns.
  destruct (zfor_inv (fun i (st : face_read_state) => let '(IF, t, cnt) := st in
    zlen IF = nIF /\
    (forall k, 0 <= k < i -> exists a b c d e f, rd IF k = Ok [a; b; c; d; e; f] /\
        rd buff (6 * k) = Ok a /\ rd buff (6 * k + 1) = Ok b /\ rd buff (6 * k + 2) = Ok c /\
        rd buff (6 * k + 3) = Ok d /\ rd buff (6 * k + 4) = Ok e /\ rd buff (6 * k + 5) = Ok f) /\
    records ne t cnt (fun e => filter (fsel buff e) (zseq i)))
    nIF (read_face_step buff) (vec nIF [], vec ne (vec 6 0), vec ne 0))
    as ([[IF t] cnt] & E & L & R & HR).
  - easy.
  - split; [now apply zlen_vec|]. split; [intros k Hk; lia|]. now apply records_init.
  - intros i [[IF t] cnt] Hi (L & R & HR).
    assert (Hrd : forall k, 0 <= k < 6 -> exists v, rd buff (6 * i + k) = Ok v).
    { intros k Hk. apply rd_total; lia. }
    destruct (Hrd 1) as (b1 & R1); [lia|]. destruct (Hrd 2) as (b2 & R2); [lia|].
    destruct (Hrd 4) as (b4 & R4); [lia|]. destruct (Hrd 5) as (b5 & R5); [lia|].
    destruct (Hel i 0 Hi (or_introl eq_refl)) as (a & Ra & Ha).
    destruct (Hel i 3 Hi (or_intror eq_refl)) as (d & Rd & Hd).
    assert (Hne' : a <> d) by (eapply Hns; eauto).
    unfold file_side in *.
    assert (Ra' : rd buff (6 * i) = Ok a) by (now rewrite Z.add_0_r in Ra).
    assert (Hsel : forall e, fsel buff e i = (a =? e) || (d =? e)).
    { intros e; unfold fsel; now rewrite Ra', Rd. }
    set (Lf := fun e => filter (fsel buff e) (zseq i)) in *.
    assert (H6 : forall e, 0 <= e < ne -> fsel buff e i = true -> zlen (Lf e) < 6).
    { intros e He Hs. pose proof (Hsix e He).
      pose proof (filter_zseq_len (fsel buff e) i nIF Hi Hs).
      unfold Lf, faces_of_elem in *. fold (fsel buff e) in H. change (fun i0 => fsel buff e i0) with (fsel buff e) in *.
      unfold fsel in *. lia. }
    unfold read_face_step. rewrite Ra, R1, R2, Rd, R4, R5; cbn [bind].
    rewrite wr_ok by lia; cbn [bind].
    destruct (records_push ne t cnt Lf a i HR Ha) as (t1 & W1 & HR1 & Rc1).
    { apply H6; [easy|]. rewrite Hsel, Z.eqb_refl; reflexivity. }
    rewrite Rc1; cbn [bind]. rewrite W1; cbn [bind].
    destruct HR as (L1 & L2 & HR). destruct (HR d Hd) as (rowd & _ & _ & Rcd & _).
    rewrite Rcd; cbn [bind].
    destruct (records_push ne t1 _ _ d i HR1 Hd) as (t2 & W2 & HR2 & Rc2).
    { rewrite (proj2 (Z.eqb_neq d a)) by congruence.
      apply H6; [easy|]. rewrite Hsel, Z.eqb_refl; apply orb_true_r. }
    rewrite (proj2 (Z.eqb_neq d a)) in W2, Rc2, HR2 by congruence.
    rewrite W2; cbn [bind]. rewrite wr_ok by lia; cbn [bind]. rewrite Rc2; cbn [bind].
    rewrite wr_ok by (rewrite zlen_set_nth; lia); cbn [bind].
    eexists; split; [reflexivity|]. cbv beta iota. rewrite zlen_set_nth. split; [easy|]. split.
    + intros k Hk. destruct (Z.eq_dec k i) as [->|Hki].
      * exists a, b1, b2, d, b4, b5. rewrite rd_set_nth_eq by lia. repeat split; easy.
      * rewrite rd_set_nth_neq by lia. apply R; lia.
    + eapply records_ext; [|exact HR2]. intros e He. cbv beta. unfold Lf.
      rewrite zseq_S, filter_app_one by lia. rewrite Hsel.
      rewrite !(Z.eqb_sym e).
      destruct (Z.eqb_spec a e) as [->|]; destruct (Z.eqb_spec d e) as [->|]; cbn [orb];
        try congruence.
      * now rewrite app_nil_r.
  - exists IF, t, cnt. split; [exact E|]. split; [easy|]. split; [easy|]. exact HR.
Qed.

(** * Boundary groups *)

Definition bsel (rows : list (list Z)) e k :=
  match rd rows k with Ok (a :: _) => a =? e | _ => false end.

Lemma rd_app1 {B} (l l' : list B) i : i < zlen l -> rd (l ++ l') i = rd l i.
Proof.
  intros H; unfold rd. destruct (Z.ltb_spec i 0); [easy|].
  rewrite nth_error_app1 by (unfold zlen in H; lia). reflexivity.
Qed.

Lemma bfaces_app rows a b c e :
  bfaces_of_elem (rows ++ [[a; b; c]]) e
  = bfaces_of_elem rows e ++ if a =? e then [zlen rows] else [].
Proof.
  unfold bfaces_of_elem. rewrite zlen_app. change (zlen [[a; b; c]]) with 1.
  rewrite zseq_S, filter_app_one by apply zlen_nonneg. rewrite rd_mid. f_equal.
  apply filter_ext_in. intros k Hk; apply In_zseq in Hk. now rewrite rd_app1 by lia.
Qed.

Lemma bfaces_mono rows more e : zlen (bfaces_of_elem rows e) <= zlen (bfaces_of_elem (rows ++ more) e).
Proof.
  unfold bfaces_of_elem. rewrite zlen_app.
  assert (G : exists l, zseq (zlen rows + zlen more) = zseq (zlen rows) ++ l).
  { exists (map Z.of_nat (seq (length rows) (length more))).
    unfold zseq, zlen; rewrite <- map_app. f_equal.
    replace (Z.to_nat (Z.of_nat (length rows) + Z.of_nat (length more))) with (length rows + length more)%nat by lia.
    rewrite Nat2Z.id. now rewrite seq_app. }
  destruct G as [l ->]. rewrite filter_app, zlen_app.
  rewrite (filter_ext_in (fun k => match rd (rows ++ more) k with Ok (a :: _) => a =? e | _ => false end)
    (fun k => match rd rows k with Ok (a :: _) => a =? e | _ => false end) (zseq (zlen rows)))
    by (intros k Hk; apply In_zseq in Hk; rewrite (rd_app1 rows more) by lia; reflexivity).
  match goal with |- context [?x + zlen ?l] => pose proof (zlen_nonneg l) end. lia.
Qed.

(** One group. *)
Lemma read_group_ok ne g all0 t cnt final :
  bgroup_wf ne g ->
  records ne t cnt (bfaces_of_elem all0) ->
  (forall rows, bgroup_rows g rows -> exists more, final = (all0 ++ rows) ++ more) ->
  (forall e, 0 <= e < ne -> zlen (bfaces_of_elem final e) <= 6) ->
  exists rows t' cnt',
    zfor (fst g) (read_bface_step (snd g)) ([], (t, cnt, zlen all0))
      = Ok (rows, (t', cnt', zlen (all0 ++ rows))) /\
    bgroup_rows g rows /\ records ne t' cnt' (bfaces_of_elem (all0 ++ rows)).
Proof.
  intros (Hn & Hlen & Hel) HR Hfin H6. destruct g as [n buff]; cbn [fst snd] in *.
  assert (Hrd : forall i k, 0 <= i < n -> 0 <= k < 3 -> exists v, rd buff (3 * i + k) = Ok v).
  { intros; apply rd_total; lia. }
  (* the rows are determined *)
  set (d := fun i => nth (Z.to_nat i) buff 0).
  set (mk := fun i => [d (3 * i); d (3 * i + 1); d (3 * i + 2)]).
  assert (Hd : forall i k, 0 <= i < n -> 0 <= k < 3 -> rd buff (3 * i + k) = Ok (d (3 * i + k))).
  { intros i k Hi Hk; apply rd_nth; lia. }
  assert (HG : bgroup_rows (n, buff) (map mk (zseq n))).
  { split; cbn [fst snd]; [rewrite zlen_map, zlen_zseq; easy|].
    intros i Hi. exists (d (3 * i)), (d (3 * i + 1)), (d (3 * i + 2)).
    split. { apply (rd_map mk). apply rd_Ok; split; [lia|]. now apply nth_error_zseq. }
    split. { rewrite <- (Z.add_0_r (3 * i)). apply Hd; lia. }
    split; apply Hd; lia. }
  destruct (Hfin _ HG) as (more & Ef).
  destruct (zfor_inv (fun i (st : list (list Z) * bface_state) => let '(rows, (t, cnt, ib)) := st in
     rows = map mk (zseq i) /\ ib = zlen (all0 ++ rows) /\
     records ne t cnt (bfaces_of_elem (all0 ++ rows)))
     n (read_bface_step buff) ([], (t, cnt, zlen all0))) as ([rows [[t' cnt'] ib]] & E & -> & -> & HR').
  - easy.
  - split; [reflexivity|]. rewrite app_nil_r. split; [reflexivity|easy].
  - intros i [rows [[t1 c1] ib]] Hi (-> & -> & HR1).
    unfold read_bface_step. rewrite !Hd by lia; cbn [bind]. rewrite Z.add_0_r.
    destruct (Hel i Hi) as (a & Ra & Ha).
    assert (Ea : d (3 * i) = a).
    { pose proof (Hd i 0 Hi ltac:(lia)) as X; rewrite Z.add_0_r in X; congruence. }
    set (rows := map mk (zseq i)) in *.
    destruct (records_push ne t1 c1 _ a (zlen (all0 ++ rows)) HR1 Ha) as (t2 & W & HR2 & Rc).
    { assert (exists more', final = ((all0 ++ rows) ++ [mk i]) ++ more').
      { assert (G : exists l, zseq n = (zseq i ++ [i]) ++ l).
        { rewrite <- zseq_S by lia.
          exists (map Z.of_nat (seq (Z.to_nat (i + 1)) (Z.to_nat (n - (i + 1))))).
          unfold zseq; rewrite <- map_app, <- seq_app. f_equal; f_equal; lia. }
        destruct G as [l G]. exists (map mk l ++ more). rewrite Ef, G, !map_app.
        change (map mk [i]) with [mk i]. fold rows. now rewrite <- !app_assoc. }
      destruct H as (more' & Ef').
      pose proof (bfaces_mono ((all0 ++ rows) ++ [mk i]) more' a) as M. rewrite <- Ef' in M.
      pose proof (H6 a Ha). unfold mk in M. rewrite bfaces_app, Ea, Z.eqb_refl, zlen_app in M.
      change (zlen [zlen (all0 ++ rows)]) with 1 in M. lia. }
    rewrite Ea, Rc; cbn [bind]. rewrite W; cbn [bind].
    destruct HR1 as (L1 & L2 & _). rewrite wr_ok by lia; cbn [bind].
    eexists; split; [reflexivity|]. cbv beta iota.
    assert (Er : map mk (zseq (i + 1)) = rows ++ [mk i]) by (rewrite zseq_S, map_app by lia; reflexivity).
    assert (Em : [a; d (3 * i + 1); d (3 * i + 2)] = mk i) by (unfold mk; now rewrite Ea).
    rewrite Em, Er. split; [easy|]. rewrite app_assoc.
    split; [rewrite (zlen_app (all0 ++ rows)); reflexivity|]. eapply records_ext; [|exact HR2].
    intros e He. unfold mk. rewrite bfaces_app, Ea. rewrite (Z.eqb_sym e).
    destruct (Z.eqb_spec a e) as [->|]; [reflexivity | now rewrite app_nil_r].
  - exists (map mk (zseq n)), t', cnt'. split; [exact E|]. split; [exact HG|exact HR'].
Qed.

Lemma bgroup_rows_inj g r1 r2 : bgroup_rows g r1 -> bgroup_rows g r2 -> r1 = r2.
Proof.
  intros [L1 R1] [L2 R2]. apply rd_ext; [congruence|]. intros i Hi. rewrite L1 in Hi.
  destruct (R1 i Hi) as (a & b & c & E & Ea & Eb & Ec).
  destruct (R2 i Hi) as (a' & b' & c' & E' & Ea' & Eb' & Ec'). congruence.
Qed.

Lemma sumZ_app l l' : sumZ (l ++ l') = sumZ l + sumZ l'.
Proof. unfold sumZ; induction l; simpl; lia. Qed.

Lemma read_bgroups_ok ne groups datas :
  0 <= ne -> Forall (bgroup_wf ne) groups -> Forall2 bgroup_rows groups datas ->
  (forall e, 0 <= e < ne -> zlen (bfaces_of_elem (concat datas) e) <= 6) ->
  exists t cnt,
    read_bgroups ne groups = Ok (datas, (t, cnt, zlen (concat datas)), sumZ (map fst groups)) /\
    records ne t cnt (bfaces_of_elem (concat datas)).
Proof.
  intros Hne Hwf HF H6. unfold read_bgroups.
  assert (G : forall gs ds ds0 t cnt n0,
     Forall (bgroup_wf ne) gs -> Forall2 bgroup_rows gs ds -> ds0 ++ ds = datas ->
     records ne t cnt (bfaces_of_elem (concat ds0)) ->
     exists t' cnt',
      foreach gs
        (fun '(n, buff) '(datas, bst, nBF) =>
         ' (rows, bst') <- zfor n (read_bface_step buff) ([], bst);;
         Ok (datas ++ [rows], bst', nBF + n)) (ds0, (t, cnt, zlen (concat ds0)), n0)
      = Ok (datas, (t', cnt', zlen (concat datas)), n0 + sumZ (map fst gs)) /\
      records ne t' cnt' (bfaces_of_elem (concat datas))).
  { induction gs as [|g gs IH]; intros ds ds0 t cnt n0 W F2 Ed HR.
    - inversion F2; subst ds. rewrite app_nil_r in Ed; subst ds0. exists t, cnt.
      simpl. rewrite Z.add_0_r. split; [reflexivity|easy].
    - inversion F2 as [|? rows ? ds' Hg F2']; subst ds; rename ds' into ds.
      inversion W as [|? ? Wg W']; subst.
      destruct (read_group_ok ne g (concat ds0) t cnt (concat (ds0 ++ rows :: ds)) Wg HR)
        as (rows' & t' & cnt' & E & Hrows & HR').
      { intros r' Hr'. rewrite (bgroup_rows_inj _ _ _ Hr' Hg).
        exists (concat ds). rewrite concat_app; simpl. now rewrite app_assoc. }
      { intros e He; apply H6; easy. }
      rewrite (bgroup_rows_inj _ _ _ Hrows Hg) in *.
      destruct g as [n buff]; cbn [fst snd] in *; cbn [foreach map fst]; cbv beta iota; unfold bface_state in *; rewrite E; cbn [bind].
      destruct (IH ds (ds0 ++ [rows]) t' cnt' (n0 + n) W' F2') as (t2 & c2 & E2 & HR2).
      + now rewrite <- app_assoc.
      + rewrite concat_app; simpl. now rewrite app_nil_r.
      + exists t2, c2. rewrite concat_app in E2; simpl in E2. rewrite app_nil_r in E2.
        rewrite E2. split; [|easy]. f_equal. f_equal. unfold sumZ; simpl; lia. }
  destruct (G groups datas [] (vec ne (vec 6 0)) (vec ne 0) 0 Hwf HF eq_refl) as (t & cnt & E & HR).
  - eapply records_ext; [|now apply records_init]. intros; reflexivity.
  - exists t, cnt. split; [exact E|easy].
Qed.

Lemma bgroup_rows_exist ne groups :
  Forall (bgroup_wf ne) groups -> exists datas, Forall2 bgroup_rows groups datas.
Proof.
  induction 1 as [|g gs (Hn & Hlen & Hel) _ (ds & IH)]; [exists []; constructor|].
  destruct g as [n buff]; cbn [fst snd] in *.
  set (d := fun i => nth (Z.to_nat i) buff 0).
  exists (map (fun i => [d (3 * i); d (3 * i + 1); d (3 * i + 2)]) (zseq n) :: ds).
  constructor; [|easy]. split; cbn [fst snd]; [rewrite zlen_map, zlen_zseq; easy|].
  intros i Hi. exists (d (3 * i)), (d (3 * i + 1)), (d (3 * i + 2)).
  split. { apply (rd_map (fun i => [d (3 * i); d (3 * i + 1); d (3 * i + 2)])).
           apply rd_Ok; split; [lia|]. now apply nth_error_zseq. }
  repeat split; apply rd_nth; lia.
Qed.
