(** IOProof3.v -- lemmas about the serialisation of a solution. *)
From Coq Require Import ZArith List Lia Bool Permutation.
From Verif Require Import Base MeshModel MeshSpec MeshProof MeshReadProof MeshProof2 PropMesh IOModel IOProof IOProof2.
Import ListNotations.
Local Open Scope Z_scope.
Open Scope res_scope.

Lemma int32_small z : 0 <= z < 2 ^ 31 -> int32 z = z.
Proof. intros H. unfold int32. rewrite Z.mod_small; lia. Qed.
Lemma u32_small z : 0 <= z < 2 ^ 32 -> u32 z = z.
Proof. intros H. unfold u32. now rewrite Z.mod_small. Qed.

(** What populate gives on all ranks. *)
Definition loaded {B} (rs : list (rset B)) (bs : list (block B)) : Prop :=
  zlen rs = zlen bs /\
  forall r b, rd bs r = Ok b -> exists x, rd rs r = Ok x /\
    rs_data x = b_data b /\ rs_dims x = b_dims b /\ rs_total x = zlen (concat (map b_data bs)) /\
    (r = 0 -> zlen (rs_offsets x) = zlen bs /\
       (forall s, 0 <= s < zlen bs -> rd (rs_offsets x) s = Ok (pre (map b_data bs) s)) /\
       (forall s l, rd (map b_data bs) s = Ok l -> rd (rs_sizes x) s = Ok (zlen l))).

Lemma populate_ok {B} (f : pdataset B) bs nd : stored f bs nd -> zlen (pd_data f) < 2 ^ 31 ->
  exists rs, mapM (populate (zlen bs) f) (zseq (zlen bs)) = Ok rs /\ loaded rs bs.
Proof.
  intros St Hbig. pose proof St as (S1 & S2 & S0 & S3 & S4 & S5 & S6 & S7 & S8 & S9).
  set (L := map b_data bs) in *. assert (HL : zlen L = zlen bs) by apply zlen_map.
  assert (G : forall r b, rd bs r = Ok b -> exists x, populate (zlen bs) f r = Ok x /\
    rs_data x = b_data b /\ rs_dims x = b_dims b /\ rs_total x = zlen (concat L) /\
    (r = 0 -> zlen (rs_offsets x) = zlen bs /\
       (forall s, 0 <= s < zlen bs -> rd (rs_offsets x) s = Ok (pre L s)) /\
       (forall s l, rd L s = Ok l -> rd (rs_sizes x) s = Ok (zlen l)))).
  { intros r b R. unfold populate. rewrite (stored_read f bs nd r b St R). cbn [bind].
    assert (Et : pd_totalSize f = zlen (concat L)) by congruence.
    destruct (Z.eqb_spec r 0) as [->|Hne]; [|eexists; split; [reflexivity|]; cbn; repeat split; auto; congruence].
    rewrite S8.
    assert (Hsz : forall s l, rd L s = Ok l -> 0 <= zlen l < 2 ^ 31).
    { intros s l Rl. pose proof (pre_end _ _ _ Rl). pose proof (pre_nonneg L s). pose proof (zlen_nonneg l).
      rewrite S3 in Hbig. fold L in Hbig. lia. }
    destruct (zfor_inv (fun c sz => zlen sz = zlen bs /\ forall s l, 0 <= s < c -> rd L s = Ok l -> rd sz s = Ok (zlen l))
      (zlen bs - 1) (fun i sz => a <- rd (pd_offsets f) i ;; b <- rd (pd_offsets f) (i + 1) ;; wr sz i (int32 (b - a)))
      (vec (zlen bs) 0)) as (sz & E & Hl & Hs).
    - lia.
    - split; [apply zlen_vec; lia|]. intros; lia.
    - intros i sz Hi (Hl & Hs). rewrite (S9 i) by lia. cbn [bind]. rewrite (S9 (i + 1)) by lia. cbn [bind].
      destruct (rd_total L i) as [li Rl]; [lia|]. rewrite (pre_S _ _ _ Rl).
      replace (pre L i + zlen li - pre L i) with (zlen li) by lia. rewrite int32_small by (eapply Hsz; eauto).
      rewrite wr_ok by lia. eexists; split; [reflexivity|]. split; [now rewrite zlen_set_nth|].
      intros s l Hsi Rs. destruct (Z.eq_dec s i) as [->|Hne].
      + rewrite rd_set_nth_eq by lia. congruence.
      + rewrite rd_set_nth_neq by lia. apply Hs; auto; lia.
    - rewrite E. cbn [bind]. rewrite (S9 (zlen bs - 1)) by lia. cbn [bind].
      destruct (rd_total L (zlen bs - 1)) as [ll Rl]; [lia|].
      assert (Elast : pd_totalSize f - pre L (zlen bs - 1) = zlen ll).
      { pose proof (pre_S _ _ _ Rl) as Q. replace (zlen bs - 1 + 1) with (zlen L) in Q by lia. rewrite pre_all in Q. lia. }
      fold L. rewrite Elast, int32_small by (eapply Hsz; eauto).
      rewrite wr_ok by lia. cbn [bind]. eexists; split; [reflexivity|]. cbn. repeat split; auto.
      intros s l Rs. pose proof (rd_in_range _ _ _ Rs). destruct (Z.eq_dec s (zlen bs - 1)) as [->|Hne].
      + rewrite rd_set_nth_eq by lia. congruence.
      + rewrite rd_set_nth_neq by lia. apply Hs; auto; lia. }
  destruct (mapM_total (populate (zlen bs) f) (zseq (zlen bs))) as [rs E].
  { intros r Hr. apply In_zseq in Hr. destruct (rd_total bs r Hr) as [b R]. destruct (G r b R) as (x & Ex & _). eauto. }
  exists rs. split; [auto|]. destruct (mapM_Ok_inv _ _ _ E) as [Hl Hi].
  rewrite zlen_zseq in Hl by lia. split; [auto|]. intros r b R.
  pose proof (rd_in_range _ _ _ R). destruct (G r b R) as (x & Ex & Sx).
  exists x. split; [|exact Sx].
  destruct (Hi r r) as (y & E1 & E2); [apply rd_Ok; split; [lia|apply nth_error_zseq; lia]|]. congruence.
Qed.

(** Gathering the ranks' data [L] (the same lengths as the stored blocks). *)
Lemma pre_lens {B C} (L : list (list B)) (M : list (list C)) r : map zlen L = map zlen M -> pre L r = pre M r.
Proof. intros H. unfold pre. rewrite <- !sumZ_lens, <- !firstn_map, H. reflexivity. Qed.

Lemma serialize_ok {B} (zero : B) order (rs : list (rset B)) (L : list (list B)) h d0 t D0 :
  Permutation order (zseq (zlen L)) -> map rs_data rs = L -> rd rs 0 = Ok h ->
  rs_total h = zlen (concat L) -> zlen (concat L) < 2 ^ 31 ->
  (forall s, 0 <= s < zlen L -> rd (rs_offsets h) s = Ok (pre L s)) ->
  (forall s l, rd L s = Ok l -> rd (rs_sizes h) s = Ok (zlen l)) ->
  rs_dims h = d0 :: t ->
  foreach t (fun d acc => if d =? 0 then Fail BadArith else Ok (acc / d)) (zlen (concat L)) = Ok D0 ->
  serialize_dataset zero order rs = Ok (mkRS (concat L) (D0 :: t) (zlen (concat L)) [0] [zlen (concat L)]).
Proof.
  intros HP HL R0 Et Hbig Hoff Hsz Hd HD. unfold serialize_dataset. rewrite R0. cbn [bind]. unfold gatherv.
  rewrite (place_all L); auto.
  - cbn [bind]. rewrite Hd, Et, HD. cbn [bind]. rewrite int32_small; [reflexivity|]. pose proof (zlen_nonneg (concat L)). lia.
  - intros r l b R. rewrite HL, R. cbn [bind]. rewrite (Hsz r l R). cbn [bind].
    pose proof (pre_nonneg L r). pose proof (pre_end _ _ _ R). pose proof (zlen_nonneg l).
    assert (Ro : rd (map int32 (rs_offsets h)) r = Ok (pre L r)).
    { rewrite (rd_map int32 _ _ _ (Hoff r ltac:(apply rd_in_range in R; lia))). rewrite int32_small by lia. reflexivity. }
    rewrite Ro. cbn [bind]. rewrite Z.eqb_refl. destruct (Z.leb_spec 0 (pre L r)); [reflexivity|lia].
  - rewrite Et. apply zlen_vec. apply zlen_nonneg.
Qed.

(** ** Rows moved to a new place *)
Lemma copy_row_spec {B} w (src : list B) i index dst :
  0 <= w -> 0 <= i -> (i + 1) * w <= zlen src -> 0 <= index -> (index + 1) * w <= zlen dst ->
  exists d, copy_row w src i index dst = Ok d /\ zlen d = zlen dst /\
    (forall k, 0 <= k < w -> rd d (index * w + k) = rd src (i * w + k)) /\
    (forall x k, x <> index -> 0 <= k < w -> rd d (x * w + k) = rd dst (x * w + k)).
Proof.
  intros Hw Hi Hs Hx Hd. unfold copy_row.
  destruct (zfor_inv (fun c d => zlen d = zlen dst /\
     (forall k, 0 <= k < c -> rd d (index * w + k) = rd src (i * w + k)) /\
     (forall x k, x <> index -> 0 <= k < w -> rd d (x * w + k) = rd dst (x * w + k)))
     w (fun k d => v <- rd src (i * w + k) ;; wr d (index * w + k) v) dst) as (d & E & H); auto.
  - repeat split; auto. intros; lia.
  - intros k d Hk (Hl & H1 & H2). destruct (rd_total src (i * w + k)) as [v Ev]; [nia|].
    rewrite Ev. cbn [bind]. rewrite wr_ok by nia. eexists; split; [reflexivity|].
    split; [now rewrite zlen_set_nth|]. split.
    + intros k' Hk'. destruct (Z.eq_dec k' k) as [->|Hne].
      * rewrite rd_set_nth_eq by nia. auto.
      * rewrite rd_set_nth_neq by nia. apply H1. lia.
    + intros x k' Hne Hk'. rewrite rd_set_nth_neq; [now apply H2|nia|].
      intros E0. apply Hne. assert (Y : (index - x) * w = k' - k) by lia.
      destruct (Z_lt_dec x index); [nia|]. destruct (Z_lt_dec index x); nia.
  - exists d. auto.
Qed.

Lemma sort_elements_ok {B} (ids : list Z) (en : list Z) (uc : list B) te tu to ho to' ho' to'' ho'' dg we u1 u2 N N1 N2 :
  zlen ids = N -> N < 2 ^ 32 -> Permutation ids (zseq N) -> 0 <= we -> 0 <= u1 -> 0 <= u2 ->
  zlen en = N * we -> zlen uc = N * (u1 * u2) ->
  exists en' uc', sort_elements (mkRS ids dg te to ho) (mkRS en [N1; we] tu to' ho')
      (mkRS uc [N2; u1; u2] te to'' ho'') = Ok (zseq N, en', uc') /\
    zlen en' = zlen en /\ zlen uc' = zlen uc /\
    forall i g, rd ids i = Ok g ->
      (forall k, 0 <= k < we -> rd en' (g * we + k) = rd en (i * we + k)) /\
      (forall k, 0 <= k < u1 * u2 -> rd uc' (g * (u1 * u2) + k) = rd uc (i * (u1 * u2) + k)).
Proof.
  intros HN HN32 HP Hwe Hu1 Hu2 Hen Huc. unfold sort_elements. cbn [rs_dims rs_data].
  change (rd [N1; we] 1) with (@Ok Z we). change (rd [N2; u1; u2] 1) with (@Ok Z u1). change (rd [N2; u1; u2] 2) with (@Ok Z u2).
  cbn [bind]. rewrite HN. set (wu := u1 * u2) in *. assert (Hwu : 0 <= wu) by (subst wu; nia).
  assert (Hg : forall i g, rd ids i = Ok g -> 0 <= g < N).
  { intros i g R. apply In_zseq. eapply Permutation_in; [exact HP|]. eapply rd_In; eauto. }
  assert (Hinj : forall i i' g, rd ids i = Ok g -> rd ids i' = Ok g -> i = i').
  { intros i i' g R R'. apply (rd_NoDup_inj ids i i' g); auto.
    apply Permutation_NoDup with (zseq N); [now symmetry|]. apply NoDup_zseq. }
  destruct (zfor_inv (fun c (s : list Z * list Z * list B) => let '(a, e, u) := s in
     zlen a = N /\ zlen e = zlen en /\ zlen u = zlen uc /\
     (forall i, 0 <= i < c -> rd a i = Ok i) /\ (forall i, c <= i -> rd a i = rd ids i) /\
     forall i g, rd ids i = Ok g -> i < c ->
      (forall k, 0 <= k < we -> rd e (g * we + k) = rd en (i * we + k)) /\
      (forall k, 0 <= k < wu -> rd u (g * wu + k) = rd uc (i * wu + k)))
   N (fun i s => let '(ids0, en0, uc0) := s in
      index <- rd ids0 i ;; ids1 <- wr ids0 i (u32 i) ;;
      en1 <- copy_row we en i index en0 ;; uc1 <- copy_row wu uc i index uc0 ;; Ok (ids1, en1, uc1))
   (ids, en, uc)) as ([[a e] u] & E & H1 & H2 & H3 & H4 & H5 & H6).
  - rewrite <- HN. apply zlen_nonneg.
  - repeat split; auto; intros; try lia; match goal with R : rd _ _ = Ok _ |- _ => apply rd_in_range in R; lia end.
  - intros i [[a e] u] Hi (H1 & H2 & H3 & H4 & H5 & H6).
    destruct (rd_total ids i) as [g Rg]; [lia|]. pose proof (Hg i g Rg) as Gr.
    rewrite (H5 i) by lia. rewrite Rg. cbn [bind]. rewrite wr_ok by lia. cbn [bind]. rewrite u32_small by lia.
    destruct (copy_row_spec we en i g e) as (e' & Ee & Le & Ce & De); try nia.
    rewrite Ee. cbn [bind].
    destruct (copy_row_spec wu uc i g u) as (u' & Eu & Lu & Cu & Du); try nia.
    rewrite Eu. cbn [bind]. eexists; split; [reflexivity|]. cbv beta iota.
    split; [now rewrite zlen_set_nth|]. split; [lia|]. split; [lia|]. split; [|split].
    + intros i' Hi'. destruct (Z.eq_dec i' i) as [->|Hne].
      * apply rd_set_nth_eq; lia.
      * rewrite rd_set_nth_neq by lia. apply H4; lia.
    + intros i' Hi'. rewrite rd_set_nth_neq by lia. apply H5; lia.
    + intros i' g' Rg' Hlt. destruct (Z.eq_dec g' g) as [->|Hne].
      * assert (i' = i) by (eapply Hinj; eauto). subst i'. auto.
      * assert (i' <> i) by congruence. destruct (H6 i' g' Rg' ltac:(lia)) as [Q1 Q2].
        split; intros k Hk; [rewrite De by lia; auto|rewrite Du by lia; auto].
  - rewrite E. cbn [bind]. exists e, u. split; [|split; [auto|split; [auto|]]].
    + f_equal. f_equal. f_equal. apply rd_ext_range.
      * rewrite zlen_zseq; [lia|]. rewrite <- HN. apply zlen_nonneg.
      * intros i Hi. rewrite H4 by lia. symmetry. apply rd_Ok. split; [lia|]. apply nth_error_zseq. lia.
    + intros i g Rg. apply H6; auto. apply rd_in_range in Rg. lia.
Qed.

Lemma fold_max_spec t x : let mx := fold_left Z.max t x in
  (mx = x \/ In mx t) /\ x <= mx /\ forall y, In y t -> y <= mx.
Proof.
  cbn zeta. revert x. induction t as [|a t IH]; intros x; cbn [fold_left].
  - split; [now left|]. split; [lia|]. intros y [].
  - destruct (IH (Z.max x a)) as (H1 & H2 & H3). split; [|split; [lia|]].
    + destruct H1 as [H1|H1]; [|right; now right]. destruct (Z.max_spec x a) as [[_ M]|[_ M]]; rewrite M in H1 at 2.
      * right. now left. * now left.
    + intros y [->|Hy]; [lia|auto].
Qed.

Lemma sort_nodes_ok {B} (zero : B) (ids : list Z) (co : list B) dn tn on hn tc oc hc c0 wc n0 :
  ids <> [] -> (forall g, In g ids -> 0 <= g < UINT_MAX) -> 0 <= wc -> zlen co = zlen ids * wc -> zlen ids < 2 ^ 32 ->
  dn = [n0] ->
  (forall i i' g k, rd ids i = Ok g -> rd ids i' = Ok g -> 0 <= k < wc -> rd co (i * wc + k) = rd co (i' * wc + k)) ->
  exists N cp, In (N - 1) ids /\ (forall g, In g ids -> g < N) /\ zlen cp = N * wc /\
    (forall i g k, rd ids i = Ok g -> 0 <= k < wc -> rd cp (g * wc + k) = rd co (i * wc + k)) /\
    sort_nodes zero (mkRS ids dn tn on hn) (mkRS co [c0; wc] tc oc hc) =
      Ok (mkRS (resize (zseq (zlen ids)) N 0) [N] N on [int32 N], mkRS cp [N; wc] (zlen cp) oc [int32 (zlen cp)]).
Proof.
  intros Hne Hrange Hwc Hco H32 -> Hcons. unfold sort_nodes. cbn [rs_data rs_dims rs_offsets].
  destruct ids as [|x t]; [congruence|]. cbn [max_element]. set (ids := x :: t) in *.
  cbn [bind]. destruct (fold_max_spec t x) as (M1 & M2 & M3).
  set (mx := fold_left Z.max t x) in *.
  assert (Min : In mx ids) by (destruct M1 as [->|]; [now left|now right]).
  assert (Mmax : forall g, In g ids -> g <= mx) by (intros g [->|]; auto).
  assert (Hu : u32 (1 + mx) = mx + 1).
  { rewrite u32_small; [lia|]. specialize (Hrange mx Min). unfold UINT_MAX in Hrange. lia. }
  rewrite Hu. change (rd [c0; wc] 1) with (@Ok Z wc). cbn [bind].
  change (wr [c0; wc] 0 (mx + 1)) with (Ok [mx + 1; wc]). change (wr [n0] 0 (mx + 1)) with (Ok [mx + 1]). cbn [bind].
  pose proof (Hrange mx Min) as Rmx.
  destruct (zfor_inv (fun c (s : list Z * list B) => let '(a, cp) := s in
     zlen a = zlen ids /\ zlen cp = (mx + 1) * wc /\
     (forall i, 0 <= i < c -> rd a i = Ok i) /\ (forall i, c <= i -> rd a i = rd ids i) /\
     forall i g k, rd ids i = Ok g -> i < c -> 0 <= k < wc -> rd cp (g * wc + k) = rd co (i * wc + k))
   (zlen ids) (fun i s => let '(ids0, cp) := s in
      index <- rd ids0 i ;; ids1 <- wr ids0 i (u32 i) ;; cp0 <- copy_row wc co i index cp ;; Ok (ids1, cp0))
   (ids, vec ((mx + 1) * wc) zero)) as ([a cp] & E & H1 & H2 & H3 & H4 & H5).
  - apply zlen_nonneg.
  - split; [auto|]. split; [apply zlen_vec; nia|]. split; [intros; lia|]. split; [auto|].
    intros i g k R Hi. apply rd_in_range in R. lia.
  - intros i [a cp] Hi (H1 & H2 & H3 & H4 & H5).
    destruct (rd_total ids i Hi) as [g Rg]. rewrite (H4 i) by lia. rewrite Rg. cbn [bind].
    rewrite wr_ok by lia. cbn [bind]. rewrite u32_small by lia.
    pose proof (Hrange g (rd_In _ _ _ Rg)). pose proof (Mmax g (rd_In _ _ _ Rg)).
    destruct (copy_row_spec wc co i g cp) as (cp' & Ec & Lc & Cc & Dc); try nia.
    rewrite Ec. cbn [bind]. eexists; split; [reflexivity|]. cbv beta iota.
    split; [now rewrite zlen_set_nth|]. split; [lia|]. split; [|split].
    + intros i' Hi'. destruct (Z.eq_dec i' i) as [->|Hn].
      * apply rd_set_nth_eq; lia.
      * rewrite rd_set_nth_neq by lia. apply H3; lia.
    + intros i' Hi'. rewrite rd_set_nth_neq by lia. apply H4; lia.
    + intros i' g' k Rg' Hlt Hk. destruct (Z.eq_dec g' g) as [->|Hn].
      * rewrite Cc by lia. now apply (Hcons i i' g).
      * rewrite Dc by lia. apply H5; auto. assert (i' <> i) by congruence. lia.
  - rewrite E. cbn [bind]. exists (mx + 1), cp. replace (mx + 1 - 1) with mx by lia.
    split; [auto|]. split; [intros g Hg; specialize (Mmax g Hg); lia|]. split; [auto|]. split.
    + intros i g k R Hk. apply H5; auto. apply rd_in_range in R. lia.
    + assert (a = zseq (zlen ids)) as ->; [|reflexivity].
      apply rd_ext_range; [rewrite zlen_zseq; [auto|apply zlen_nonneg]|].
      intros i Hi. rewrite H3 by lia. symmetry. apply rd_Ok. split; [lia|]. apply nth_error_zseq. lia.
Qed.
