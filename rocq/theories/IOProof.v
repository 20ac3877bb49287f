(** IOProof.v -- lemmas about the parallel datasets. *)
From Coq Require Import ZArith List Lia Bool Permutation.
From Verif Require Import Base MeshModel MeshSpec MeshProof MeshReadProof IOModel.
Import ListNotations.
Local Open Scope Z_scope.
Open Scope res_scope.

Lemma mapM_ok {X Y} (f : X -> res Y) (g : X -> Y) l :
  (forall x, In x l -> f x = Ok (g x)) -> mapM f l = Ok (map g l).
Proof.
  induction l as [|x l IH]; intros H; [reflexivity|].
  cbn [mapM map]. rewrite (H x) by now left. cbn [bind].
  rewrite IH by (intros; apply H; now right). reflexivity.
Qed.

Lemma mapM_Ok_inv {X Y} (f : X -> res Y) l ys : mapM f l = Ok ys ->
  zlen ys = zlen l /\ forall i x, rd l i = Ok x -> exists y, f x = Ok y /\ rd ys i = Ok y.
Proof.
  revert ys; induction l as [|a l IH]; intros ys; cbn [mapM].
  - intros [= <-]. split; [reflexivity|]. intros i x R. apply rd_in_range in R. cbn in R. lia.
  - destruct (f a) as [y|] eqn:E; [|discriminate]. cbn [bind].
    destruct (mapM f l) as [ys'|] eqn:E2; [|discriminate]. cbn [bind].
    intros [= <-]. destruct (IH ys' eq_refl) as [Hl Hi]. split; [rewrite !zlen_cons; lia|].
    intros i x R. pose proof (rd_in_range _ _ _ R) as Hr. rewrite zlen_cons in Hr.
    destruct (Z.eq_dec i 0) as [->|Hne].
    + injection R as <-. exists y. auto.
    + assert (S : forall Z0 (b : Z0) t, rd (b :: t) i = rd t (i - 1)).
      { intros Z0 b t. unfold rd. destruct (Z.ltb_spec i 0), (Z.ltb_spec (i - 1) 0); try lia.
        replace (Z.to_nat i) with (S (Z.to_nat (i - 1))) by lia. reflexivity. }
      rewrite S in R. destruct (Hi _ _ R) as (y' & E1 & E3). exists y'. rewrite S. auto.
Qed.

Lemma mapM_total {X Y} (f : X -> res Y) l :
  (forall x, In x l -> exists y, f x = Ok y) -> exists ys, mapM f l = Ok ys.
Proof.
  induction l as [|a l IH]; intros H; [now exists []|].
  cbn [mapM]. destruct (H a) as [y E]; [now left|]. rewrite E. cbn [bind].
  destruct IH as [ys E2]; [intros; apply H; now right|]. rewrite E2. eexists; reflexivity.
Qed.

Lemma rd_ext_range {B} (l l' : list B) : zlen l = zlen l' ->
  (forall i, 0 <= i < zlen l -> rd l i = rd l' i) -> l = l'.
Proof.
  intros H E. now apply rd_ext.
Qed.

Lemma rd_map_res {X Y} (f : X -> Y) l i : rd (map f l) i = (x <- rd l i ;; Ok (f x)).
Proof.
  unfold rd. destruct (i <? 0); [reflexivity|]. rewrite nth_error_map.
  destruct (nth_error l (Z.to_nat i)); reflexivity.
Qed.

(** ** Copying a contiguous range *)
Lemma slab_write_spec {B} (dst : list B) off n src :
  0 <= off -> 0 <= n -> off + n <= zlen dst -> n <= zlen src ->
  exists d, slab_write dst off n src = Ok d /\ zlen d = zlen dst /\
    forall p, rd d p = if (off <=? p) && (p <? off + n) then rd src (p - off) else rd dst p.
Proof.
  intros H0 H1 H2 H3. unfold slab_write.
  destruct (zfor_inv (fun c d => zlen d = zlen dst /\
    forall p, rd d p = if (off <=? p) && (p <? off + c) then rd src (p - off) else rd dst p)
    n (fun i d => v <- rd src i ;; wr d (off + i) v) dst) as (d & E & Hd & Hp); auto.
  - split; [reflexivity|]. intros p. destruct (Z.leb_spec off p), (Z.ltb_spec p (off + 0)); cbn [andb]; try reflexivity; lia.
  - intros i d Hi (Hl & Hp). destruct (rd_total src i) as [v Ev]; [lia|].
    rewrite Ev. cbn [bind]. rewrite wr_ok by lia. eexists; split; [reflexivity|].
    split; [now rewrite zlen_set_nth|]. intros p.
    destruct (Z.eq_dec p (off + i)) as [->|Hne].
    + rewrite rd_set_nth_eq by lia.
      destruct (Z.leb_spec off (off + i)), (Z.ltb_spec (off + i) (off + (i + 1))); cbn [andb]; try lia.
      replace (off + i - off) with i by lia. now rewrite Ev.
    + rewrite rd_set_nth_neq by lia. rewrite Hp.
      destruct (Z.leb_spec off p), (Z.ltb_spec p (off + i)), (Z.ltb_spec p (off + (i + 1))); cbn [andb]; try reflexivity; lia.
  - exists d. auto.
Qed.

Lemma slab_read_spec {B} (src : list B) off l :
  (forall i, 0 <= i < zlen l -> rd src (off + i) = rd l i) -> slab_read src off (zlen l) = Ok l.
Proof.
  intros H. unfold slab_read.
  destruct (mapM_total (fun i => rd src (off + i)) (zseq (zlen l))) as [ys E].
  { intros x Hx. apply In_zseq in Hx. rewrite H by lia. now apply rd_total. }
  rewrite E. f_equal. destruct (mapM_Ok_inv _ _ _ E) as [Hl Hi].
  rewrite zlen_zseq in Hl by apply zlen_nonneg.
  apply rd_ext_range; [lia|]. intros i Hr.
  destruct (Hi i i) as (y & E1 & E2).
  { apply rd_Ok. split; [lia|]. apply nth_error_zseq. lia. }
  rewrite E2, <- E1. apply H. lia.
Qed.

(** ** Concatenated blocks *)
Definition pre {B} (L : list (list B)) (r : Z) : Z := zlen (concat (firstn (Z.to_nat r) L)).

Lemma pre_0 {B} (L : list (list B)) : pre L 0 = 0. Proof. reflexivity. Qed.

Lemma pre_nonneg {B} (L : list (list B)) r : 0 <= pre L r. Proof. apply zlen_nonneg. Qed.

Lemma firstn_rd {B} (L : list B) r l : rd L r = Ok l ->
  firstn (Z.to_nat (r + 1)) L = firstn (Z.to_nat r) L ++ [l].
Proof.
  intros R. apply rd_Ok in R. destruct R as [Hr R].
  replace (Z.to_nat (r + 1)) with (S (Z.to_nat r)) by lia.
  revert R. generalize (Z.to_nat r). intros k. revert L.
  induction k as [|k IH]; intros [|a L] R; cbn in R; try discriminate.
  - injection R as ->. reflexivity.
  - cbn [firstn app]. f_equal. now apply IH.
Qed.

Lemma pre_S {B} (L : list (list B)) r l : rd L r = Ok l -> pre L (r + 1) = pre L r + zlen l.
Proof.
  intros R. unfold pre. rewrite (firstn_rd _ _ _ R), concat_app, zlen_app. cbn [concat].
  now rewrite app_nil_r.
Qed.

Lemma pre_all {B} (L : list (list B)) : pre L (zlen L) = zlen (concat L).
Proof. unfold pre, zlen at 2. rewrite Nat2Z.id, firstn_all. reflexivity. Qed.

Lemma pre_mono {B} (L : list (list B)) r s : r <= s -> pre L r <= pre L s.
Proof.
  intros H. unfold pre. assert (E : exists Q, firstn (Z.to_nat s) L = firstn (Z.to_nat r) L ++ Q).
  { exists (skipn (Z.to_nat r) (firstn (Z.to_nat s) L)).
    replace (firstn (Z.to_nat r) L) with (firstn (Z.to_nat r) (firstn (Z.to_nat s) L)).
    - symmetry. apply firstn_skipn.
    - rewrite firstn_firstn. f_equal. lia. }
  destruct E as [Q ->]. rewrite concat_app, zlen_app. pose proof (zlen_nonneg (concat Q)). lia.
Qed.

Lemma pre_end {B} (L : list (list B)) r l : rd L r = Ok l -> pre L r + zlen l <= zlen (concat L).
Proof.
  intros R. rewrite <- (pre_S _ _ _ R), <- pre_all. apply pre_mono. apply rd_in_range in R. lia.
Qed.

Lemma rd_app {B} (p q : list B) i : 0 <= i -> rd (p ++ q) i = if i <? zlen p then rd p i else rd q (i - zlen p).
Proof.
  intros Hi. unfold rd, zlen. destruct (Z.ltb_spec i 0); [lia|].
  destruct (Z.ltb_spec i (Z.of_nat (length p))).
  - rewrite nth_error_app1 by lia. reflexivity.
  - destruct (Z.ltb_spec (i - Z.of_nat (length p)) 0); [lia|].
    rewrite nth_error_app2 by lia. replace (Z.to_nat i - length p)%nat with (Z.to_nat (i - Z.of_nat (length p))) by lia. reflexivity.
Qed.

Lemma concat_rd {B} (L : list (list B)) r l i : rd L r = Ok l -> 0 <= i < zlen l ->
  rd (concat L) (pre L r + i) = rd l i.
Proof.
  intros R Hi. rewrite <- (firstn_skipn (Z.to_nat (r + 1)) L) at 1.
  rewrite (firstn_rd _ _ _ R), !concat_app. cbn [concat]. rewrite app_nil_r.
  fold (pre L r). pose proof (pre_nonneg L r).
  rewrite rd_app by lia. unfold pre in *. rewrite zlen_app.
  destruct (Z.ltb_spec (zlen (concat (firstn (Z.to_nat r) L)) + i) (zlen (concat (firstn (Z.to_nat r) L)) + zlen l)); [|lia].
  rewrite rd_app by lia.
  destruct (Z.ltb_spec (zlen (concat (firstn (Z.to_nat r) L)) + i) (zlen (concat (firstn (Z.to_nat r) L)))); [lia|].
  f_equal. lia.
Qed.

Lemma concat_pos {B} (L : list (list B)) p : 0 <= p < zlen (concat L) ->
  exists r l i, rd L r = Ok l /\ 0 <= i < zlen l /\ p = pre L r + i.
Proof.
  revert p. induction L as [|a L IH] using rev_ind; intros p Hp; [cbn in Hp; lia|].
  rewrite concat_app, zlen_app in Hp. cbn [concat] in Hp. rewrite app_nil_r in Hp.
  destruct (Z_lt_dec p (zlen (concat L))) as [H|H].
  - destruct (IH p ltac:(lia)) as (r & l & i & R & Hi & ->). exists r, l, i.
    pose proof (rd_in_range _ _ _ R). split; [|split; [auto|]].
    + rewrite rd_app by lia. destruct (Z.ltb_spec r (zlen L)); [auto|lia].
    + f_equal. unfold pre. f_equal. f_equal. symmetry. rewrite firstn_app.
      replace (Z.to_nat r - length L)%nat with O by (unfold zlen in *; lia). cbn. apply app_nil_r.
  - exists (zlen L), a, (p - zlen (concat L)). split; [apply rd_mid|]. split; [lia|].
    unfold pre. unfold zlen at 2. rewrite Nat2Z.id, firstn_app, Nat.sub_diag, firstn_all. cbn.
    rewrite app_nil_r. lia.
Qed.

(** Every block written at its place, in any order, gives the concatenation. *)
Lemma place_all {B} (L : list (list B)) (order : list Z) (body : Z -> list B -> res (list B)) buf :
  Permutation order (zseq (zlen L)) ->
  (forall r l b, rd L r = Ok l -> body r b = slab_write b (pre L r) (zlen l) l) ->
  zlen buf = zlen (concat L) ->
  foreach order body buf = Ok (concat L).
Proof.
  intros HP Hb Hlen.
  destruct (foreach_inv (fun done b => zlen b = zlen (concat L) /\
     forall r l i, In r done -> rd L r = Ok l -> 0 <= i < zlen l -> rd b (pre L r + i) = rd l i)
     body order buf) as (b & E & Hl & Hr).
  - split; [auto|]. intros r l i [].
  - intros done r todo b Eo (Hl & Hd).
    assert (Hin : 0 <= r < zlen L).
    { apply In_zseq. eapply Permutation_in; [exact HP|]. rewrite Eo. apply in_or_app. right. now left. }
    destruct (rd_total L r Hin) as [l R].
    pose proof (pre_end _ _ _ R). pose proof (zlen_nonneg l). pose proof (pre_nonneg L r).
    destruct (slab_write_spec b (pre L r) (zlen l) l) as (b' & E & Hl' & Hp); try lia.
    exists b'. rewrite (Hb r l b R). split; [exact E|]. split; [lia|].
    intros s m i Hs Rs Hi. rewrite Hp. pose proof (pre_nonneg L s).
    assert (Hsr : r <> s -> pre L s + i < pre L r \/ pre L r + zlen l <= pre L s + i).
    { intros Hne. destruct (Z_lt_dec s r) as [G|G].
      - left. pose proof (pre_mono L (s + 1) r ltac:(lia)) as M. rewrite (pre_S _ _ _ Rs) in M. lia.
      - right. pose proof (pre_mono L (r + 1) s ltac:(lia)) as M. rewrite (pre_S _ _ _ R) in M. lia. }
    destruct (Z.eq_dec r s) as [->|Hne].
    + assert (m = l) by congruence. subst m.
      destruct (Z.leb_spec (pre L s) (pre L s + i)), (Z.ltb_spec (pre L s + i) (pre L s + zlen l)); cbn [andb]; try lia.
      f_equal. lia.
    + specialize (Hsr Hne).
      destruct (Z.leb_spec (pre L r) (pre L s + i)), (Z.ltb_spec (pre L s + i) (pre L r + zlen l)); cbn [andb]; try lia.
      all: apply Hd; auto; apply in_app_or in Hs; destruct Hs as [|[Hs|[]]]; [assumption|congruence].
  - rewrite E. f_equal. apply rd_ext_range; [auto|]. intros p Hp. rewrite Hl in Hp.
    destruct (concat_pos L p Hp) as (r & l & i & R & Hi & ->).
    rewrite (concat_rd _ _ _ _ R Hi). apply Hr; auto.
    eapply Permutation_in; [symmetry; exact HP|]. apply In_zseq. apply rd_in_range in R. lia.
Qed.

(** ** Offsets *)
Lemma scan_rd acc l r x : rd l r = Ok x -> rd (scan acc l) r = Ok (acc + sumZ (firstn (Z.to_nat r) l) + x).
Proof.
  intros R. apply rd_Ok in R. destruct R as [Hr R]. apply rd_Ok. split; [auto|].
  revert R. generalize (Z.to_nat r). intros k. revert acc l.
  induction k as [|k IH]; intros acc [|a l] R; cbn in R; try discriminate.
  - injection R as ->. cbn. f_equal. unfold sumZ. cbn. lia.
  - cbn [scan nth_error firstn]. rewrite (IH _ _ R). f_equal. unfold sumZ. cbn [fold_right]. lia.
Qed.

Lemma zlen_scan acc l : zlen (scan acc l) = zlen l.
Proof. revert acc; induction l as [|a l IH]; intros acc; [reflexivity|]. cbn [scan]. rewrite !zlen_cons, IH. reflexivity. Qed.

Lemma sumZ_lens {B} (L : list (list B)) : sumZ (map zlen L) = zlen (concat L).
Proof. induction L as [|a L IH]; [reflexivity|]. cbn [map concat]. rewrite zlen_app, <- IH. reflexivity. Qed.

Lemma sumL_sumZ l : sumL l = sumZ l.
Proof.
  unfold sumL. assert (G : forall l a, fold_left Z.add l a = a + sumZ l).
  { clear. induction l as [|x l IH]; intros a; cbn; [unfold sumZ; cbn; lia|]. rewrite IH. unfold sumZ. cbn. lia. }
  rewrite G. lia.
Qed.

Lemma rd_combine {X Y} (a : list X) (b : list Y) r x y :
  rd a r = Ok x -> rd b r = Ok y -> rd (combine a b) r = Ok (x, y).
Proof.
  intros Ra Rb. apply rd_Ok in Ra, Rb. destruct Ra as [Hr Ra], Rb as [_ Rb]. apply rd_Ok. split; [auto|].
  revert Ra Rb. generalize (Z.to_nat r). intros k. revert a b.
  induction k as [|k IH]; intros [|a0 a] [|b0 b] Ra Rb; cbn in *; try discriminate.
  - congruence.
  - now apply IH.
Qed.

Lemma zlen_combine {X Y} (a : list X) (b : list Y) : zlen a = zlen b -> zlen (combine a b) = zlen a.
Proof. intros H. unfold zlen in *. rewrite combine_length. lia. Qed.

Lemma offsets_pre {B} (L : list (list B)) (sizes := map zlen L) r : 0 <= r < zlen L ->
  rd (map (fun p : Z * Z => fst p - snd p) (combine (scan 0 sizes) sizes)) r = Ok (pre L r).
Proof.
  intros Hr. destruct (rd_total L r Hr) as [l R].
  assert (Rs : rd sizes r = Ok (zlen l)) by (subst sizes; now apply rd_map).
  rewrite (rd_map _ _ _ _ (rd_combine _ _ _ _ _ (scan_rd 0 _ _ _ Rs) Rs)). cbn [fst snd]. f_equal.
  unfold pre. rewrite <- sumZ_lens. subst sizes. rewrite firstn_map. lia.
Qed.

(** ** The dimension table *)
Lemma concat_uniform {B} (L : list (list B)) w r l : Forall (fun l => zlen l = w) L -> rd L r = Ok l ->
  pre L r = r * w.
Proof.
  intros F R. pose proof (rd_in_range _ _ _ R) as Hr.
  assert (G : forall k : nat, Z.of_nat k <= zlen L -> pre L (Z.of_nat k) = Z.of_nat k * w).
  { induction k as [|k IH]; intros Hk; [reflexivity|].
    destruct (rd_total L (Z.of_nat k)) as [x Rx]; [lia|].
    replace (Z.of_nat (S k)) with (Z.of_nat k + 1) by lia. rewrite (pre_S _ _ _ Rx), IH by lia.
    rewrite Forall_forall in F. rewrite (F x (rd_In _ _ _ Rx)). lia. }
  replace r with (Z.of_nat (Z.to_nat r)) by lia. apply G. lia.
Qed.

Lemma map_rd_zseq {B} (l : list B) : mapM (rd l) (zseq (zlen l)) = Ok l.
Proof. exact (slab_read_spec l 0 l (fun i _ => eq_refl)). Qed.

(** ** Writing and reading a parallel dataset *)
Definition block_ok {B} (b : block B) : Prop :=
  Forall (fun d => 0 <= d) (b_dims b) /\ zlen (b_data b) = prodZ (b_dims b).

Lemma write_parallel_ok {B} (zero : B) order nd bs :
  0 < zlen bs -> 0 < nd -> Forall block_ok bs -> Forall (fun b => zlen (b_dims b) = nd) bs ->
  Permutation order (zseq (zlen bs)) ->
  exists f, write_parallel zero order bs = Ok f /\
    pd_data f = concat (map b_data bs) /\ pd_nDims f = nd /\ pd_nRanks f = zlen bs /\
    pd_totalSize f = zlen (pd_data f) /\ pd_dims f = concat (map b_dims bs) /\
    zlen (pd_offsets f) = zlen bs /\
    forall r, 0 <= r < zlen bs -> rd (pd_offsets f) r = Ok (pre (map b_data bs) r).
Proof.
  intros Hn Hnd FB FD HP. unfold write_parallel.
  set (L := map b_data bs).
  assert (Hsizes : map (fun b => prodZ (b_dims b)) bs = map zlen L).
  { subst L. rewrite map_map. apply map_ext_in. intros b Hb. rewrite Forall_forall in FB. symmetry. apply (FB b Hb). }
  rewrite Hsizes. set (offs := map _ (combine _ _)).
  assert (HL : zlen L = zlen bs) by (subst L; apply zlen_map).
  assert (Hoff : forall r, 0 <= r < zlen bs -> rd offs r = Ok (pre L r)).
  { intros r Hr. apply offsets_pre. lia. }
  rewrite (place_all L).
  - cbn [bind]. destruct (rd_total bs 0) as [b0 R0]; [lia|]. rewrite R0. cbn [bind].
    assert (N0 : ndims (b_dims b0) = nd).
    { rewrite Forall_forall in FD. unfold ndims. rewrite (FD b0 (rd_In _ _ _ R0)). destruct (Z.eqb_spec nd 0); lia. }
    rewrite N0.
    rewrite (mapM_ok _ b_dims).
    + cbn [bind]. eexists; split; [reflexivity|]. cbn. repeat split; auto.
      * rewrite sumL_sumZ. apply sumZ_lens.
      * subst offs. rewrite zlen_map, zlen_combine; rewrite zlen_scan, zlen_map; auto.
    + intros b Hb. rewrite Forall_forall in FD. specialize (FD b Hb).
      assert (ndims (b_dims b) = nd) as -> by (unfold ndims; rewrite FD; destruct (Z.eqb_spec nd 0); lia).
      rewrite Z.eqb_refl. rewrite <- FD. apply map_rd_zseq.
  - now rewrite HL.
  - intros r l b R. subst L. rewrite rd_map_res in R. apply bind_Ok in R. destruct R as (x & R & [= <-]).
    rewrite R. cbn [bind]. rewrite Hoff by (apply rd_in_range in R; lia). cbn [bind].
    rewrite Forall_forall in FB. destruct (FB x (rd_In _ _ _ R)) as [_ E]. now rewrite E.
  - rewrite sumL_sumZ, sumZ_lens. apply zlen_vec. apply zlen_nonneg.
Qed.

Lemma read_parallel_ok {B} (f : pdataset B) bs nd r b :
  Forall block_ok bs -> Forall (fun b => zlen (b_dims b) = nd) bs ->
  pd_data f = concat (map b_data bs) -> pd_nDims f = nd -> pd_nRanks f = zlen bs ->
  pd_totalSize f = zlen (pd_data f) -> pd_dims f = concat (map b_dims bs) ->
  rd (pd_offsets f) r = Ok (pre (map b_data bs) r) ->
  rd bs r = Ok b -> read_parallel true (zlen bs) f r = Ok (b_data b, b_dims b).
Proof.
  intros FB FD E1 E2 E3 E4 E5 Hoff R. unfold read_parallel, read_dims, read_offset.
  rewrite E3, Z.eqb_refl.
  assert (Rd : rd (map b_dims bs) r = Ok (b_dims b)) by now apply rd_map.
  assert (Rb : rd (map b_data bs) r = Ok (b_data b)) by now apply rd_map.
  assert (Hd : zlen (b_dims b) = nd) by (rewrite Forall_forall in FD; apply FD; eapply rd_In; eauto).
  assert (S1 : slab_read (pd_dims f) (r * pd_nDims f) (pd_nDims f) = Ok (b_dims b)).
  { rewrite E5, E2, <- Hd. apply slab_read_spec. intros i Hi.
    rewrite Hd, <- (concat_uniform (map b_dims bs) nd r (b_dims b)); auto.
    - now apply concat_rd.
    - rewrite Forall_map. exact FD. }
  rewrite S1. cbn [bind]. rewrite Hoff. cbn [bind]. rewrite E4, Z.eqb_refl.
  rewrite Forall_forall in FB. destruct (FB b (rd_In _ _ _ R)) as [_ <-].
  rewrite E1, slab_read_spec; [reflexivity|]. intros i Hi. now apply concat_rd.
Qed.

Lemma write_serial_ok {B} (zero : B) b : block_ok b ->
  write_serial zero b = Ok (mkPD (b_data b) [0] (ndims (b_dims b)) 1 (zlen (b_data b)) (b_dims b)).
Proof.
  intros [F E]. unfold write_serial. rewrite <- E.
  destruct (slab_write_spec (vec (zlen (b_data b)) zero) 0 (zlen (b_data b)) (b_data b)) as (d & E1 & Hl & Hp);
    rewrite ?zlen_vec by apply zlen_nonneg; try lia; try apply zlen_nonneg.
  rewrite E1. cbn [bind]. rewrite zlen_vec in Hl by apply zlen_nonneg.
  assert (d = b_data b) as ->; [|reflexivity].
  apply rd_ext_range; [auto|]. intros i Hi. rewrite Hp.
  destruct (Z.leb_spec 0 i), (Z.ltb_spec i (0 + zlen (b_data b))); cbn [andb]; try lia. f_equal. lia.
Qed.
