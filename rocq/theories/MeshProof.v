(** MeshProof.v -- proofs about MeshModel.v. *)
From Coq Require Import ZArith List Lia Bool Permutation Sorted.
From Verif Require Import Base MeshModel MeshSpec.
Import ListNotations.
Local Open Scope Z_scope.
Open Scope res_scope.

(** * Searching *)

Lemma search_from_spec g l i :
  NoDup l -> 0 <= i -> i + zlen l <= UINT_MAX ->
  (In g l /\ exists k, 0 <= k < zlen l /\ search_from g l i = i + k /\ rd l k = Ok g)
  \/ (~ In g l /\ search_from g l i = UINT_MAX).
Proof.
  revert i; induction l as [|x t IH]; intros i ND Hi Hb; simpl.
  - right; auto.
  - rewrite zlen_cons in Hb. inversion ND as [|? ? Hx ND']; subst.
    destruct (Z.eqb_spec x g) as [->|Hne].
    + left; split; [auto|]. exists 0. rewrite zlen_cons.
      pose proof (zlen_nonneg t). repeat split; try lia. 
    + destruct (IH (i + 1) ND' ltac:(lia) ltac:(lia)) as [(Hin & k & Hk & E & R)|(Hin & E)].
      * left; split; [auto|]. exists (k + 1); rewrite zlen_cons; repeat split; try lia.
        apply rd_Ok in R; apply rd_Ok; split; [lia|].
        replace (Z.to_nat (k + 1)) with (S (Z.to_nat k)) by lia. apply R.
      * right; split; [|easy]. intros [|]; auto.
Qed.

Lemma search_found g l :
  NoDup l -> zlen l < UINT_MAX -> In g l ->
  exists k, 0 <= k < zlen l /\ search_for_local_ID g l = k /\ rd l k = Ok g.
Proof.
  intros ND Hb Hin.
  destruct (search_from_spec g l 0 ND ltac:(lia) ltac:(lia)) as [(_ & k & Hk & E & R)|(H & _)];
    [|easy].
  exists k; unfold search_for_local_ID; repeat split; auto; lia.
Qed.

Lemma search_absent g l :
  NoDup l -> zlen l < UINT_MAX -> ~ In g l -> search_for_local_ID g l = UINT_MAX.
Proof.
  intros ND Hb Hin.
  destruct (search_from_spec g l 0 ND ltac:(lia) ltac:(lia)) as [(H & _)|(_ & E)]; easy.
Qed.

Lemma rd_NoDup_inj (l : list Z) i j g :
  NoDup l -> rd l i = Ok g -> rd l j = Ok g -> i = j.
Proof.
  intros ND Ri Rj.
  pose proof (rd_in_range _ _ _ Ri); pose proof (rd_in_range _ _ _ Rj).
  apply rd_Ok in Ri; apply rd_Ok in Rj.
  assert (Z.to_nat i = Z.to_nat j).
  { eapply NoDup_nth_error; eauto; [unfold zlen in *; lia|].
    destruct Ri as [_ ->], Rj as [_ ->]; reflexivity. }
  lia.
Qed.

Lemma search_round_trip l i g :
  NoDup l -> zlen l < UINT_MAX -> rd l i = Ok g -> search_for_local_ID g l = i.
Proof.
  intros ND Hb R.
  destruct (search_found g l ND Hb (rd_In _ _ _ R)) as (k & _ & -> & Rk).
  eapply rd_NoDup_inj; eauto.
Qed.

(** * Sets *)

Lemma set_insert_In x y l : In y (set_insert x l) <-> y = x \/ In y l.
Proof.
  induction l as [|z t IH]; simpl; [intuition|].
  destruct (Z.ltb_spec x z); simpl; [intuition|].
  destruct (Z.eqb_spec x z); simpl; [subst; intuition|].
  rewrite IH; intuition.
Qed.

Lemma set_insert_sorted x l :
  StronglySorted Z.lt l -> StronglySorted Z.lt (set_insert x l).
Proof.
  induction l as [|z t IH]; simpl; intros H; [repeat constructor|].
  inversion H as [|? ? Ht Hz]; subst.
  destruct (Z.ltb_spec x z).
  - constructor; [easy|]. constructor; [easy|].
    eapply Forall_impl; [|exact Hz]; simpl; intros; lia.
  - destruct (Z.eqb_spec x z); [easy|].
    constructor; [auto|]. rewrite Forall_forall in *; intros y Hy.
    apply set_insert_In in Hy; destruct Hy as [->|Hy]; [lia|auto].
Qed.

Lemma sorted_NoDup l : StronglySorted Z.lt l -> NoDup l.
Proof.
  induction 1 as [|a l Hs IH Hf]; constructor; auto.
  intros Hin; rewrite Forall_forall in Hf; specialize (Hf _ Hin); lia.
Qed.

Lemma set_distance_rd x l : In x l ->
  0 <= set_distance x l < zlen l /\ rd l (set_distance x l) = Ok x.
Proof.
  induction l as [|y t IH]; [easy|]; intros H; cbn [set_distance].
  rewrite zlen_cons; pose proof (zlen_nonneg t).
  destruct (Z.eqb_spec x y) as [->|Hne].
  - split; [lia|]. reflexivity.
  - destruct H as [H|H]; [congruence|]. destruct (IH H) as [Hr R].
    split; [lia|]. apply rd_Ok in R; apply rd_Ok; split; [lia|].
    replace (Z.to_nat (1 + set_distance x t)) with (S (Z.to_nat (set_distance x t))) by lia.
    apply R.
Qed.

Lemma uset_insert_In x y l : In y (uset_insert x l) <-> y = x \/ In y l.
Proof.
  unfold uset_insert; destruct (existsb (Z.eqb x) l) eqn:E.
  - apply existsb_exists in E; destruct E as (z & Hz & E).
    apply Z.eqb_eq in E; subst z. intuition congruence.
  - rewrite in_app_iff; simpl; intuition.
Qed.

Lemma uset_insert_NoDup x l : NoDup l -> NoDup (uset_insert x l).
Proof.
  intros H; unfold uset_insert; destruct (existsb (Z.eqb x) l) eqn:E; [easy|].
  apply NoDup_app_one; [easy|]. intros Hin.
  assert (existsb (Z.eqb x) l = true) by (apply existsb_exists; exists x; split; [easy|lia]).
  congruence.
Qed.

(** * Functional reading of the mesh and of an assignment *)

Definition prt (ep : list Z) (e : Z) : Z := nth (Z.to_nat e) ep (-1).
Definition frow {A} (m : gmesh A) (f : Z) : list Z := nth (Z.to_nat f) (gm_IF m) [].
Definition fcol {A} (m : gmesh A) (f k : Z) : Z := nth (Z.to_nat k) (frow m f) (-1).
Definition rkL {A} (m : gmesh A) ep f := prt ep (fcol m f 0).
Definition rkR {A} (m : gmesh A) ep f := prt ep (fcol m f 3).

Definition elems_of {A} (m : gmesh A) ep r := filter (fun e => r =? prt ep e) (zseq (gm_num_elems m)).
Definition on_rank {A} (m : gmesh A) ep r f := (r =? rkL m ep f) || (r =? rkR m ep f).
Definition faces_of {A} (m : gmesh A) ep r := filter (on_rank m ep r) (zseq (gm_nIF m)).
Definition is_ghost {A} (m : gmesh A) ep f := negb (rkL m ep f =? rkR m ep f).
Definition ghosts_of {A} (m : gmesh A) ep := filter (is_ghost m ep) (zseq (gm_nIF m)).
Definition joins_b {A} (m : gmesh A) ep r s f :=
  ((rkL m ep f =? r) && (rkR m ep f =? s)) || ((rkL m ep f =? s) && (rkR m ep f =? r)).
Definition between {A} (m : gmesh A) ep r s :=
  filter (joins_b m ep r s) (ghosts_of m ep).
Definition face_row {A} (m : gmesh A) ep r f : list Z :=
  [ rkL m ep f; search_for_local_ID (fcol m f 0) (elems_of m ep r); fcol m f 1; fcol m f 2;
    rkR m ep f; search_for_local_ID (fcol m f 3) (elems_of m ep r); fcol m f 4; fcol m f 5 ].

Lemma map_nth_zseq {B} (d : B) (l : list B) :
  map (fun k : Z => nth (Z.to_nat k) l d) (zseq (zlen l)) = l.
Proof.
  unfold zseq, zlen; rewrite Nat2Z.id, map_map.
  erewrite map_ext by (intros; rewrite Nat2Z.id; reflexivity).
  induction l as [|x l IH]; [reflexivity|].
  cbn [length seq map nth]. f_equal. rewrite <- seq_shift, map_map. exact IH.
Qed.

Lemma nth_error_ext' {B} (l l' : list B) :
  (forall k, nth_error l k = nth_error l' k) -> l = l'.
Proof.
  revert l'; induction l as [|x l IH]; destruct l' as [|y l']; intros H; auto.
  - specialize (H O); discriminate.
  - specialize (H O); discriminate.
  - pose proof (H O) as H0; injection H0 as ->. f_equal. apply IH. intros k; exact (H (S k)).
Qed.

Lemma rd_ext {B} (l l' : list B) :
  zlen l = zlen l' -> (forall i, 0 <= i < zlen l -> rd l i = rd l' i) -> l = l'.
Proof.
  intros L R. apply nth_error_ext'; intros k.
  destruct (Nat.lt_ge_cases k (length l)) as [H|H].
  - specialize (R (Z.of_nat k)). unfold zlen in *.
    destruct (nth_error l k) as [b|] eqn:E.
    + assert (rd l (Z.of_nat k) = Ok b) by (apply rd_Ok; rewrite Nat2Z.id; split; [lia|easy]).
      rewrite R in H0 by lia. apply rd_Ok in H0. rewrite Nat2Z.id in H0. symmetry; apply H0.
    + apply nth_error_None in E; lia.
  - assert (nth_error l k = None) by (now apply nth_error_None).
    assert (nth_error l' k = None) by (apply nth_error_None; unfold zlen in L; lia). congruence.
Qed.

Lemma rd_map {B C} (f : B -> C) l i b : rd l i = Ok b -> rd (map f l) i = Ok (f b).
Proof.
  rewrite !rd_Ok; intros [H E]; split; [easy|]. now apply map_nth_error.
Qed.

Lemma neighbor_index_from_spec x l j :
  In x l -> exists k, neighbor_index_from x l j = Some (j + k) /\ rd l k = Ok x.
Proof.
  revert j; induction l as [|y t IH]; [easy|]; intros j H; simpl.
  destruct (Z.eqb_spec y x) as [->|Hne].
  - exists 0; split; [f_equal; lia|]. reflexivity.
  - destruct H as [H|H]; [congruence|]. destruct (IH (j + 1) H) as (k & E & R).
    exists (k + 1); split; [rewrite E; f_equal; lia|].
    apply rd_Ok in R; apply rd_Ok; split; [lia|].
    replace (Z.to_nat (k + 1)) with (S (Z.to_nat k)) by lia. apply R.
Qed.

Lemma neighbor_index_ok x l : In x l -> exists k, neighbor_index x l = Ok k /\ rd l k = Ok x.
Proof.
  intros H; destruct (neighbor_index_from_spec x l 0 H) as (k & E & R).
  exists k; unfold neighbor_index; rewrite E; split; [f_equal|]; easy.
Qed.

Section WithMesh.
Context {A : Type} (m : gmesh A) (n : Z) (ep : list Z).
Hypothesis Hm : mesh_wf m.
Hypothesis Hep : assignment m n ep.

Lemma ne_pos : 0 <= gm_num_elems m. Proof. apply (wf_ne m Hm). Qed.
Lemma nif_pos : 0 <= gm_nIF m. Proof. apply (wf_nif m Hm). Qed.

Lemma rd_ep e : 0 <= e < gm_num_elems m -> rd ep e = Ok (prt ep e).
Proof. intros; apply rd_nth; destruct Hep as [-> _]; easy. Qed.

Lemma prt_range e : 0 <= e < gm_num_elems m -> 0 <= prt ep e < n.
Proof.
  intros H; pose proof (rd_ep e H) as R; apply rd_In in R.
  destruct Hep as [_ F]; rewrite Forall_forall in F; now apply F.
Qed.

Lemma owned_prt e r : owned_by ep e r <-> 0 <= e < gm_num_elems m /\ prt ep e = r.
Proof.
  unfold owned_by; split.
  - intros R. pose proof (rd_in_range _ _ _ R) as Hr. destruct Hep as [L _]; rewrite L in Hr.
    split; [easy|]. rewrite rd_ep in R by easy; congruence.
  - intros [H <-]; now apply rd_ep.
Qed.

Lemma row_shape f : 0 <= f < gm_nIF m ->
  rd (gm_IF m) f = Ok (frow m f) /\ face_row_wf (gm_num_elems m) (frow m f).
Proof.
  intros H. assert (R : rd (gm_IF m) f = Ok (frow m f)).
  { apply rd_nth; rewrite (wf_if_len m Hm); easy. }
  split; [easy|]. apply rd_In in R.
  pose proof (wf_if m Hm) as F; rewrite Forall_forall in F; auto.
Qed.

Lemma rd_row f k : 0 <= f < gm_nIF m -> 0 <= k < 6 -> rd2 (gm_IF m) f k = Ok (fcol m f k).
Proof.
  intros H Hk; destruct (row_shape f H) as [R (a&b&c&d&e&g&E&_)].
  unfold rd2; rewrite R; simpl. unfold fcol. apply rd_nth. rewrite E.
  unfold zlen; simpl; lia.
Qed.

Lemma rd2_IF_range f k v : rd2 (gm_IF m) f k = Ok v -> 0 <= f < gm_nIF m.
Proof.
  unfold rd2; rewrite bind_Ok; intros (row & R & _).
  apply rd_in_range in R; now rewrite (wf_if_len m Hm) in R.
Qed.

Lemma elem_range f : 0 <= f < gm_nIF m ->
  0 <= fcol m f 0 < gm_num_elems m /\ 0 <= fcol m f 3 < gm_num_elems m.
Proof.
  intros H; destruct (row_shape f H) as [R (a&b&c&d&e&g&E&Ha&Hd&_)].
  unfold fcol; rewrite E; simpl; auto.
Qed.

Lemma rk_range f : 0 <= f < gm_nIF m -> 0 <= rkL m ep f < n /\ 0 <= rkR m ep f < n.
Proof.
  intros H; destruct (elem_range f H); split; apply prt_range; easy.
Qed.

Lemma left_fcol f e : left_of m f e <-> 0 <= f < gm_nIF m /\ fcol m f 0 = e.
Proof.
  unfold left_of; split.
  - intros R; pose proof (rd2_IF_range _ _ _ R) as H; split; [easy|].
    rewrite rd_row in R by lia; congruence.
  - intros [H <-]; apply rd_row; lia.
Qed.
Lemma right_fcol f e : right_of m f e <-> 0 <= f < gm_nIF m /\ fcol m f 3 = e.
Proof.
  unfold right_of; split.
  - intros R; pose proof (rd2_IF_range _ _ _ R) as H; split; [easy|].
    rewrite rd_row in R by lia; congruence.
  - intros [H <-]; apply rd_row; lia.
Qed.

Lemma face_ranks_rk f r s :
  face_ranks m ep f r s <-> 0 <= f < gm_nIF m /\ rkL m ep f = r /\ rkR m ep f = s.
Proof.
  unfold face_ranks; split.
  - intros (eL & eR & HL & HR & OL & OR).
    apply left_fcol in HL; apply right_fcol in HR. apply owned_prt in OL; apply owned_prt in OR.
    unfold rkL, rkR. intuition congruence.
  - intros (H & HL & HR). destruct (elem_range f H).
    exists (fcol m f 0), (fcol m f 3). rewrite left_fcol, right_fcol, !owned_prt.
    unfold rkL, rkR in *; intuition.
Qed.

Lemma face_touches_rk f r :
  face_touches m ep f r <-> 0 <= f < gm_nIF m /\ on_rank m ep r f = true.
Proof.
  unfold face_touches, on_rank; rewrite orb_true_iff, !Z.eqb_eq; split.
  - intros (e & [H|H] & O); apply owned_prt in O;
      [apply left_fcol in H | apply right_fcol in H]; unfold rkL, rkR; intuition congruence.
  - intros (H & Hr). destruct (elem_range f H). destruct Hr as [Hr|Hr].
    + exists (fcol m f 0); rewrite left_fcol, right_fcol, owned_prt; unfold rkL in *; intuition.
    + exists (fcol m f 3); rewrite left_fcol, right_fcol, owned_prt; unfold rkR in *; intuition.
Qed.

Lemma face_joins_b f r s :
  face_joins m ep f r s <-> 0 <= f < gm_nIF m /\ joins_b m ep r s f = true.
Proof.
  unfold face_joins, joins_b. rewrite !face_ranks_rk, orb_true_iff, !andb_true_iff, !Z.eqb_eq.
  intuition.
Qed.

Lemma In_elems e r : In e (elems_of m ep r) <-> owned_by ep e r.
Proof.
  unfold elems_of; rewrite filter_In, In_zseq, owned_prt, Z.eqb_eq; intuition.
Qed.
Lemma In_faces f r : In f (faces_of m ep r) <-> face_touches m ep f r.
Proof. unfold faces_of; rewrite filter_In, In_zseq, face_touches_rk; intuition. Qed.
Lemma In_between f r s : r <> s -> In f (between m ep r s) <-> face_joins m ep f r s.
Proof.
  intros Hne; unfold between, ghosts_of. rewrite !filter_In, In_zseq, face_joins_b.
  unfold is_ghost; split; [intuition|]. intros [H J]; split; [split; [easy|] | easy].
  unfold joins_b in J. rewrite orb_true_iff, !andb_true_iff, !Z.eqb_eq in J.
  apply negb_true_iff, Z.eqb_neq. intuition congruence.
Qed.
Lemma NoDup_elems r : NoDup (elems_of m ep r).
Proof. apply NoDup_filter, NoDup_zseq. Qed.
Lemma NoDup_faces r : NoDup (faces_of m ep r).
Proof. apply NoDup_filter, NoDup_zseq. Qed.
Lemma between_sym r s : between m ep r s = between m ep s r.
Proof.
  unfold between; apply filter_ext; intros f; unfold joins_b; apply orb_comm.
Qed.

Lemma zlen_filter_le {B} (f : B -> bool) l : zlen (filter f l) <= zlen l.
Proof.
  induction l; simpl; [lia|]. rewrite zlen_cons. destruct (f a); [rewrite zlen_cons|]; lia.
Qed.

Lemma zlen_elems_small r : zlen (elems_of m ep r) < UINT_MAX.
Proof.
  unfold elems_of. eapply Z.le_lt_trans; [apply zlen_filter_le|].
  rewrite zlen_zseq; apply (wf_ne m Hm).
Qed.
Lemma zlen_faces_small r : zlen (faces_of m ep r) < UINT_MAX.
Proof.
  unfold faces_of. eapply Z.le_lt_trans; [apply zlen_filter_le|].
  rewrite zlen_zseq; apply (wf_nif m Hm).
Qed.

(** * Counting loops *)

Lemma count_elems_ok :
  0 <= n -> exists sizes, count_elems n ep = Ok sizes /\ zlen sizes = n /\
    forall r, 0 <= r < n -> rd sizes r = Ok (zlen (elems_of m ep r)).
Proof.
  intros Hn.
  destruct (foreach_inv (fun done sizes => zlen sizes = n /\
     forall r, 0 <= r < n -> rd sizes r = Ok (zlen (filter (Z.eqb r) done)))
     (fun p sizes => c <- rd sizes p ;; wr sizes p (c + 1)) ep (vec n 0)) as (s & E & L & R).
  - split; [now apply zlen_vec|]. intros r Hr; simpl.
    rewrite (rd_nth 0) by (rewrite zlen_vec; lia).
    unfold vec; rewrite nth_repeat; reflexivity.
  - intros done p todo s Es [L R].
    assert (Hp : 0 <= p < n).
    { destruct Hep as [_ F]; rewrite Forall_forall in F; apply F; rewrite Es.
      apply in_or_app; right; now left. }
    rewrite (R p Hp); simpl. rewrite wr_ok by lia.
    eexists; split; [reflexivity|]. rewrite zlen_set_nth; split; [easy|].
    intros r Hr; rewrite filter_app_one. destruct (Z.eqb_spec r p) as [->|Hne].
    + rewrite rd_set_nth_eq by lia. now rewrite zlen_app.
    + rewrite rd_set_nth_neq by lia. rewrite app_nil_r; auto.
  - exists s; split; [exact E|]. split; [easy|]. intros r Hr; rewrite R by easy; f_equal.
    unfold elems_of. destruct Hep as [Lp _]; rewrite <- Lp. clear.
    assert (G : forall l : list Z, zlen (filter (Z.eqb r) l) =
              zlen (filter (fun e => r =? nth (Z.to_nat e) l (-1)) (zseq (zlen l)))).
    { induction l as [|x l IH] using rev_ind; [reflexivity|].
      rewrite zlen_app, zlen_cons, zlen_nil, Z.add_0_l, zseq_S, !filter_app, !zlen_app by apply zlen_nonneg.
      f_equal.
      - rewrite IH. f_equal. apply filter_ext_in. intros e He; apply In_zseq in He.
        rewrite app_nth1 by (unfold zlen in He; lia). reflexivity.
      - simpl. rewrite app_nth2 by (unfold zlen; lia).
        replace (Z.to_nat (zlen l) - length l)%nat with O by (unfold zlen; lia). simpl.
        now destruct (r =? x). }
    exact (G ep).
Qed.

Lemma count_faces_ok :
  0 <= n -> exists sizes sets,
    count_faces m ep n n = Ok (sizes, ghosts_of m ep, sets) /\
    zlen sizes = n /\ zlen sets = n /\
    (forall r, 0 <= r < n -> rd sizes r = Ok (zlen (faces_of m ep r))) /\
    (forall r, 0 <= r < n -> exists s, rd sets r = Ok s /\ NoDup s /\
       forall x, In x s <-> x <> r /\ exists f, face_joins m ep f r x).
Proof.
  intros Hn.
  destruct (zfor_inv (fun i (st : fc_state) => let '(sizes, ghosts, sets) := st in
     ghosts = filter (is_ghost m ep) (zseq i) /\
     zlen sizes = n /\ zlen sets = n /\
    (forall r, 0 <= r < n -> rd sizes r = Ok (zlen (filter (on_rank m ep r) (zseq i)))) /\
    (forall r, 0 <= r < n -> exists s, rd sets r = Ok s /\ NoDup s /\
       forall x, In x s <-> x <> r /\ exists f, 0 <= f < i /\ joins_b m ep r x f = true))
    (gm_nIF m) (count_face_step m ep) (vec n 0, [], vec n [])) as ([[sz gh] st] & E & HG & L1 & L2 & R1 & R2).
  - apply nif_pos.
  - repeat split; try (now apply zlen_vec).
    + intros r Hr. rewrite (rd_nth 0) by (rewrite zlen_vec; lia).
      unfold vec; rewrite nth_repeat; reflexivity.
    + intros r Hr. exists []. rewrite (rd_nth []) by (rewrite zlen_vec; lia).
      unfold vec; rewrite nth_repeat; split; [reflexivity|]. split; [constructor|].
      intros x; simpl; split; [easy|]. intros (_ & f & Hf & _); lia.
  - intros i [[sz gh] st] Hi (HG & L1 & L2 & R1 & R2).
    destruct (elem_range i Hi) as [HeL HeR]. destruct (rk_range i Hi) as [HL HR].
    unfold count_face_step. rewrite !rd_row by lia. simpl bind.
    rewrite !rd_ep by easy. cbn [bind]. fold (rkL m ep i). fold (rkR m ep i).
    rewrite (R1 _ HL); cbn [bind]. rewrite wr_ok by lia; cbn [bind].
    set (s1 := set_nth sz (Z.to_nat (rkL m ep i)) (zlen (filter (on_rank m ep (rkL m ep i)) (zseq i)) + 1)).
    assert (Hg : is_ghost m ep i = negb (rkL m ep i =? rkR m ep i)) by reflexivity.
    rewrite zseq_S by lia.
    destruct (Z.eqb_spec (rkL m ep i) (rkR m ep i)) as [Heq|Hne]; cbn [negb].
    + eexists; split; [reflexivity|]. cbn beta iota.
      rewrite !filter_app_one, Hg; cbn [negb]. rewrite app_nil_r.
      split; [easy|]. unfold s1; rewrite zlen_set_nth. split; [easy|]. split; [easy|]. split.
      * intros r Hr. rewrite filter_app_one, zlen_app.
        change (on_rank m ep r i) with ((r =? rkL m ep i) || (r =? rkR m ep i)); rewrite <- Heq, orb_diag.
        destruct (Z.eqb_spec r (rkL m ep i)) as [->|Hr'].
        -- rewrite rd_set_nth_eq by lia. reflexivity.
        -- rewrite rd_set_nth_neq by lia. rewrite R1 by easy. rewrite zlen_nil, Z.add_0_r; reflexivity.
      * intros r Hr. destruct (R2 r Hr) as (s & Rs & ND & Hs). exists s; split; [easy|]. split; [easy|].
        intros x; rewrite Hs. split; intros (Hx & f & Hf & J); (split; [easy|]).
        -- exists f; split; [lia|easy].
        -- exists f; split; [|easy]. destruct (Z.eq_dec f i) as [->|]; [|lia].
           unfold joins_b in J. rewrite orb_true_iff, !andb_true_iff, !Z.eqb_eq in J.
           exfalso; apply Hx; intuition congruence.
    + assert (Hs1 : rd s1 (rkR m ep i) = Ok (zlen (filter (on_rank m ep (rkR m ep i)) (zseq i)))).
      { unfold s1; rewrite rd_set_nth_neq by lia; auto. }
      rewrite Hs1; cbn [bind]. rewrite wr_ok by (unfold s1; rewrite zlen_set_nth; lia). cbn [bind].
      destruct (R2 _ HL) as (sL & RsL & NDL & HsL). rewrite RsL; cbn [bind].
      rewrite wr_ok by lia; cbn [bind].
      destruct (R2 _ HR) as (sR & RsR & NDR & HsR).
      rewrite rd_set_nth_neq by lia. rewrite RsR; cbn [bind].
      rewrite wr_ok by (rewrite zlen_set_nth; lia); cbn [bind].
      eexists; split; [reflexivity|]. cbn beta iota.
      rewrite !filter_app_one, Hg; cbn [negb].
      rewrite !zlen_set_nth. unfold s1 at 1; rewrite zlen_set_nth.
      split; [now rewrite HG|]. split; [easy|]. split; [easy|]. split.
      * intros r Hr. rewrite filter_app_one, zlen_app. change (on_rank m ep r i) with ((r =? rkL m ep i) || (r =? rkR m ep i)).
        destruct (Z.eqb_spec r (rkR m ep i)) as [->|HrR].
        -- rewrite rd_set_nth_eq by (unfold s1; rewrite zlen_set_nth; lia).
           rewrite orb_true_r. reflexivity.
        -- rewrite rd_set_nth_neq by lia. unfold s1.
           destruct (Z.eqb_spec r (rkL m ep i)) as [->|HrL].
           ++ rewrite rd_set_nth_eq by lia. reflexivity.
           ++ rewrite rd_set_nth_neq by lia. rewrite R1 by easy.
              cbn [orb]. rewrite zlen_nil, Z.add_0_r; reflexivity.
      * intros r Hr.
        assert (Jnew : forall x, joins_b m ep r x i = true <->
                  (r = rkL m ep i /\ x = rkR m ep i) \/ (r = rkR m ep i /\ x = rkL m ep i)).
        { intros x; unfold joins_b. rewrite orb_true_iff, !andb_true_iff, !Z.eqb_eq. intuition. }
        assert (Hold : forall x, (exists f, 0 <= f < i + 1 /\ joins_b m ep r x f = true) <->
                  (joins_b m ep r x i = true \/ exists f, 0 <= f < i /\ joins_b m ep r x f = true)).
        { intros x; split.
          - intros (f & Hf & J). destruct (Z.eq_dec f i) as [->|]; [now left|right].
            exists f; split; [lia|easy].
          - intros [J|(f & Hf & J)]; [exists i | exists f]; split; (easy || lia). }
        destruct (Z.eq_dec r (rkR m ep i)) as [->|HrR].
        -- rewrite rd_set_nth_eq by (rewrite zlen_set_nth; lia).
           eexists; split; [reflexivity|]. split; [now apply uset_insert_NoDup|].
           intros x. rewrite uset_insert_In, HsR, Hold, Jnew.
           split.
           ++ intros [->|(Hx & f & Hf)]; (split; [congruence|]); [left; right; split; easy|].
              right; exists f; easy.
           ++ intros (Hx & [[[E1 _]|[_ ->]]|Hf]); [congruence| now left | now right].
        -- rewrite rd_set_nth_neq by lia.
           destruct (Z.eq_dec r (rkL m ep i)) as [->|HrL].
           ++ rewrite rd_set_nth_eq by lia.
              eexists; split; [reflexivity|]. split; [now apply uset_insert_NoDup|].
              intros x. rewrite uset_insert_In, HsL, Hold, Jnew.
              split.
              ** intros [->|(Hx & f & Hf)]; (split; [congruence|]); [left; left; split; easy|].
                 right; exists f; easy.
              ** intros (Hx & [[[_ ->]|[E1 _]]|Hf]); [now left | congruence | now right].
           ++ rewrite rd_set_nth_neq by lia.
              destruct (R2 r Hr) as (s & Rs & ND & Hs). exists s; split; [easy|]. split; [easy|].
              intros x; rewrite Hs, Hold, Jnew. split.
              ** intros (Hx & Hf); split; [easy|]. now right.
              ** intros (Hx & [[[E1 _]|[E1 _]]|Hf]); [congruence|congruence|]. easy.
  - exists sz, st. rewrite HG in E. repeat split; auto.
    intros r Hr. destruct (R2 r Hr) as (s & Rs & ND & Hs). exists s; split; [easy|]. split; [easy|].
    intros x; rewrite Hs. split; intros (Hx & f & Hf); (split; [easy|]); exists f.
    + apply face_joins_b; easy.
    + apply face_joins_b in Hf; easy.
Qed.

(** * Filling loops *)

Lemma rd_mid {B} (P : list B) x Q : rd (P ++ x :: Q) (zlen P) = Ok x.
Proof.
  apply rd_Ok; split; [apply zlen_nonneg|].
  rewrite nth_error_app2 by (unfold zlen; lia).
  replace (Z.to_nat (zlen P) - length P)%nat with O by (unfold zlen; lia). reflexivity.
Qed.

Lemma wr_mid {B} (P : list B) x Q v : wr (P ++ x :: Q) (zlen P) v = Ok (P ++ v :: Q).
Proof.
  rewrite wr_ok.
  - replace (Z.to_nat (zlen P)) with (length P + 0)%nat by (unfold zlen; lia).
    now rewrite set_nth_app.
  - rewrite zlen_app, zlen_cons. pose proof (zlen_nonneg P); pose proof (zlen_nonneg Q); lia.
Qed.

Lemma fill_row {B} (f : Z -> res B) (g : Z -> B) k (d : B) P Q :
  0 <= k -> (forall j, 0 <= j < k -> f j = Ok (g j)) ->
  zfor k (fun j M => v <- f j ;; wr2 M (zlen P) j v) (P ++ vec k d :: Q)
  = Ok (P ++ map g (zseq k) :: Q).
Proof.
  intros Hk Hf.
  destruct (zfor_inv (fun j M => M = P ++ (map g (zseq j) ++ repeat d (Z.to_nat (k - j))) :: Q) k
     (fun j M => v <- f j ;; wr2 M (zlen P) j v) (P ++ vec k d :: Q)) as (M & E & ->).
  - easy.
  - rewrite Z.sub_0_r; reflexivity.
  - intros j M Hj ->. rewrite Hf by easy. cbn [bind]. unfold wr2. rewrite rd_mid; cbn [bind].
    replace (Z.to_nat (k - j)) with (S (Z.to_nat (k - (j + 1)))) by lia.
    assert (E : j = zlen (map g (zseq j))) by (rewrite zlen_map, zlen_zseq; lia).
    pose proof (wr_fill (map g (zseq j)) d (Z.to_nat (k - (j + 1))) (g j)) as W.
    rewrite <- E in W. rewrite W; cbn [bind]. rewrite wr_mid.
    eexists; split; [reflexivity|]. rewrite zseq_S, map_app by lia. reflexivity.
  - rewrite E. rewrite Z.sub_diag; simpl. now rewrite app_nil_r.
Qed.

Lemma collect_nodes_ok r :
  exists ids, collect_nodes m ep r = Ok ids /\ StronglySorted Z.lt ids /\
    forall g, In g ids <-> node_used m ep g r.
Proof.
  destruct (zfor_inv (fun i ids => StronglySorted Z.lt ids /\
     forall g, In g ids <-> exists e j, 0 <= e < i /\ prt ep e = r /\ 0 <= j < gm_npe m /\
       rd (gm_eind m) (e * gm_npe m + j) = Ok g)
    (gm_num_elems m)
    (fun i ids => p <- rd ep i ;;
      if r =? p then
      zfor (gm_npe m) (fun j ids =>
        g <- rd (gm_eind m) (i * gm_npe m + j) ;; Ok (set_insert g ids)) ids
      else Ok ids) []) as (ids & E & Hs & Hin).
  - apply ne_pos.
  - split; [constructor|]. intros g; simpl; split; [easy|]. intros (e & j & He & _); lia.
  - intros i ids Hi (Hs & Hin). rewrite rd_ep by easy; cbn [bind].
    assert (Hold : forall g, (exists e j, 0 <= e < i + 1 /\ prt ep e = r /\ 0 <= j < gm_npe m /\
       rd (gm_eind m) (e * gm_npe m + j) = Ok g) <->
       (In g ids \/ (prt ep i = r /\ exists j, 0 <= j < gm_npe m /\
           rd (gm_eind m) (i * gm_npe m + j) = Ok g))).
    { intros g; rewrite Hin; split.
      - intros (e & j & He & Hp & Hj & R). destruct (Z.eq_dec e i) as [->|].
        + right; split; [easy|]. exists j; easy.
        + left; exists e, j; repeat split; try easy; lia.
      - intros [(e & j & He & Hp & Hj & R)|(Hp & j & Hj & R)].
        + exists e, j; repeat split; try easy; lia.
        + exists i, j; repeat split; try easy; lia. }
    destruct (Z.eqb_spec r (prt ep i)) as [Hr|Hr].
    + destruct (zfor_inv (fun k ids' => StronglySorted Z.lt ids' /\
         forall g, In g ids' <-> In g ids \/ exists j, 0 <= j < k /\
           rd (gm_eind m) (i * gm_npe m + j) = Ok g)
         (gm_npe m) (fun j ids =>
           g <- rd (gm_eind m) (i * gm_npe m + j) ;; Ok (set_insert g ids)) ids)
        as (ids' & E' & Hs' & Hin').
      * apply (wf_npe m Hm).
      * split; [easy|]. intros g; split; [now left|]. intros [|(j & Hj & _)]; [easy|lia].
      * intros j ids' Hj (Hs' & Hin').
        destruct (rd_total (gm_eind m) (i * gm_npe m + j)) as (g & Rg).
        { rewrite (wf_eind_len m Hm). pose proof (wf_npe m Hm). nia. }
        rewrite Rg; cbn [bind]. eexists; split; [reflexivity|].
        split; [now apply set_insert_sorted|]. intros g'. rewrite set_insert_In, Hin'.
        split.
        -- intros [->|[Hg|(j' & Hj' & R)]]; [right; exists j | now left | right; exists j'];
             split; try easy; lia.
        -- intros [Hg|(j' & Hj' & R)]; [now (right; left)|].
           destruct (Z.eq_dec j' j) as [->|]; [left; congruence|].
           right; right; exists j'; split; [lia|easy].
      * exists ids'; split; [exact E'|]. split; [easy|]. intros g. rewrite Hin', Hold. intuition.
    + exists ids; split; [reflexivity|]. split; [easy|]. intros g. rewrite Hold. intuition congruence.
  - exists ids; split; [exact E|]. split; [easy|]. intros g; rewrite Hin. unfold node_used.
    split; intros (e & j & H).
    + exists e, j. rewrite owned_prt. intuition.
    + exists e, j. rewrite owned_prt in H. intuition.
Qed.

Definition conn_row (ids : list Z) (e : Z) : list Z :=
  map (fun j => set_distance (nth (Z.to_nat (e * gm_npe m + j)) (gm_eind m) 0) ids) (zseq (gm_npe m)).

Lemma filter_zseq_len (f : Z -> bool) i k :
  0 <= i < k -> f i = true -> zlen (filter f (zseq i)) + 1 <= zlen (filter f (zseq k)).
Proof.
  intros H Hf.
  assert (G : exists l, zseq k = zseq (i + 1) ++ l).
  { exists (map Z.of_nat (seq (Z.to_nat (i + 1)) (Z.to_nat (k - (i + 1))))).
    unfold zseq; rewrite <- map_app, <- seq_app. f_equal; f_equal; lia. }
  destruct G as [l ->]. rewrite zseq_S, !filter_app, !zlen_app by lia. simpl; rewrite Hf.
  pose proof (zlen_nonneg (filter f l)). unfold zlen at 3; simpl. lia.
Qed.

Lemma fill_elems_ok r ids :
  fill_elems m ep r (zlen (elems_of m ep r)) ids
  = Ok (elems_of m ep r, map (conn_row ids) (elems_of m ep r)).
Proof.
  unfold fill_elems.
  set (tot := zlen (elems_of m ep r)).
  set (fl i := filter (fun e => r =? prt ep e) (zseq i)).
  match goal with |- context [zfor _ ?b ?s] =>
    destruct (zfor_inv (fun i (st : Z * list Z * list (list Z)) =>
      st = (zlen (fl i), fl i ++ repeat 0 (Z.to_nat (tot - zlen (fl i))),
            map (conn_row ids) (fl i) ++
              repeat (vec (gm_npe m) 0) (Z.to_nat (tot - zlen (fl i)))))
     (gm_num_elems m) b s) as (st & E & ->) end.
  - apply ne_pos.
  - unfold fl; simpl. rewrite Z.sub_0_r. reflexivity.
  - intros i st Hi ->. rewrite rd_ep by easy; cbn [bind].
    assert (Efl : fl (i + 1) = fl i ++ if r =? prt ep i then [i] else []).
    { unfold fl; rewrite zseq_S by lia. rewrite filter_app_one; reflexivity. }
    destruct (Z.eqb_spec r (prt ep i)) as [Hr|Hr].
    + assert (Hlt : zlen (fl i) + 1 <= tot).
      { unfold tot, fl, elems_of. apply filter_zseq_len; [easy|]. now apply Z.eqb_eq. }
      replace (Z.to_nat (tot - zlen (fl i))) with (S (Z.to_nat (tot - zlen (fl i) - 1))) by lia.
      rewrite wr_fill; cbn [bind].
      simpl repeat.
      pose proof (fill_row (fun j => g <- rd (gm_eind m) (i * gm_npe m + j) ;; Ok (set_distance g ids))
         (fun j => set_distance (nth (Z.to_nat (i * gm_npe m + j)) (gm_eind m) 0) ids)
         (gm_npe m) 0 (map (conn_row ids) (fl i))
         (repeat (vec (gm_npe m) 0) (Z.to_nat (tot - zlen (fl i) - 1)))
         (wf_npe m Hm)) as FR.
      rewrite zlen_map in FR.
      assert (Eb : forall l M, foreach l (fun j M => v <- (g <- rd (gm_eind m) (i * gm_npe m + j) ;; Ok (set_distance g ids)) ;; wr2 M (zlen (fl i)) j v) M
          = foreach l (fun j e2n => g <- rd (gm_eind m) (i * gm_npe m + j) ;; wr2 e2n (zlen (fl i)) j (set_distance g ids)) M).
      { induction l; intros M; simpl; auto. destruct (rd (gm_eind m) (i * gm_npe m + a)); simpl; auto.
        destruct (wr2 M (zlen (fl i)) a (set_distance a0 ids)); simpl; auto. }
      unfold zfor in FR. rewrite Eb in FR. unfold zfor. rewrite FR.
      2:{ intros j Hj. rewrite (rd_nth 0); [reflexivity|]. rewrite (wf_eind_len m Hm).
          pose proof (wf_npe m Hm). nia. }
      cbn [bind]. eexists; split; [reflexivity|].
      rewrite Efl, zlen_app, map_app, <- !app_assoc. cbn [map app].
      change (zlen [i]) with 1.
      replace (tot - (zlen (fl i) + 1)) with (tot - zlen (fl i) - 1) by lia. reflexivity.
    + eexists; split; [reflexivity|]. rewrite Efl, app_nil_r. reflexivity.
  - rewrite E; cbn [bind]. change (fl (gm_num_elems m)) with (elems_of m ep r). fold tot.
    rewrite Z.sub_diag; change (Z.to_nat 0) with O; cbn [repeat]; now rewrite !app_nil_r.
Qed.

Definition coord_row (g : Z) : list A := nth (Z.to_nat g) (gm_coord m) [].

Lemma fill_nodes_ok zero ids :
  Forall (fun g => 0 <= g < gm_num_nodes m) ids ->
  fill_nodes zero m (zlen ids) ids = Ok (ids, map coord_row ids).
Proof.
  intros HF. unfold fill_nodes.
  match goal with |- context [foreach ids ?b ?s] =>
    destruct (foreach_inv (fun done (st : Z * list Z * list (list A)) =>
      st = (zlen done, done ++ repeat 0 (Z.to_nat (zlen ids - zlen done)),
            map coord_row done ++ repeat (vec (gm_dim m) zero) (Z.to_nat (zlen ids - zlen done))))
     b ids s) as (st & E & ->) end.
  - change (zlen (@nil Z)) with 0; rewrite Z.sub_0_r. reflexivity.
  - intros done g todo st Eids ->.
    assert (Hg : 0 <= g < gm_num_nodes m).
    { rewrite Forall_forall in HF; apply HF; rewrite Eids; apply in_or_app; right; now left. }
    assert (L : zlen ids = zlen done + zlen todo + 1) by (rewrite Eids, zlen_app, zlen_cons; lia).
    pose proof (zlen_nonneg todo).
    replace (Z.to_nat (zlen ids - zlen done)) with (S (Z.to_nat (zlen todo))) by lia.
    rewrite wr_fill; cbn [bind]. simpl repeat.
    assert (Rg : rd (gm_coord m) g = Ok (coord_row g)) by (apply rd_nth; rewrite (wf_coord_len m Hm); easy).
    assert (Lg : zlen (coord_row g) = gm_dim m).
    { pose proof (wf_coord m Hm) as F; rewrite Forall_forall in F; apply F.
      eapply rd_In; eauto. }
    pose proof (fill_row (fun k => rd2 (gm_coord m) g k)
         (fun k => nth (Z.to_nat k) (coord_row g) zero)
         (gm_dim m) zero (map coord_row done)
         (repeat (vec (gm_dim m) zero) (Z.to_nat (zlen todo)))
         (wf_dim m Hm)) as FR.
    rewrite zlen_map in FR. rewrite FR.
    2:{ intros k Hk. unfold rd2; rewrite Rg; cbn [bind]. apply rd_nth. lia. }
    cbn [bind]. eexists; split; [reflexivity|].
    assert (Erow : map (fun k : Z => nth (Z.to_nat k) (coord_row g) zero) (zseq (gm_dim m)) = coord_row g).
    { rewrite <- Lg. apply map_nth_zseq. }
    rewrite Erow, zlen_app, map_app, <- !app_assoc. cbn [map app].
    change (zlen [g]) with 1.
    replace (zlen ids - (zlen done + 1)) with (zlen todo) by lia. reflexivity.
  - rewrite E; cbn [bind]. rewrite Z.sub_diag; change (Z.to_nat 0) with O; cbn [repeat]; now rewrite !app_nil_r.
Qed.

Lemma fill_neighbors_ok l :
  (foreach l (fun r '(counter, nb) => nb' <- wr nb counter r ;; Ok (counter + 1, nb'))
     (0, vec (zlen l) 0)) = Ok (zlen l, l).
Proof.
  match goal with |- foreach l ?b ?s = _ =>
    destruct (foreach_inv (fun done (st : Z * list Z) =>
      st = (zlen done, done ++ repeat 0 (Z.to_nat (zlen l - zlen done))))
     b l s) as (st & E & ->) end.
  - change (zlen (@nil Z)) with 0; rewrite Z.sub_0_r. reflexivity.
  - intros done g todo st El ->.
    assert (L : zlen l = zlen done + zlen todo + 1) by (rewrite El, zlen_app, zlen_cons; lia).
    pose proof (zlen_nonneg todo).
    replace (Z.to_nat (zlen l - zlen done)) with (S (Z.to_nat (zlen todo))) by lia.
    rewrite wr_fill; cbn [bind]. eexists; split; [reflexivity|].
    rewrite zlen_app. change (zlen [g]) with 1.
    replace (zlen l - (zlen done + 1)) with (zlen todo) by lia. reflexivity.
  - rewrite E, Z.sub_diag; change (Z.to_nat 0) with O; cbn [repeat]; now rewrite !app_nil_r.
Qed.

Lemma fill_faces_ok r :
  fill_faces m ep r (zlen (faces_of m ep r)) (elems_of m ep r)
  = Ok (zlen (faces_of m ep r), zlen (filter (is_ghost m ep) (faces_of m ep r)),
        faces_of m ep r, map (face_row m ep r) (faces_of m ep r)).
Proof.
  unfold fill_faces.
  set (tot := zlen (faces_of m ep r)).
  set (fl i := filter (on_rank m ep r) (zseq i)).
  match goal with |- zfor _ ?b ?s = _ =>
    destruct (zfor_inv (fun i (st : ff_state) =>
      st = (zlen (fl i), zlen (filter (is_ghost m ep) (fl i)),
            fl i ++ repeat 0 (Z.to_nat (tot - zlen (fl i))),
            map (face_row m ep r) (fl i) ++
              repeat (vec 8 0) (Z.to_nat (tot - zlen (fl i)))))
     (gm_nIF m) b s) as (st & E & ->) end.
  - apply nif_pos.
  - unfold fl; simpl. rewrite Z.sub_0_r. reflexivity.
  - intros i st Hi ->.
    destruct (elem_range i Hi) as [HeL HeR].
    unfold fill_face_step. rewrite !rd_row by lia. cbn [bind].
    rewrite !rd_ep by easy. cbn [bind]. fold (rkL m ep i). fold (rkR m ep i).
    change ((r =? rkL m ep i) || (r =? rkR m ep i)) with (on_rank m ep r i).
    assert (Efl : fl (i + 1) = fl i ++ if on_rank m ep r i then [i] else []).
    { unfold fl; rewrite zseq_S by lia. rewrite filter_app_one; reflexivity. }
    destruct (on_rank m ep r i) eqn:Hon.
    + assert (Hlt : zlen (fl i) + 1 <= tot).
      { unfold tot, fl, faces_of. apply filter_zseq_len; easy. }
      replace (Z.to_nat (tot - zlen (fl i))) with (S (Z.to_nat (tot - zlen (fl i) - 1))) by lia.
      rewrite wr_fill; cbn [bind]. simpl repeat.
      assert (W : forall row v j Q, 0 <= j < zlen row ->
         wr2 (map (face_row m ep r) (fl i) ++ row :: Q) (zlen (fl i)) j v
         = Ok (map (face_row m ep r) (fl i) ++ set_nth row (Z.to_nat j) v :: Q)).
      { intros row v j Q Hj. unfold wr2.
        assert (El : zlen (fl i) = zlen (map (face_row m ep r) (fl i))) by (now rewrite zlen_map).
        rewrite El, rd_mid; cbn [bind]. rewrite wr_ok by easy; cbn [bind]. apply wr_mid. }
      cbn [foreach]. rewrite !rd_row by lia.
      repeat (rewrite W by (rewrite ?zlen_set_nth, zlen_vec; lia); cbn [bind]).
      eexists; split; [reflexivity|].
      rewrite Efl, zlen_app, map_app, filter_app, zlen_app, <- !app_assoc. cbn [map app filter].
      change (is_ghost m ep i) with (negb (rkL m ep i =? rkR m ep i)).
      replace (tot - (zlen (fl i) + zlen [i])) with (tot - zlen (fl i) - 1)
        by (change (zlen [i]) with 1; lia).
      destruct (rkL m ep i =? rkR m ep i); cbn [negb]; unfold zlen at 4; cbn [length];
        rewrite ?Z.add_0_r; reflexivity.
    + eexists; split; [reflexivity|]. rewrite Efl, app_nil_r. reflexivity.
  - rewrite E. change (fl (gm_nIF m)) with (faces_of m ep r). fold tot.
    rewrite Z.sub_diag; change (Z.to_nat 0) with O; cbn [repeat]; now rewrite !app_nil_r.
Qed.

(** * Ghost faces *)

Definition other (r f : Z) : Z := if r =? rkL m ep f then rkR m ep f else rkL m ep f.

Lemma other_rank_row r f :
  on_rank m ep r f = true -> other_rank r (face_row m ep r f) = Ok (Some (other r f)).
Proof.
  unfold on_rank, other, other_rank, face_row; intros H.
  rewrite (rd_nth 0) by (unfold zlen; simpl; lia). cbn [bind].
  rewrite (rd_nth 0) by (unfold zlen; simpl; lia). cbn [bind].
  change (nth (Z.to_nat 0)
      [rkL m ep f; search_for_local_ID (fcol m f 0) (elems_of m ep r); fcol m f 1; fcol m f 2;
      rkR m ep f; search_for_local_ID (fcol m f 3) (elems_of m ep r); fcol m f 4; fcol m f 5] 0)
    with (rkL m ep f).
  change (nth (Z.to_nat 4)
      [rkL m ep f; search_for_local_ID (fcol m f 0) (elems_of m ep r); fcol m f 1; fcol m f 2;
      rkR m ep f; search_for_local_ID (fcol m f 3) (elems_of m ep r); fcol m f 4; fcol m f 5] 0)
    with (rkR m ep f).
  destruct (r =? rkL m ep f); [easy|]. simpl in H; now rewrite H.
Qed.

Lemma joins_other r x f :
  is_ghost m ep f = true -> joins_b m ep r x f = true ->
  on_rank m ep r f = true /\ other r f = x.
Proof.
  unfold is_ghost, joins_b, on_rank, other. intros G J.
  apply negb_true_iff, Z.eqb_neq in G.
  rewrite orb_true_iff, !andb_true_iff, !Z.eqb_eq in J. rewrite orb_true_iff, !Z.eqb_eq.
  destruct (Z.eqb_spec r (rkL m ep f)); intuition congruence.
Qed.

Lemma other_joins r f :
  is_ghost m ep f = true -> on_rank m ep r f = true ->
  joins_b m ep r (other r f) f = true /\ other r f <> r.
Proof.
  unfold is_ghost, joins_b, on_rank, other. intros G J.
  apply negb_true_iff, Z.eqb_neq in G.
  rewrite orb_true_iff, !Z.eqb_eq in J. rewrite orb_true_iff, !andb_true_iff, !Z.eqb_eq.
  destruct (Z.eqb_spec r (rkL m ep f)); intuition congruence.
Qed.

Definition nbrs_exact r nbrs :=
  NoDup nbrs /\ forall x, In x nbrs <-> x <> r /\ exists f, face_joins m ep f r x.

Lemma ghost_lookup r f :
  In f (ghosts_of m ep) ->
  (on_rank m ep r f = true /\ exists k, search_for_local_ID f (faces_of m ep r) = k /\ k <> UINT_MAX /\
      rd (map (face_row m ep r) (faces_of m ep r)) k = Ok (face_row m ep r f))
  \/ (on_rank m ep r f = false /\ search_for_local_ID f (faces_of m ep r) = UINT_MAX).
Proof.
  intros Hf. unfold ghosts_of in Hf; apply filter_In in Hf; destruct Hf as [Hf G].
  pose proof (NoDup_faces r) as ND. pose proof (zlen_faces_small r) as HS.
  destruct (on_rank m ep r f) eqn:Hon.
  - left; split; [easy|].
    assert (Hin : In f (faces_of m ep r)) by (apply filter_In; easy).
    destruct (search_found f _ ND HS Hin) as (k & Hk & E & R).
    exists k; split; [easy|]; split; [lia|]. now apply rd_map.
  - right; split; [easy|]. apply search_absent; auto.
    intros Hin; apply filter_In in Hin. destruct Hin; congruence.
Qed.

Lemma count_boundary_ok r nbrs :
  nbrs_exact r nbrs ->
  count_boundary r (ghosts_of m ep) (faces_of m ep r) (map (face_row m ep r) (faces_of m ep r))
     nbrs (zlen nbrs)
  = Ok (map (fun x => zlen (between m ep r x)) nbrs).
Proof.
  intros [ND HN]. unfold count_boundary.
  match goal with |- foreach ?l ?b ?s = _ =>
    destruct (foreach_inv (fun done counts => zlen counts = zlen nbrs /\
      forall k x, rd nbrs k = Ok x -> rd counts k = Ok (zlen (filter (joins_b m ep r x) done)))
     b l s) as (st & E & L & R) end.
  - pose proof (zlen_nonneg nbrs). rewrite zlen_vec by easy. split; [easy|]. intros k x Rk. simpl.
    apply rd_in_range in Rk. rewrite (rd_nth 0) by (rewrite zlen_vec; lia).
    unfold vec; rewrite nth_repeat; reflexivity.
  - intros done g todo counts Eg [L R]. cbv zeta.
    assert (Hg : In g (ghosts_of m ep)) by (rewrite Eg; apply in_or_app; right; now left).
    assert (Gg : 0 <= g < gm_nIF m /\ is_ghost m ep g = true).
    { apply filter_In in Hg; rewrite In_zseq in Hg; easy. }
    destruct Gg as [Rg Gg].
    destruct (ghost_lookup r g Hg) as [(Hon & k & -> & Hk & Rk)|(Hon & ->)].
    + rewrite (proj2 (Z.eqb_neq _ _) Hk). cbn [negb]. rewrite Rk; cbn [bind].
      rewrite other_rank_row by easy; cbn [bind].
      destruct (other_joins r g Gg Hon) as [HJ HO].
      destruct (neighbor_index_ok (other r g) nbrs) as (ix & Ei & Ri).
      { apply HN; split; [easy|]. exists g; apply face_joins_b; easy. }
      rewrite Ei; cbn [bind]. rewrite (R _ _ Ri); cbn [bind].
      pose proof (rd_in_range _ _ _ Ri).
      rewrite wr_ok by lia. eexists; split; [reflexivity|]. rewrite zlen_set_nth; split; [easy|].
      intros k' x Rx. rewrite filter_app_one.
      destruct (Z.eq_dec k' ix) as [->|Hne].
      * rewrite rd_set_nth_eq by lia. assert (x = other r g) by congruence; subst x.
        rewrite HJ, zlen_app; reflexivity.
      * rewrite rd_set_nth_neq by lia. rewrite (R _ _ Rx).
        destruct (joins_b m ep r x g) eqn:J; [|now rewrite app_nil_r].
        destruct (joins_other _ _ _ Gg J) as [_ <-].
        exfalso; apply Hne; eapply rd_NoDup_inj; eauto.
    + rewrite Z.eqb_refl; cbn [negb]. eexists; split; [reflexivity|]. split; [easy|].
      intros k x Rk. rewrite filter_app_one.
      destruct (joins_b m ep r x g) eqn:J; [|rewrite app_nil_r; auto].
      destruct (joins_other _ _ _ Gg J); congruence.
  - rewrite E; f_equal. apply rd_ext; [now rewrite zlen_map|].
    intros i Hi. rewrite L in Hi. destruct (rd_total nbrs i Hi) as (x & Rx).
    rewrite (R _ _ Rx). symmetry. unfold between. apply (rd_map (fun x => zlen (filter (joins_b m ep r x) (ghosts_of m ep)))). easy.
Qed.

Lemma alloc_ok (counts : list Z) :
  zfor (zlen counts) (fun i acc => c <- rd counts i ;; Ok (acc ++ [vec c 0])) []
  = Ok (map (fun c => vec c 0) counts).
Proof.
  match goal with |- zfor _ ?b ?s = _ =>
    destruct (zfor_inv (fun i acc => acc = map (fun c => vec c 0) (firstn (Z.to_nat i) counts))
     (zlen counts) b s) as (st & E & ->) end.
  - apply zlen_nonneg.
  - reflexivity.
  - intros i acc Hi ->. destruct (rd_total counts i Hi) as (c & Rc). rewrite Rc; cbn [bind].
    eexists; split; [reflexivity|]. apply rd_Ok in Rc; destruct Rc as [H0 Rc].
    replace (Z.to_nat (i + 1)) with (S (Z.to_nat i)) by lia.
    apply nth_error_split in Rc; destruct Rc as (l1 & l2 & -> & Hl).
    rewrite <- Hl. rewrite !firstn_app.
    replace (length l1 - length l1)%nat with O by lia.
    replace (S (length l1) - length l1)%nat with 1%nat by lia.
    rewrite firstn_all, (firstn_all2 (n := S (length l1))) by lia. simpl.
    rewrite app_nil_r, map_app. reflexivity.
  - rewrite E. unfold zlen; rewrite Nat2Z.id, firstn_all. reflexivity.
Qed.

Lemma filter_prefix_lt (f : Z -> bool) l done x todo :
  l = done ++ x :: todo -> f x = true -> zlen (filter f done) + 1 <= zlen (filter f l).
Proof.
  intros -> H. rewrite filter_app, zlen_app. simpl. rewrite H, zlen_cons.
  pose proof (zlen_nonneg (filter f todo)); lia.
Qed.

Lemma fill_ghosts_ok r nbrs :
  nbrs_exact r nbrs ->
  fill_ghosts r (ghosts_of m ep) (faces_of m ep r) (map (face_row m ep r) (faces_of m ep r))
     nbrs (zlen nbrs) (map (fun x => zlen (between m ep r x)) nbrs)
  = Ok (map (between m ep r) nbrs).
Proof.
  intros [ND HN]. unfold fill_ghosts.
  assert (EL : zlen nbrs = zlen (map (fun x => zlen (between m ep r x)) nbrs)) by (now rewrite zlen_map).
  rewrite EL at 1. rewrite alloc_ok. cbn [bind]. rewrite map_map.
  set (fl x l := filter (joins_b m ep r x) l).
  match goal with |- context [foreach ?l ?b ?s] =>
    destruct (foreach_inv (fun done (st : list Z * list (list Z)) => let '(gc, gf) := st in
      zlen gc = zlen nbrs /\ zlen gf = zlen nbrs /\
      forall k x, rd nbrs k = Ok x -> rd gc k = Ok (zlen (fl x done)) /\
         rd gf k = Ok (fl x done ++ repeat 0 (Z.to_nat (zlen (between m ep r x) - zlen (fl x done)))))
     b l s) as ([gc gf] & E & L1 & L2 & R) end.
  - pose proof (zlen_nonneg nbrs). rewrite zlen_vec, zlen_map by easy. split; [easy|]. split; [easy|].
    intros k x Rk. split.
    + apply rd_in_range in Rk. rewrite (rd_nth 0) by (rewrite zlen_vec; lia).
      unfold vec; rewrite nth_repeat; reflexivity.
    + change (fl x []) with (@nil Z). change (zlen (@nil Z)) with 0. rewrite Z.sub_0_r.
      apply (rd_map (fun x => vec (zlen (between m ep r x)) 0)) in Rk. exact Rk.
  - intros done g todo [gc gf] Eg (L1 & L2 & R). cbv zeta.
    assert (Hg : In g (ghosts_of m ep)) by (rewrite Eg; apply in_or_app; right; now left).
    assert (Gg : 0 <= g < gm_nIF m /\ is_ghost m ep g = true).
    { apply filter_In in Hg; rewrite In_zseq in Hg; easy. }
    destruct Gg as [Rg Gg].
    destruct (ghost_lookup r g Hg) as [(Hon & k & -> & Hk & Rk)|(Hon & ->)].
    + rewrite (proj2 (Z.eqb_neq _ _) Hk). cbn [negb]. rewrite Rk; cbn [bind].
      rewrite other_rank_row by easy; cbn [bind].
      destruct (other_joins r g Gg Hon) as [HJ HO].
      destruct (neighbor_index_ok (other r g) nbrs) as (ix & Ei & Ri).
      { apply HN; split; [easy|]. exists g; apply face_joins_b; easy. }
      rewrite Ei; cbn [bind]. destruct (R _ _ Ri) as [R1 R2]. rewrite R1; cbn [bind].
      unfold wr2. rewrite R2; cbn [bind].
      pose proof (filter_prefix_lt _ _ _ _ _ Eg HJ) as Hlt. fold (fl (other r g) done) in Hlt.
      change (filter (joins_b m ep r (other r g)) (ghosts_of m ep)) with (between m ep r (other r g)) in Hlt.
      set (tot := zlen (between m ep r (other r g))) in *.
      replace (Z.to_nat (tot - zlen (fl (other r g) done)))
         with (S (Z.to_nat (tot - zlen (fl (other r g) done) - 1))) by lia.
      rewrite wr_fill; cbn [bind].
      pose proof (rd_in_range _ _ _ Ri).
      rewrite wr_ok by lia. cbn [bind]. rewrite wr_ok by lia. cbn [bind].
      eexists; split; [reflexivity|]. cbv beta iota. rewrite !zlen_set_nth; split; [easy|]. split; [easy|].
      intros k' x Rx. unfold fl. rewrite filter_app_one.
      destruct (Z.eq_dec k' ix) as [->|Hne].
      * rewrite !rd_set_nth_eq by lia. assert (x = other r g) by congruence; subst x.
        rewrite HJ, zlen_app. change (zlen [g]) with 1. split; [reflexivity|].
        fold (fl (other r g) done). fold tot. do 4 f_equal. lia.
      * rewrite !rd_set_nth_neq by lia. destruct (R _ _ Rx) as [R1' R2'].
        destruct (joins_b m ep r x g) eqn:J; [|now rewrite app_nil_r].
        destruct (joins_other _ _ _ Gg J) as [_ <-].
        exfalso; apply Hne; eapply rd_NoDup_inj; eauto.
    + rewrite Z.eqb_refl; cbn [negb]. eexists; split; [reflexivity|]. split; [easy|]. split; [easy|].
      intros k x Rk. unfold fl; rewrite filter_app_one.
      destruct (joins_b m ep r x g) eqn:J; [|rewrite app_nil_r; apply (R _ _ Rk)].
      destruct (joins_other _ _ _ Gg J); congruence.
  - rewrite E; cbn [bind]; f_equal. apply rd_ext; [now rewrite zlen_map|].
    intros i Hi. rewrite L2 in Hi. destruct (rd_total nbrs i Hi) as (x & Rx).
    destruct (R _ _ Rx) as [_ ->]. rewrite (rd_map _ _ _ _ Rx). f_equal.
    change (fl x (ghosts_of m ep)) with (between m ep r x).
    rewrite Z.sub_diag; change (Z.to_nat 0) with O; cbn [repeat]. apply app_nil_r.
Qed.

(** * The whole of partition_tables *)

Definition the_pmesh (r : Z) (ids nbrs : list Z) : pmesh A :=
  mkPMesh (zlen (elems_of m ep r)) (zlen ids) (zlen (faces_of m ep r))
    (zlen (filter (is_ghost m ep) (faces_of m ep r))) (zlen nbrs) nbrs
    (elems_of m ep r) ids (faces_of m ep r)
    (map (conn_row ids) (elems_of m ep r)) (map coord_row ids)
    (map (face_row m ep r) (faces_of m ep r))
    (map (fun x => zlen (between m ep r x)) nbrs)
    (map (between m ep r) nbrs).

Lemma partition_tables_ok zero iter r :
  0 <= r < n -> any_order iter ->
  exists ids nbrs,
    partition_tables zero iter n n r m ep = Ok (the_pmesh r ids nbrs) /\
    StronglySorted Z.lt ids /\ (forall g, In g ids <-> node_used m ep g r) /\
    nbrs_exact r nbrs.
Proof.
  intros Hr Hit.
  destruct count_elems_ok as (sz & E1 & _ & R1); [lia|].
  destruct (collect_nodes_ok r) as (ids & E2 & Hs & Hids).
  destruct count_faces_ok as (fsz & sets & E3 & _ & _ & R3 & R4); [lia|].
  destruct (R4 r Hr) as (s & Rs & NDs & HNs).
  exists ids, (iter s).
  assert (HN : nbrs_exact r (iter s)).
  { split.
    - eapply Permutation_NoDup; [symmetry; apply Hit | easy].
    - intros x; rewrite <- HNs. split; apply Permutation_in; [apply Hit | symmetry; apply Hit]. }
  assert (Lit : zlen s = zlen (iter s)).
  { unfold zlen; f_equal; apply Permutation_length; symmetry; apply Hit. }
  split; [|auto].
  unfold partition_tables. rewrite E1; cbn [bind]. rewrite R1 by easy; cbn [bind].
  rewrite E2; cbn [bind]. rewrite E3; cbn [bind]. rewrite R3 by easy; cbn [bind].
  rewrite Rs; cbn [bind]. rewrite Lit. rewrite fill_neighbors_ok; cbn [bind].
  rewrite fill_elems_ok; cbn [bind]. rewrite fill_nodes_ok.
  2:{ apply Forall_forall; intros g Hg. apply Hids in Hg. destruct Hg as (e & j & _ & _ & Rg).
      apply rd_In in Rg. pose proof (wf_eind m Hm) as F; rewrite Forall_forall in F; auto. }
  cbn [bind]. rewrite fill_faces_ok; cbn [bind]. rewrite count_boundary_ok by easy; cbn [bind].
  rewrite fill_ghosts_ok by easy; cbn [bind]. reflexivity.
Qed.

End WithMesh.
