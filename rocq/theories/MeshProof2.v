(** MeshProof2.v -- consequences of the closed form of partition_tables. *)
From Coq Require Import ZArith List Lia Bool Permutation Sorted.
From Verif Require Import Base MeshModel MeshSpec MeshProof MeshReadProof.
Import ListNotations.
Local Open Scope Z_scope.
Open Scope res_scope.

Lemma partition_total {A} (zero : A) iter n m ep :
  run_wf iter n m ep -> forall r, 0 <= r < n ->
  exists pm, partition_tables zero (iter r) n n r m ep = Ok pm.
Proof.
  intros [Hm He Hi] r Hr.
  destruct (partition_tables_ok m n ep Hm He zero (iter r) r Hr (Hi r)) as (ids & nb & E & _).
  eauto.
Qed.

Lemma partitioned_exists {A} (zero : A) iter n m ep :
  run_wf iter n m ep -> exists pm, partitioned zero iter n m ep pm.
Proof.
  intros W.
  set (dummy := mkPMesh 0 0 0 0 0 [] [] [] [] [] ([] : list (list A)) [] [] []).
  exists (fun r => match partition_tables zero (iter r) n n r m ep with Ok p => p | Fail _ => dummy end).
  intros r Hr. destruct (partition_total zero iter n m ep W r Hr) as (p & E). now rewrite E.
Qed.

Section Run.
Context {A : Type} (zero : A) (iter : Z -> list Z -> list Z) (n : Z) (m : gmesh A) (ep : list Z)
        (pm : Z -> pmesh A).
Hypothesis W : run_wf iter n m ep.
Hypothesis P : partitioned zero iter n m ep pm.

Let Hm := run_mesh _ _ _ _ W.
Let He := run_ep _ _ _ _ W.

Lemma pm_form r : 0 <= r < n -> exists ids nbrs,
  pm r = the_pmesh m ep r ids nbrs /\ StronglySorted Z.lt ids /\
  (forall g, In g ids <-> node_used m ep g r) /\ nbrs_exact m ep r nbrs.
Proof.
  intros Hr.
  destruct (partition_tables_ok m n ep Hm He zero (iter r) r Hr (run_iter _ _ _ _ W r))
    as (ids & nb & E & H).
  exists ids, nb. rewrite (P r Hr) in E. injection E as E. auto.
Qed.

Lemma l2g_elem_form r : 0 <= r < n -> pm_l2g_elem (pm r) = elems_of m ep r.
Proof. intros Hr; destruct (pm_form r Hr) as (ids & nb & -> & _); reflexivity. Qed.
Lemma l2g_iface_form r : 0 <= r < n -> pm_l2g_iface (pm r) = faces_of m ep r.
Proof. intros Hr; destruct (pm_form r Hr) as (ids & nb & -> & _); reflexivity. Qed.

Lemma own_iff r e : 0 <= r < n -> In e (pm_l2g_elem (pm r)) <-> owned_by ep e r.
Proof. intros Hr; rewrite l2g_elem_form by easy. eapply In_elems; eauto. Qed.

Lemma sum_counts {B} (key : B -> Z) (l : list B) (ks : list Z) :
  NoDup ks -> (forall b, In b l -> In (key b) ks) ->
  sumZ (map (fun x => zlen (filter (fun b => key b =? x) l)) ks) = zlen l.
Proof.
  intros ND. induction l as [|b l IH]; intros Hin.
  - clear. unfold sumZ; induction ks; [reflexivity|]. cbn [map fold_right]. rewrite IHks. reflexivity.
  - rewrite zlen_cons, <- IH by (intros; apply Hin; now right).
    assert (Hb : In (key b) ks) by (apply Hin; now left).
    clear IH Hin.
    assert (G : forall ks, NoDup ks ->
       sumZ (map (fun x => zlen (filter (fun b => key b =? x) (b :: l))) ks)
       = sumZ (map (fun x => zlen (filter (fun b => key b =? x) l)) ks) + if existsb (Z.eqb (key b)) ks then 1 else 0).
    { clear; induction ks as [|k ks IH]; intros ND; [reflexivity|].
      inversion ND as [|? ? Hk ND']; subst.
      cbn [map]. unfold sumZ in *. cbn [fold_right]. rewrite IH by easy. cbn [filter existsb].
      destruct (Z.eqb_spec (key b) k) as [Ek|Ek]; cbn [orb].
      - rewrite zlen_cons.
        destruct (existsb (Z.eqb (key b)) ks) eqn:X; [|lia].
        apply existsb_exists in X; destruct X as (y & Hy & Ey). apply Z.eqb_eq in Ey.
        exfalso; apply Hk; congruence.
      - lia. }
    rewrite (G ks ND).
    assert (X : existsb (Z.eqb (key b)) ks = true).
    { apply existsb_exists; exists (key b); split; [easy | apply Z.eqb_refl]. }
    now rewrite X.
Qed.

Lemma ownership_sum : sumZ (map (fun r => pm_num_elems_part (pm r)) (zseq n)) = gm_num_elems m.
Proof.
  erewrite map_ext_in.
  2:{ intros r Hr; apply In_zseq in Hr. destruct (pm_form r Hr) as (ids & nb & -> & _).
      cbn [pm_num_elems_part the_pmesh]. unfold elems_of.
      erewrite filter_ext by (intros; apply Z.eqb_sym). reflexivity. }
  rewrite (sum_counts (prt ep) (zseq (gm_num_elems m)) (zseq n)).
  - apply zlen_zseq. apply (wf_ne m Hm).
  - apply NoDup_zseq.
  - intros e H; apply In_zseq in H. apply In_zseq. eapply prt_range; eauto.
Qed.

Lemma ownership_unique e : 0 <= e < gm_num_elems m ->
  exists! r, 0 <= r < n /\ In e (pm_l2g_elem (pm r)).
Proof.
  intros H. exists (prt ep e). split.
  - pose proof (prt_range m n ep He e H). split; [easy|]. apply own_iff; [easy|].
    eapply owned_prt; eauto.
  - intros r [Hr Hin]. apply own_iff in Hin; [|easy]. eapply owned_prt in Hin; eauto. easy.
Qed.

Lemma nodes_small r ids : 0 <= r < n -> StronglySorted Z.lt ids ->
  (forall g, In g ids <-> node_used m ep g r) -> zlen ids < UINT_MAX.
Proof.
  intros Hr Hs Hin.
  assert (Hle : (length ids <= length (zseq (gm_num_nodes m)))%nat).
  { apply NoDup_incl_length; [now apply sorted_NoDup|]. intros g Hg.
    apply Hin in Hg. destruct Hg as (e & j & _ & _ & Rg). apply rd_In in Rg.
    pose proof (wf_eind m Hm) as F; rewrite Forall_forall in F. apply In_zseq; auto. }
  pose proof (zlen_zseq (gm_num_nodes m) (proj1 (wf_nn m Hm))).
  pose proof (wf_nn m Hm). unfold zlen in *; lia.
Qed.

(** The three local-to-global tables. *)
Definition l2g_tables (p : pmesh A) : list (list Z) := [pm_l2g_elem p; pm_l2g_node p; pm_l2g_iface p].

Lemma l2g_good r t : 0 <= r < n -> In t (l2g_tables (pm r)) -> NoDup t /\ zlen t < UINT_MAX.
Proof.
  intros Hr Ht; destruct (pm_form r Hr) as (ids & nb & E & Hs & Hin & _). rewrite E in Ht.
  cbn in Ht. destruct Ht as [<-|[<-|[<-|[]]]].
  - split; [apply NoDup_elems | eapply zlen_elems_small; eauto].
  - split; [now apply sorted_NoDup | eapply nodes_small; eauto].
  - split; [apply NoDup_faces | eapply zlen_faces_small; eauto].
Qed.

Lemma ids_inverse r t : 0 <= r < n -> In t (l2g_tables (pm r)) ->
  (forall i g, get_global_ID t i = Ok g -> search_for_local_ID g t = i) /\
  (forall g, In g t -> get_global_ID t (search_for_local_ID g t) = Ok g) /\
  (forall g, search_for_local_ID g t = UINT_MAX <-> ~ In g t).
Proof.
  intros Hr Ht; destruct (l2g_good r t Hr Ht) as [ND HS]. unfold get_global_ID. split; [|split].
  - intros i g R. eapply search_round_trip; eauto.
  - intros g Hg. destruct (search_found g t ND HS Hg) as (k & _ & -> & R). easy.
  - intros g; split.
    + intros E Hg. destruct (search_found g t ND HS Hg) as (k & Hk & E' & R). lia.
    + intros Hg. now apply search_absent.
Qed.

Lemma connectivity r : 0 <= r < n ->
  let p := pm r in
  zlen (pm_elem_to_node p) = pm_num_elems_part p /\
  (forall le e j, rd (pm_l2g_elem p) le = Ok e -> 0 <= j < gm_npe m ->
     exists ln g, rd2 (pm_elem_to_node p) le j = Ok ln /\ rd (pm_l2g_node p) ln = Ok g /\
        rd (gm_eind m) (e * gm_npe m + j) = Ok g) /\
  (forall ln g, rd (pm_l2g_node p) ln = Ok g ->
     exists row, rd (pm_node_coords p) ln = Ok row /\ rd (gm_coord m) g = Ok row) /\
  (forall g, In g (pm_l2g_node p) <-> node_used m ep g r) /\
  StronglySorted Z.lt (pm_l2g_node p) /\
  pm_num_nodes_part p = zlen (pm_l2g_node p).
Proof.
  intros Hr; destruct (pm_form r Hr) as (ids & nb & E & Hs & Hin & _). cbv zeta. rewrite E.
  cbn [pm_elem_to_node pm_num_elems_part pm_l2g_elem pm_l2g_node pm_node_coords pm_num_nodes_part the_pmesh].
  split; [apply zlen_map|]. split; [|split; [|split; [|split]]]; auto.
  - intros le e j R Hj.
    assert (Hown : owned_by ep e r) by (apply (In_elems m n ep He), (rd_In _ _ _ R)).
    pose proof (proj1 (owned_prt m n ep He e r) Hown) as [Hre _].
    set (g := nth (Z.to_nat (e * gm_npe m + j)) (gm_eind m) 0).
    assert (Rg : rd (gm_eind m) (e * gm_npe m + j) = Ok g).
    { apply rd_nth. rewrite (wf_eind_len m Hm). pose proof (wf_npe m Hm). nia. }
    assert (Hg : In g ids). { apply Hin. exists e, j. auto. }
    destruct (set_distance_rd g ids Hg) as [Hd Rd].
    exists (set_distance g ids), g. split; [|auto].
    unfold rd2. rewrite (rd_map _ _ _ _ R). cbn [bind].
    apply (rd_map (fun j => set_distance (nth (Z.to_nat (e * gm_npe m + j)) (gm_eind m) 0) ids)).
    apply rd_Ok; split; [lia|]. now apply nth_error_zseq.
  - intros ln g R. exists (coord_row m g). split; [now apply rd_map|].
    apply rd_nth. rewrite (wf_coord_len m Hm). apply rd_In in R. apply Hin in R.
    destruct R as (e & j & _ & _ & Rg). apply rd_In in Rg.
    pose proof (wf_eind m Hm) as F; rewrite Forall_forall in F; auto.
Qed.

Lemma faces_on r f : 0 <= r < n -> In f (pm_l2g_iface (pm r)) <-> face_touches m ep f r.
Proof. intros Hr; rewrite l2g_iface_form by easy. eapply In_faces; eauto. Qed.

Lemma face_rows r : 0 <= r < n ->
  let p := pm r in
  NoDup (pm_l2g_iface p) /\
  zlen (pm_l2g_iface p) = pm_num_ifaces_part p /\
  zlen (pm_interior_faces p) = pm_num_ifaces_part p /\
  forall lf f, rd (pm_l2g_iface p) lf = Ok f ->
    exists eL fL oL eR fR oR rL rR,
      rd (gm_IF m) f = Ok [eL; fL; oL; eR; fR; oR] /\
      owned_by ep eL rL /\ owned_by ep eR rR /\
      rd (pm_interior_faces p) lf =
        Ok [rL; search_for_local_ID eL (pm_l2g_elem p); fL; oL;
            rR; search_for_local_ID eR (pm_l2g_elem p); fR; oR].
Proof.
  intros Hr; destruct (pm_form r Hr) as (ids & nb & E & _). cbv zeta. rewrite E.
  cbn [pm_l2g_iface pm_num_ifaces_part pm_interior_faces pm_l2g_elem the_pmesh].
  split; [apply NoDup_faces|]. split; [easy|]. split; [apply zlen_map|].
  intros lf f R. pose proof (rd_In _ _ _ R) as Hf. apply filter_In in Hf. destruct Hf as [Hf _].
  apply In_zseq in Hf.
  destruct (row_shape m Hm f Hf) as [Rf (a & b & c & d & e & g & Ef & Ha & Hd & _)].
  exists a, b, c, d, e, g, (prt ep a), (prt ep d).
  rewrite Rf, Ef. split; [easy|]. split; [eapply owned_prt; eauto|]. split; [eapply owned_prt; eauto|].
  rewrite (rd_map _ _ _ _ R). unfold face_row, rkL, rkR, fcol. rewrite Ef. reflexivity.
Qed.

Lemma neighbors r : 0 <= r < n ->
  let p := pm r in
  NoDup (pm_neighbor_ranks p) /\ ~ In r (pm_neighbor_ranks p) /\
  pm_num_neighbor_ranks p = zlen (pm_neighbor_ranks p) /\
  (forall s, In s (pm_neighbor_ranks p) <-> s <> r /\ exists f, face_joins m ep f r s) /\
  (forall s, In s (pm_neighbor_ranks p) -> 0 <= s < n).
Proof.
  intros Hr; destruct (pm_form r Hr) as (ids & nb & E & _ & _ & ND & HN). cbv zeta. rewrite E.
  cbn [pm_neighbor_ranks pm_num_neighbor_ranks the_pmesh].
  split; [easy|]. split; [rewrite HN; intuition|]. split; [easy|]. split; [easy|].
  intros s Hs. apply HN in Hs. destruct Hs as (_ & f & J).
  apply (face_joins_b m n ep Hm He) in J. destruct J as [Hf J].
  destruct (rk_range m n ep Hm He f Hf). unfold joins_b in J.
  rewrite orb_true_iff, !andb_true_iff, !Z.eqb_eq in J. intuition congruence.
Qed.

Lemma neighbors_sym r s : 0 <= r < n -> 0 <= s < n ->
  In s (pm_neighbor_ranks (pm r)) <-> In r (pm_neighbor_ranks (pm s)).
Proof.
  intros Hr Hs. destruct (neighbors r Hr) as (_ & _ & _ & H1 & _).
  destruct (neighbors s Hs) as (_ & _ & _ & H2 & _). rewrite H1, H2.
  unfold face_joins. split; intros (Hn & f & J); (split; [congruence|]); exists f; tauto.
Qed.

(** The ghost-face list rank [r] keeps for rank [s]. *)
Definition ghost_list (p : pmesh A) (s : Z) (l : list Z) : Prop :=
  exists k, rd (pm_neighbor_ranks p) k = Ok s /\ rd (pm_ghost_faces p) k = Ok l.

Lemma ghost_list_form r s l : 0 <= r < n -> ghost_list (pm r) s l -> l = between m ep r s /\ In s (pm_neighbor_ranks (pm r)).
Proof.
  intros Hr (k & R1 & R2). pose proof (rd_In _ _ _ R1) as Hs.
  destruct (pm_form r Hr) as (ids & nb & E & _ & _ & ND & HN). rewrite E in *.
  cbn [pm_neighbor_ranks pm_ghost_faces the_pmesh] in *.
  rewrite (rd_map _ _ _ _ R1) in R2. split; [congruence|easy].
Qed.

Lemma ghost_list_exists r s : 0 <= r < n -> In s (pm_neighbor_ranks (pm r)) ->
  ghost_list (pm r) s (between m ep r s).
Proof.
  intros Hr Hs. destruct (pm_form r Hr) as (ids & nb & E & _). rewrite E in *.
  cbn [pm_neighbor_ranks pm_ghost_faces the_pmesh] in *.
  apply In_nth_error in Hs. destruct Hs as (k & Hk).
  exists (Z.of_nat k). cbn [pm_neighbor_ranks pm_ghost_faces the_pmesh].
  assert (R : rd nb (Z.of_nat k) = Ok s) by (apply rd_Ok; rewrite Nat2Z.id; split; [lia|easy]).
  split; [easy|]. now apply rd_map.
Qed.

Lemma ghost_same r s lr ls : 0 <= r < n -> 0 <= s < n ->
  ghost_list (pm r) s lr -> ghost_list (pm s) r ls -> lr = ls.
Proof.
  intros Hr Hs H1 H2. apply ghost_list_form in H1; [|easy]. apply ghost_list_form in H2; [|easy].
  destruct H1 as [-> _], H2 as [-> _]. apply between_sym.
Qed.

Lemma ghost_exact r s l f : 0 <= r < n -> ghost_list (pm r) s l ->
  In f l <-> face_joins m ep f r s.
Proof.
  intros Hr H. apply ghost_list_form in H; [|easy]. destruct H as [-> Hs].
  destruct (neighbors r Hr) as (_ & _ & _ & HN & _). apply HN in Hs. destruct Hs as [Hne _]. apply (In_between m n ep Hm He). congruence.
Qed.

Lemma ghost_sorted r s l : 0 <= r < n -> ghost_list (pm r) s l -> StronglySorted Z.lt l.
Proof.
  intros Hr H. apply ghost_list_form in H; [|easy]. destruct H as [-> _].
  unfold between, ghosts_of.
  assert (S0 : forall k, StronglySorted Z.lt (zseq k)).
  { intros k. destruct (Z.le_gt_cases k 0) as [Hk|Hk]; [rewrite zseq_neg by easy; constructor|].
    rewrite <- (Z2Nat.id k) by lia. generalize (Z.to_nat k) as j. clear.
    unfold zseq. intros j; rewrite Nat2Z.id. generalize O as s.
    induction j; intros s; [constructor|]. cbn [seq map]. constructor; [apply IHj|].
    apply Forall_forall. intros x Hx. apply in_map_iff in Hx. destruct Hx as (y & <- & Hy).
    apply in_seq in Hy. lia. }
  assert (SF : forall (f : Z -> bool) l, StronglySorted Z.lt l -> StronglySorted Z.lt (filter f l)).
  { clear. intros f l H; induction H as [|a l Hl IH Hf]; [constructor|].
    simpl; destruct (f a); [|easy]. constructor; [easy|].
    apply Forall_forall; intros x Hx. apply filter_In in Hx. rewrite Forall_forall in Hf. apply Hf; easy. }
  auto.
Qed.

Lemma ghost_counts r : 0 <= r < n ->
  pm_num_gfaces_part (pm r) = sumZ (map zlen (pm_ghost_faces (pm r))) /\
  pm_num_faces_per_rank_boundary (pm r) = map zlen (pm_ghost_faces (pm r)).
Proof.
  intros Hr. destruct (pm_form r Hr) as (ids & nb & E & _ & _ & ND & HN). rewrite E.
  cbn [pm_num_gfaces_part pm_ghost_faces pm_num_faces_per_rank_boundary the_pmesh].
  rewrite map_map. split; [|easy].
  set (gl := filter (is_ghost m ep) (faces_of m ep r)).
  rewrite <- (sum_counts (other m ep r) gl nb ND).
  - f_equal. apply map_ext_in. intros x Hx. f_equal. unfold gl, between, ghosts_of, faces_of.
    assert (FF : forall (f g : Z -> bool) l, filter f (filter g l) = filter (fun x => f x && g x) l).
    { clear; induction l; simpl; auto. destruct (g a); simpl; [rewrite andb_true_r|rewrite andb_false_r]; rewrite IHl; easy. }
    rewrite !FF. apply filter_ext_in. intros f Hf.
    destruct (is_ghost m ep f) eqn:G; [|now rewrite !andb_false_r].
    rewrite ?andb_true_r, ?andb_true_l.
    destruct (on_rank m ep r f) eqn:O.
    + destruct (other_joins m ep r f G O) as [J Hne]. rewrite andb_true_r.
      destruct (Z.eqb_spec (other m ep r f) x) as [<-|Hx'].
      * now symmetry.
      * symmetry. destruct (joins_b m ep r x f) eqn:J'; [|easy].
        destruct (joins_other m ep r x f G J'); congruence.
    + rewrite andb_false_r. destruct (joins_b m ep r x f) eqn:J'; [|easy].
      destruct (joins_other m ep r x f G J'); congruence.
  - intros f Hf. unfold gl in Hf. apply filter_In in Hf. destruct Hf as [Hf G].
    apply filter_In in Hf. destruct Hf as [Hf O]. apply In_zseq in Hf.
    destruct (other_joins m ep r f G O) as [J Hne]. apply HN. split; [easy|].
    exists f. eapply face_joins_b; eauto.
Qed.

(** A rank's ghost list refers to faces the rank stores. *)
Lemma ghost_stored r s l f : 0 <= r < n -> ghost_list (pm r) s l -> In f l ->
  exists lf, search_for_local_ID f (pm_l2g_iface (pm r)) = lf /\ rd (pm_l2g_iface (pm r)) lf = Ok f /\
     0 <= lf < pm_num_ifaces_part (pm r).
Proof.
  intros Hr H Hf. pose proof (proj1 (ghost_exact r s l f Hr H) Hf) as J.
  assert (Hin : In f (pm_l2g_iface (pm r))).
  { apply faces_on; [easy|]. destruct J as [(eL & eR & ?)|(eL & eR & ?)];
    [exists eL | exists eR]; intuition. }
  destruct (l2g_good r (pm_l2g_iface (pm r)) Hr) as [ND HS]; [cbn; tauto|].
  destruct (search_found f _ ND HS Hin) as (k & Hk & E & R). exists k.
  destruct (face_rows r Hr) as (_ & L & _). rewrite <- L. auto.
Qed.

(** * CHECK VIEW *)
Lemma check_view_iff (faces : list (list Z)) :
  Forall (fun row => zlen row = 8) faces ->
  (3 <= zlen faces -> exists v, check_view faces = Ok v) /\
  (zlen faces < 3 -> check_view faces = Fail OutOfBounds).
Proof.
  intros F.
  assert (R : forall i j, 0 <= i < zlen faces -> 0 <= j < 8 -> exists v, rd2 faces i j = Ok v).
  { intros i j Hi Hj. destruct (rd_total faces i Hi) as (row & Rr). unfold rd2; rewrite Rr; cbn [bind].
    apply rd_total. apply rd_In in Rr. rewrite Forall_forall in F. rewrite (F _ Rr). lia. }
  assert (In8 : forall i out, 0 <= i < zlen faces ->
     exists v, zfor 8 (fun j out => v <- rd2 faces i j ;; Ok (out ++ [v])) out = Ok v).
  { intros i out Hi.
    destruct (zfor_inv (fun _ (_ : list Z) => True) 8 (fun j out => v <- rd2 faces i j ;; Ok (out ++ [v])) out)
      as (v & E & _); eauto; [lia|].
    intros j s Hj _. destruct (R i j Hi Hj) as (x & ->). simpl; eauto. }
  split; intros H.
  - unfold check_view.
    match goal with |- context [zfor 3 ?b ?s] =>
      destruct (zfor_inv (fun _ (_ : list Z) => True) 3 b s) as (v & E & _); eauto; [lia|] end.
    intros i s Hi _. destruct (In8 i s ltac:(lia)) as (v & Ev). eauto.
  - unfold check_view.
    assert (Hb : forall out, zfor 8 (fun j out => v <- rd2 faces (zlen faces) j ;; Ok (out ++ [v])) out
                  = Fail OutOfBounds).
    { intros out. unfold zfor. change (zseq 8) with (0 :: [1;2;3;4;5;6;7]). cbn [foreach].
      unfold rd2 at 1. rewrite rd_fail by lia. reflexivity. }
    pose proof (zlen_nonneg faces). unfold zfor at 1. 
    destruct (Z.eq_dec (zlen faces) 0) as [E0|E0]; [|destruct (Z.eq_dec (zlen faces) 1) as [E1|E1];
      [|assert (E2 : zlen faces = 2) by lia]]; change (zseq 3) with [0; 1; 2]; cbn [foreach].
    + rewrite <- E0, Hb. reflexivity.
    + destruct (In8 0 [] ltac:(lia)) as (v & ->). cbn [bind]. rewrite <- E1, Hb. reflexivity.
    + destruct (In8 0 [] ltac:(lia)) as (v & ->). cbn [bind].
      destruct (In8 1 v ltac:(lia)) as (v' & ->). cbn [bind]. rewrite <- E2, Hb. reflexivity.
Qed.

Lemma partition_print r : 0 <= r < n ->
  (3 <= pm_num_ifaces_part (pm r) -> partition zero (iter r) n n r m ep = Ok (pm r)) /\
  (pm_num_ifaces_part (pm r) < 3 -> partition zero (iter r) n n r m ep = Fail OutOfBounds).
Proof.
  intros Hr. destruct (face_rows r Hr) as (_ & _ & L & _).
  assert (F : Forall (fun row => zlen row = 8) (pm_interior_faces (pm r))).
  { destruct (pm_form r Hr) as (ids & nb & E & _). rewrite E. cbn.
    apply Forall_forall; intros row Hrow. apply in_map_iff in Hrow. destruct Hrow as (f & <- & _). reflexivity. }
  destruct (check_view_iff _ F) as [C1 C2]. unfold partition. rewrite (P r Hr); cbn [bind].
  rewrite L in *. split; intros H.
  - destruct (C1 H) as (v & ->); reflexivity.
  - rewrite (C2 H); reflexivity.
Qed.

End Run.

(** * Number of partitions different from the number of ranks *)

Lemma few_partitions {A} (zero : A) iter np nr rank m ep :
  assignment m np ep -> 0 <= np <= rank ->
  partition_tables zero iter np nr rank m ep = Fail OutOfBounds.
Proof.
  intros He H. destruct (count_elems_ok m np ep He) as (sz & E & L & _); [lia|].
  unfold partition_tables. rewrite E; cbn [bind]. rewrite rd_fail by lia. reflexivity.
Qed.
