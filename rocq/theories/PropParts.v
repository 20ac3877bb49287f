(** PropParts.v -- C09, any mesh: what happens if the mesh is split into more
    partitions than there are ranks. *)
From Coq Require Import ZArith List Lia Bool Permutation Sorted.
From Verif Require Import Base MeshModel MeshSpec MeshProof MeshReadProof.
Import ListNotations.
Local Open Scope Z_scope.
From Verif Require Import MeshProof2 PropMesh.

Lemma foreach_breaks {B S} (P : S -> Prop) (body : B -> S -> res S) l : forall s,
  P s -> (forall x s, In x l -> P s -> body x s = Fail OutOfBounds \/ exists s', body x s = Ok s' /\ P s') ->
  (exists x, In x l /\ forall s, P s -> body x s = Fail OutOfBounds) ->
  foreach l body s = Fail OutOfBounds.
Proof.
  induction l as [|y l IH]; intros s Hs Hk (x & Hx & Hf); [easy|]. cbn [foreach].
  destruct (Hk y s (or_introl eq_refl) Hs) as [E|(s' & E & Hs')]; [now rewrite E|].
  rewrite E; cbn [bind]. destruct Hx as [->|Hx]; [now rewrite Hf in E|].
  apply IH; [easy| |now exists x]. intros z t Hz Ht. apply Hk; [now right|easy].
Qed.

(** More partitions than ranks, any mesh.  If some face joins two partitions one
    of which no rank has, every rank reads past the neighbour sets; and the
    elements of a partition that no rank has are in no rank's table. *)
Lemma many_partitions_break {A} (zero : A) iter np nr rank m ep f p q :
  mesh_wf m -> assignment m np ep -> 0 < nr -> face_ranks m ep f p q -> p <> q -> nr <= p \/ nr <= q -> 0 <= rank < np ->
  partition_tables zero iter np nr rank m ep = Fail OutOfBounds.
Proof.
  intros Hm He Hn Hf Hpq Hout Hr.
  destruct (count_elems_ok m np ep He) as (sz & E & L & R); [lia|].
  unfold partition_tables. rewrite E; cbn [bind]. rewrite (R rank Hr); cbn [bind].
  destruct (collect_nodes_ok m np ep Hm He rank) as (ids & E2 & _). rewrite E2; cbn [bind].
  assert (E3 : count_faces m ep np nr = Fail OutOfBounds); [|now rewrite E3].
  apply (face_ranks_rk m np ep Hm He) in Hf. destruct Hf as (Hf & HL & HR).
  unfold count_faces, zfor.
  assert (K : forall i (s : fc_state), 0 <= i < gm_nIF m -> zlen (fst (fst s)) = np /\ zlen (snd s) = nr ->
     (count_face_step m ep i s = Fail OutOfBounds \/
      exists s', count_face_step m ep i s = Ok s' /\ zlen (fst (fst s')) = np /\ zlen (snd s') = nr) /\
     (rkL m ep i <> rkR m ep i -> nr <= rkL m ep i \/ nr <= rkR m ep i -> count_face_step m ep i s = Fail OutOfBounds)).
  { intros i [[s1 gh] st] Hi [L1 L2]. cbn [fst snd] in L1, L2.
    destruct (elem_range m Hm i Hi) as [HeL HeR]. destruct (rk_range m np ep Hm He i Hi) as [BL BR].
    unfold count_face_step. rewrite !(rd_row m Hm) by lia. cbn [bind].
    rewrite !(rd_ep m np ep He) by easy. cbn [bind]. fold (rkL m ep i). fold (rkR m ep i).
    rewrite (rd_nth 0 s1) by lia; cbn [bind]. rewrite wr_ok by lia; cbn [bind].
    destruct (Z.eqb_spec (rkL m ep i) (rkR m ep i)) as [Heq|Hne]; cbn [negb].
    - split; [|easy]. right. eexists; split; [reflexivity|]. cbn [fst snd]. now rewrite zlen_set_nth.
    - rewrite (rd_nth 0 (set_nth s1 _ _)) by (rewrite zlen_set_nth; lia); cbn [bind].
      rewrite wr_ok by (rewrite zlen_set_nth; lia); cbn [bind].
      destruct (Z_lt_ge_dec (rkL m ep i) nr) as [GL|GL].
      2:{ rewrite rd_fail by lia. cbn [bind]. split; [now left|easy]. }
      rewrite (rd_nth [] st) by lia; cbn [bind]. rewrite wr_ok by lia; cbn [bind].
      destruct (Z_lt_ge_dec (rkR m ep i) nr) as [GR|GR].
      2:{ rewrite rd_fail by (rewrite zlen_set_nth; lia). cbn [bind]. split; [now left|easy]. }
      rewrite (rd_nth [] (set_nth st _ _)) by (rewrite zlen_set_nth; lia); cbn [bind].
      rewrite wr_ok by (rewrite zlen_set_nth; lia); cbn [bind]. split; [|lia].
      right. eexists; split; [reflexivity|]. cbn [fst snd]. now rewrite !zlen_set_nth. }
  apply (foreach_breaks (fun s : fc_state => zlen (fst (fst s)) = np /\ zlen (snd s) = nr)).
  - cbn [fst snd]. split; apply zlen_vec; lia.
  - intros i s Hi Hs. apply In_zseq in Hi. exact (proj1 (K i s Hi Hs)).
  - exists f. split; [now apply In_zseq|]. intros s Hs. apply (K f s Hf Hs); [congruence|]. lia.
Qed.

Lemma many_partitions_keep {A} (zero : A) iter np nr rank m ep pm :
  mesh_wf m -> assignment m np ep -> 0 <= rank < np ->
  partition_tables zero iter np nr rank m ep = Ok pm ->
  forall e, In e (pm_l2g_elem pm) <-> owned_by ep e rank.
Proof.
  intros Hm He Hr E e.
  destruct (count_elems_ok m np ep He) as (sz & Ec & L & R); [lia|].
  unfold partition_tables in E. rewrite Ec in E; cbn [bind] in E. rewrite (R rank Hr) in E; cbn [bind] in E.
  destruct (collect_nodes_ok m np ep Hm He rank) as (ids & E2 & _). rewrite E2 in E; cbn [bind] in E.
  destruct (count_faces m ep np nr) as [[[fs gh] st]|]; [|easy]. cbn [bind] in E.
  destruct (rd fs rank) as [nf|]; [|easy]. cbn [bind] in E.
  destruct (rd st rank) as [ms|]; [|easy]. cbn [bind] in E.
  destruct (foreach (iter ms) _ _) as [[c nb]|]; [|easy]. cbn [bind] in E.
  rewrite (fill_elems_ok m np ep Hm He rank ids) in E; cbn [bind] in E.
  destruct (fill_nodes _ _ _ _) as [[ln xy]|]; [|easy]. cbn [bind] in E.
  destruct (fill_faces _ _ _ _ _) as [[[[c2 ng] lf] fc]|]; [|easy]. cbn [bind] in E.
  destruct (count_boundary _ _ _ _ _ _) as [ct|]; [|easy]. cbn [bind] in E.
  destruct (fill_ghosts _ _ _ _ _ _ _) as [gf|]; [|easy]. cbn [bind] in E.
  injection E as <-. cbn [pm_l2g_elem]. apply (In_elems m np ep He).
Qed.

(** ** C09 for every mesh: with more partitions than ranks either the ranks touch
    memory out of bounds, or the elements of the partitions without a rank are
    lost: no rank has them. *)
Theorem C09_more_partitions_refuted : forall A (zero : A) iter np nr m ep,
  mesh_wf m -> assignment m np ep -> 0 < nr < np ->
  ((exists f p q, face_ranks m ep f p q /\ p <> q /\ (nr <= p \/ nr <= q)) ->
     forall r, 0 <= r < nr -> partition_tables zero iter np nr r m ep = Fail OutOfBounds) /\
  (forall r pm, 0 <= r < nr -> partition_tables zero iter np nr r m ep = Ok pm -> forall e, In e (pm_l2g_elem pm) <-> owned_by ep e r) /\
  (forall e q, owned_by ep e q -> nr <= q ->
     forall r pm, 0 <= r < nr -> partition_tables zero iter np nr r m ep = Ok pm -> ~ In e (pm_l2g_elem pm)).
Proof.
  intros A zero iter np nr m ep Hm He Hn.
  assert (K : forall r pm, 0 <= r < nr -> partition_tables zero iter np nr r m ep = Ok pm -> forall e, In e (pm_l2g_elem pm) <-> owned_by ep e r).
  { intros r pm Hr E. apply (many_partitions_keep zero iter np nr r m ep pm Hm He); [lia|exact E]. }
  split; [|split; [exact K|]].
  - intros (f & p & q & Hf & Hpq & Hout) r Hr.
    apply (many_partitions_break zero iter np nr r m ep f p q); easy || lia.
  - intros e q Ho Hq r pm Hr E Hin. apply (K r pm Hr E) in Hin. unfold owned_by in *. rewrite Ho in Hin. injection Hin. lia.
Qed.
Print Assumptions C09_more_partitions_refuted.

(** Both cases occur: the mesh of C01 in three parts on two ranks, and two
    elements without a common face in two parts on one rank. *)
Example C09_more_partitions_hypotheses_met :
  (mesh_wf demo_mesh /\ assignment demo_mesh 3 demo_ep /\ 0 < 2 < 3 /\
   exists f p q, face_ranks demo_mesh demo_ep f p q /\ p <> q /\ (2 <= p \/ 2 <= q)) /\
  (let m := mkGMesh 2 2 8 0 4 [0;1;2;3;4;5;6;7] [[0;0];[1;0];[0;1];[1;1];[5;0];[6;0];[5;1];[6;1]] [] in
   mesh_wf m /\ assignment m 2 [0; 1] /\ 0 < 1 < 2 /\ owned_by [0; 1] 1 1 /\
   exists pm, partition_tables 0 (fun l => l) 2 1 0 m [0; 1] = Ok pm).
Proof.
  split.
  - split; [exact (run_mesh _ _ _ _ demo_run)|]. split; [exact (run_ep _ _ _ _ demo_run)|]. split; [lia|].
    exists 1, 2, 1. split; [|split; [lia|lia]].
    do 2 eexists. repeat split; vm_compute; reflexivity.
  - cbv zeta. split.
    { constructor; cbn; try (unfold UINT_MAX; lia); try reflexivity;
      repeat (constructor; [cbn; try lia|]); try constructor; try reflexivity. }
    split. { split; [reflexivity|]. repeat constructor; cbn; lia. }
    split; [lia|]. split; [reflexivity|]. eexists. vm_compute. reflexivity.
Qed.
