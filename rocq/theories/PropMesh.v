(** PropMesh.v -- property theorems C01-C11 (mesh reading and partitioning).
    The vocabulary is that of MeshSpec.v; the model is MeshModel.v. *)
From Coq Require Import ZArith List Lia Bool Permutation Sorted.
From Verif Require Import Base MeshModel MeshSpec MeshProof MeshReadProof MeshProof2.
Import ListNotations.
Local Open Scope Z_scope.
Open Scope res_scope.

(** A 2x2 quadrilateral mesh on three ranks (rank 1 owns two elements that are
    not neighbours of each other's numbering); used to show that the hypotheses
    below are met by a real mesh. *)
Definition demo_mesh : gmesh Z :=
  mkGMesh 2 4 9 4 4
    [0;1;3;4; 1;2;4;5; 3;4;6;7; 4;5;7;8]
    [[0;0];[1;0];[2;0];[0;1];[1;1];[2;1];[0;2];[1;2];[2;2]]
    [[0;1;0;1;3;1]; [2;1;0;3;3;1]; [0;2;0;2;0;1]; [1;2;0;3;0;1]].
Definition demo_ep : list Z := [0; 1; 2; 1].

Example demo_run : run_wf (fun _ l => rev l) 3 demo_mesh demo_ep.
Proof.
  constructor.
  - constructor; cbn; try (unfold UINT_MAX; lia); try reflexivity;
      repeat (constructor; [cbn; try lia|]); try constructor; try reflexivity.
    all: do 6 eexists; split; [reflexivity|]; lia.
  - split; [reflexivity|]. repeat constructor; cbn; lia.
  - intros r l. symmetry. apply Permutation_rev.
Qed.

(** The tables of rank 1 of the demo run, computed. *)
Example demo_rank1 :
  match partition_tables 0 (fun l => rev l) 3 3 1 demo_mesh demo_ep with
  | Ok p => pm_l2g_elem p = [1; 3] /\ pm_l2g_node p = [1; 2; 4; 5; 7; 8] /\
            pm_neighbor_ranks p = [2; 0] /\ pm_ghost_faces p = [[1]; [0]] /\
            pm_interior_faces p =
              [[0; UINT_MAX; 1; 0; 1; 0; 3; 1]; [2; UINT_MAX; 1; 0; 1; 1; 3; 1];
               [1; 0; 2; 0; 1; 1; 0; 1]]
  | Fail _ => False
  end.
Proof. vm_compute. repeat split. Qed.

(** ** C01 *)
Theorem C01_element_ownership :
  forall A (zero : A) iter n m ep pm,
  run_wf iter n m ep -> partitioned zero iter n m ep pm ->
  (forall e, 0 <= e < gm_num_elems m -> exists! r, 0 <= r < n /\ In e (pm_l2g_elem (pm r))) /\
  (forall r e, 0 <= r < n -> (In e (pm_l2g_elem (pm r)) <-> owned_by ep e r)) /\
  (forall r, 0 <= r < n -> NoDup (pm_l2g_elem (pm r)) /\
      pm_num_elems_part (pm r) = zlen (pm_l2g_elem (pm r))) /\
  sumZ (map (fun r => pm_num_elems_part (pm r)) (zseq n)) = gm_num_elems m.
Proof.
  intros A zero iter n m ep pm W P. split; [|split; [|split]].
  - exact (ownership_unique zero iter n m ep pm W P).
  - intros r e. exact (own_iff zero iter n m ep pm W P r e).
  - intros r Hr. split.
    + apply (l2g_good zero iter n m ep pm W P r _ Hr). left; reflexivity.
    + destruct (pm_form zero iter n m ep pm W P r Hr) as (ids & nb & -> & _). reflexivity.
  - exact (ownership_sum zero iter n m ep pm W P).
Qed.
Print Assumptions C01_element_ownership.

(** ** C02: on every rank, for each of the three local-to-global tables. *)
Theorem C02_id_lookups_inverse :
  forall A (zero : A) iter n m ep pm,
  run_wf iter n m ep -> partitioned zero iter n m ep pm ->
  forall r, 0 <= r < n ->
  forall t, t = pm_l2g_elem (pm r) \/ t = pm_l2g_node (pm r) \/ t = pm_l2g_iface (pm r) ->
  (forall i g, get_global_ID t i = Ok g -> search_for_local_ID g t = i) /\
  (forall g, In g t -> get_global_ID t (search_for_local_ID g t) = Ok g) /\
  (forall g, search_for_local_ID g t = UINT_MAX <-> ~ In g t) /\
  (forall i, (exists g, get_global_ID t i = Ok g) <-> 0 <= i < zlen t).
Proof.
  intros A zero iter n m ep pm W P r Hr t Ht.
  destruct (ids_inverse zero iter n m ep pm W P r t Hr) as (H1 & H2 & H3).
  { cbn. intuition. }
  repeat split; auto; try (now apply H3).
  all: try (destruct H as (g & R); apply rd_in_range in R; lia).
  intros Hi. now apply rd_total.
Qed.
Print Assumptions C02_id_lookups_inverse.

(** ** C03 *)
Theorem C03_local_connectivity :
  forall A (zero : A) iter n m ep pm,
  run_wf iter n m ep -> partitioned zero iter n m ep pm ->
  forall r, 0 <= r < n ->
  zlen (pm_elem_to_node (pm r)) = pm_num_elems_part (pm r) /\
  (forall le e j, rd (pm_l2g_elem (pm r)) le = Ok e -> 0 <= j < gm_npe m ->
     exists ln g, rd2 (pm_elem_to_node (pm r)) le j = Ok ln /\
        rd (pm_l2g_node (pm r)) ln = Ok g /\
        rd (gm_eind m) (e * gm_npe m + j) = Ok g) /\
  (forall ln g, rd (pm_l2g_node (pm r)) ln = Ok g ->
     exists row, rd (pm_node_coords (pm r)) ln = Ok row /\ rd (gm_coord m) g = Ok row) /\
  (forall g, In g (pm_l2g_node (pm r)) <-> node_used m ep g r) /\
  StronglySorted Z.lt (pm_l2g_node (pm r)) /\
  pm_num_nodes_part (pm r) = zlen (pm_l2g_node (pm r)).
Proof. intros A zero iter n m ep pm W P. exact (connectivity zero iter n m ep pm W P). Qed.
Print Assumptions C03_local_connectivity.

(** ** C04 *)
Theorem C04_interior_faces :
  forall A (zero : A) iter n m ep pm,
  run_wf iter n m ep -> partitioned zero iter n m ep pm ->
  (forall r f, 0 <= r < n -> (In f (pm_l2g_iface (pm r)) <-> face_touches m ep f r)) /\
  forall r, 0 <= r < n ->
  NoDup (pm_l2g_iface (pm r)) /\
  zlen (pm_l2g_iface (pm r)) = pm_num_ifaces_part (pm r) /\
  zlen (pm_interior_faces (pm r)) = pm_num_ifaces_part (pm r) /\
  forall lf f, rd (pm_l2g_iface (pm r)) lf = Ok f ->
    exists eL fL oL eR fR oR rL rR lL lR,
      rd (gm_IF m) f = Ok [eL; fL; oL; eR; fR; oR] /\
      owned_by ep eL rL /\ owned_by ep eR rR /\
      rd (pm_interior_faces (pm r)) lf = Ok [rL; lL; fL; oL; rR; lR; fR; oR] /\
      (if rL =? r then rd (pm_l2g_elem (pm r)) lL = Ok eL else lL = UINT_MAX) /\
      (if rR =? r then rd (pm_l2g_elem (pm r)) lR = Ok eR else lR = UINT_MAX).
Proof.
  intros A zero iter n m ep pm W P. split.
  - exact (fun r f => faces_on zero iter n m ep pm W P r f).
  - intros r Hr. destruct (face_rows zero iter n m ep pm W P r Hr) as (H1 & H2 & H3 & H4).
    repeat split; auto. intros lf f R.
    destruct (H4 lf f R) as (eL & fL & oL & eR & fR & oR & rL & rR & E1 & OL & OR & E2).
    exists eL, fL, oL, eR, fR, oR, rL, rR, (search_for_local_ID eL (pm_l2g_elem (pm r))),
      (search_for_local_ID eR (pm_l2g_elem (pm r))).
    destruct (ids_inverse zero iter n m ep pm W P r (pm_l2g_elem (pm r)) Hr (or_introl eq_refl))
      as (_ & I2 & I3).
    assert (Hside : forall e re, owned_by ep e re ->
      if re =? r then rd (pm_l2g_elem (pm r)) (search_for_local_ID e (pm_l2g_elem (pm r))) = Ok e
      else search_for_local_ID e (pm_l2g_elem (pm r)) = UINT_MAX).
    { intros e re O. destruct (Z.eqb_spec re r) as [->|Hne].
      - apply I2. apply (own_iff zero iter n m ep pm W P r e Hr). exact O.
      - apply I3. rewrite (own_iff zero iter n m ep pm W P r e Hr). unfold owned_by in *; congruence. }
    repeat split; auto; apply Hside; auto.
Qed.
Print Assumptions C04_interior_faces.

(** ** C05: building the tables never reads or writes out of bounds and never
    uses an unset index, on any rank. *)
Theorem C05_partition_in_bounds :
  forall A (zero : A) iter n m ep,
  run_wf iter n m ep ->
  forall r, 0 <= r < n -> exists p, partition_tables zero (iter r) n n r m ep = Ok p.
Proof. intros A zero iter n m ep. exact (partition_total zero iter n m ep). Qed.
Print Assumptions C05_partition_in_bounds.

(** Consequently the hypothesis [partitioned] of the other theorems is met by
    every run. *)
Theorem C05_partitioned_exists :
  forall A (zero : A) iter n m ep,
  run_wf iter n m ep -> exists pm, partitioned zero iter n m ep pm.
Proof. intros A zero iter n m ep. exact (partitioned_exists zero iter n m ep). Qed.
Print Assumptions C05_partitioned_exists.

(** ** C06 *)
Theorem C06_neighbor_ranks :
  forall A (zero : A) iter n m ep pm,
  run_wf iter n m ep -> partitioned zero iter n m ep pm ->
  (forall r, 0 <= r < n ->
    NoDup (pm_neighbor_ranks (pm r)) /\ ~ In r (pm_neighbor_ranks (pm r)) /\
    pm_num_neighbor_ranks (pm r) = zlen (pm_neighbor_ranks (pm r)) /\
    (forall s, In s (pm_neighbor_ranks (pm r)) <-> s <> r /\ exists f, face_joins m ep f r s) /\
    (forall s, In s (pm_neighbor_ranks (pm r)) -> 0 <= s < n)) /\
  (forall r s, 0 <= r < n -> 0 <= s < n ->
    (In s (pm_neighbor_ranks (pm r)) <-> In r (pm_neighbor_ranks (pm s)))).
Proof.
  intros A zero iter n m ep pm W P. split.
  - exact (neighbors zero iter n m ep pm W P).
  - exact (neighbors_sym zero iter n m ep pm W P).
Qed.
Print Assumptions C06_neighbor_ranks.

(** ** C07.  [ghost_list p s l]: [l] is the ghost-face list stored at the
    position of [s] in the neighbour list. *)
Theorem C07_ghost_lists_agree :
  forall A (zero : A) iter n m ep pm,
  run_wf iter n m ep -> partitioned zero iter n m ep pm ->
  (forall r s, 0 <= r < n -> In s (pm_neighbor_ranks (pm r)) ->
    exists l, (exists k, rd (pm_neighbor_ranks (pm r)) k = Ok s /\ rd (pm_ghost_faces (pm r)) k = Ok l) /\
      (exists k, rd (pm_neighbor_ranks (pm s)) k = Ok r /\ rd (pm_ghost_faces (pm s)) k = Ok l) /\
      StronglySorted Z.lt l /\
      (forall f, In f l <-> face_joins m ep f r s)) /\
  (forall r s l l', 0 <= r < n -> 0 <= s < n ->
      (exists k, rd (pm_neighbor_ranks (pm r)) k = Ok s /\ rd (pm_ghost_faces (pm r)) k = Ok l) ->
      (exists k, rd (pm_neighbor_ranks (pm s)) k = Ok r /\ rd (pm_ghost_faces (pm s)) k = Ok l') ->
      l = l') /\
  (forall r, 0 <= r < n ->
     pm_num_gfaces_part (pm r) = sumZ (map zlen (pm_ghost_faces (pm r))) /\
     pm_num_faces_per_rank_boundary (pm r) = map zlen (pm_ghost_faces (pm r))).
Proof.
  intros A zero iter n m ep pm W P. split; [|split].
  - intros r s Hr Hs. exists (between m ep r s).
    assert (Hs' : 0 <= s < n) by (now apply (neighbors zero iter n m ep pm W P r Hr)).
    pose proof (ghost_list_exists zero iter n m ep pm W P r s Hr Hs) as G.
    split; [exact G|]. split.
    + rewrite between_sym. apply (ghost_list_exists zero iter n m ep pm W P s r Hs').
      now apply (neighbors_sym zero iter n m ep pm W P r s Hr Hs').
    + split; [exact (ghost_sorted zero iter n m ep pm W P r s _ Hr G)|].
      intros f. exact (ghost_exact zero iter n m ep pm W P r s _ f Hr G).
  - exact (ghost_same zero iter n m ep pm W P).
  - exact (ghost_counts zero iter n m ep pm W P).
Qed.
Print Assumptions C07_ghost_lists_agree.

(** ** C08: false in general.  [partition] includes the diagnostic print: it
    completes on a rank exactly when the rank has at least three faces. *)
Theorem C08_check_view_partial :
  forall A (zero : A) iter n m ep pm,
  run_wf iter n m ep -> partitioned zero iter n m ep pm ->
  forall r, 0 <= r < n ->
  (3 <= pm_num_ifaces_part (pm r) -> partition zero (iter r) n n r m ep = Ok (pm r)) /\
  (pm_num_ifaces_part (pm r) < 3 -> partition zero (iter r) n n r m ep = Fail OutOfBounds).
Proof. intros A zero iter n m ep pm W P. exact (partition_print zero iter n m ep pm W P). Qed.
Print Assumptions C08_check_view_partial.

(** Rank 0 of the demo run has two faces. *)
Theorem C08_check_view_refuted :
  exists A (zero : A) iter n m ep r,
    run_wf iter n m ep /\ 0 <= r < n /\
    partition zero (iter r) n n r m ep = Fail OutOfBounds.
Proof.
  exists Z, 0, (fun _ l => rev l), 3, demo_mesh, demo_ep, 0.
  split; [exact demo_run|]. split; [lia|]. vm_compute. reflexivity.
Qed.
Print Assumptions C08_check_view_refuted.

(** Rank 1 of the demo run meets the first hypothesis. *)
Example C08_three_faces :
  exists p, partition 0 (fun l => rev l) 3 3 1 demo_mesh demo_ep = Ok p.
Proof. eexists. vm_compute. reflexivity. Qed.

(** ** C09: false.  With fewer partitions than ranks every rank without a
    partition reads past the partition-size table, for every mesh; with more
    partitions than ranks there is a run in which a rank writes past its
    neighbour sets, and one in which elements are lost. *)
Theorem C09_num_partitions_refuted :
  (forall A (zero : A) iter np nr rank m ep,
     assignment m np ep -> 0 <= np <= rank -> rank < nr ->
     partition_tables zero iter np nr rank m ep = Fail OutOfBounds) /\
  (exists (m : gmesh Z) ep np nr, mesh_wf m /\ assignment m np ep /\ 0 < nr < np /\
     forall iter, partition_tables 0 iter np nr 0 m ep = Fail OutOfBounds) /\
  (exists (m : gmesh Z) ep np nr e, mesh_wf m /\ assignment m np ep /\ 0 < nr < np /\
     0 <= e < gm_num_elems m /\
     forall iter r p, any_order iter -> 0 <= r < nr ->
       partition_tables 0 iter np nr r m ep = Ok p -> ~ In e (pm_l2g_elem p)).
Proof.
  split; [|split].
  - intros A zero iter np nr rank m ep He H _. exact (few_partitions zero iter np nr rank m ep He H).
  - exists demo_mesh, demo_ep, 3, 1. split; [exact (run_mesh _ _ _ _ demo_run)|].
    split; [exact (run_ep _ _ _ _ demo_run)|]. split; [lia|]. intros iter. vm_compute. reflexivity.
  - (* two elements without a common face *)
    exists (mkGMesh 2 2 8 0 4 [0;1;2;3;4;5;6;7]
              [[0;0];[1;0];[0;1];[1;1];[5;0];[6;0];[5;1];[6;1]] []), [0; 1], 2, 1, 1.
    split.
    { constructor; cbn; try (unfold UINT_MAX; lia); try reflexivity;
      repeat (constructor; [cbn; try lia|]); try constructor; try reflexivity. }
    split. { split; [reflexivity|]. repeat constructor; cbn; lia. }
    split; [lia|]. split; [cbn; lia|].
    intros iter r p Hit Hr E. assert (r = 0) by lia; subst r.
    unfold partition_tables in E. cbv in E.
    assert (Hn : iter [] = []) by (apply Permutation_nil; symmetry; apply Hit).
    rewrite Hn in E. cbv in E. injection E as <-. cbn. intuition discriminate.
Qed.
Print Assumptions C09_num_partitions_refuted.

(** The number of partitions is looked for in one table of the input file and
    read from another (src/mesh/mesh.cpp 37-43): a value given in the [Mesh]
    table alone is ignored, one given at top level alone makes the program
    throw. *)
Theorem C09_num_partitions_key :
  (forall v nr, num_partitions_of false v nr = Ok nr) /\
  (forall nr, num_partitions_of true None nr = Fail Thrown).
Proof. split; reflexivity. Qed.
Print Assumptions C09_num_partitions_key.

(** ** C10: proved when no face has the same element on both sides, false
    otherwise. *)
Theorem C10_reverse_face_table_partial :
  forall ne nIF buff, face_file_wf ne nIF buff -> no_self_face nIF buff ->
  exists IF e2f cnt, read_faces ne nIF buff = Ok (IF, e2f, cnt) /\
    zlen IF = nIF /\
    (forall i j, 0 <= i < nIF -> 0 <= j < 6 -> rd2 IF i j = rd buff (6 * i + j)) /\
    (forall e, 0 <= e < ne ->
       rd cnt e = Ok (zlen (faces_of_elem nIF buff e)) /\
       exists row, rd e2f e = Ok row /\ zlen row = 6 /\
         firstn (Z.to_nat (zlen (faces_of_elem nIF buff e))) row = faces_of_elem nIF buff e).
Proof.
  intros ne nIF buff W NS.
  destruct (read_faces_ok ne nIF buff W NS) as (IF & t & cnt & E & L & R & L1 & L2 & HR).
  exists IF, t, cnt. split; [exact E|]. split; [exact L|]. split.
  - intros i j Hi Hj. destruct (R i Hi) as (a & b & c & d & e & f & Ri & R0 & R1 & R2 & R3 & R4 & R5).
    unfold rd2. rewrite Ri; cbn [bind].
    assert (j = 0 \/ j = 1 \/ j = 2 \/ j = 3 \/ j = 4 \/ j = 5) as H by lia.
    repeat (destruct H as [->|H]); try subst j; rewrite ?Z.add_0_r, ?R0, ?R1, ?R2, ?R3, ?R4, ?R5; reflexivity.
  - intros e He. destruct (HR e He) as (row & Rr & Lr & Rc & F). split; [easy|]. exists row; auto.
Qed.
Print Assumptions C10_reverse_face_table_partial.

Example C10_hypotheses_met :
  face_file_wf 4 4 (concat (gm_IF demo_mesh)) /\ no_self_face 4 (concat (gm_IF demo_mesh)).
Proof.
  split.
  - constructor; try lia; [reflexivity| |].
    + intros i s Hi Hs. assert (H : i = 0 \/ i = 1 \/ i = 2 \/ i = 3) by lia.
      destruct H as [->|[->|[->| ->]]], Hs as [->| ->];
        (eexists; split; [vm_compute; reflexivity | lia]).
    + intros e He. assert (H : e = 0 \/ e = 1 \/ e = 2 \/ e = 3) by lia.
      destruct H as [->|[->|[->| ->]]]; vm_compute; discriminate.
  - intros i a b Hi Ha Hb. assert (H : i = 0 \/ i = 1 \/ i = 2 \/ i = 3) by lia.
    destruct H as [->|[->|[->| ->]]]; vm_compute in Ha, Hb; congruence.
Qed.

(** A periodic mesh of one element whose only interior face joins it to itself:
    the table counts the face twice and lists a face once. *)
Theorem C10_reverse_face_table_refuted :
  exists ne nIF buff e, face_file_wf ne nIF buff /\ 0 <= e < ne /\
    forall IF e2f cnt, read_faces ne nIF buff = Ok (IF, e2f, cnt) ->
      rd cnt e <> Ok (zlen (faces_of_elem nIF buff e)).
Proof.
  exists 1, 1, [0; 1; 0; 0; 3; 1], 0. split; [|split; [lia|]].
  - constructor; try lia; [reflexivity| |].
    + intros i s Hi Hs. assert (i = 0) by lia; subst i.
      destruct Hs as [->| ->]; (eexists; split; [vm_compute; reflexivity | lia]).
    + intros e He. assert (e = 0) by lia; subst e. vm_compute; discriminate.
  - intros IF e2f cnt E. vm_compute in E. injection E as <- <- <-. vm_compute. discriminate.
Qed.
Print Assumptions C10_reverse_face_table_refuted.

(** ** C11 *)
Theorem C11_boundary_groups :
  forall ne groups, 0 <= ne -> Forall (bgroup_wf ne) groups ->
  exists datas, Forall2 bgroup_rows groups datas /\
  ((forall e, 0 <= e < ne -> zlen (bfaces_of_elem (concat datas) e) <= 6) ->
   exists e2b cnt,
    read_bgroups ne groups = Ok (datas, (e2b, cnt, zlen (concat datas)), sumZ (map fst groups)) /\
    sumZ (map fst groups) = zlen (concat datas) /\
    (forall e, 0 <= e < ne ->
       rd cnt e = Ok (zlen (bfaces_of_elem (concat datas) e)) /\
       exists row, rd e2b e = Ok row /\ zlen row = 6 /\
         firstn (Z.to_nat (zlen (bfaces_of_elem (concat datas) e))) row
         = bfaces_of_elem (concat datas) e)).
Proof.
  intros ne groups Hne W. destruct (bgroup_rows_exist ne groups W) as (datas & F).
  exists datas. split; [exact F|]. intros H6.
  destruct (read_bgroups_ok ne groups datas Hne W F H6) as (t & cnt & E & L1 & L2 & HR).
  exists t, cnt. split; [exact E|]. split.
  - clear - F. unfold sumZ. induction F as [|g d gs ds [L _] _ IH]; [reflexivity|].
    simpl. rewrite zlen_app, IH. congruence.
  - intros e He. destruct (HR e He) as (row & Rr & Lr & Rc & Ff). split; [easy|]. exists row; auto.
Qed.
Print Assumptions C11_boundary_groups.

Example C11_two_groups :
  Forall (bgroup_wf 4) [(2, [0;0;0; 2;3;0]); (1, [0;3;0])] /\
  match read_bgroups 4 [(2, [0;0;0; 2;3;0]); (1, [0;3;0])] with
  | Ok (datas, (e2b, cnt, ib), nBF) =>
      datas = [[[0;0;0];[2;3;0]]; [[0;3;0]]] /\ cnt = [2;0;1;0] /\ ib = 3 /\ nBF = 3 /\
      rd e2b 0 = Ok [0;2;0;0;0;0] /\ rd e2b 2 = Ok [1;0;0;0;0;0]
  | Fail _ => False
  end.
Proof.
  split; [|vm_compute; repeat split].
  repeat constructor; cbn [fst snd]; try lia.
  - intros i Hi. assert (H : i = 0 \/ i = 1) by lia. destruct H as [->| ->];
      (eexists; split; [vm_compute; reflexivity | lia]).
  - intros i Hi. assert (H : i = 0) by lia. subst i.
      (eexists; split; [vm_compute; reflexivity | lia]).
Qed.
