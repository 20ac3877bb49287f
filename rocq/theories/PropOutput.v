(** PropOutput.v -- C44 on one rank, and C79: the converted solution file does not
    depend on the number of ranks. *)
From Coq Require Import ZArith List Lia Reals Lra Bool Permutation Sorted.
From Verif Require Import Base RBase MeshModel MeshSpec MeshProof MeshReadProof MeshProof2 PropMesh IOModel IOProof IOProof2 IOProof3 IOProof4 PropIO.
Import ListNotations.
Local Open Scope Z_scope.
Open Scope res_scope.

Lemma sorted_unique : forall l l' : list Z, StronglySorted Z.lt l -> StronglySorted Z.lt l' -> (forall x, In x l <-> In x l') -> l = l'.
Proof.
  induction l as [|a l IH]; intros l' S S' H.
  - destruct l' as [|b l']; [reflexivity|]. destruct (proj2 (H b)). now left.
  - destruct l' as [|b l']; [destruct (proj1 (H a)); now left|].
    inversion_clear S as [|? ? S1 F1]. inversion_clear S' as [|? ? S2 F2]. rewrite Forall_forall in F1, F2.
    assert (E : a = b).
    { destruct (proj1 (H a) (or_introl eq_refl)) as [<-|I1]; [reflexivity|].
      destruct (proj2 (H b) (or_introl eq_refl)) as [->|I2]; [reflexivity|]. specialize (F1 b I2). specialize (F2 a I1). lia. }
    subst b. f_equal. apply IH; auto. intros x. split; intros I.
    + destruct (proj1 (H x) (or_intror I)) as [<-|]; auto. specialize (F1 a I). lia.
    + destruct (proj2 (H x) (or_intror I)) as [<-|]; auto. specialize (F2 a I). lia.
Qed.

Lemma sorted_zseq N : StronglySorted Z.lt (zseq N).
Proof.
  unfold zseq. generalize (Z.to_nat N) as k. intros k. generalize 0%nat as s. induction k; intros s; cbn; constructor; auto.
  apply Forall_forall. intros x I. apply in_map_iff in I. destruct I as (i & <- & I). apply in_seq in I. lia.
Qed.

Section One.
Context {A : Type} (zero : A) (iter : Z -> list Z -> list Z) (m : gmesh A) (ep : list Z) (pm : Z -> pmesh A).
Context (W : run_wf iter 1 m ep) (P : partitioned zero iter 1 m ep pm).

Lemma one_elems : pm_l2g_elem (pm 0) = zseq (gm_num_elems m).
Proof.
  rewrite (l2g_elem_form zero iter 1 m ep pm W P) by lia. unfold elems_of. 
  destruct (run_ep _ _ _ _ W) as (L & F). rewrite Forall_forall in F.
  transitivity (filter (fun _ => true) (zseq (gm_num_elems m))).
  - apply filter_ext_in. intros e He. apply In_zseq in He. unfold prt. destruct (rd_total ep e) as (r & E); [lia|].
    specialize (F r (rd_In _ _ _ E)). apply Z.eqb_eq. rewrite (rd_nth (-1)) in E by lia. injection E as E. lia.
  - induction (zseq (gm_num_elems m)); cbn; congruence.
Qed.

Lemma one_nodes : (forall x, 0 <= x < gm_num_nodes m -> in_some_element m x) -> pm_l2g_node (pm 0) = zseq (gm_num_nodes m).
Proof.
  intros H. destruct (pm_form zero iter 1 m ep pm W P 0 ltac:(lia)) as (ids & nb & E & S & I & _).
  replace (pm_l2g_node (pm 0)) with ids by (rewrite E; reflexivity). apply sorted_unique; [exact S|apply sorted_zseq|].
  intros x. rewrite In_zseq.
  assert (K : In x ids <-> In x (concat (map (fun r => pm_l2g_node (pm r)) (zseq 1)))).
  { change (zseq 1) with [0]. cbn [map concat]. rewrite app_nil_r, E. reflexivity. }
  rewrite K. rewrite <- (used_node zero iter 1 m ep pm W P). split; [|apply H]. apply (used_range iter 1 m ep W).
Qed.
End One.

(** ** C44 on one rank *)

(** With one rank the conversion copies the file: elements in global order, and,
    if every node belongs to an element, nodes in global order too.  Here either
    layout of the coefficients survives. *)
Theorem C44_single_rank :
  forall A (zero : A) iter right m ep nb ns time pm U order order',
  run_wf iter 1 m ep -> partitioned zero iter 1 m ep pm ->
  0 < nb -> 0 < ns -> 0 < gm_num_elems m -> 0 < gm_npe m -> 0 < gm_dim m ->
  gm_num_elems m * gm_npe m < 2 ^ 31 -> gm_num_elems m * (nb * ns) < 2 ^ 31 -> zlen (pm_l2g_node (pm 0)) * gm_dim m < 2 ^ 31 ->
  (forall k, Permutation (order k) (zseq 1)) ->
  let ne := gm_num_elems m in
  exists f g,
    saved zero right 1 m nb ns time pm U order f /\ convert zero 1 order' f = Ok g /\
    sf_num_ranks g = 1 /\ sf_num_elems g = ne /\ sf_neps g = [ne] /\
    sf_time g = time /\ sf_nb g = nb /\ sf_ns g = ns /\ sf_layout g = right /\
    pd_data (sf_l2ge g) = zseq ne /\
    pd_dims (sf_Uc g) = [ne; nb; ns] /\ zlen (pd_data (sf_Uc g)) = ne * nb * ns /\
    (forall e j k, 0 <= e < ne -> 0 <= j < nb -> 0 <= k < ns ->
       rd (pd_data (sf_Uc g)) (if right then (e * nb + j) * ns + k else e + ne * (j + nb * k)) = Ok (U 0 e j k)) /\
    (right = true -> (forall x, 0 <= x < gm_num_nodes m -> in_some_element m x) ->
       pd_data (sf_e2n g) = gm_eind m /\ pd_data (sf_l2gn g) = zseq (gm_num_nodes m) /\
       pd_dims (sf_coords g) = [gm_num_nodes m; gm_dim m] /\ zlen (pd_data (sf_coords g)) = gm_num_nodes m * gm_dim m /\
       forall x k, 0 <= x < gm_num_nodes m -> 0 <= k < gm_dim m -> rd (pd_data (sf_coords g)) (x * gm_dim m + k) = rd2 (gm_coord m) x k) /\
    pd_nRanks (sf_Uc g) = 1 /\ pd_nRanks (sf_e2n g) = 1 /\ pd_nRanks (sf_coords g) = 1 /\
    pd_nRanks (sf_l2gn g) = 1 /\ pd_nRanks (sf_l2ge g) = 1 /\
    sf_dim g = gm_dim m /\ sf_num_nodes g = gm_num_nodes m /\ sf_npe g = gm_npe m /\
    pd_dims (sf_e2n g) = [ne; gm_npe m] /\ pd_dims (sf_l2gn g) = [zlen (pm_l2g_node (pm 0))] /\ pd_dims (sf_l2ge g) = [ne] /\
    one_block (sf_Uc g) /\ one_block (sf_e2n g) /\ one_block (sf_coords g) /\ one_block (sf_l2gn g) /\ one_block (sf_l2ge g).
Proof.
  intros A zero iter right m ep nb ns time pm U order order' W P Hnb Hns Hne Hnpe Hdim B1 B2 B3 HP ne.
  destruct (saved_spec zero iter right 1 m ep nb ns time pm U order W P ltac:(lia) ltac:(lia) ltac:(lia) HP) as (ws & f & E1 & E2 & E3 & E4 & F).
  destruct (E4 0 ltac:(lia)) as (w & Rw & S).
  assert (Ew : ws = [w]).
  { destruct ws as [|w0 [|w1 l]]; try (unfold zlen in E3; cbn [length] in E3; lia). cbn in Rw. injection Rw as ->. reflexivity. }
  subst ws. pose proof (one_elems zero iter m ep pm W P) as OE.
  pose proof (is_l2ge _ _ _ _ _ _ _ _ _ _ S) as I1. pose proof (is_Uc _ _ _ _ _ _ _ _ _ _ S) as I2.
  pose proof (is_l2gn _ _ _ _ _ _ _ _ _ _ S) as I3. pose proof (is_coords_dims _ _ _ _ _ _ _ _ _ _ S) as I4. pose proof (is_coords_len _ _ _ _ _ _ _ _ _ _ S) as I5.
  pose proof (is_e2n_dims _ _ _ _ _ _ _ _ _ _ S) as I6. pose proof (is_e2n_len _ _ _ _ _ _ _ _ _ _ S) as I7. pose proof (is_nep _ _ _ _ _ _ _ _ _ _ S) as I8.
  assert (ZE : zlen (pm_l2g_elem (pm 0)) = ne) by (rewrite OE; apply zlen_zseq; lia). rewrite OE in I1, I2. 
  replace (zlen (zseq (gm_num_elems m))) with ne in I1, I2 by (symmetry; apply zlen_zseq; lia). rewrite ZE in I6, I7, I8.
  assert (SD : forall B (d : pdataset B) b nd, stored d [b] nd -> pd_data d = b_data b).
  { intros B d b nd (_ & _ & _ & Q & _). rewrite Q. cbn [map concat]. apply app_nil_r. }
  assert (OK : forall B (d : pdataset B) b nd, stored d [b] nd -> block_ok b) by (intros B d b nd (Q & _); now inversion Q).
  assert (PO : forall B (d : pdataset B) b nd, stored d [b] nd -> zlen (b_data b) < 2 ^ 31 ->
     exists x, mapM (populate 1 d) (zseq 1) = Ok [x] /\ rs_data x = b_data b /\ rs_dims x = b_dims b).
  { intros B d b nd St Hb. destruct (populate_ok d [b] nd St) as (rs & E & HL & HR); [now rewrite (SD _ _ _ _ St)|]. change (zlen [b]) with 1 in *.
    destruct (HR 0 b eq_refl) as (x & Rx & X1 & X2 & _).
    destruct rs as [|x0 [|x1 l]]; try (unfold zlen in HL; cbn [length] in HL; lia). cbn in Rx. injection Rx as ->. exists x. auto. }
  pose proof (fs_coords _ _ _ _ _ _ _ _ F) as T1. pose proof (fs_l2gn _ _ _ _ _ _ _ _ F) as T2. pose proof (fs_e2n _ _ _ _ _ _ _ _ F) as T3.
  pose proof (fs_l2ge _ _ _ _ _ _ _ _ F) as T4. pose proof (fs_Uc _ _ _ _ _ _ _ _ F) as T5. cbn [map] in T1, T2, T3, T4, T5.
  assert (ZU : zlen (b_data (wi_Uc w)) = ne * nb * ns) by (rewrite I2; cbn [b_data]; apply zlen_data3; lia).
  pose proof (zlen_nonneg (pm_l2g_node (pm 0))).
  destruct (PO _ _ _ _ T1) as (x1 & M1 & A1 & D1); [lia|].
  destruct (PO _ _ _ _ T2) as (x2 & M2 & A2 & D2); [rewrite I3; cbn [b_data]; nia|].
  destruct (PO _ _ _ _ T3) as (x3 & M3 & A3 & D3); [lia|].
  destruct (PO _ _ _ _ T4) as (x4 & M4 & A4 & D4); [rewrite I1; cbn [b_data]; rewrite zlen_zseq; nia|].
  destruct (PO _ _ _ _ T5) as (x5 & M5 & A5 & D5); [lia|].
  pose proof (OK _ _ _ _ T1) as K1. pose proof (OK _ _ _ _ T2) as K2. pose proof (OK _ _ _ _ T3) as K3. pose proof (OK _ _ _ _ T4) as K4. pose proof (OK _ _ _ _ T5) as K5.
  assert (NN : sf_neps f = [ne]) by (rewrite (fs_neps _ _ _ _ _ _ _ _ F); cbn [map]; now rewrite I8).
  exists f. eexists. split; [exists [w]; auto|]. split.
  { unfold convert, reader_serialize. rewrite (fs_num_ranks _ _ _ _ _ _ _ _ F), Z.eqb_refl. cbn [negb]. rewrite NN. change (rd [ne] 0) with (Ok ne). cbn [bind].
    rewrite M1, M2, M3, M4, M5. cbn [bind]. change (1 <? 1) with false. cbn [rd Z.ltb Z.compare Z.to_nat nth_error bind].
    unfold write_file_serial, reader_input.
    cbn [rdr_num_ranks rdr_dim rdr_num_elems rdr_num_nodes rdr_npe rdr_nb rdr_ns rdr_time rdr_layout rdr_nep rdr_coords rdr_l2gn rdr_e2n rdr_l2ge rdr_Uc wi_coords wi_l2gn wi_e2n wi_l2ge wi_Uc wi_num_ranks wi_dim wi_num_elems wi_num_nodes wi_npe wi_nb wi_ns wi_time wi_nep wi_layout].
    rewrite A1, A2, A3, A4, A5, D1, D2, D3, D4, D5.
    assert (EB : forall B (b : block B), mkBlock (b_dims b) (b_data b) = b) by (intros B []; reflexivity). rewrite !EB.
    rewrite !write_serial_ok by assumption. cbn [bind]. reflexivity. }
  cbn [sf_num_ranks sf_num_elems sf_neps sf_time sf_nb sf_ns sf_layout sf_e2n sf_l2ge sf_Uc sf_coords sf_l2gn sf_dim sf_num_nodes sf_npe pd_data pd_dims pd_nRanks].
  rewrite (fs_num_elems _ _ _ _ _ _ _ _ F), (fs_time _ _ _ _ _ _ _ _ F), (fs_nb _ _ _ _ _ _ _ _ F), (fs_ns _ _ _ _ _ _ _ _ F), (fs_layout _ _ _ _ _ _ _ _ F), (fs_dim _ _ _ _ _ _ _ _ F), (fs_num_nodes _ _ _ _ _ _ _ _ F), (fs_npe _ _ _ _ _ _ _ _ F).
  do 7 (split; [reflexivity|]). split; [now rewrite I1|]. split; [now rewrite I2|]. split; [exact ZU|]. split; [|split].
  - intros e j k He Hj Hk. rewrite I2. cbn [b_data]. now apply data3_rd.
  - intros -> Hall. pose proof (one_nodes zero iter m ep pm W P Hall) as ON.
    assert (NN0 : 0 <= gm_num_nodes m).
    { pose proof (wf_nn m (run_mesh _ _ _ _ W)). lia. }
    assert (ZN : zlen (pm_l2g_node (pm 0)) = gm_num_nodes m) by (rewrite ON; apply zlen_zseq; lia). rewrite ZN in *.
    split; [|split; [|split; [exact I4|split; [exact I5|]]]].
    + pose proof (wf_eind_len m (run_mesh _ _ _ _ W)) as Le. apply rd_ext; [lia|]. intros i Hi. rewrite I7 in Hi.
      destruct (is_e2n _ _ _ _ _ _ _ _ _ _ S eq_refl (i / gm_npe m) (i / gm_npe m) (i mod gm_npe m)) as (ln & g & Q1 & Q2 & Q3).
      * rewrite OE. apply rd_zseq. split; [apply Z.div_pos; lia|apply Z.div_lt_upper_bound; lia].
      * apply Z.mod_pos_bound. lia.
      * rewrite ON in Q2. assert (ln = g). { pose proof (rd_in_range _ _ _ Q2) as B. rewrite zlen_zseq in B by lia. rewrite rd_zseq in Q2 by lia. congruence. }
        subst ln. replace i with (i / gm_npe m * gm_npe m + i mod gm_npe m) by (pose proof (Z.div_mod i (gm_npe m)); lia). congruence.
    + now rewrite I3.
    + intros x k Hx Hk. apply (is_coords _ _ _ _ _ _ _ _ _ _ S eq_refl x x k); [rewrite ON; now apply rd_zseq|exact Hk].
  - do 8 (split; [reflexivity|]). split; [exact I6|]. split; [now rewrite I3|]. split; [now rewrite I1|]. unfold one_block. cbn [pd_data pd_dims]. auto 10.
Qed.
Print Assumptions C44_single_rank.

(** ** C79 *)

(** The serial solution file of the solution with coefficients [c e j k] (element,
    basis function, state variable) on mesh [m]: everything in the numbering of
    the mesh file. *)
Definition in_one_piece {B} (dims : list Z) (data : list B) : pdataset B := mkPD data [0] (ndims dims) 1 (zlen data) dims.
Definition solution_file {A} (m : gmesh A) (nb ns : Z) (time : A) (c : Z -> Z -> Z -> A) : solfile A :=
  let ne := gm_num_elems m in let nn := gm_num_nodes m in
  mkSF 1 (gm_dim m) ne nn (gm_npe m) nb ns time [ne] true
    (in_one_piece [nn; gm_dim m] (concat (gm_coord m)))
    (in_one_piece [nn] (zseq nn))
    (in_one_piece [ne; gm_npe m] (gm_eind m))
    (in_one_piece [ne] (zseq ne))
    (in_one_piece [ne; nb; ns] (map (fun p => c (p / (nb * ns)) ((p / ns) mod nb) (p mod ns)) (zseq (ne * nb * ns)))).

Lemma block_eq {B} (d : pdataset B) dims data : one_block d -> pd_dims d = dims -> pd_data d = data -> d = in_one_piece dims data.
Proof. intros H <- <-. exact H. Qed.

Lemma rd_concat_rows {B} (rows : list (list B)) w : (forall row, In row rows -> zlen row = w) ->
  zlen (concat rows) = zlen rows * w /\
  forall x k, 0 <= x < zlen rows -> 0 <= k < w -> rd (concat rows) (x * w + k) = rd2 rows x k.
Proof.
  induction rows as [|row rows IH]; intros H.
  - split; [reflexivity|]. intros x k Hx. unfold zlen in Hx; cbn in Hx; lia.
  - destruct IH as (L & G); [intros; apply H; now right|]. assert (Hr := H row (or_introl eq_refl)).
    cbn [concat]. assert (LS : zlen (row :: rows) = 1 + zlen rows) by (unfold zlen; cbn [length]; lia). split.
    + rewrite zlen_app, L, LS, Hr. ring.
    + intros x k Hx Hk. unfold rd2. destruct (Z.eq_dec x 0) as [->|Nx].
      * change (rd (row :: rows) 0) with (Ok row). cbn [bind]. rewrite Z.mul_0_l, Z.add_0_l. rewrite rd_app by lia. destruct (Z.ltb_spec k (zlen row)); [reflexivity|lia].
      * replace (x * w + k) with (zlen row + ((x - 1) * w + k)) by lia. rewrite rd_app by nia. destruct (Z.ltb_spec (zlen row + ((x - 1) * w + k)) (zlen row)); [nia|].
        replace (zlen row + ((x - 1) * w + k) - zlen row) with ((x - 1) * w + k) by lia.
        rewrite G by lia. unfold rd2. f_equal. change (row :: rows) with ([row] ++ rows). rewrite rd_app by lia.
        change (zlen [row]) with 1. destruct (Z.ltb_spec x 1); [lia|reflexivity].
Qed.

Theorem C79_converted_file :
  forall A (zero : A) iter n m ep nb ns time pm U c order order',
  run_wf iter n m ep -> partitioned zero iter n m ep pm ->
  0 < n -> 0 < nb -> 0 < ns -> 0 < gm_num_elems m -> 0 < gm_npe m -> 0 < gm_dim m ->
  gm_num_elems m * gm_npe m < 2 ^ 31 -> gm_num_elems m * (nb * ns) < 2 ^ 31 ->
  zlen (concat (map (fun r => pm_l2g_node (pm r)) (zseq n))) * gm_dim m < 2 ^ 31 ->
  (forall x, 0 <= x < gm_num_nodes m -> in_some_element m x) ->
  (forall k, Permutation (order k) (zseq n)) -> (forall k, Permutation (order' k) (zseq n)) ->
  (forall r le e j k, 0 <= r < n -> rd (pm_l2g_elem (pm r)) le = Ok e -> 0 <= j < nb -> 0 <= k < ns -> U r le j k = c e j k) ->
  exists f, saved zero true n m nb ns time pm U order f /\ convert zero n order' f = Ok (solution_file m nb ns time c).
Proof.
  intros A zero iter n m ep nb ns time pm U c order order' W P Hn Hnb Hns Hne Hnpe Hdim B1 B2 B3 Hall HP HP' HU.
  pose proof (run_mesh _ _ _ _ W) as M. pose proof (wf_coord m M) as WC. rewrite Forall_forall in WC.
  destruct (rd_concat_rows (gm_coord m) (gm_dim m) WC) as (LC & GC). rewrite (wf_coord_len m M) in LC, GC.
  pose proof (wf_nn m M) as NN.
  assert (KEY : forall g, one_block (sf_Uc g) -> one_block (sf_e2n g) -> one_block (sf_coords g) -> one_block (sf_l2gn g) -> one_block (sf_l2ge g) ->
     sf_num_ranks g = 1 -> sf_dim g = gm_dim m -> sf_num_elems g = gm_num_elems m -> sf_num_nodes g = gm_num_nodes m -> sf_npe g = gm_npe m ->
     sf_nb g = nb -> sf_ns g = ns -> sf_time g = time -> sf_neps g = [gm_num_elems m] -> sf_layout g = true ->
     pd_dims (sf_coords g) = [gm_num_nodes m; gm_dim m] -> pd_dims (sf_l2gn g) = [gm_num_nodes m] -> pd_dims (sf_e2n g) = [gm_num_elems m; gm_npe m] ->
     pd_dims (sf_l2ge g) = [gm_num_elems m] -> pd_dims (sf_Uc g) = [gm_num_elems m; nb; ns] ->
     zlen (pd_data (sf_coords g)) = gm_num_nodes m * gm_dim m ->
     (forall x k, 0 <= x < gm_num_nodes m -> 0 <= k < gm_dim m -> rd (pd_data (sf_coords g)) (x * gm_dim m + k) = rd2 (gm_coord m) x k) ->
     pd_data (sf_l2gn g) = zseq (gm_num_nodes m) -> pd_data (sf_e2n g) = gm_eind m -> pd_data (sf_l2ge g) = zseq (gm_num_elems m) ->
     zlen (pd_data (sf_Uc g)) = gm_num_elems m * nb * ns ->
     (forall e j k, 0 <= e < gm_num_elems m -> 0 <= j < nb -> 0 <= k < ns -> rd (pd_data (sf_Uc g)) ((e * nb + j) * ns + k) = Ok (c e j k)) ->
     g = solution_file m nb ns time c).
  { intros g O1 O2 O3 O4 O5 H1 H2 H3 H4 H5 H6 H7 H8 H9 H10 D1 D2 D3 D4 D5 Z1 R1 R2 R3 R4 Z2 R5.
    assert (EC : pd_data (sf_coords g) = concat (gm_coord m)).
    { apply rd_ext; [congruence|]. intros i Hi. rewrite Z1 in Hi.
      assert (Hm := Z.mod_pos_bound i (gm_dim m) Hdim). assert (Hd : 0 <= i / gm_dim m < gm_num_nodes m) by (split; [apply Z.div_pos; lia|apply Z.div_lt_upper_bound; lia]).
      replace i with (i / gm_dim m * gm_dim m + i mod gm_dim m) by (pose proof (Z.div_mod i (gm_dim m)); lia).
      rewrite R1, GC by assumption. reflexivity. }
    assert (EU : pd_data (sf_Uc g) = map (fun p => c (p / (nb * ns)) ((p / ns) mod nb) (p mod ns)) (zseq (gm_num_elems m * nb * ns))).
    { apply rd_ext; [rewrite zlen_map, zlen_zseq by nia; exact Z2|]. intros i Hi. rewrite Z2 in Hi.
      rewrite (rd_map _ _ _ _ (rd_zseq _ _ Hi)).
      assert (H1' := Z.mod_pos_bound i ns Hns). assert (H2' := Z.mod_pos_bound (i / ns) nb Hnb).
      assert (Hq : 0 <= i / ns < gm_num_elems m * nb) by (split; [apply Z.div_pos; lia|apply Z.div_lt_upper_bound; nia]).
      assert (Hd : 0 <= i / ns / nb < gm_num_elems m) by (split; [apply Z.div_pos; lia|apply Z.div_lt_upper_bound; nia]).
      rewrite <- (R5 (i / (nb * ns)) ((i / ns) mod nb) (i mod ns)); auto.
      - f_equal. rewrite (Z.mul_comm nb ns), <- Z.div_div by lia.
        pose proof (Z.div_mod i ns ltac:(lia)). pose proof (Z.div_mod (i / ns) nb ltac:(lia)). nia.
      - rewrite (Z.mul_comm nb ns), <- Z.div_div by lia. exact Hd. }
    pose proof (block_eq _ _ _ O1 D5 EU) as F1. pose proof (block_eq _ _ _ O2 D3 R3) as F2. pose proof (block_eq _ _ _ O3 D1 EC) as F3.
    pose proof (block_eq _ _ _ O4 D2 R2) as F4. pose proof (block_eq _ _ _ O5 D4 R4) as F5.
    destruct g as [a1 a2 a3 a4 a5 a6 a7 a8 a9 a10 a11 a12 a13 a14 a15]. cbn [sf_num_ranks sf_dim sf_num_elems sf_num_nodes sf_npe sf_nb sf_ns sf_time sf_neps sf_layout sf_coords sf_l2gn sf_e2n sf_l2ge sf_Uc] in *.
    unfold solution_file. rewrite H1, H2, H3, H4, H5, H6, H7, H8, H9, H10, F1, F2, F3, F4, F5. reflexivity. }
  destruct (Z.eq_dec n 1) as [->|N1].
  - change (zseq 1) with [0] in B3. cbn [map concat] in B3. rewrite app_nil_r in B3.
    destruct (C44_single_rank A zero iter true m ep nb ns time pm U order order' W P Hnb Hns Hne Hnpe Hdim B1 B2 B3 HP)
      as (f & g & SV & CV & H1 & H2 & H3 & H4 & H5 & H6 & H7 & H8 & H9 & H10 & H11 & H12 & _ & _ & _ & _ & _ & H13 & H14 & H15 & H16 & H17 & H18 & O1 & O2 & O3 & O4 & O5).
    destruct (H12 eq_refl Hall) as (G1 & G2 & G3 & G4 & G5).
    assert (ON : zlen (pm_l2g_node (pm 0)) = gm_num_nodes m) by (rewrite (one_nodes zero iter m ep pm W P Hall); apply zlen_zseq; lia). rewrite ON in H17.
    exists f. split; [exact SV|]. rewrite CV. f_equal. apply KEY; auto.
    intros e j k He Hj Hk. rewrite (H11 e j k He Hj Hk). f_equal. apply HU; auto; [lia|]. rewrite (one_elems zero iter m ep pm W P). now apply rd_zseq.
  - destruct (C44_converted_solution A zero iter n m ep nb ns time pm U order order' W P ltac:(lia) Hnb Hns Hne Hnpe Hdim B1 B2 B3 HP HP')
      as (f & g & N & SV & CV & H1 & H2 & H3 & H4 & H5 & H6 & H7 & H8 & H9 & H10 & H11 & H12 & H13 & U1 & U2 & C1 & C2 & C3 & L1 & _ & _ & _ & _ & _ & G1 & G2 & G3 & G4 & G5 & O1 & O2 & O3 & O4 & O5).
    assert (EN : N = gm_num_nodes m).
    { pose proof (used_range iter n m ep W _ U1) as Q.
      destruct (Z.eq_dec N (gm_num_nodes m)); auto. assert (N < gm_num_nodes m) by lia. specialize (U2 N (Hall N ltac:(lia))). lia. }
    subst N. exists f. split; [exact SV|]. rewrite CV. f_equal. apply KEY; auto.
    intros e j k He Hj Hk. destruct (C01_element_ownership A zero iter n m ep pm W P) as (HO & _).
    destruct (HO e He) as (r & (Hr & IN) & _).
    destruct (C02_id_lookups_inverse A zero iter n m ep pm W P r Hr (pm_l2g_elem (pm r))) as (_ & L2 & _); auto. specialize (L2 e IN).
    rewrite (H13 r _ e j k Hr L2 Hj Hk). f_equal. now apply HU.
Qed.
Print Assumptions C79_converted_file.

(** ** The whole program: set up, initialise, march, save, convert *)
From Verif Require Import BasisModel SolverModel SolverSpec PhysModel PropBasis PropSolver PropNormals PropConserve StepModel PropStep PropSetup PropMeshRun PropInit DGSpec DGProof PropDG PropResidual SetupModel SetupSpec MassProof SetupProof.

(** The sizes of the file's datasets fit the code's [int] counters. *)
Definition file_fits (m : gmesh R) (nb ns n : Z) (pm : Z -> pmesh R) : Prop :=
  gm_num_elems m * gm_npe m < 2 ^ 31 /\ gm_num_elems m * (nb * ns) < 2 ^ 31 /\
  zlen (concat (map (fun r => pm_l2g_node (pm r)) (zseq n))) * gm_dim m < 2 ^ 31.

(** [g] is what the user gets from the run that ended with the coefficients [U]:
    the ranks save them in some order and the converter, whose loops run in some
    order, turns the file into [g]. *)
Definition output (m : gmesh R) (nb ns : Z) (time : R) (n : Z) (pm : Z -> pmesh R) (U : Z -> arr3) (g : res (solfile R)) : Prop :=
  exists order order' f, (forall k, Permutation (order k) (zseq n)) /\ (forall k, Permutation (order' k) (zseq n)) /\
    saved 0%R true n m nb ns time pm U order f /\ convert 0%R n order' f = g.

Lemma run_ranks iter n (m : gmesh R) ep : run_wf iter n m ep -> 0 < gm_num_elems m -> 0 < n.
Proof.
  intros W H. destruct (run_ep _ _ _ _ W) as (L & F). rewrite Forall_forall in F.
  destruct (rd_total ep 0) as (r & E); [lia|]. specialize (F r (rd_In _ _ _ E)). lia.
Qed.

(** Whatever the orders, the output of a run is the file of the solution it holds. *)
Lemma output_of iter n m ep nb ns time pm U c g :
  run_wf iter n m ep -> partitioned 0%R iter n m ep pm -> 0 < nb -> 0 < ns -> 0 < gm_num_elems m -> 0 < gm_npe m -> 0 < gm_dim m ->
  file_fits m nb ns n pm -> (forall x, 0 <= x < gm_num_nodes m -> in_some_element m x) ->
  (forall r le e j k, 0 <= r < n -> rd (pm_l2g_elem (pm r)) le = Ok e -> 0 <= j < nb -> 0 <= k < ns -> U r le j k = c e j k) ->
  (output m nb ns time n pm U g <-> g = Ok (solution_file m nb ns time c)).
Proof.
  intros W P Hnb Hns Hne Hnpe Hd (F1 & F2 & F3) Hall HU. pose proof (run_ranks _ _ _ _ W Hne) as Hn. split.
  - intros (o & o' & f & PO & PO' & (ws & E1 & E2) & CV).
    destruct (C79_converted_file R 0%R iter n m ep nb ns time pm U c o o' W P Hn Hnb Hns Hne Hnpe Hd F1 F2 F3 Hall PO PO' HU) as (f' & (ws' & E1' & E2') & CV').
    rewrite E1 in E1'. injection E1' as <-. rewrite E2 in E2'. injection E2' as <-. rewrite <- CV. exact CV'.
  - intros ->. destruct (C79_converted_file R 0%R iter n m ep nb ns time pm U c (fun _ => zseq n) (fun _ => zseq n) W P Hn Hnb Hns Hne Hnpe Hd F1 F2 F3 Hall) as (f & SV & CV);
      try (intros; apply Permutation_refl); auto.
    exists (fun _ => zseq n), (fun _ => zseq n), f. repeat split; auto; intros; apply Permutation_refl.
Qed.

(** Two complete runs -- set up, initialised, marched, saved, converted -- of the
    same mesh, on different numbers of ranks with different partitions and
    schedules, produce the same file; each does produce one. *)
Theorem C79_same_file : forall m bt p gamma ft ic ph t u steps time n pm h U U' n2 pm2 h2 V V',
  faces_valid EQuad m -> faces_distinct m -> straight_quads m -> conforming m ->
  basis_for EQuad bt -> supported bt p -> order_ok p -> (1 < gamma)%R ->
  starts_as 2 ic ph t u ->
  0 < gm_num_elems m -> (forall x, 0 <= x < gm_num_nodes m -> in_some_element m x) ->
  initialised m bt p ic ph t n pm h U -> run_from m bt p gamma ft steps n pm h U U' -> file_fits m (nfun bt p) 4 n pm ->
  initialised m bt p ic ph t n2 pm2 h2 V -> run_from m bt p gamma ft steps n2 pm2 h2 V V' -> file_fits m (nfun bt p) 4 n2 pm2 ->
  exists g : solfile R,
    (forall o, output m (nfun bt p) 4 time n pm U' o <-> o = Ok g) /\
    (forall o, output m (nfun bt p) 4 time n2 pm2 V' o <-> o = Ok g).
Proof.
  intros m bt p gamma ft ic ph t u steps time n pm h U U' n2 pm2 h2 V V' FV FD SQ CF BF Sup Op Gm SA Hne Hall IN RN FF IN2 RN2 FF2.
  pose proof (C78_whole_run_partition_independent m bt p gamma ft ic ph t u steps n pm h U U' n2 pm2 h2 V V' FV FD SQ CF BF Sup Op Gm SA IN IN2 RN RN2) as SAME.
  destruct RN as (iter & ep & f & ord & pord & junk & w & w' & WF & PT & _).
  destruct RN2 as (iter2 & ep2 & f2 & ord2 & pord2 & junk2 & w2 & w2' & WF2 & PT2 & _).
  destruct (gather 0%R iter n m ep pm U' WF PT) as (c & Hc).
  assert (Hnb : 0 < nfun bt p) by (unfold nfun, order_ok in *; apply Z.pow_pos_nonneg; [lia|destruct bt; cbn; lia]).
  exists (solution_file m (nfun bt p) 4 time c).
  destruct SQ as ((D1 & D2) & _). cbn in D1, D2. assert (Hd : 0 < gm_dim m) by lia. assert (Hnpe : 0 < gm_npe m) by lia.
  split; intros o.
  - apply (output_of iter n m ep); auto; lia.
  - apply (output_of iter2 n2 m ep2); auto; try lia. intros r le e j k Hr He Hj Hk.
    assert (RE : (0 <= e < gm_num_elems m)%Z) by (apply (SetupProof.owned_elem 0%R iter2 n2 m ep2 pm2 WF2 PT2 r le e Hr He)).
    destruct (PropDG.owner_of 0%R iter n m ep pm e WF PT RE) as (r1 & le1 & Hr1 & He1).
    rewrite <- (SAME r1 le1 r le e j k) by assumption. now apply Hc.
Qed.
Print Assumptions C79_same_file.

(** The hypotheses of C79_same_file are met on three ranks and on two. *)
Lemma demo_fits iter n ep pm : run_wf iter n demo_rmesh ep -> partitioned 0%R iter n demo_rmesh ep pm -> 0 <= n <= 10 ->
  file_fits demo_rmesh (nfun LagrangeQuad 2) 4 n pm.
Proof.
  intros W P Hn. split; [reflexivity|]. split; [reflexivity|].
  assert (K : forall l, (forall r, In r l -> 0 <= r < n) -> zlen (concat (map (fun r => pm_l2g_node (pm r)) l)) <= 9 * zlen l).
  { induction l as [|r l IH]; intros H; [now cbn|]. cbn [map concat]. rewrite zlen_app.
    assert (zlen (r :: l) = 1 + zlen l) as -> by (unfold zlen; cbn [length]; lia).
    specialize (IH (fun x Hx => H x (or_intror Hx))).
    assert (zlen (pm_l2g_node (pm r)) <= 9); [|lia].
    destruct (pm_form 0%R iter n demo_rmesh ep pm W P r (H r (or_introl eq_refl))) as (ids & nb & -> & S & I & _). cbn [pm_l2g_node the_pmesh].
    unfold zlen. change 9 with (Z.of_nat (length (zseq 9))). apply Nat2Z.inj_le. apply NoDup_incl_length.
    - clear -S. induction S as [|a l S IH F]; constructor; auto. rewrite Forall_forall in F. intros X. specialize (F a X). lia.
    - intros x Hx. apply In_zseq. apply I in Hx. destruct Hx as (e & j & OW & Hj & R).
      pose proof (wf_eind _ (run_mesh _ _ _ _ W)) as F. rewrite Forall_forall in F. apply F. eapply rd_In; eauto. }
  specialize (K (zseq n) (fun r => proj1 (In_zseq n r))). rewrite zlen_zseq in K by lia.
  change (gm_dim demo_rmesh) with 2. lia.
Qed.

Example C79_demo : exists pm h U U' pm2 h2 V V',
  starts_as 2 Uniform demo_phys 0 (fun _ k => demo_U 0%Z 0%Z k) /\ 0 < gm_num_elems demo_rmesh /\
  (forall x, 0 <= x < gm_num_nodes demo_rmesh -> in_some_element demo_rmesh x) /\
  initialised demo_rmesh LagrangeQuad 2 Uniform demo_phys 0 3 pm h U /\
  run_from demo_rmesh LagrangeQuad 2 2 HLLC [(ForwardEuler, 1 / 10)%R] 3 pm h U U' /\ file_fits demo_rmesh (nfun LagrangeQuad 2) 4 3 pm /\
  initialised demo_rmesh LagrangeQuad 2 Uniform demo_phys 0 2 pm2 h2 V /\
  run_from demo_rmesh LagrangeQuad 2 2 HLLC [(ForwardEuler, 1 / 10)%R] 2 pm2 h2 V V' /\ file_fits demo_rmesh (nfun LagrangeQuad 2) 4 2 pm2.
Proof.
  assert (W2 : run_wf (fun _ l => l) 2 demo_rmesh [1; 0; 0; 1]).
  { constructor; [apply (run_mesh _ _ _ _ demo_rrun)| |intros ? ?; apply Permutation_refl].
    split; [reflexivity|]. repeat constructor; lia. }
  destruct (demo_runs _ 3 demo_ep demo_rrun) as (pm & h & U & U' & P1 & I1 & R1).
  destruct (demo_runs (fun _ l => l) 2 [1; 0; 0; 1]%Z W2) as (pm2 & h2 & V & V' & P2 & I2 & R2).
  exists pm, h, U, U', pm2, h2, V, V'. split; [apply (uniform_starts 2 demo_phys 0); lia|]. split; [reflexivity|].
  split. { intros x Hx. change (gm_num_nodes demo_rmesh) with 9 in Hx. 
    assert (C : x = 0 \/ x = 1 \/ x = 2 \/ x = 3 \/ x = 4 \/ x = 5 \/ x = 6 \/ x = 7 \/ x = 8) by lia.
    assert (K : forall e j, 0 <= e < 4 -> 0 <= j < 4 -> rd (gm_eind demo_rmesh) (e * 4 + j) = Ok x -> in_some_element demo_rmesh x) by (intros e j He Hj E; exists e, j; auto).
    destruct C as [->|[->|[->|[->|[->|[->|[->|[->| ->]]]]]]]];
      [apply (K 0 0)|apply (K 0 1)|apply (K 1 1)|apply (K 0 2)|apply (K 0 3)|apply (K 1 3)|apply (K 2 2)|apply (K 2 3)|apply (K 3 3)]; reflexivity || lia. }
  pose proof (demo_fits _ 3 _ pm demo_rrun P1 ltac:(lia)). pose proof (demo_fits _ 2 _ pm2 W2 P2 ltac:(lia)). auto 10.
Qed.
