(** PropIO.v -- property theorems C40-C44 (solution files).  The model is
    IOModel.v; the mesh vocabulary is that of MeshSpec.v. *)
From Coq Require Import ZArith List Lia Bool Permutation.
From Verif Require Import Base MeshModel MeshSpec MeshProof MeshReadProof MeshProof2 PropMesh PropComm IOModel IOProof IOProof2 IOProof3 IOProof4.
Import ListNotations.
Local Open Scope Z_scope.
Open Scope res_scope.

(** ** C40 *)

(** A well-formed argument of a rank: the data has as many entries as the
    product of the dimensions. *)
Definition well_shaped {B} (nd : Z) (b : block B) : Prop :=
  zlen (b_dims b) = nd /\ Forall (fun d => 0 <= d) (b_dims b) /\
  zlen (b_data b) = fold_right Z.mul 1 (b_dims b).

Lemma prodZ_fold l : prodZ l = fold_right Z.mul 1 l.
Proof. unfold prodZ. apply fold_symmetric; intros; ring. Qed.

Theorem C40_parallel_round_trip :
  forall B (zero : B) (order : list Z) (nd : Z) (bs : list (block B)),
  0 < zlen bs -> 0 < nd -> Forall (well_shaped nd) bs ->
  Permutation order (zseq (zlen bs)) ->
  exists f, write_parallel zero order bs = Ok f /\
    (* every rank gets back what it wrote *)
    (forall r b, rd bs r = Ok b -> read_parallel true (zlen bs) f r = Ok (b_data b, b_dims b)) /\
    (* the blocks are adjacent, start at 0 and fill the dataset *)
    pd_data f = concat (map b_data bs) /\ pd_totalSize f = zlen (pd_data f) /\
    zlen (pd_offsets f) = zlen bs /\ rd (pd_offsets f) 0 = Ok 0 /\
    (forall r b, rd bs r = Ok b -> exists o, rd (pd_offsets f) r = Ok o /\
       (if r + 1 <? zlen bs then rd (pd_offsets f) (r + 1) = Ok (o + zlen (b_data b))
        else pd_totalSize f = o + zlen (b_data b)) /\
       forall i, 0 <= i < zlen (b_data b) -> rd (pd_data f) (o + i) = rd (b_data b) i).
Proof.
  intros B zero order nd bs Hn Hnd F HP.
  assert (F1 : Forall block_ok bs).
  { eapply Forall_impl; [|exact F]. intros b (H1 & H2 & H3). split; [auto|]. now rewrite prodZ_fold. }
  assert (F2 : Forall (fun b => zlen (b_dims b) = nd) bs).
  { eapply Forall_impl; [|exact F]. intros b (H1 & _). exact H1. }
  destruct (write_stored zero order nd bs Hn Hnd F1 F2 HP) as (f & E & St).
  pose proof St as (_ & _ & _ & S3 & S4 & S5 & S6 & S7 & S8 & S9).
  exists f. split; [exact E|]. split; [intros r b R; exact (stored_read f bs nd r b St R)|].
  split; [auto|]. split; [auto|]. split; [auto|]. split; [rewrite S9 by lia; reflexivity|].
  intros r b R. pose proof (rd_in_range _ _ _ R) as Hr. exists (pre (map b_data bs) r).
  assert (Rb : rd (map b_data bs) r = Ok (b_data b)) by now apply rd_map.
  split; [apply S9; lia|]. split.
  - pose proof (pre_S _ _ _ Rb) as Q. destruct (Z.ltb_spec (r + 1) (zlen bs)).
    + rewrite S9 by lia. now rewrite Q.
    + rewrite S6, S3, <- Q, <- pre_all, zlen_map. f_equal. lia.
  - intros i Hi. rewrite S3. now apply concat_rd.
Qed.
Print Assumptions C40_parallel_round_trip.

(** The same in serial mode. *)
Theorem C40_serial_round_trip :
  forall B (zero : B) (nd : Z) (b : block B), well_shaped nd b ->
  exists f, write_serial zero b = Ok f /\ pd_data f = b_data b /\
    read_parallel false 1 f 0 = Ok (b_data b, b_dims b).
Proof.
  intros B zero nd b (H1 & H2 & H3).
  assert (K : block_ok b) by (split; [auto|now rewrite prodZ_fold]).
  eexists; split; [exact (write_serial_ok zero b K)|]. split; [reflexivity|].
  unfold read_parallel. cbn -[prodZ]. rewrite Z.eqb_refl. destruct K as [_ <-].
  rewrite slab_read_spec; [reflexivity|]. intros; f_equal; lia.
Qed.
Print Assumptions C40_serial_round_trip.

Example C40_demo :
  let bs := [mkBlock [2; 2] [10; 11; 12; 13]; mkBlock [0; 2] []; mkBlock [1; 3] [20; 21; 22]] in
  Forall (well_shaped 2) bs /\ Permutation [2; 0; 1] (zseq (zlen bs)) /\
  exists f, write_parallel 0 [2; 0; 1] bs = Ok f /\
    pd_data f = [10; 11; 12; 13; 20; 21; 22] /\ pd_offsets f = [0; 4; 4].
Proof.
  split; [repeat constructor; cbn; lia|]. split.
  - cbn. apply perm_trans with [0; 2; 1]; [apply perm_swap|]. apply perm_skip. apply perm_swap.
  - eexists; split; [reflexivity|]. split; reflexivity.
Qed.

(** ** C41: with any other number of ranks every rank is refused, whatever the
    file; and so is a serial read of a dataset written by several ranks. *)
Theorem C41_rank_mismatch_refused :
  forall B (zero : B) order bs f, write_parallel zero order bs = Ok f ->
  (forall k r, k <> zlen bs -> read_parallel true k f r = Fail Aborted) /\
  (zlen bs <> 1 -> read_parallel false 1 f 0 = Fail Aborted).
Proof.
  intros B zero order bs f E.
  assert (Hn : pd_nRanks f = zlen bs).
  { unfold write_parallel in E. apply bind_Ok in E. destruct E as (d & _ & E). apply bind_Ok in E. destruct E as (b0 & _ & E).
    apply bind_Ok in E. destruct E as (dd & _ & E). injection E as <-. reflexivity. }
  split.
  - intros k r Hk. unfold read_parallel, read_dims. rewrite Hn. destruct (Z.eqb_spec (zlen bs) k); [congruence|reflexivity].
  - intros H1. unfold read_parallel, read_dims. rewrite Hn. destruct (Z.eqb_spec (zlen bs) 1); [congruence|reflexivity].
Qed.
Print Assumptions C41_rank_mismatch_refused.

(** The reader of solution files refuses too. *)
Theorem C41_reader_refuses :
  forall A (zero : A) k order (f : solfile A), k <> sf_num_ranks f -> reader_serialize zero k order f = Fail Aborted.
Proof.
  intros A zero k order f H. unfold reader_serialize. destruct (Z.eqb_spec (sf_num_ranks f) k); [congruence|reflexivity].
Qed.
Print Assumptions C41_reader_refuses.

(** ** C42, C43 *)

(** [f] is the solution file of a run: rank [r]'s coefficients are [U r]. *)
Definition saved {A} (zero : A) (right : bool) n (m : gmesh A) nb ns (time : A) (pm : Z -> pmesh A)
  (U : Z -> Z -> Z -> Z -> A) (order : Z -> list Z) (f : solfile A) : Prop :=
  exists ws, mapM (fun r => writer_input right n m nb ns time (pm r) (U r)) (zseq n) = Ok ws /\
    write_file zero order ws = Ok f.

Lemma saved_spec {A} (zero : A) iter right n m ep nb ns time pm U order :
  run_wf iter n m ep -> partitioned zero iter n m ep pm -> 0 < n -> 0 <= nb -> 0 <= ns ->
  (forall k, Permutation (order k) (zseq n)) ->
  exists ws f, mapM (fun r => writer_input right n m nb ns time (pm r) (U r)) (zseq n) = Ok ws /\
    write_file zero order ws = Ok f /\ zlen ws = n /\
    (forall r, 0 <= r < n -> exists w, rd ws r = Ok w /\ input_spec n m pm right nb ns time U r w) /\
    file_spec n m right nb ns time ws f.
Proof.
  intros W P Hn Hnb Hns HP.
  destruct (inputs_ok zero iter n m ep pm W P right nb ns time U Hn) as (ws & E1 & E2 & E3).
  destruct (file_ok zero iter n m ep pm W right nb ns time U Hn Hnb Hns order ws E2 E3 HP) as (f & E4 & E5).
  exists ws, f. auto.
Qed.

Theorem C42_restart_round_trip :
  forall A (zero : A) iter right n m ep nb ns time pm U order,
  run_wf iter n m ep -> partitioned zero iter n m ep pm -> 0 < n -> 0 <= nb -> 0 <= ns ->
  (forall k, Permutation (order k) (zseq n)) ->
  exists f, saved zero right n m nb ns time pm U order f /\
    forall r, 0 <= r < n -> zlen (pm_l2g_elem (pm r)) * nb * ns <= 2 ^ 32 ->
    forall h0 s, exists s', read_in_coefficients n r f h0 s = Ok s' /\
      forall i j k, 0 <= i < zlen (pm_l2g_elem (pm r)) -> 0 <= j < nb -> 0 <= k < ns ->
        ss_Uc s' i j k = U r i j k.
Proof.
  intros A zero iter right n m ep nb ns time pm U order W P Hn Hnb Hns HP.
  destruct (saved_spec zero iter right n m ep nb ns time pm U order W P Hn Hnb Hns HP) as (ws & f & E1 & E2 & E3 & E4 & F).
  exists f. split; [exists ws; auto|]. intros r Hr Hsz h0 s.
  destruct (E4 r Hr) as (w & R & S). unfold read_in_coefficients.
  rewrite (fs_neps _ _ _ _ _ _ _ _ F), (rd_map wi_nep _ _ _ R). cbn [bind].
  rewrite (is_nep _ _ _ _ _ _ _ _ _ _ S). set (ne := zlen (pm_l2g_elem (pm r))) in *.
  assert (Hne : 0 <= ne) by apply zlen_nonneg.
  assert (Rd : read_parallel true n (sf_Uc f) r = Ok (data3 right ne nb ns (U r), [ne; nb; ns])).
  { pose proof (stored_read _ _ _ _ _ (fs_Uc _ _ _ _ _ _ _ _ F) (rd_map wi_Uc _ _ _ R)) as Q.
    rewrite zlen_map, E3 in Q. rewrite Q, (is_Uc _ _ _ _ _ _ _ _ _ _ S). reflexivity. }
  rewrite Rd. cbn [bind]. rewrite (fs_nb _ _ _ _ _ _ _ _ F), (fs_ns _ _ _ _ _ _ _ _ F), (fs_layout _ _ _ _ _ _ _ _ F).
  pose proof (data3_rd right ne nb ns (U r)) as D.
  assert (Hu : forall i j k, 0 <= i < ne -> 0 <= j < nb -> 0 <= k < ns ->
    0 <= (i * nb + j) * ns + k < 2 ^ 32 /\ 0 <= i + ne * (j + nb * k) < 2 ^ 32).
  { intros i j k Hi Hj Hk. assert (0 <= i * nb + j < ne * nb) by nia. assert (0 <= j + nb * k < nb * ns) by nia. split; nia. }
  destruct right.
  - destruct (fill3 ne nb ns (fun i j k h => v <- rd (data3 true ne nb ns (U r)) (u32 (i * nb * ns + j * ns + k)) ;; Ok (put3 h i j k v))
      (fun a b c => (a, b, c)) (U r) h0 Hne Hnb Hns) as (h & E & Hh); auto.
    + intros i j k h Hi Hj Hk. destruct (Hu i j k Hi Hj Hk) as [B1 _].
      replace (i * nb * ns + j * ns + k) with ((i * nb + j) * ns + k) by ring.
      rewrite u32_small, D by auto. reflexivity.
    + rewrite E. cbn [bind]. eexists; split; [reflexivity|]. exact Hh.
  - destruct (fill3 ns nb ne (fun i j k h => v <- rd (data3 false ne nb ns (U r)) (u32 (i * nb * ne + j * ne + k)) ;; Ok (put3 h k j i v))
      (fun a b c => (c, b, a)) (fun a b c => U r c b a) h0 Hns Hnb Hne) as (h & E & Hh).
    + intros a b c a' b' c' [= -> -> ->]. reflexivity.
    + intros i j k h Hi Hj Hk. destruct (Hu k j i Hk Hj Hi) as [_ B1].
      replace (i * nb * ne + j * ne + k) with (k + ne * (j + nb * i)) by ring.
      rewrite u32_small, D by auto. reflexivity.
    + rewrite E. cbn [bind]. eexists; split; [reflexivity|]. intros i j k Hi Hj Hk. exact (Hh k j i Hk Hj Hi).
Qed.
Print Assumptions C42_restart_round_trip.

(** The time in the file is the time of the run (the writer stores it), but the
    restart does not take it: the solver's time is what it was before. *)
Theorem C43_restart_time_refuted :
  forall A (zero : A) iter right n m ep nb ns time pm U order,
  run_wf iter n m ep -> partitioned zero iter n m ep pm -> 0 < n -> 0 <= nb -> 0 <= ns ->
  (forall k, Permutation (order k) (zseq n)) ->
  exists f, saved zero right n m nb ns time pm U order f /\ sf_time f = time /\
    forall r h0 s s', read_in_coefficients n r f h0 s = Ok s' ->
      ss_time s' = ss_time s /\ (ss_time s <> time -> ss_time s' <> sf_time f).
Proof.
  intros A zero iter right n m ep nb ns time pm U order W P Hn Hnb Hns HP.
  destruct (saved_spec zero iter right n m ep nb ns time pm U order W P Hn Hnb Hns HP) as (ws & f & E1 & E2 & E3 & E4 & F).
  exists f. split; [exists ws; auto|]. split; [apply (fs_time _ _ _ _ _ _ _ _ F)|].
  intros r h0 s s' E. rewrite (fs_time _ _ _ _ _ _ _ _ F). unfold read_in_coefficients in E.
  apply bind_Ok in E. destruct E as (ne & _ & E). apply bind_Ok in E. destruct E as ([buff d] & _ & E).
  apply bind_Ok in E. destruct E as (h & _ & [= <-]). cbn. split; auto.
Qed.
Print Assumptions C43_restart_time_refuted.

(** ** C44 *)

(** Node [g] belongs to some element. *)
Definition in_some_element {A} (m : gmesh A) (g : Z) : Prop :=
  exists e j, 0 <= e < gm_num_elems m /\ 0 <= j < gm_npe m /\ rd (gm_eind m) (e * gm_npe m + j) = Ok g.

(** A dataset that one rank wrote in one piece. *)
Definition one_block {B} (d : pdataset B) : Prop := d = mkPD (pd_data d) [0] (ndims (pd_dims d)) 1 (zlen (pd_data d)) (pd_dims d).

(** A solution of a run on [n] > 1 ranks, stored in row-major order, converted
    to a serial file: one block per dataset, the elements in global order with
    their global node numbers and coefficients, every node at its global
    position.  (The sizes are limited by MPI's int counts.) *)
Theorem C44_converted_solution :
  forall A (zero : A) iter n m ep nb ns time pm U order order',
  run_wf iter n m ep -> partitioned zero iter n m ep pm ->
  1 < n -> 0 < nb -> 0 < ns -> 0 < gm_num_elems m -> 0 < gm_npe m -> 0 < gm_dim m ->
  gm_num_elems m * gm_npe m < 2 ^ 31 -> gm_num_elems m * (nb * ns) < 2 ^ 31 ->
  zlen (concat (map (fun r => pm_l2g_node (pm r)) (zseq n))) * gm_dim m < 2 ^ 31 ->
  (forall k, Permutation (order k) (zseq n)) -> (forall k, Permutation (order' k) (zseq n)) ->
  exists f g N,
    saved zero true n m nb ns time pm U order f /\ convert zero n order' f = Ok g /\
    sf_num_ranks g = 1 /\ sf_num_elems g = gm_num_elems m /\ sf_neps g = [gm_num_elems m] /\
    sf_time g = time /\ sf_nb g = nb /\ sf_ns g = ns /\ sf_layout g = true /\
    (* connectivity and coefficients in global element order *)
    pd_data (sf_e2n g) = gm_eind m /\ pd_dims (sf_e2n g) = [gm_num_elems m; gm_npe m] /\
    pd_data (sf_l2ge g) = zseq (gm_num_elems m) /\
    pd_dims (sf_Uc g) = [gm_num_elems m; nb; ns] /\ zlen (pd_data (sf_Uc g)) = gm_num_elems m * nb * ns /\
    (forall r le e j k, 0 <= r < n -> rd (pm_l2g_elem (pm r)) le = Ok e -> 0 <= j < nb -> 0 <= k < ns ->
       rd (pd_data (sf_Uc g)) ((e * nb + j) * ns + k) = Ok (U r le j k)) /\
    (* N - 1 is the largest node number in use *)
    in_some_element m (N - 1) /\ (forall x, in_some_element m x -> x < N) /\
    pd_dims (sf_coords g) = [N; gm_dim m] /\ zlen (pd_data (sf_coords g)) = N * gm_dim m /\
    (forall x k, in_some_element m x -> 0 <= k < gm_dim m ->
       rd (pd_data (sf_coords g)) (x * gm_dim m + k) = rd2 (gm_coord m) x k) /\
    ((forall x, 0 <= x < N -> in_some_element m x) -> pd_data (sf_l2gn g) = zseq N) /\
    (* read by one rank *)
    pd_nRanks (sf_Uc g) = 1 /\ pd_nRanks (sf_e2n g) = 1 /\ pd_nRanks (sf_coords g) = 1 /\
    pd_nRanks (sf_l2gn g) = 1 /\ pd_nRanks (sf_l2ge g) = 1 /\
    sf_dim g = gm_dim m /\ sf_num_nodes g = gm_num_nodes m /\ sf_npe g = gm_npe m /\
    pd_dims (sf_l2gn g) = [N] /\ pd_dims (sf_l2ge g) = [gm_num_elems m] /\
    one_block (sf_Uc g) /\ one_block (sf_e2n g) /\ one_block (sf_coords g) /\ one_block (sf_l2gn g) /\ one_block (sf_l2ge g).
Proof.
  intros A zero iter n m ep nb ns time pm U order order' W P Hn Hnb Hns Hne Hnpe Hdim B1 B2 B3 HP HP'.
  destruct (saved_spec zero iter true n m ep nb ns time pm U order W P ltac:(lia) ltac:(lia) ltac:(lia) HP) as (ws & f & E1 & E2 & E3 & E4 & F).
  destruct (serial_ok zero iter n m ep pm W P nb ns time U Hn Hnb Hns Hne Hnpe Hdim order' HP' B1 B2 B3 ws f E3 E4 F)
    as (d & N & uc & cp & Ed & D1 & D2 & D3 & D4 & D5 & D6 & D7 & D8 & D9 & D10 & K1 & K2 & G1 & G2 & U1 & U2 & U3 & U4 & N1 & N2 & C1 & C2 & C3 & C4 & L1 & L2).
  assert (N0 : 0 < N).
  { apply (used_range iter n m ep W) in N1; auto; lia. }
  set (LN := map (fun r => pm_l2g_node (pm r)) (zseq n)) in *.
  assert (Zr : zlen (resize (zseq (zlen (concat LN))) N 0) = N).
  { unfold resize, zlen at 1. rewrite app_length, firstn_length, repeat_length. lia. }
  unfold convert.
  assert (Ew : exists g, write_file_serial zero (reader_input d) = Ok g /\
     sf_num_ranks g = 1 /\ sf_num_elems g = gm_num_elems m /\ sf_neps g = [gm_num_elems m] /\
     sf_time g = time /\ sf_nb g = nb /\ sf_ns g = ns /\ sf_layout g = true /\
     pd_data (sf_e2n g) = gm_eind m /\ pd_dims (sf_e2n g) = [gm_num_elems m; gm_npe m] /\
     pd_data (sf_l2ge g) = zseq (gm_num_elems m) /\ pd_dims (sf_Uc g) = [gm_num_elems m; nb; ns] /\ pd_data (sf_Uc g) = uc /\
     pd_dims (sf_coords g) = [N; gm_dim m] /\ pd_data (sf_coords g) = cp /\
     pd_data (sf_l2gn g) = resize (zseq (zlen (concat LN))) N 0 /\
     pd_nRanks (sf_Uc g) = 1 /\ pd_nRanks (sf_e2n g) = 1 /\ pd_nRanks (sf_coords g) = 1 /\ pd_nRanks (sf_l2gn g) = 1 /\ pd_nRanks (sf_l2ge g) = 1 /\
     sf_dim g = gm_dim m /\ sf_num_nodes g = gm_num_nodes m /\ sf_npe g = gm_npe m /\
     pd_dims (sf_l2gn g) = [N] /\ pd_dims (sf_l2ge g) = [gm_num_elems m] /\
     one_block (sf_Uc g) /\ one_block (sf_e2n g) /\ one_block (sf_coords g) /\ one_block (sf_l2gn g) /\ one_block (sf_l2ge g)).
  { unfold write_file_serial, reader_input. cbn [wi_coords wi_l2gn wi_e2n wi_l2ge wi_Uc wi_num_ranks wi_dim wi_num_elems wi_num_nodes wi_npe wi_nb wi_ns wi_time wi_nep wi_layout].
    rewrite C1, C2, L1, L2, K1, K2, G1, G2, U1, U2.
    pose proof (wf_eind_len m (run_mesh _ _ _ _ W)) as Le.
    rewrite (write_serial_ok zero (mkBlock [N; gm_dim m] cp)).
    2:{ split; cbn [b_dims b_data]; [repeat constructor; lia|]. rewrite C3, prodZ_fold. cbn [fold_right]. ring. }
    cbn [bind]. rewrite write_serial_ok.
    2:{ split; cbn [b_dims b_data]; [repeat constructor; lia|]. rewrite Zr, prodZ_fold. cbn [fold_right]. ring. }
    cbn [bind]. rewrite write_serial_ok.
    2:{ split; cbn [b_dims b_data]; [repeat constructor; lia|]. rewrite Le, prodZ_fold. cbn [fold_right]. ring. }
    cbn [bind]. rewrite write_serial_ok.
    2:{ split; cbn [b_dims b_data]; [repeat constructor; lia|]. rewrite zlen_zseq, prodZ_fold by lia. cbn [fold_right]. ring. }
    cbn [bind]. rewrite write_serial_ok.
    2:{ split; cbn [b_dims b_data]; [repeat constructor; lia|]. rewrite U3, prodZ_fold. cbn [fold_right]. ring. }
    cbn [bind]. eexists; split; [reflexivity|].
    cbn [sf_num_ranks sf_num_elems sf_neps sf_time sf_nb sf_ns sf_layout sf_e2n sf_l2ge sf_Uc sf_coords sf_l2gn sf_dim sf_num_nodes sf_npe pd_data pd_dims pd_nRanks b_data b_dims].
    rewrite D1, D2, D3, D4, D5, D6, D7, D8, D9, D10. unfold one_block. cbn [pd_data pd_dims]. auto 40. }
  destruct Ew as (g & Eg & H1 & H2 & H3 & H4 & H5 & H6 & H7 & H8 & H9 & H10 & H11 & H12 & H13 & H14 & H15 & HR1 & HR2 & HR3 & HR4 & HR5 & HR6 & HR7 & HR8 & HR9 & HR10 & HR11 & HR12 & HR13 & HR14 & HR15).
  exists f, g, N. split; [exists ws; auto|]. rewrite Ed. cbn [bind]. split; [exact Eg|].
  rewrite H12, H14, H15.
  repeat match goal with |- _ /\ _ => split end; auto.
  intros Hall. assert (HN : N <= zlen (concat LN)).
  { assert (incl (zseq N) (concat LN)).
    { intros x Hx. apply In_zseq in Hx. apply (used_node zero iter n m ep pm W P). exact (Hall x Hx). }
    pose proof (NoDup_incl_length (NoDup_zseq N) H) as Q. rewrite <- (zlen_zseq N) by lia. unfold zlen. lia. }
  assert (Q1 : (Z.to_nat N - length (zseq (zlen (concat LN))) = 0)%nat).
  { pose proof (zlen_zseq (zlen (concat LN)) (zlen_nonneg _)) as Q. unfold zlen at 1 in Q. lia. }
  unfold resize. rewrite Q1. cbn [repeat]. rewrite app_nil_r.
  unfold zseq. rewrite firstn_map. f_equal.
  pose proof (zlen_nonneg (concat LN)).
  assert (Q2 : (Z.to_nat N <= Z.to_nat (zlen (concat LN)))%nat) by lia.
  revert Q2. generalize (Z.to_nat N) as k, (Z.to_nat (zlen (concat LN))) as q, O as s. clear.
  induction k; intros q s Q; cbn; auto. destruct q; [lia|]. cbn. f_equal. apply IHk. lia.
Qed.
Print Assumptions C44_converted_solution.

(** The run of PropMesh's demonstration, with coefficients that name their
    place: rank 1 owns elements 1 and 3. *)
Definition demo_coeffs (r i j k : Z) : Z := 1000 * r + 100 * i + 10 * j + k.

Example C44_demo : exists pm, partitioned 0 (fun _ l => rev l) 3 demo_mesh demo_ep pm /\
  match (ws <- mapM (fun r => writer_input true 3 demo_mesh 2 1 7 (pm r) (demo_coeffs r)) (zseq 3) ;;
         f <- write_file 0 (fun _ => [2; 0; 1]) ws ;; convert 0 3 (fun _ => [1; 2; 0]) f) with
  | Ok g => pd_data (sf_Uc g) = [0; 10; 1000; 1010; 2000; 2010; 1100; 1110] /\
            pd_data (sf_e2n g) = gm_eind demo_mesh /\ pd_data (sf_l2gn g) = zseq 9 /\
            pd_data (sf_coords g) = concat (gm_coord demo_mesh)
  | Fail _ => False
  end.
Proof.
  destruct (C05_partitioned_exists Z 0 _ _ _ _ demo_run) as [pm Pm]. exists pm. split; [exact Pm|].
  assert (E0 := Pm 0 ltac:(lia)). assert (E1 := Pm 1 ltac:(lia)). assert (E2 := Pm 2 ltac:(lia)).
  vm_compute in E0, E1, E2. injection E0 as E0. injection E1 as E1. injection E2 as E2.
  change (zseq 3) with [0; 1; 2]. cbn [mapM]. rewrite <- E0, <- E1, <- E2.
  vm_compute. repeat split.
Qed.

(** With column-major coefficients (GPU builds) the conversion mixes the
    coefficients of different elements: the sorting ignores the layout flag
    that it copies to the output.  The same run; the restart from the converted
    file does not give element 1 its coefficients. *)
Theorem C44_column_major_refuted : exists pm, partitioned 0 (fun _ l => rev l) 3 demo_mesh demo_ep pm /\
  match (ws <- mapM (fun r => writer_input false 3 demo_mesh 2 1 7 (pm r) (demo_coeffs r)) (zseq 3) ;;
         f <- write_file 0 (fun _ => [2; 0; 1]) ws ;; g <- convert 0 3 (fun _ => [1; 2; 0]) f ;;
         read_in_coefficients 1 0 g (fun _ _ _ => 0) (mkSS 0 (fun _ _ _ => 0))) with
  | Ok s => rd (pm_l2g_elem (pm 1)) 0 = Ok 1 /\ ss_Uc s 1 1 0 <> demo_coeffs 1 0 1 0
  | Fail _ => False
  end.
Proof.
  destruct (C05_partitioned_exists Z 0 _ _ _ _ demo_run) as [pm Pm]. exists pm. split; [exact Pm|].
  assert (E0 := Pm 0 ltac:(lia)). assert (E1 := Pm 1 ltac:(lia)). assert (E2 := Pm 2 ltac:(lia)).
  vm_compute in E0, E1, E2. injection E0 as E0. injection E1 as E1. injection E2 as E2.
  change (zseq 3) with [0; 1; 2]. cbn [mapM]. rewrite <- E0, <- E1, <- E2.
  vm_compute. split; [reflexivity|discriminate].
Qed.
Print Assumptions C44_column_major_refuted.
