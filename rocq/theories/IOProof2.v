(** IOProof2.v -- lemmas about the solution file, the restart and the
    serialisation. *)
From Coq Require Import ZArith List Lia Bool Permutation.
From Verif Require Import Base MeshModel MeshSpec MeshProof MeshReadProof MeshProof2 PropMesh IOModel IOProof.
Import ListNotations.
Local Open Scope Z_scope.
Open Scope res_scope.

(** Reading back the memory of a view. *)
Lemma data3_rd {A} right e0 e1 e2 (U : Z -> Z -> Z -> A) i j k :
  0 <= i < e0 -> 0 <= j < e1 -> 0 <= k < e2 ->
  rd (data3 right e0 e1 e2 U) (if right then (i * e1 + j) * e2 + k else i + e0 * (j + e1 * k)) = Ok (U i j k).
Proof.
  intros H0 H1 H2. unfold data3. rewrite rd_map_res.
  set (p := if right then _ else _).
  assert (Hp : 0 <= p < e0 * e1 * e2).
  { subst p. destruct right.
    - assert (0 <= i * e1 + j < e0 * e1) by nia. nia.
    - assert (0 <= j + e1 * k < e1 * e2) by nia. nia. }
  assert (R : rd (zseq (e0 * e1 * e2)) p = Ok p) by (apply rd_Ok; split; [lia|now apply nth_error_zseq]).
  rewrite R. cbn [bind]. f_equal.
  assert (E : unpos3 right e0 e1 e2 p = (i, j, k)).
  { subst p. unfold unpos3. destruct right.
    - assert (Q1 : ((i * e1 + j) * e2 + k) / e2 = i * e1 + j) by (symmetry; apply Z.div_unique with k; lia).
      assert (Q2 : ((i * e1 + j) * e2 + k) mod e2 = k) by (symmetry; apply Z.mod_unique with (i * e1 + j); lia).
      rewrite Q1, Q2. f_equal. f_equal.
      + symmetry. apply Z.div_unique with (j * e2 + k); [left; nia|ring].
      + symmetry. apply Z.mod_unique with i; lia.
    - assert (Q1 : (i + e0 * (j + e1 * k)) / e0 = j + e1 * k) by (symmetry; apply Z.div_unique with i; lia).
      assert (Q2 : (i + e0 * (j + e1 * k)) mod e0 = i) by (symmetry; apply Z.mod_unique with (j + e1 * k); lia).
      rewrite Q1, Q2. f_equal; [f_equal|].
      + symmetry. apply Z.mod_unique with k; lia.
      + symmetry. apply Z.div_unique with (i + e0 * j); [left; nia|ring]. }
  now rewrite E.
Qed.

Lemma zlen_data3 {A} right e0 e1 e2 (U : Z -> Z -> Z -> A) :
  0 <= e0 -> 0 <= e1 -> 0 <= e2 -> zlen (data3 right e0 e1 e2 U) = e0 * e1 * e2.
Proof. intros. unfold data3. rewrite zlen_map, zlen_zseq; nia. Qed.

Lemma unpos2_range right e0 e1 p : 0 <= e0 -> 0 <= e1 -> 0 <= p < e0 * e1 ->
  let '(i, j) := unpos2 right e0 e1 p in 0 <= i < e0 /\ 0 <= j < e1.
Proof.
  intros H0 H1 Hp. assert (0 < e0) by nia. assert (0 < e1) by nia. unfold unpos2. destruct right.
  - pose proof (Z.mod_pos_bound p e1 ltac:(lia)). split; [|lia].
    split; [apply Z.div_pos; lia|]. apply Z.div_lt_upper_bound; nia.
  - pose proof (Z.mod_pos_bound p e0 ltac:(lia)). split; [lia|].
    split; [apply Z.div_pos; lia|]. apply Z.div_lt_upper_bound; nia.
Qed.

Lemma data2_ok {A} right e0 e1 (rows : list (list A)) : 0 <= e0 -> 0 <= e1 ->
  (forall i j, 0 <= i < e0 -> 0 <= j < e1 -> exists v, rd2 rows i j = Ok v) ->
  exists d, data2 right e0 e1 rows = Ok d /\ zlen d = e0 * e1 /\
    forall i j, 0 <= i < e0 -> 0 <= j < e1 -> rd d (if right then i * e1 + j else i + e0 * j) = rd2 rows i j.
Proof.
  intros H0 H1 H. unfold data2.
  destruct (mapM_total (fun p => let '(i, j) := unpos2 right e0 e1 p in rd2 rows i j) (zseq (e0 * e1))) as [d E].
  - intros p Hp. apply In_zseq in Hp. pose proof (unpos2_range right e0 e1 p H0 H1 Hp) as G.
    destruct (unpos2 right e0 e1 p) as [i j]. apply H; tauto.
  - exists d. destruct (mapM_Ok_inv _ _ _ E) as [Hl Hi].
    rewrite zlen_zseq in Hl by nia. split; [auto|]. split; [auto|].
    intros i j Ii Ij. set (p := if right then _ else _).
    assert (Hp : 0 <= p < e0 * e1) by (subst p; destruct right; nia).
    destruct (Hi p p) as (y & Ey & Ry).
    { apply rd_Ok. split; [lia|]. now apply nth_error_zseq. }
    assert (Eu : unpos2 right e0 e1 p = (i, j)).
    { subst p. unfold unpos2. destruct right; f_equal.
      - symmetry. apply Z.div_unique with j; lia.
      - symmetry. apply Z.mod_unique with i; lia.
      - symmetry. apply Z.mod_unique with j; lia.
      - symmetry. apply Z.div_unique with i; lia. }
    rewrite Eu in Ey. now rewrite Ry, Ey.
Qed.

(** The datasets of the file. *)
Definition stored {B} (f : pdataset B) (bs : list (block B)) (nd : Z) : Prop :=
  Forall block_ok bs /\ Forall (fun b => zlen (b_dims b) = nd) bs /\ 0 < zlen bs /\
  pd_data f = concat (map b_data bs) /\ pd_nDims f = nd /\ pd_nRanks f = zlen bs /\
  pd_totalSize f = zlen (pd_data f) /\ pd_dims f = concat (map b_dims bs) /\
  zlen (pd_offsets f) = zlen bs /\
  forall r, 0 <= r < zlen bs -> rd (pd_offsets f) r = Ok (pre (map b_data bs) r).

Lemma stored_read {B} (f : pdataset B) bs nd r b : stored f bs nd -> rd bs r = Ok b ->
  read_parallel true (zlen bs) f r = Ok (b_data b, b_dims b).
Proof.
  intros (S1 & S2 & S0 & S3 & S4 & S5 & S6 & S7 & S8 & S9) R.
  eapply read_parallel_ok; eauto. apply S9. apply rd_in_range in R. lia.
Qed.

Lemma write_stored {B} (z : B) order nd bs :
  0 < zlen bs -> 0 < nd -> Forall block_ok bs -> Forall (fun b => zlen (b_dims b) = nd) bs ->
  Permutation order (zseq (zlen bs)) -> exists f, write_parallel z order bs = Ok f /\ stored f bs nd.
Proof.
  intros Hb Hnd F1 F2 HP. destruct (write_parallel_ok z order nd bs) as (f & E & H); auto.
  exists f. split; [auto|]. repeat split; try tauto.
Qed.

(** ** What every rank writes *)
Section Written.
Context {A : Type} (zero : A) (iter : Z -> list Z -> list Z) (n : Z) (m : gmesh A) (ep : list Z) (pm : Z -> pmesh A).
Context (W : run_wf iter n m ep) (P : partitioned zero iter n m ep pm).
Context (right : bool) (nb ns : Z) (time : A) (U : Z -> Z -> Z -> Z -> A).
Context (Hn : 0 < n) (Hnb : 0 <= nb) (Hns : 0 <= ns).

Record input_spec (r : Z) (w : winput A) : Prop := {
  is_num_ranks : wi_num_ranks w = n;
  is_dim : wi_dim w = gm_dim m;
  is_num_elems : wi_num_elems w = gm_num_elems m;
  is_num_nodes : wi_num_nodes w = gm_num_nodes m;
  is_npe : wi_npe w = gm_npe m;
  is_nb : wi_nb w = nb;
  is_ns : wi_ns w = ns;
  is_time : wi_time w = time;
  is_layout : wi_layout w = right;
  is_nep : wi_nep w = zlen (pm_l2g_elem (pm r));
  is_l2ge : wi_l2ge w = mkBlock [zlen (pm_l2g_elem (pm r))] (pm_l2g_elem (pm r));
  is_l2gn : wi_l2gn w = mkBlock [zlen (pm_l2g_node (pm r))] (pm_l2g_node (pm r));
  is_Uc : wi_Uc w = mkBlock [zlen (pm_l2g_elem (pm r)); nb; ns] (data3 right (zlen (pm_l2g_elem (pm r))) nb ns (U r));
  is_coords_dims : b_dims (wi_coords w) = [zlen (pm_l2g_node (pm r)); gm_dim m];
  is_coords_len : zlen (b_data (wi_coords w)) = zlen (pm_l2g_node (pm r)) * gm_dim m;
  is_coords : right = true -> forall ln g k, rd (pm_l2g_node (pm r)) ln = Ok g -> 0 <= k < gm_dim m ->
     rd (b_data (wi_coords w)) (ln * gm_dim m + k) = rd2 (gm_coord m) g k;
  is_e2n_dims : b_dims (wi_e2n w) = [zlen (pm_l2g_elem (pm r)); gm_npe m];
  is_e2n_len : zlen (b_data (wi_e2n w)) = zlen (pm_l2g_elem (pm r)) * gm_npe m;
  is_e2n : right = true -> forall le e j, rd (pm_l2g_elem (pm r)) le = Ok e -> 0 <= j < gm_npe m ->
     exists ln g, rd (b_data (wi_e2n w)) (le * gm_npe m + j) = Ok ln /\
       rd (pm_l2g_node (pm r)) ln = Ok g /\ rd (gm_eind m) (e * gm_npe m + j) = Ok g
}.

Lemma writer_input_ok r : 0 <= r < n ->
  exists w, writer_input right n m nb ns time (pm r) (U r) = Ok w /\ input_spec r w.
Proof.
  intros Hr. destruct (C01_element_ownership A zero iter n m ep pm W P) as (_ & _ & O3 & _).
  destruct (O3 r Hr) as [_ Ene].
  destruct (C03_local_connectivity A zero iter n m ep pm W P r Hr) as (C1 & C2 & C3 & _ & _ & C6).
  pose proof (run_mesh _ _ _ _ W) as M.
  unfold writer_input. rewrite C6, Ene in *.
  pose proof (wf_dim m M). pose proof (wf_npe m M).
  assert (Hrow : forall ln g k, rd (pm_l2g_node (pm r)) ln = Ok g -> 0 <= k < gm_dim m ->
    rd2 (pm_node_coords (pm r)) ln k = rd2 (gm_coord m) g k /\ exists v, rd2 (gm_coord m) g k = Ok v).
  { intros ln g k Rg Hk. destruct (C3 ln g Rg) as (row & R1 & R2). unfold rd2. rewrite R1, R2. cbn [bind].
    split; [reflexivity|]. apply rd_total. pose proof (wf_coord m M) as F. rewrite Forall_forall in F.
    rewrite (F row (rd_In _ _ _ R2)). lia. }
  destruct (data2_ok right (zlen (pm_l2g_node (pm r))) (gm_dim m) (pm_node_coords (pm r))) as (dc & Ec & Lc & Dc); auto using zlen_nonneg.
  { intros i j Hi Hj. destruct (rd_total _ _ Hi) as [g Rg]. destruct (Hrow i g j Rg Hj) as [-> Hv]. exact Hv. }
  destruct (data2_ok right (zlen (pm_l2g_elem (pm r))) (gm_npe m) (pm_elem_to_node (pm r))) as (de & Ee & Le & De); auto using zlen_nonneg.
  { intros i j Hi Hj. destruct (rd_total _ _ Hi) as [e Re]. destruct (C2 i e j Re Hj) as (ln & g & E1 & _). eauto. }
  rewrite Ec. cbn [bind]. rewrite Ee. cbn [bind]. eexists; split; [reflexivity|].
  constructor; cbn; auto.
  - intros -> ln g k Rg Hk. destruct (Hrow ln g k Rg Hk) as [E _]. rewrite <- E.
    apply rd_in_range in Rg. now apply Dc.
  - intros -> le e j Re Hj. destruct (C2 le e j Re Hj) as (ln & g & E1 & E2 & E3).
    exists ln, g. split; [|auto]. rewrite <- E1. apply rd_in_range in Re. now apply De.
Qed.

Lemma inputs_ok : exists ws, mapM (fun r => writer_input right n m nb ns time (pm r) (U r)) (zseq n) = Ok ws /\
  zlen ws = n /\ forall r, 0 <= r < n -> exists w, rd ws r = Ok w /\ input_spec r w.
Proof.
  destruct (mapM_total (fun r => writer_input right n m nb ns time (pm r) (U r)) (zseq n)) as [ws E].
  - intros r Hr. apply In_zseq in Hr. destruct (writer_input_ok r Hr) as (w & Ew & _). eauto.
  - exists ws. destruct (mapM_Ok_inv _ _ _ E) as [Hl Hi]. rewrite zlen_zseq in Hl by lia.
    split; [auto|]. split; [auto|]. intros r Hr.
    destruct (Hi r r) as (w & E1 & E2).
    { apply rd_Ok. split; [lia|]. now apply nth_error_zseq. }
    exists w. split; [auto|]. destruct (writer_input_ok r Hr) as (w' & Ew & S). congruence.
Qed.

Lemma Forall_inputs (ws : list (winput A)) (Q : winput A -> Prop) :
  zlen ws = n -> (forall r, 0 <= r < n -> exists w, rd ws r = Ok w /\ input_spec r w) ->
  (forall r w, 0 <= r < n -> input_spec r w -> Q w) -> Forall Q ws.
Proof.
  intros L H HQ. apply Forall_forall. intros w Hw.
  apply In_nth_error in Hw. destruct Hw as [k Ek].
  assert (R : rd ws (Z.of_nat k) = Ok w) by (apply rd_Ok; rewrite Nat2Z.id; split; [lia|auto]).
  pose proof (rd_in_range _ _ _ R). destruct (H (Z.of_nat k)) as (w' & R' & S); [lia|].
  apply (HQ (Z.of_nat k)); [lia|]. congruence.
Qed.

Record file_spec (ws : list (winput A)) (f : solfile A) : Prop := {
  fs_num_ranks : sf_num_ranks f = n;
  fs_dim : sf_dim f = gm_dim m;
  fs_num_elems : sf_num_elems f = gm_num_elems m;
  fs_num_nodes : sf_num_nodes f = gm_num_nodes m;
  fs_npe : sf_npe f = gm_npe m;
  fs_nb : sf_nb f = nb;
  fs_ns : sf_ns f = ns;
  fs_time : sf_time f = time;
  fs_layout : sf_layout f = right;
  fs_neps : sf_neps f = map wi_nep ws;
  fs_coords : stored (sf_coords f) (map wi_coords ws) 2;
  fs_l2gn : stored (sf_l2gn f) (map wi_l2gn ws) 1;
  fs_e2n : stored (sf_e2n f) (map wi_e2n ws) 2;
  fs_l2ge : stored (sf_l2ge f) (map wi_l2ge ws) 1;
  fs_Uc : stored (sf_Uc f) (map wi_Uc ws) 3
}.

Lemma file_ok order ws :
  zlen ws = n -> (forall r, 0 <= r < n -> exists w, rd ws r = Ok w /\ input_spec r w) ->
  (forall k, Permutation (order k) (zseq n)) ->
  exists f, write_file zero order ws = Ok f /\ file_spec ws f.
Proof.
  intros L H HP.
  pose proof (run_mesh _ _ _ _ W) as M. pose proof (wf_dim m M). pose proof (wf_npe m M).
  assert (Hne : forall r, 0 <= zlen (pm_l2g_elem (pm r))) by (intros; apply zlen_nonneg).
  assert (Hnn : forall r, 0 <= zlen (pm_l2g_node (pm r))) by (intros; apply zlen_nonneg).
  unfold write_file. destruct (H 0) as (w0 & R0 & S0); [lia|]. rewrite R0. cbn [bind].
  destruct (write_stored zero (order 0) 2 (map wi_coords ws)) as (f0 & E0 & T0);
    rewrite ?zlen_map, ?L; auto; try lia.
  { rewrite Forall_map. apply Forall_inputs; auto. intros r w Hr S. split; rewrite (is_coords_dims _ _ S).
    - repeat constructor; auto. - rewrite (is_coords_len _ _ S). unfold prodZ. cbn [fold_left]. now destruct (zlen (pm_l2g_node (pm r))). }
  { rewrite Forall_map. apply Forall_inputs; auto. intros r w Hr S. now rewrite (is_coords_dims _ _ S). }
  rewrite E0. cbn [bind].
  destruct (write_stored 0 (order 1) 1 (map wi_l2gn ws)) as (f1 & E1 & T1);
    rewrite ?zlen_map, ?L; auto; try lia.
  { rewrite Forall_map. apply Forall_inputs; auto. intros r w Hr S. split; rewrite (is_l2gn _ _ S); cbn [b_dims b_data].
    - repeat constructor; auto. - unfold prodZ. cbn [fold_left]. now destruct (zlen (pm_l2g_node (pm r))). }
  { rewrite Forall_map. apply Forall_inputs; auto. intros r w Hr S. now rewrite (is_l2gn _ _ S). }
  rewrite E1. cbn [bind].
  destruct (write_stored 0 (order 2) 2 (map wi_e2n ws)) as (f2 & E2 & T2);
    rewrite ?zlen_map, ?L; auto; try lia.
  { rewrite Forall_map. apply Forall_inputs; auto. intros r w Hr S. split; rewrite (is_e2n_dims _ _ S).
    - repeat constructor; auto. - rewrite (is_e2n_len _ _ S). unfold prodZ. cbn [fold_left]. now destruct (zlen (pm_l2g_elem (pm r))). }
  { rewrite Forall_map. apply Forall_inputs; auto. intros r w Hr S. now rewrite (is_e2n_dims _ _ S). }
  rewrite E2. cbn [bind].
  destruct (write_stored 0 (order 3) 1 (map wi_l2ge ws)) as (f3 & E3 & T3);
    rewrite ?zlen_map, ?L; auto; try lia.
  { rewrite Forall_map. apply Forall_inputs; auto. intros r w Hr S. split; rewrite (is_l2ge _ _ S); cbn [b_dims b_data].
    - repeat constructor; auto. - unfold prodZ. cbn [fold_left]. now destruct (zlen (pm_l2g_elem (pm r))). }
  { rewrite Forall_map. apply Forall_inputs; auto. intros r w Hr S. now rewrite (is_l2ge _ _ S). }
  rewrite E3. cbn [bind].
  destruct (write_stored zero (order 4) 3 (map wi_Uc ws)) as (f4 & E4 & T4);
    rewrite ?zlen_map, ?L; auto; try lia.
  { rewrite Forall_map. apply Forall_inputs; auto. intros r w Hr S. split; rewrite (is_Uc _ _ S); cbn [b_dims b_data].
    - repeat constructor; auto. - rewrite zlen_data3 by auto. unfold prodZ. cbn [fold_left]. ring. }
  { rewrite Forall_map. apply Forall_inputs; auto. intros r w Hr S. now rewrite (is_Uc _ _ S). }
  rewrite E4. cbn [bind]. eexists; split; [reflexivity|].
  destruct S0. constructor; cbn; auto.
Qed.

End Written.

(** ** The restart loops *)
Lemma put3_neq {A} (U : Z -> Z -> Z -> A) i j k v a b c : (a, b, c) <> (i, j, k) -> put3 U i j k v a b c = U a b c.
Proof.
  intros H. unfold put3. destruct (Z.eqb_spec a i), (Z.eqb_spec b j), (Z.eqb_spec c k); cbn [andb]; congruence.
Qed.
Lemma put3_eq {A} (U : Z -> Z -> Z -> A) i j k v : put3 U i j k v i j k = v.
Proof. unfold put3. now rewrite !Z.eqb_refl. Qed.

Lemma fill3 {A} e0 e1 e2 (body : Z -> Z -> Z -> (Z -> Z -> Z -> A) -> res (Z -> Z -> Z -> A))
  (coord : Z -> Z -> Z -> Z * Z * Z) (V : Z -> Z -> Z -> A) h0 :
  0 <= e0 -> 0 <= e1 -> 0 <= e2 ->
  (forall a b c a' b' c', coord a b c = coord a' b' c' -> (a, b, c) = (a', b', c')) ->
  (forall a b c h, 0 <= a < e0 -> 0 <= b < e1 -> 0 <= c < e2 ->
     body a b c h = Ok (let '(i, j, k) := coord a b c in put3 h i j k (V a b c))) ->
  exists h, zfor e0 (fun a => zfor e1 (fun b => zfor e2 (body a b))) h0 = Ok h /\
    forall a b c, 0 <= a < e0 -> 0 <= b < e1 -> 0 <= c < e2 ->
      (let '(i, j, k) := coord a b c in h i j k) = V a b c.
Proof.
  intros H0 H1 H2 Hinj Hb.
  pose (get := fun (h : Z -> Z -> Z -> A) a b c => let '(i, j, k) := coord a b c in h i j k).
  assert (Hput : forall h a b c a' b' c' v, get (let '(i, j, k) := coord a b c in put3 h i j k v) a' b' c' =
     (if (a' =? a) && (b' =? b) && (c' =? c) then v else get h a' b' c')).
  { intros h a b c a' b' c' v. unfold get.
    destruct (coord a b c) as [[i j] k] eqn:E, (coord a' b' c') as [[i' j'] k'] eqn:E'.
    destruct ((a' =? a) && (b' =? b) && (c' =? c)) eqn:Q.
    - apply andb_prop in Q. destruct Q as [Q Q3]. apply andb_prop in Q. destruct Q as [Q1 Q2].
      apply Z.eqb_eq in Q1, Q2, Q3. subst. rewrite E in E'. injection E' as <- <- <-. apply put3_eq.
    - apply put3_neq. intros X. rewrite <- E, <- E' in X. apply Hinj in X. injection X as -> -> ->.
      rewrite !Z.eqb_refl in Q. discriminate. }
  destruct (zfor_inv (fun a0 h => forall a b c, 0 <= a < a0 -> 0 <= b < e1 -> 0 <= c < e2 -> get h a b c = V a b c)
    e0 (fun a => zfor e1 (fun b => zfor e2 (body a b))) h0) as (h & E & Hh); auto; try lia.
  2:{ exists h. split; [auto|]. exact Hh. }
  intros a0 h Ha Hh.
  destruct (zfor_inv (fun b0 h => forall a b c, (0 <= a < a0 /\ 0 <= b < e1 \/ a = a0 /\ 0 <= b < b0) -> 0 <= c < e2 -> get h a b c = V a b c)
    e1 (fun b => zfor e2 (body a0 b)) h) as (h' & E' & Hh'); auto; try lia.
  { intros a b c [[X Y]|X] Hc; [now apply Hh|lia]. }
  2:{ exists h'. split; [auto|]. intros a b c X Y Z0. apply Hh'; [|lia]. destruct (Z.eq_dec a a0); [right|left]; lia. }
  intros b0 h1 Hb0 Hh1.
  destruct (zfor_inv (fun c0 h => forall a b c, (0 <= a < a0 /\ 0 <= b < e1 /\ 0 <= c < e2 \/ a = a0 /\ 0 <= b < b0 /\ 0 <= c < e2 \/ a = a0 /\ b = b0 /\ 0 <= c < c0) -> get h a b c = V a b c)
    e2 (body a0 b0) h1) as (h2 & E2 & Hh2); auto; try lia.
  { intros a b c X. apply Hh1; lia. }
  { intros c0 h2 Hc0 Hh2. rewrite (Hb a0 b0 c0 h2) by lia. eexists; split; [reflexivity|].
    intros a b c X. rewrite Hput.
    destruct (Z.eqb_spec a a0), (Z.eqb_spec b b0), (Z.eqb_spec c c0); cbn [andb]; subst; try reflexivity; apply Hh2; lia. }
  exists h2. split; [auto|]. intros a b c X Hc. apply Hh2. lia.
Qed.
