(** IOProof4.v -- the serialised solution. *)
From Coq Require Import ZArith List Lia Bool Permutation.
From Verif Require Import Base MeshModel MeshSpec MeshProof MeshReadProof MeshProof2 PropMesh IOModel IOProof IOProof2 IOProof3.
Import ListNotations.
Local Open Scope Z_scope.
Open Scope res_scope.

Lemma NoDup_concat {B X} (f : X -> list B) l : NoDup l -> (forall x, In x l -> NoDup (f x)) ->
  (forall x y b, In x l -> In y l -> In b (f x) -> In b (f y) -> x = y) -> NoDup (concat (map f l)).
Proof.
  induction l as [|a l IH]; intros ND H1 H2; [constructor|]. cbn [map concat]. inversion ND; subst.
  assert (IH' : NoDup (concat (map f l))).
  { apply IH; auto; intros; [apply H1; now right|apply (H2 x y b); auto; now right]. }
  assert (D : forall b, In b (f a) -> ~ In b (concat (map f l))).
  { intros b Hb Hc. apply in_concat in Hc. destruct Hc as (q & Hq & Hbq). apply in_map_iff in Hq. destruct Hq as (y & <- & Hy).
    assert (a = y) by (apply (H2 a y b); auto; [now left|now right]). subst. contradiction. }
  assert (Hfa : NoDup (f a)) by (apply H1; now left).
  clear - IH' D Hfa. induction (f a) as [|b q IHq]; [exact IH'|]. cbn [app]. inversion Hfa; subst. constructor.
  - intros Hin. apply in_app_or in Hin. destruct Hin as [Hin|Hin]; [contradiction|]. apply (D b); [now left|auto].
  - apply IHq; auto. intros b' Hb'. apply D. now right.
Qed.

Lemma pre_scale {B C} (L : list (list B)) (M : list (list C)) w : zlen M = zlen L ->
  (forall r l mm, rd L r = Ok l -> rd M r = Ok mm -> zlen mm = zlen l * w) ->
  forall r, 0 <= r <= zlen L -> pre M r = pre L r * w.
Proof.
  intros HL H r Hr.
  assert (G : forall k : nat, Z.of_nat k <= zlen L -> pre M (Z.of_nat k) = pre L (Z.of_nat k) * w).
  { induction k as [|k IH]; intros Hk; [reflexivity|].
    replace (Z.of_nat (S k)) with (Z.of_nat k + 1) by lia.
    destruct (rd_total L (Z.of_nat k)) as [l Rl]; [lia|]. destruct (rd_total M (Z.of_nat k)) as [mm Rm]; [lia|].
    rewrite (pre_S _ _ _ Rl), (pre_S _ _ _ Rm), IH by lia. rewrite (H _ _ _ Rl Rm). ring. }
  replace r with (Z.of_nat (Z.to_nat r)) by lia. apply G. lia.
Qed.

Lemma zlen_scale {B C} (L : list (list B)) (M : list (list C)) w : zlen M = zlen L ->
  (forall r l mm, rd L r = Ok l -> rd M r = Ok mm -> zlen mm = zlen l * w) -> zlen (concat M) = zlen (concat L) * w.
Proof.
  intros HL H. rewrite <- !pre_all. rewrite HL. apply (pre_scale L M w); auto. pose proof (zlen_nonneg L). lia.
Qed.

Lemma rd_zseq n i : 0 <= i < n -> rd (zseq n) i = Ok i.
Proof. intros H. apply rd_Ok. split; [lia|]. now apply nth_error_zseq. Qed.

Lemma rd_rank {B} (f : Z -> B) n r : 0 <= r < n -> rd (map f (zseq n)) r = Ok (f r).
Proof. intros H. apply rd_map. now apply rd_zseq. Qed.

Lemma loaded_data {B} (rs : list (rset B)) bs : loaded rs bs -> map rs_data rs = map b_data bs.
Proof.
  intros [HL H]. apply rd_ext_range; [rewrite !zlen_map; lia|]. intros i Hi. rewrite zlen_map in Hi.
  destruct (rd_total bs i) as [b R]; [lia|]. destruct (H i b R) as (x & Rx & E & _).
  rewrite (rd_map _ _ _ _ R), (rd_map _ _ _ _ Rx). congruence.
Qed.

Section Serial.
Context {A : Type} (zero : A) (iter : Z -> list Z -> list Z) (n : Z) (m : gmesh A) (ep : list Z) (pm : Z -> pmesh A).
Context (W : run_wf iter n m ep) (P : partitioned zero iter n m ep pm).
Context (nb ns : Z) (time : A) (U : Z -> Z -> Z -> Z -> A).
Context (Hn : 1 < n) (Hnb : 0 < nb) (Hns : 0 < ns) (Hne : 0 < gm_num_elems m) (Hnpe : 0 < gm_npe m) (Hdim : 0 < gm_dim m).
Context (order : Z -> list Z) (HP : forall k, Permutation (order k) (zseq n)).
Let LE := map (fun r => pm_l2g_elem (pm r)) (zseq n).
Let LN := map (fun r => pm_l2g_node (pm r)) (zseq n).
Context (Hbig1 : gm_num_elems m * gm_npe m < 2 ^ 31) (Hbig2 : gm_num_elems m * (nb * ns) < 2 ^ 31)
  (Hbig3 : zlen (concat LN) * gm_dim m < 2 ^ 31).

Lemma zlen_ranks {B} (f : Z -> B) : zlen (map f (zseq n)) = n.
Proof. rewrite zlen_map. apply zlen_zseq. lia. Qed.

Lemma all_elems : Permutation (concat LE) (zseq (gm_num_elems m)).
Proof.
  destruct (C01_element_ownership A zero iter n m ep pm W P) as (O1 & O2 & O3 & _).
  apply NoDup_Permutation; [|apply NoDup_zseq|].
  - apply NoDup_concat; [apply NoDup_zseq| |].
    + intros r Hr. apply In_zseq in Hr. apply (O3 r Hr).
    + intros r s e Hr Hs Er Es. apply In_zseq in Hr, Hs. apply O2 in Er, Es; auto.
      unfold owned_by in *. congruence.
  - intros e. rewrite In_zseq. split.
    + intros He. apply in_concat in He. destruct He as (q & Hq & He). apply in_map_iff in Hq. destruct Hq as (r & <- & Hr).
      apply In_zseq in Hr. apply O2 in He; auto. apply rd_in_range in He.
      destruct (run_ep _ _ _ _ W) as [L _]. lia.
    + intros He. destruct (O1 e He) as (r & (Hr & Hin) & _). apply in_concat.
      exists (pm_l2g_elem (pm r)). split; [|auto]. apply in_map_iff. exists r. split; [auto|]. now apply In_zseq.
Qed.

Lemma zlen_E : zlen (concat LE) = gm_num_elems m.
Proof.
  pose proof (Permutation_length all_elems) as Q. unfold zlen. rewrite Q.
  fold (zlen (zseq (gm_num_elems m))). apply zlen_zseq. lia.
Qed.

Lemma rank_elem r le e : 0 <= r < n -> rd (pm_l2g_elem (pm r)) le = Ok e ->
  rd (concat LE) (pre LE r + le) = Ok e.
Proof.
  intros Hr R. rewrite (concat_rd LE r (pm_l2g_elem (pm r))); auto; [now apply (rd_rank (fun r => pm_l2g_elem (pm r)))|]. eapply rd_in_range; eauto.
Qed.

Lemma elem_pos p e : rd (concat LE) p = Ok e ->
  exists r le, 0 <= r < n /\ rd (pm_l2g_elem (pm r)) le = Ok e /\ p = pre LE r + le.
Proof.
  intros R. destruct (concat_pos LE p) as (r & l & i & Rl & Hi & ->); [now apply rd_in_range in R|].
  rewrite (concat_rd _ _ _ _ Rl Hi) in R. pose proof (rd_in_range _ _ _ Rl) as Hr.
  unfold LE in Hr. rewrite zlen_ranks in Hr.
  unfold LE in Rl at 1. rewrite (rd_rank _ n r Hr) in Rl. injection Rl as <-. eauto.
Qed.

Lemma rank_node r ln g : 0 <= r < n -> rd (pm_l2g_node (pm r)) ln = Ok g ->
  rd (concat LN) (pre LN r + ln) = Ok g.
Proof.
  intros Hr R. rewrite (concat_rd LN r (pm_l2g_node (pm r))); auto; [now apply (rd_rank (fun r => pm_l2g_node (pm r)))|]. eapply rd_in_range; eauto.
Qed.

Lemma node_pos p g : rd (concat LN) p = Ok g ->
  exists r ln, 0 <= r < n /\ rd (pm_l2g_node (pm r)) ln = Ok g /\ p = pre LN r + ln.
Proof.
  intros R. destruct (concat_pos LN p) as (r & l & i & Rl & Hi & ->); [now apply rd_in_range in R|].
  rewrite (concat_rd _ _ _ _ Rl Hi) in R. pose proof (rd_in_range _ _ _ Rl) as Hr.
  unfold LN in Hr. rewrite zlen_ranks in Hr.
  unfold LN in Rl at 1. rewrite (rd_rank _ n r Hr) in Rl. injection Rl as <-. eauto.
Qed.

Definition used g := exists e j, 0 <= e < gm_num_elems m /\ 0 <= j < gm_npe m /\
  rd (gm_eind m) (e * gm_npe m + j) = Ok g.

Lemma used_node g : used g <-> In g (concat LN).
Proof.
  destruct (C01_element_ownership A zero iter n m ep pm W P) as (O1 & O2 & _).
  split.
  - intros (e & j & He & Hj & R). destruct (O1 e He) as (r & (Hr & Hin) & _). apply O2 in Hin; auto.
    destruct (C03_local_connectivity A zero iter n m ep pm W P r Hr) as (_ & _ & _ & C4 & _).
    apply in_concat. exists (pm_l2g_node (pm r)). split.
    + apply in_map_iff. exists r. split; [auto|]. now apply In_zseq.
    + apply C4. exists e, j. auto.
  - intros Hg. apply in_concat in Hg. destruct Hg as (q & Hq & Hg). apply in_map_iff in Hq. destruct Hq as (r & <- & Hr).
    apply In_zseq in Hr.
    destruct (C03_local_connectivity A zero iter n m ep pm W P r Hr) as (_ & _ & _ & C4 & _).
    apply C4 in Hg. destruct Hg as (e & j & O & Hj & R). exists e, j. split; [|auto].
    apply rd_in_range in O. destruct (run_ep _ _ _ _ W) as [L _]. lia.
Qed.

Lemma used_range g : used g -> 0 <= g < gm_num_nodes m.
Proof.
  intros (e & j & _ & _ & R). pose proof (wf_eind m (run_mesh _ _ _ _ W)) as F. rewrite Forall_forall in F.
  apply F. eapply rd_In; eauto.
Qed.

Lemma serial_ok ws f :
  zlen ws = n ->
  (forall r, 0 <= r < n -> exists w, rd ws r = Ok w /\ input_spec n m pm true nb ns time U r w) ->
  file_spec n m true nb ns time ws f ->
  exists d N uc cp, reader_serialize zero n order f = Ok d /\
    rdr_num_ranks d = 1 /\ rdr_dim d = gm_dim m /\ rdr_num_elems d = gm_num_elems m /\
    rdr_num_nodes d = gm_num_nodes m /\ rdr_npe d = gm_npe m /\ rdr_nb d = nb /\ rdr_ns d = ns /\
    rdr_time d = time /\ rdr_layout d = true /\ rdr_nep d = gm_num_elems m /\
    rs_data (rdr_e2n d) = gm_eind m /\ rs_dims (rdr_e2n d) = [gm_num_elems m; gm_npe m] /\
    rs_data (rdr_l2ge d) = zseq (gm_num_elems m) /\ rs_dims (rdr_l2ge d) = [gm_num_elems m] /\
    rs_data (rdr_Uc d) = uc /\ rs_dims (rdr_Uc d) = [gm_num_elems m; nb; ns] /\
    zlen uc = gm_num_elems m * nb * ns /\
    (forall r le e j k, 0 <= r < n -> rd (pm_l2g_elem (pm r)) le = Ok e -> 0 <= j < nb -> 0 <= k < ns ->
       rd uc ((e * nb + j) * ns + k) = Ok (U r le j k)) /\
    used (N - 1) /\ (forall g, used g -> g < N) /\
    rs_data (rdr_coords d) = cp /\ rs_dims (rdr_coords d) = [N; gm_dim m] /\ zlen cp = N * gm_dim m /\
    (forall g k, used g -> 0 <= k < gm_dim m -> rd cp (g * gm_dim m + k) = rd2 (gm_coord m) g k) /\
    rs_data (rdr_l2gn d) = resize (zseq (zlen (concat LN))) N 0 /\ rs_dims (rdr_l2gn d) = [N].
Proof.
  intros Lw Sw F.
  pose proof (run_mesh _ _ _ _ W) as M.
  (* the ranks' blocks *)
  assert (DE : map b_data (map wi_l2ge ws) = LE).
  { apply rd_ext_range; [unfold LE; rewrite zlen_ranks, !zlen_map; auto|]. rewrite !zlen_map, Lw. intros r Hr.
    destruct (Sw r Hr) as (w & R & S). rewrite (rd_map _ _ _ _ (rd_map _ _ _ _ R)). unfold LE. rewrite rd_rank by auto.
    now rewrite (is_l2ge _ _ _ _ _ _ _ _ _ _ S). }
  assert (DN : map b_data (map wi_l2gn ws) = LN).
  { apply rd_ext_range; [unfold LN; rewrite zlen_ranks, !zlen_map; auto|]. rewrite !zlen_map, Lw. intros r Hr.
    destruct (Sw r Hr) as (w & R & S). rewrite (rd_map _ _ _ _ (rd_map _ _ _ _ R)). unfold LN. rewrite rd_rank by auto.
    now rewrite (is_l2gn _ _ _ _ _ _ _ _ _ _ S). }
  assert (ZE : zlen LE = n) by apply zlen_ranks. assert (ZN : zlen LN = n) by apply zlen_ranks.
  set (LC := map b_data (map wi_coords ws)). set (LK := map b_data (map wi_e2n ws)). set (LU := map b_data (map wi_Uc ws)).
  assert (ZC : zlen LC = n) by (unfold LC; now rewrite !zlen_map).
  assert (ZK : zlen LK = n) by (unfold LK; now rewrite !zlen_map).
  assert (ZU : zlen LU = n) by (unfold LU; now rewrite !zlen_map).
  assert (SC : forall r l mm, rd LN r = Ok l -> rd LC r = Ok mm -> zlen mm = zlen l * gm_dim m).
  { intros r l mm R1 R2. assert (Hr : 0 <= r < n) by (apply rd_in_range in R1; lia).
    destruct (Sw r Hr) as (w & R & S). unfold LC in R2. rewrite (rd_map _ _ _ _ (rd_map _ _ _ _ R)) in R2. injection R2 as <-.
    unfold LN in R1. rewrite rd_rank in R1 by auto. injection R1 as <-. apply (is_coords_len _ _ _ _ _ _ _ _ _ _ S). }
  assert (SK : forall r l mm, rd LE r = Ok l -> rd LK r = Ok mm -> zlen mm = zlen l * gm_npe m).
  { intros r l mm R1 R2. assert (Hr : 0 <= r < n) by (apply rd_in_range in R1; lia).
    destruct (Sw r Hr) as (w & R & S). unfold LK in R2. rewrite (rd_map _ _ _ _ (rd_map _ _ _ _ R)) in R2. injection R2 as <-.
    unfold LE in R1. rewrite rd_rank in R1 by auto. injection R1 as <-. apply (is_e2n_len _ _ _ _ _ _ _ _ _ _ S). }
  assert (SU : forall r l mm, rd LE r = Ok l -> rd LU r = Ok mm -> zlen mm = zlen l * (nb * ns)).
  { intros r l mm R1 R2. assert (Hr : 0 <= r < n) by (apply rd_in_range in R1; lia).
    destruct (Sw r Hr) as (w & R & S). unfold LU in R2. rewrite (rd_map _ _ _ _ (rd_map _ _ _ _ R)) in R2. injection R2 as <-.
    unfold LE in R1. rewrite rd_rank in R1 by auto. injection R1 as <-.
    rewrite (is_Uc _ _ _ _ _ _ _ _ _ _ S). cbn [b_data]. rewrite zlen_data3 by (auto using zlen_nonneg; lia). ring. }
  pose proof zlen_E as TE.
  pose proof (zlen_scale LN LC (gm_dim m) ltac:(lia) SC) as TC.
  pose proof (zlen_scale LE LK (gm_npe m) ltac:(lia) SK) as TK. rewrite TE in TK.
  pose proof (zlen_scale LE LU (nb * ns) ltac:(lia) SU) as TU. rewrite TE in TU.
  assert (TNs : zlen (concat LN) < 2 ^ 31) by (pose proof (zlen_nonneg (concat LN)); nia).
  assert (TEs : gm_num_elems m < 2 ^ 31) by nia.
  (* reading *)
  unfold reader_serialize. rewrite (fs_num_ranks _ _ _ _ _ _ _ _ F), Z.eqb_refl. cbn [negb].
  destruct (Sw 0 ltac:(lia)) as (w0 & R0 & S0).
  rewrite (fs_neps _ _ _ _ _ _ _ _ F). rewrite (rd_map wi_nep _ _ _ R0). cbn [bind].
  assert (LD : forall B (g : winput A -> block B), zlen (map g ws) = n) by (intros; now rewrite zlen_map).
  assert (PD : forall B (pd : pdataset B) bs nd, stored pd bs nd -> zlen bs = n -> zlen (concat (map b_data bs)) < 2 ^ 31 ->
    exists rs, mapM (populate n pd) (zseq n) = Ok rs /\ loaded rs bs).
  { intros B pd bs nd St Hb Hs. rewrite <- Hb. apply (populate_ok pd bs nd St).
    destruct St as (_ & _ & _ & E & _). now rewrite E. }
  destruct (PD _ _ _ _ (fs_coords _ _ _ _ _ _ _ _ F)) as (rc & Erc & Lrc); [apply LD|fold LC; lia|].
  destruct (PD _ _ _ _ (fs_l2gn _ _ _ _ _ _ _ _ F)) as (rn & Ern & Lrn); [apply LD|rewrite DN; lia|].
  destruct (PD _ _ _ _ (fs_e2n _ _ _ _ _ _ _ _ F)) as (rk & Erk & Lrk); [apply LD|fold LK; lia|].
  destruct (PD _ _ _ _ (fs_l2ge _ _ _ _ _ _ _ _ F)) as (re & Ere & Lre); [apply LD|rewrite DE; lia|].
  destruct (PD _ _ _ _ (fs_Uc _ _ _ _ _ _ _ _ F)) as (ru & Eru & Lru); [apply LD|fold LU; lia|].
  rewrite Erc. cbn [bind]. rewrite Ern. cbn [bind]. rewrite Erk. cbn [bind]. rewrite Ere. cbn [bind]. rewrite Eru. cbn [bind].
  destruct (Z.ltb_spec 1 n); [|lia].
  (* global node numbers *)
  assert (Conv : forall r, 0 <= r < n -> exists x, (c <- rd rk r ;; t <- rd rn r ;;
             d <- mapM (rd (rs_data t)) (rs_data c) ;;
             Ok (mkRS d (rs_dims c) (rs_total c) (rs_offsets c) (rs_sizes c))) = Ok x /\
       (exists c, rd rk r = Ok c /\ rs_dims x = rs_dims c /\ rs_total x = rs_total c /\
          rs_offsets x = rs_offsets c /\ rs_sizes x = rs_sizes c) /\
       zlen (rs_data x) = zlen (pm_l2g_elem (pm r)) * gm_npe m /\
       forall le e j, rd (pm_l2g_elem (pm r)) le = Ok e -> 0 <= j < gm_npe m ->
         rd (rs_data x) (le * gm_npe m + j) = rd (gm_eind m) (e * gm_npe m + j)).
  { intros r Hr. destruct (Sw r Hr) as (w & R & S).
    destruct Lrk as [_ Hrk]. destruct (Hrk r (wi_e2n w) (rd_map _ _ _ _ R)) as (c & Rc & Dc & _).
    destruct Lrn as [_ Hrn]. destruct (Hrn r (wi_l2gn w) (rd_map _ _ _ _ R)) as (t & Rt & Dt & _).
    rewrite Rc. cbn [bind]. rewrite Rt. cbn [bind]. rewrite Dc, Dt, (is_l2gn _ _ _ _ _ _ _ _ _ _ S). cbn [b_data].
    pose proof (is_e2n_len _ _ _ _ _ _ _ _ _ _ S) as Le.
    pose proof (is_e2n _ _ _ _ _ _ _ _ _ _ S eq_refl) as He.
    destruct (mapM_total (rd (pm_l2g_node (pm r))) (b_data (wi_e2n w))) as [d Ed].
    { intros x Hx. apply In_nth_error in Hx. destruct Hx as [k Ek].
      assert (Rk : rd (b_data (wi_e2n w)) (Z.of_nat k) = Ok x) by (apply rd_Ok; rewrite Nat2Z.id; split; [lia|auto]).
      pose proof (rd_in_range _ _ _ Rk) as Hk. rewrite Le in Hk.
      pose proof (Z.div_mod (Z.of_nat k) (gm_npe m) ltac:(lia)) as Q.
      pose proof (Z.mod_pos_bound (Z.of_nat k) (gm_npe m) ltac:(lia)).
      destruct (rd_total (pm_l2g_elem (pm r)) (Z.of_nat k / gm_npe m)) as [e Re].
      { split; [apply Z.div_pos; lia|]. apply Z.div_lt_upper_bound; lia. }
      destruct (He _ e (Z.of_nat k mod gm_npe m) Re ltac:(lia)) as (ln & g & E1 & E2 & _).
      replace (Z.of_nat k / gm_npe m * gm_npe m + Z.of_nat k mod gm_npe m) with (Z.of_nat k) in E1 by lia.
      assert (x = ln) by congruence. subst. eauto. }
    rewrite Ed. cbn [bind]. eexists; split; [reflexivity|]. cbn [rs_dims rs_total rs_offsets rs_sizes rs_data].
    destruct (mapM_Ok_inv _ _ _ Ed) as [Hl Hi].
    split; [exists c; auto|]. split; [lia|]. intros le e j Re Hj.
    destruct (He le e j Re Hj) as (ln & g & E1 & E2 & E3). destruct (Hi _ _ E1) as (y & Y1 & Y2). congruence. }
  destruct (mapM_total (fun r => c <- rd rk r ;; t <- rd rn r ;;
             d <- mapM (rd (rs_data t)) (rs_data c) ;;
             Ok (mkRS d (rs_dims c) (rs_total c) (rs_offsets c) (rs_sizes c))) (zseq n)) as [rg Erg].
  { intros r Hr. apply In_zseq in Hr. destruct (Conv r Hr) as (x & Ex & _). eauto. }
  rewrite Erg. cbn [bind]. destruct (mapM_Ok_inv _ _ _ Erg) as [Zrg Hrg]. rewrite zlen_zseq in Zrg by lia.
  assert (Hrg' : forall r, 0 <= r < n -> exists x, rd rg r = Ok x /\
       (exists c, rd rk r = Ok c /\ rs_dims x = rs_dims c /\ rs_total x = rs_total c /\
          rs_offsets x = rs_offsets c /\ rs_sizes x = rs_sizes c) /\
       zlen (rs_data x) = zlen (pm_l2g_elem (pm r)) * gm_npe m /\
       forall le e j, rd (pm_l2g_elem (pm r)) le = Ok e -> 0 <= j < gm_npe m ->
         rd (rs_data x) (le * gm_npe m + j) = rd (gm_eind m) (e * gm_npe m + j)).
  { intros r Hr. destruct (Hrg r r (rd_zseq n r Hr)) as (x & E1 & E2). exists x. split; [auto|].
    destruct (Conv r Hr) as (x' & E3 & Sx). assert (x = x') by congruence. now subst. }
  clear Hrg Conv Erg. set (LG := map rs_data rg). assert (ZG : zlen LG = n) by (unfold LG; now rewrite zlen_map).
  assert (SG : forall r l mm, rd LE r = Ok l -> rd LG r = Ok mm -> zlen mm = zlen l * gm_npe m).
  { intros r l mm R1 R2. assert (Hr : 0 <= r < n) by (apply rd_in_range in R1; lia).
    destruct (Hrg' r Hr) as (x & Rx & _ & Lx & _). unfold LG in R2. rewrite (rd_map _ _ _ _ Rx) in R2. injection R2 as <-.
    unfold LE in R1. rewrite rd_rank in R1 by auto. injection R1 as <-. auto. }
  pose proof (zlen_scale LE LG (gm_npe m) ltac:(lia) SG) as TG. rewrite TE in TG.
  assert (HGK : map zlen LG = map zlen LK).
  { apply rd_ext_range; [rewrite !zlen_map; lia|]. rewrite zlen_map, ZG. intros r Hr.
    destruct (rd_total LG r) as [lg Rg]; [lia|]. destruct (rd_total LK r) as [lk Rk]; [lia|].
    destruct (rd_total LE r) as [le Re]; [lia|].
    rewrite (rd_map _ _ _ _ Rg), (rd_map _ _ _ _ Rk). f_equal. rewrite (SG _ _ _ Re Rg), (SK _ _ _ Re Rk). reflexivity. }
  (* gathering *)
  destruct Lrc as [Zrc Hrc], Lrn as [Zrn Hrn], Lrk as [Zrk Hrk], Lre as [Zre Hre], Lru as [Zru Hru].
  destruct (Hrc 0 _ (rd_map wi_coords _ _ _ R0)) as (c0 & Rc0 & Dc0 & Mc0 & Tc0 & Oc0). destruct (Oc0 eq_refl) as (_ & Oc & Zc). clear Oc0.
  destruct (Hrn 0 _ (rd_map wi_l2gn _ _ _ R0)) as (n0 & Rn0 & Dn0 & Mn0 & Tn0 & On0). destruct (On0 eq_refl) as (_ & On & Zn). clear On0.
  destruct (Hrk 0 _ (rd_map wi_e2n _ _ _ R0)) as (k0 & Rk0 & Dk0 & Mk0 & Tk0 & Ok0). destruct (Ok0 eq_refl) as (_ & Okk & Zk). clear Ok0.
  destruct (Hre 0 _ (rd_map wi_l2ge _ _ _ R0)) as (e0 & Re0 & De0 & Me0 & Te0 & Oe0). destruct (Oe0 eq_refl) as (_ & Oe & Ze). clear Oe0.
  destruct (Hru 0 _ (rd_map wi_Uc _ _ _ R0)) as (u0 & Ru0 & Du0 & Mu0 & Tu0 & Ou0). destruct (Ou0 eq_refl) as (_ & Ou & Zu). clear Ou0.
  rewrite zlen_map, Lw in Oc. rewrite zlen_map, Lw in On. rewrite zlen_map, Lw in Okk. rewrite zlen_map, Lw in Oe. rewrite zlen_map, Lw in Ou.
  rewrite DN in Tn0, On, Zn. rewrite DE in Te0, Oe, Ze. fold LC in Tc0, Oc, Zc. fold LK in Tk0, Okk, Zk. fold LU in Tu0, Ou, Zu.
  rewrite (is_coords_dims _ _ _ _ _ _ _ _ _ _ S0) in Mc0. rewrite (is_l2gn _ _ _ _ _ _ _ _ _ _ S0) in Mn0.
  rewrite (is_e2n_dims _ _ _ _ _ _ _ _ _ _ S0) in Mk0. rewrite (is_l2ge _ _ _ _ _ _ _ _ _ _ S0) in Me0.
  rewrite (is_Uc _ _ _ _ _ _ _ _ _ _ S0) in Mu0. cbn [b_dims] in Mn0, Me0, Mu0.
  assert (Dnz : forall d a, 0 < d -> (if d =? 0 then Fail BadArith else Ok (a / d)) = Ok (a / d)).
  { intros d a Hd. destruct (Z.eqb_spec d 0); [lia|reflexivity]. }
  rewrite (serialize_ok zero (order 0) rc LC c0 _ _ (zlen (concat LN)) ltac:(rewrite ZC; apply HP)
     ltac:(apply loaded_data; split; auto) Rc0 Tc0 ltac:(lia) ltac:(rewrite ZC; auto) Zc Mc0).
  2:{ cbn [foreach]. rewrite Dnz by lia. cbn [bind]. rewrite TC. f_equal. now apply Z_div_mult; lia. }
  cbn [bind].
  rewrite (serialize_ok 0 (order 1) rn LN n0 _ _ (zlen (concat LN)) ltac:(rewrite ZN; apply HP)
     ltac:(rewrite <- DN; apply loaded_data; split; auto; rewrite DN; auto) Rn0 Tn0 ltac:(lia) ltac:(rewrite ZN; auto) Zn Mn0 eq_refl).
  cbn [bind].
  destruct (Hrg' 0 ltac:(lia)) as (g0 & Rg0 & (k0' & Rk0' & Gd & Gt & Go & Gs) & _).
  assert (k0' = k0) by congruence. subst k0'.
  rewrite (serialize_ok 0 (order 2) rg LG g0 (zlen (pm_l2g_elem (pm 0))) [gm_npe m] (gm_num_elems m) ltac:(rewrite ZG; apply HP) eq_refl Rg0).
  2:{ rewrite Gt, Tk0, TK, TG. reflexivity. }
  2:{ lia. }
  2:{ intros s Hs. rewrite Go. rewrite (pre_lens LG LK s HGK). apply Okk. lia. }
  2:{ intros s l Rs. rewrite Gs. pose proof (rd_in_range _ _ _ Rs). destruct (rd_total LK s) as [lk Rlk]; [lia|].
      rewrite (Zk s lk Rlk). f_equal. assert (Q : rd (map zlen LG) s = rd (map zlen LK) s) by now rewrite HGK.
      rewrite (rd_map _ _ _ _ Rs), (rd_map _ _ _ _ Rlk) in Q. congruence. }
  2:{ congruence. }
  2:{ cbn [foreach]. rewrite Dnz by lia. cbn [bind]. rewrite TG. f_equal. now apply Z_div_mult; lia. }
  cbn [bind].
  rewrite (serialize_ok 0 (order 3) re LE e0 _ _ (gm_num_elems m) ltac:(rewrite ZE; apply HP)
     ltac:(rewrite <- DE; apply loaded_data; split; auto; rewrite DE; auto) Re0 Te0 ltac:(lia) ltac:(rewrite ZE; auto) Ze Me0).
  2:{ cbn [foreach]. now rewrite TE. }
  cbn [bind].
  rewrite (serialize_ok zero (order 4) ru LU u0 _ _ (gm_num_elems m) ltac:(rewrite ZU; apply HP)
     ltac:(apply loaded_data; split; auto) Ru0 Tu0 ltac:(lia) ltac:(rewrite ZU; auto) Zu Mu0).
  2:{ cbn [foreach]. rewrite Dnz by lia. cbn [bind]. rewrite Dnz by lia. cbn [bind]. rewrite TU. f_equal.
      replace (gm_num_elems m * (nb * ns)) with (gm_num_elems m * ns * nb) by ring.
      rewrite Z_div_mult by lia. apply Z_div_mult; lia. }
  cbn [bind].
  (* reordering the elements *)
  destruct (sort_elements_ok (concat LE) (concat LG) (concat LU) (zlen (concat LE)) (zlen (concat LG)) [0] [zlen (concat LE)] [0] [zlen (concat LG)] [0] [zlen (concat LU)] [gm_num_elems m] (gm_npe m) nb ns (gm_num_elems m) (gm_num_elems m) (gm_num_elems m))
    as (en & uc & Ese & Len & Luc & Hse); auto using all_elems; try lia.
  assert (Ese' : sort_elements (mkRS (concat LE) [gm_num_elems m] (zlen (concat LE)) [0] [zlen (concat LE)])
      (mkRS (concat LG) [gm_num_elems m; gm_npe m] (zlen (concat LG)) [0] [zlen (concat LG)])
      (mkRS (concat LU) [gm_num_elems m; nb; ns] (zlen (concat LU)) [0] [zlen (concat LU)]) = Ok (zseq (gm_num_elems m), en, uc))
    by exact Ese.
  rewrite Ese'. cbn [bind]. clear Ese Ese'.
  (* nodes *)
  assert (HC : forall p g k, rd (concat LN) p = Ok g -> 0 <= k < gm_dim m ->
     rd (concat LC) (p * gm_dim m + k) = rd2 (gm_coord m) g k).
  { intros p g k R Hk. destruct (node_pos p g R) as (r & ln & Hr & Rl & ->).
    destruct (Sw r Hr) as (w & Rw & S). pose proof (rd_in_range _ _ _ Rl).
    rewrite <- (is_coords _ _ _ _ _ _ _ _ _ _ S eq_refl ln g k Rl Hk).
    assert (RC : rd LC r = Ok (b_data (wi_coords w))) by (unfold LC; now rewrite (rd_map _ _ _ _ (rd_map _ _ _ _ Rw))).
    rewrite <- (concat_rd LC r (b_data (wi_coords w)) (ln * gm_dim m + k) RC).
    - f_equal. rewrite (pre_scale LN LC (gm_dim m) ltac:(lia) SC r) by lia. ring.
    - rewrite (is_coords_len _ _ _ _ _ _ _ _ _ _ S). nia. }
  assert (Hused0 : exists g, used g).
  { pose proof (wf_eind_len m M) as Le. destruct (rd_total (gm_eind m) 0) as [g Rg]; [nia|].
    exists g, 0, 0. split; [lia|]. split; [lia|]. rewrite Z.mul_0_l. exact Rg. }
  destruct (sort_nodes_ok zero (concat LN) (concat LC) [zlen (concat LN)] (zlen (concat LN)) [0] [zlen (concat LN)] (zlen (concat LC)) [0] [zlen (concat LC)] (zlen (concat LN)) (gm_dim m) (zlen (concat LN)))
    as (N & cp & N1 & N2 & Lcp & Hcp & Esn); try lia; auto.
  { intros E. destruct Hused0 as [g Hg]. apply used_node in Hg. rewrite E in Hg. destruct Hg. }
  { intros g Hg. apply used_node in Hg. apply used_range in Hg. pose proof (wf_nn m M). lia. }
  { intros i i' g k R1 R2 Hk. now rewrite !(HC _ g k). }
  rewrite Esn. cbn [bind].
  (* the result *)
  eexists _, N, uc, cp. split; [reflexivity|].
  cbn [rdr_num_ranks rdr_dim rdr_num_elems rdr_num_nodes rdr_npe rdr_nb rdr_ns rdr_time rdr_layout rdr_nep rdr_coords rdr_l2gn rdr_e2n rdr_l2ge rdr_Uc rs_data rs_dims].
  destruct F as [F1 F2 F3 F4 F5 F6 F7 F8 F9 F10 _ _ _ _ _].
  repeat match goal with |- _ /\ _ => split end; auto.
  - (* num_elems_part *)
    assert (Q : map wi_nep ws = map zlen LE).
    { apply rd_ext_range; [rewrite !zlen_map; lia|]. rewrite zlen_map, Lw. intros r Hr.
      destruct (Sw r Hr) as (w & R & S). unfold LE. rewrite (rd_map _ _ _ _ R), (rd_map _ _ _ _ (rd_rank _ n r Hr)).
      now rewrite (is_nep _ _ _ _ _ _ _ _ _ _ S). }
    rewrite Q, sumL_sumZ, sumZ_lens, TE. apply u32_small. lia.
  - (* connectivity *)
    apply rd_ext_range; [rewrite Len, TG; symmetry; apply (wf_eind_len m M)|].
    rewrite Len, TG. intros p Hp.
    pose proof (Z.div_mod p (gm_npe m) ltac:(lia)) as Q. pose proof (Z.mod_pos_bound p (gm_npe m) ltac:(lia)) as Hj.
    set (e := p / gm_npe m) in *. set (j := p mod gm_npe m) in *.
    assert (He : 0 <= e < gm_num_elems m) by (split; [apply Z.div_pos; lia|apply Z.div_lt_upper_bound; lia]).
    assert (Hin : In e (concat LE)).
    { eapply Permutation_in; [symmetry; apply all_elems|]. now apply In_zseq. }
    apply In_nth_error in Hin. destruct Hin as [i Ei].
    assert (Ri : rd (concat LE) (Z.of_nat i) = Ok e) by (apply rd_Ok; rewrite Nat2Z.id; split; [lia|auto]).
    destruct (Hse _ e Ri) as [H1 _]. replace p with (e * gm_npe m + j) by lia. rewrite H1 by lia.
    destruct (elem_pos _ e Ri) as (r & le & Hr & Rl & Epos).
    destruct (Hrg' r Hr) as (x & Rx & _ & Lx & Hx). rewrite <- (Hx le e j Rl Hj).
    assert (RG : rd LG r = Ok (rs_data x)) by (unfold LG; now apply rd_map). pose proof (rd_in_range _ _ _ Rl).
    rewrite <- (concat_rd LG r (rs_data x) (le * gm_npe m + j) RG) by nia.
    f_equal. rewrite Epos. rewrite (pre_scale LE LG (gm_npe m) ltac:(lia) SG r) by lia. ring.
  - rewrite Luc, TU. ring.
  - intros r le e j k Hr Rl Hj Hk. pose proof (rank_elem r le e Hr Rl) as Ri.
    destruct (Hse _ e Ri) as [_ H2]. replace ((e * nb + j) * ns + k) with (e * (nb * ns) + (j * ns + k)) by ring.
    rewrite H2 by nia. destruct (Sw r Hr) as (w & Rw & S). pose proof (rd_in_range _ _ _ Rl).
    assert (RU : rd LU r = Ok (data3 true (zlen (pm_l2g_elem (pm r))) nb ns (U r))).
    { unfold LU. rewrite (rd_map _ _ _ _ (rd_map _ _ _ _ Rw)). now rewrite (is_Uc _ _ _ _ _ _ _ _ _ _ S). }
    rewrite <- (data3_rd true (zlen (pm_l2g_elem (pm r))) nb ns (U r) le j k) by lia. cbn [negb].
    assert (Hjk : 0 <= j * ns + k < nb * ns) by nia.
    rewrite <- (concat_rd LU r _ ((le * nb + j) * ns + k) RU).
    + f_equal. rewrite (pre_scale LE LU (nb * ns) ltac:(lia) SU r) by lia. ring.
    + rewrite zlen_data3 by lia. replace ((le * nb + j) * ns + k) with (le * (nb * ns) + (j * ns + k)) by ring.
      replace (zlen (pm_l2g_elem (pm r)) * nb * ns) with (zlen (pm_l2g_elem (pm r)) * (nb * ns)) by ring. nia.
  - now apply used_node.
  - intros g Hg. apply N2. now apply used_node.
  - intros g k Hg Hk. apply used_node in Hg. apply In_nth_error in Hg. destruct Hg as [i Ei].
    assert (Ri : rd (concat LN) (Z.of_nat i) = Ok g) by (apply rd_Ok; rewrite Nat2Z.id; split; [lia|auto]).
    rewrite (Hcp _ g k Ri Hk). now apply HC.
Qed.

End Serial.
