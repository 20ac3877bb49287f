(** PropRead.v -- C72: reading the mesh file. *)
From Coq Require Import ZArith List Lia Bool String.
From Verif Require Import Base MeshModel MeshSpec MeshProof MeshReadProof ReadModel.
Import ListNotations.
Local Open Scope Z_scope.

(** How many sides of faces of the file belong to element [e]. *)
Definition sides_of_elem (nIF : Z) (buff : list Z) (e : Z) : Z :=
  sumZ (map (fun i => (if match rd buff (6 * i) with Ok a => a =? e | _ => false end then 1 else 0) +
                      (if match rd buff (6 * i + 3) with Ok b => b =? e | _ => false end then 1 else 0)) (zseq nIF)).

(** A readable mesh file: the data sets have the announced sizes, all IDs are in
    range, every boundary name of the input file is in the mesh file, and no
    element has more than six interior face sides or boundary faces. *)
Record mesh_file_wf {A} (names : list string) (mf : mesh_file A) : Prop := {
  mfw_dim : 0 <= mf_dim mf;
  mfw_ne : 0 <= mf_nelem mf < UINT_MAX;
  mfw_nn : 0 <= mf_nnode mf < UINT_MAX;
  mfw_nif : 0 <= mf_niface mf < UINT_MAX;
  mfw_npe : 0 <= mf_npe mf;
  mfw_coords : zlen (mf_coords mf) = mf_nnode mf * mf_dim mf;
  mfw_e2n : zlen (mf_e2n mf) = mf_nelem mf * mf_npe mf;
  mfw_e2n_small : mf_nelem mf * mf_npe mf <= UINT_MAX;
  mfw_nodes : forall k v, rd (mf_e2n mf) k = Ok v -> 0 <= v < mf_nnode mf;
  mfw_ifaces : zlen (mf_ifaces mf) = 6 * mf_niface mf;
  mfw_iface : forall k v, rd (mf_ifaces mf) k = Ok v -> 0 <= v;
  mfw_ielem : forall f s v, 0 <= f < mf_niface mf -> s = 0 \/ s = 3 -> rd (mf_ifaces mf) (6 * f + s) = Ok v -> v < mf_nelem mf;
  mfw_six : forall e, 0 <= e < mf_nelem mf -> sides_of_elem (mf_niface mf) (mf_ifaces mf) e <= 6;
  mfw_groups : forall nm, In nm names -> exists g, mf_group mf nm = Some g /\ bgroup_wf (mf_nelem mf) g;
  mfw_bsix : forall e rows, 0 <= e < mf_nelem mf ->
    Forall2 (fun nm r => exists g, mf_group mf nm = Some g /\ bgroup_rows g r) names rows ->
    zlen (bfaces_of_elem (List.concat rows) e) <= 6
}.

Lemma row_fill {A} (g : Z -> res A) n : 0 <= n -> (forall i, 0 <= i < n -> exists v, g i = Ok v) ->
  exists row, zfor n (fun i row => v <- g i ;; Ok (row ++ [v])) [] = Ok row /\ zlen row = n /\
    forall i, 0 <= i < n -> rd row i = g i.
Proof.
  intros Hn T.
  destruct (zfor_inv (fun k row => zlen row = k /\ forall i, 0 <= i < k -> rd row i = g i)
    n (fun i row => v <- g i ;; Ok (row ++ [v])) []) as (row & E & L & R).
  - exact Hn.
  - split; [reflexivity|lia].
  - intros i row Hi (L & R). destruct (T i Hi) as (v & Ev). rewrite Ev. cbn [bind]. eexists. split; [reflexivity|].
    split; [rewrite zlen_app; change (zlen [v]) with 1; lia|]. intros k Hk. destruct (Z.eq_dec k i) as [->|N].
    + rewrite Ev, <- L. rewrite rd_mid. reflexivity.
    + rewrite rd_app1 by lia. apply R. lia.
  - exists row. auto.
Qed.

Lemma read_coords_ok {A} nn dim (buff : list A) : 0 <= nn -> 0 <= dim -> zlen buff = nn * dim ->
  exists c, read_coords nn dim buff = Ok c /\ zlen c = nn /\ Forall (fun row => zlen row = dim) c /\
    forall i d, 0 <= i < nn -> 0 <= d < dim -> rd2 c i d = rd buff (i * dim + d).
Proof.
  intros Hn Hd L. unfold read_coords.
  set (row i := zfor dim (fun idim row => v <- rd buff (i * dim + idim) ;; Ok (row ++ [v])) []).
  assert (T : forall i, 0 <= i < nn -> exists r, row i = Ok r /\ zlen r = dim /\ forall d, 0 <= d < dim -> rd r d = rd buff (i * dim + d)).
  { intros i Hi. apply (row_fill (fun d => rd buff (i * dim + d))); [exact Hd|]. intros d Hdd. apply rd_total. rewrite L. nia. }
  destruct (row_fill row nn Hn) as (c & E & Lc & R).
  { intros i Hi. destruct (T i Hi) as (r & E & _). eauto. }
  exists c. split; [exact E|]. split; [exact Lc|]. split.
  - apply Forall_forall. intros r Hr. apply In_nth_error in Hr. destruct Hr as (k & Hk).
    assert (Kl : (k < List.length c)%nat) by (apply nth_error_Some; congruence).
    assert (Rk : rd c (Z.of_nat k) = Ok r) by (apply rd_Ok; rewrite Nat2Z.id; split; [lia|exact Hk]).
    assert (0 <= Z.of_nat k < nn) by (unfold zlen in Lc; lia).
    rewrite R in Rk by assumption. destruct (T _ H) as (r' & E' & Lr & _). congruence.
  - intros i d Hi Hdd. unfold rd2. rewrite (R i Hi). destruct (T i Hi) as (r & E' & _ & V). rewrite E'. cbn [bind]. now apply V.
Qed.

Lemma sumZ_nonneg_le l k : Forall (fun v => 0 <= v) l -> sumZ (firstn k l) <= sumZ l.
Proof.
  intros F. rewrite <- (firstn_skipn k l) at 2. rewrite sumZ_app. 
  assert (0 <= sumZ (skipn k l)); [|lia].
  assert (G : forall l, Forall (fun v => 0 <= v) l -> 0 <= sumZ l).
  { induction 1; cbn; unfold sumZ in *; lia. }
  apply G. rewrite <- (firstn_skipn k l) in F. now apply Forall_app in F.
Qed.

Lemma sides_S i buff e a b : 0 <= i -> rd buff (6 * i) = Ok a -> rd buff (6 * i + 3) = Ok b ->
  sides_of_elem (i + 1) buff e = sides_of_elem i buff e + ((if a =? e then 1 else 0) + (if b =? e then 1 else 0)).
Proof. intros Hi Ea Eb. unfold sides_of_elem. rewrite zseq_S by lia. rewrite map_app, sumZ_app. cbn [map]. rewrite Ea, Eb. unfold sumZ at 2. cbn. lia. Qed.

Lemma sides_mono i n buff e : 0 <= i <= n -> 0 <= sides_of_elem i buff e <= sides_of_elem n buff e.
Proof.
  intros H. revert H. intros [H0 H]. unfold sides_of_elem.
  set (h := fun i : Z => _). assert (P : forall i, 0 <= h i) by (intros j; unfold h; repeat match goal with |- context [if ?b then _ else _] => destruct b end; lia).
  assert (G : forall l, 0 <= sumZ (map h l)) by (induction l as [|x l IH]; cbn; [unfold sumZ; cbn; lia|specialize (P x); unfold sumZ in *; cbn in *; lia]).
  split; [apply G|].
  replace n with (i + Z.of_nat (Z.to_nat (n - i))) by lia. induction (Z.to_nat (n - i)) as [|k IH]; [rewrite Z.add_0_r; lia|].
  replace (i + Z.of_nat (S k)) with (i + Z.of_nat k + 1) by lia. rewrite (zseq_S (i + Z.of_nat k)) by lia. rewrite map_app, sumZ_app. specialize (G [i + Z.of_nat k]). lia.
Qed.

(** The interior-face loop succeeds and stores the file's rows (also when a
    face has the same element on both sides). *)
Lemma read_faces_rows ne nIF buff : 0 <= ne -> 0 <= nIF -> zlen buff = 6 * nIF ->
  (forall i s, 0 <= i < nIF -> s = 0 \/ s = 3 -> exists e, rd buff (6 * i + s) = Ok e /\ 0 <= e < ne) ->
  (forall e, 0 <= e < ne -> sides_of_elem nIF buff e <= 6) ->
  exists IF t cnt, read_faces ne nIF buff = Ok (IF, t, cnt) /\ zlen IF = nIF /\
    (forall i, 0 <= i < nIF -> exists a b c d e f, rd IF i = Ok [a; b; c; d; e; f] /\
        rd buff (6 * i) = Ok a /\ rd buff (6 * i + 1) = Ok b /\ rd buff (6 * i + 2) = Ok c /\
        rd buff (6 * i + 3) = Ok d /\ rd buff (6 * i + 4) = Ok e /\ rd buff (6 * i + 5) = Ok f) /\
    (forall e, 0 <= e < ne -> rd cnt e = Ok (sides_of_elem nIF buff e)).
Proof.
  intros Hne Hnif Hlen Hel Hsix.
  destruct (zfor_inv (fun i (st : face_read_state) => let '(IF, t, cnt) := st in
    zlen IF = nIF /\
    (forall k, 0 <= k < i -> exists a b c d e f, rd IF k = Ok [a; b; c; d; e; f] /\
        rd buff (6 * k) = Ok a /\ rd buff (6 * k + 1) = Ok b /\ rd buff (6 * k + 2) = Ok c /\
        rd buff (6 * k + 3) = Ok d /\ rd buff (6 * k + 4) = Ok e /\ rd buff (6 * k + 5) = Ok f) /\
    (zlen t = ne /\ zlen cnt = ne /\ forall e, 0 <= e < ne -> rd cnt e = Ok (sides_of_elem i buff e) /\ exists row, rd t e = Ok row /\ zlen row = 6))
    nIF (read_face_step buff) (vec nIF [], vec ne (vec 6 0), vec ne 0))
    as ([[IF t] cnt] & E & L & R & Lt & Lc & HR).
  - easy.
  - split; [now apply zlen_vec|]. split; [intros k Hk; lia|]. rewrite !zlen_vec by lia. split; [reflexivity|]. split; [reflexivity|].
    intros e He. destruct (records_init ne Hne) as (_ & _ & H). destruct (H e He) as (row & A1 & A2 & A3 & _). split; [exact A3|eauto].
  - intros i [[IF t] cnt] Hi (L & R & Lt & Lc & HR).
    assert (Hrd : forall k, 0 <= k < 6 -> exists v, rd buff (6 * i + k) = Ok v).
    { intros k Hk. apply rd_total; lia. }
    destruct (Hrd 1) as (b1 & R1); [lia|]. destruct (Hrd 2) as (b2 & R2); [lia|].
    destruct (Hrd 4) as (b4 & R4); [lia|]. destruct (Hrd 5) as (b5 & R5); [lia|].
    destruct (Hel i 0 Hi (or_introl eq_refl)) as (a & Ra & Ha).
    destruct (Hel i 3 Hi (or_intror eq_refl)) as (d & Rd & Hd).
    assert (Ra' : rd buff (6 * i) = Ok a) by (now rewrite Z.add_0_r in Ra).
    assert (SS : forall e, sides_of_elem (i + 1) buff e = sides_of_elem i buff e + ((if a =? e then 1 else 0) + (if d =? e then 1 else 0)))
      by (intros e; apply sides_S; [lia|assumption|assumption]).
    assert (B : forall e, 0 <= e < ne -> 0 <= sides_of_elem i buff e /\ sides_of_elem (i + 1) buff e <= 6).
    { intros e He. pose proof (sides_mono i nIF buff e ltac:(lia)). pose proof (sides_mono (i + 1) nIF buff e ltac:(lia)). pose proof (Hsix e He). lia. }
    destruct (HR a Ha) as (Ca & ra & Ta & La). destruct (HR d Hd) as (Cd & rd' & Td & Ld).
    pose proof (B a Ha) as Ba. pose proof (B d Hd) as Bd. rewrite SS in Ba, Bd. rewrite Z.eqb_refl in Ba, Bd.
    unfold read_face_step. rewrite Ra, R1, R2, Rd, R4, R5; cbn [bind].
    rewrite wr_ok by lia; cbn [bind]. rewrite Ca. cbn [bind].
    unfold wr2. rewrite Ta. cbn [bind]. rewrite (wr_ok ra) by (destruct (d =? a); lia). cbn [bind]. rewrite (wr_ok t) by lia. cbn [bind]. rewrite Cd. cbn [bind].
    set (ra' := set_nth ra (Z.to_nat (sides_of_elem i buff a)) i) in *.
    set (t1 := set_nth t (Z.to_nat a) ra') in *.
    assert (T1 : forall e, 0 <= e < ne -> exists row, rd t1 e = Ok row /\ zlen row = 6).
    { intros e He. unfold t1. destruct (Z.eq_dec e a) as [->|N]; [rewrite rd_set_nth_eq by lia; eexists; split; [reflexivity|]; unfold ra'; now rewrite zlen_set_nth|].
      rewrite rd_set_nth_neq by lia. now destruct (HR e He) as (_ & row & ? & ?); eauto. }
    assert (Lt1 : zlen t1 = ne) by (unfold t1; now rewrite zlen_set_nth).
    destruct (T1 d Hd) as (rd2' & Td2 & Ld2). rewrite Td2. cbn [bind]. rewrite (wr_ok rd2') by (destruct (a =? d); lia). cbn [bind]. rewrite (wr_ok t1) by lia. cbn [bind].
    rewrite (wr_ok cnt) by lia. cbn [bind].
    set (cnt1 := set_nth cnt (Z.to_nat a) (sides_of_elem i buff a + 1)).
    assert (C1 : forall e, 0 <= e < ne -> rd cnt1 e = Ok (sides_of_elem i buff e + if a =? e then 1 else 0)).
    { intros e He. unfold cnt1. destruct (Z.eqb_spec a e) as [->|N]; [now rewrite rd_set_nth_eq by lia|]. rewrite rd_set_nth_neq by lia. rewrite Z.add_0_r. now apply HR. }
    rewrite (C1 d Hd). cbn [bind]. rewrite wr_ok by (unfold cnt1; rewrite zlen_set_nth; lia). cbn [bind].
    eexists; split; [reflexivity|]. cbv beta iota. rewrite !zlen_set_nth. split; [easy|]. split.
    + intros k Hk. destruct (Z.eq_dec k i) as [->|Hki].
      * exists a, b1, b2, d, b4, b5. rewrite rd_set_nth_eq by lia. repeat split; easy.
      * rewrite rd_set_nth_neq by lia. apply R; lia.
    + split; [easy|]. split; [unfold cnt1; now rewrite zlen_set_nth|]. intros e He. split.
      * rewrite SS. destruct (Z.eqb_spec d e) as [->|N].
        -- rewrite rd_set_nth_eq by (unfold cnt1; rewrite zlen_set_nth; lia). f_equal. lia.
        -- rewrite rd_set_nth_neq by lia. rewrite (C1 e He). f_equal. lia.
      * destruct (Z.eq_dec e d) as [->|N]; [rewrite rd_set_nth_eq by lia; eexists; split; [reflexivity|]; now rewrite zlen_set_nth|].
        rewrite rd_set_nth_neq by lia. now apply T1.
  - exists IF, t, cnt. split; [exact E|]. split; [easy|]. split; [easy|]. intros e He. now apply HR.
Qed.

Lemma read_eptr_ok ne npe : 0 <= ne -> exists p, read_eptr ne npe = Ok p /\ zlen p = ne + 1 /\ forall e, 0 <= e <= ne -> rd p e = Ok (e * npe).
Proof.
  intros Hne. unfold read_eptr.
  destruct (zfor_inv (fun k (s : list Z * Z) => zlen (fst s) = ne + 1 /\ snd s = k * npe /\ forall e, 0 <= e < k -> rd (fst s) e = Ok (e * npe))
    (ne + 1) (fun i '(eptr, counter) => eptr' <- wr eptr i counter ;; Ok (eptr', counter + npe)) (vec (ne + 1) 0, 0)) as ([p c] & E & L & _ & R).
  - lia.
  - cbn [fst snd]. split; [apply zlen_vec; lia|]. split; lia.
  - intros i [p c] Hi (L & C & R). cbn [fst snd] in *. rewrite wr_ok by lia. cbn [bind]. eexists. split; [reflexivity|]. cbn [fst snd].
    rewrite zlen_set_nth. split; [exact L|]. split; [lia|]. intros e He. destruct (Z.eq_dec e i) as [->|N]; [rewrite rd_set_nth_eq by lia; congruence|].
    rewrite rd_set_nth_neq by lia. apply R. lia.
  - rewrite E. cbn [bind]. exists p. split; [reflexivity|]. cbn [fst] in *. split; [exact L|]. intros e He. apply R. lia.
Qed.

Lemma find_groups_ok {A} (mf : mesh_file A) names : (forall nm, In nm names -> exists g, mf_group mf nm = Some g) ->
  exists gs, find_groups mf names = Ok gs /\ Forall2 (fun nm g => mf_group mf nm = Some g) names gs.
Proof.
  unfold find_groups. intros H.
  assert (G : forall l acc, (forall nm, In nm l -> exists g, mf_group mf nm = Some g) ->
    exists gs, foreach l (fun nm gs => match mf_group mf nm with Some g => Ok (gs ++ [g]) | None => Fail Thrown end) acc = Ok (acc ++ gs) /\ Forall2 (fun nm g => mf_group mf nm = Some g) l gs).
  { induction l as [|nm l IH]; intros acc Hl; [exists []; cbn; rewrite app_nil_r; split; [reflexivity|constructor]|].
    destruct (Hl nm (or_introl eq_refl)) as (g & Eg). destruct (IH (acc ++ [g])) as (gs & E & F); [intros; apply Hl; now right|].
    exists (g :: gs). cbn [foreach]. rewrite Eg. cbn [bind]. rewrite E, <- app_assoc. split; [reflexivity|]. now constructor. }
  destruct (G names [] H) as (gs & E & F). exists gs. auto.
Qed.

(** ** C72: what read_mesh stores is what the file says. *)
Theorem C72_mesh_read : forall A names (mf : mesh_file A), mesh_file_wf names mf ->
  exists md, read_mesh names mf = Ok md /\ let m := md_mesh md in
    mesh_wf m /\
    gm_dim m = mf_dim mf /\ gm_num_elems m = mf_nelem mf /\ gm_num_nodes m = mf_nnode mf /\ gm_nIF m = mf_niface mf /\ gm_npe m = mf_npe mf /\
    md_order md = mf_qorder mf /\ (forall k, mf_npf mf = Some k -> md_npf md = k) /\ (mf_npf mf = None -> md_npf md = 1) /\
    (forall i d, 0 <= i < mf_nnode mf -> 0 <= d < mf_dim mf -> rd2 (gm_coord m) i d = rd (mf_coords mf) (i * mf_dim mf + d)) /\
    (forall e j, 0 <= e < mf_nelem mf -> 0 <= j < mf_npe mf -> rd (gm_eind m) (e * gm_npe m + j) = rd (mf_e2n mf) (e * mf_npe mf + j)) /\
    (forall f j, 0 <= f < mf_niface mf -> 0 <= j < 6 -> rd2 (gm_IF m) f j = rd (mf_ifaces mf) (6 * f + j)) /\
    (forall e, 0 <= e < mf_nelem mf -> rd (md_nIF_in_elem md) e = Ok (sides_of_elem (mf_niface mf) (mf_ifaces mf) e)) /\
    (forall e, 0 <= e <= mf_nelem mf -> rd (md_eptr md) e = Ok (e * mf_npe mf)) /\
    (* boundary groups *)
    exists rows, Forall2 (fun nm r => exists g, mf_group mf nm = Some g /\ bgroup_rows g r) names rows /\
      md_bdata md = combine names rows /\ md_nBFG md = zlen names /\ md_nBF md = zlen (List.concat rows) /\
      (forall e, 0 <= e < mf_nelem mf ->
         rd (md_nBG_in_elem md) e = Ok (zlen (bfaces_of_elem (List.concat rows) e)) /\
         exists row, rd (md_e2b md) e = Ok row /\
           firstn (Z.to_nat (zlen (bfaces_of_elem (List.concat rows) e))) row = bfaces_of_elem (List.concat rows) e).
Proof.
  intros A names mf [Hdim Hne Hnn Hnif Hnpe Lc Le Les Nod Lf Fnn Fel Six Grp Bsix].
  destruct (read_coords_ok (mf_nnode mf) (mf_dim mf) (mf_coords mf) ltac:(lia) ltac:(lia) Lc) as (c & Ec & Lcc & Rc & Vc).
  destruct (read_faces_rows (mf_nelem mf) (mf_niface mf) (mf_ifaces mf) ltac:(lia) ltac:(lia) Lf) as (IF & t & cnt & Ef & LIF & RIF & Cnt).
  { intros i s Hi Hs. destruct (rd_total (mf_ifaces mf) (6 * i + s) ltac:(lia)) as (v & Ev). exists v. split; [exact Ev|].
    split; [eapply Fnn; eassumption|eapply Fel; eassumption]. }
  { exact Six. }
  destruct (read_eptr_ok (mf_nelem mf) (mf_npe mf) ltac:(lia)) as (ep & Ee & _ & Vep).
  destruct (find_groups_ok mf names) as (gs & Eg & Fg). { intros nm Hnm. destruct (Grp nm Hnm) as (g & E & _). eauto. }
  assert (Wg : Forall (bgroup_wf (mf_nelem mf)) gs).
  { clear -Fg Grp. induction Fg as [|nm g ns gs E _ IH]; constructor.
    - destruct (Grp nm (or_introl eq_refl)) as (g' & E' & W). rewrite E in E'. injection E' as <-. exact W.
    - apply IH. intros nm' H. apply Grp. now right. }
  destruct (bgroup_rows_exist _ gs Wg) as (datas & F2).
  assert (F3 : Forall2 (fun nm r => exists g, mf_group mf nm = Some g /\ bgroup_rows g r) names datas).
  { clear -Fg F2. revert datas F2. induction Fg as [|nm g ns gs E _ IH]; intros datas F2; inversion F2; subst; constructor; eauto. }
  destruct (read_bgroups_ok (mf_nelem mf) gs datas ltac:(lia) Wg F2) as (e2b & bc & Eb & HB). { intros e He. now apply Bsix. }
  unfold read_mesh. rewrite Ec. cbn [bind]. rewrite Ef. cbn [bind]. rewrite Ee. cbn [bind]. rewrite Eg. cbn [bind]. rewrite Eb. cbn [bind].
  eexists. split; [reflexivity|]. cbn [md_mesh md_order md_npf md_eptr md_e2f md_nIF_in_elem md_bdata md_e2b md_nBG_in_elem md_nBFG md_nBF gm_dim gm_num_elems gm_num_nodes gm_nIF gm_npe gm_eind gm_coord gm_IF].
  assert (FR : forall f j, 0 <= f < mf_niface mf -> 0 <= j < 6 -> rd2 IF f j = rd (mf_ifaces mf) (6 * f + j)).
  { intros i j Hi Hj. destruct (RIF i Hi) as (a & b & c0 & d & e & f & Ri & R0 & R1 & R2 & R3 & R4 & R5).
    unfold rd2. rewrite Ri; cbn [bind].
    assert (j = 0 \/ j = 1 \/ j = 2 \/ j = 3 \/ j = 4 \/ j = 5) as H by lia.
    repeat (destruct H as [->|H]); try subst j; rewrite ?Z.add_0_r, ?R0, ?R1, ?R2, ?R3, ?R4, ?R5; reflexivity. }
  split.
  { constructor; cbn; try assumption; try lia.
    - apply Forall_forall. intros v Hv. apply In_nth_error in Hv. destruct Hv as (k & Hk). apply (Nod (Z.of_nat k)). apply rd_Ok. rewrite Nat2Z.id. split; [lia|exact Hk].
    - apply Forall_forall. intros r Hr. apply In_nth_error in Hr. destruct Hr as (k & Hk).
      assert (Kl : (k < List.length IF)%nat) by (apply nth_error_Some; congruence).
      assert (Rk : rd IF (Z.of_nat k) = Ok r) by (apply rd_Ok; rewrite Nat2Z.id; split; [lia|exact Hk]).
      assert (Hk' : 0 <= Z.of_nat k < mf_niface mf) by (unfold zlen in LIF; lia).
      destruct (RIF _ Hk') as (a & b & c0 & d & e & f & Ri & R0 & R1 & R2 & R3 & R4 & R5). rewrite Rk in Ri. injection Ri as ->.
      exists a, b, c0, d, e, f. split; [reflexivity|].
      pose proof (Fel _ 0 a Hk' (or_introl eq_refl) ltac:(now rewrite Z.add_0_r)). pose proof (Fel _ 3 d Hk' (or_intror eq_refl) R3).
      pose proof (Fnn _ _ R0). pose proof (Fnn _ _ R1). pose proof (Fnn _ _ R2). pose proof (Fnn _ _ R3). pose proof (Fnn _ _ R4). pose proof (Fnn _ _ R5). lia. }
  repeat (split; [solve [reflexivity | assumption | intros k E; now rewrite E | intros E; now rewrite E]|]).
  exists datas. split; [exact F3|]. split; [reflexivity|]. split; [reflexivity|]. split.
  - clear -F2. unfold sumZ. induction F2 as [|g d gs ds [L _] _ IH]; [reflexivity|]. cbn. rewrite zlen_app, IH. now rewrite L.
  - destruct HB as (_ & _ & HB). intros e He. destruct (HB e He) as (row & Rr & _ & Rc' & Ff). split; [exact Rc'|]. exists row. auto.
Qed.
Print Assumptions C72_mesh_read.

(** The demo mesh as a file, with two boundary groups. *)
Definition demo_file : mesh_file Z :=
  mkMeshFile 2 1 4 9 4 4 (Some 2) [0;0; 1;0; 2;0; 0;1; 1;1; 2;1; 0;2; 1;2; 2;2]
    [0;1;3;4; 1;2;4;5; 3;4;6;7; 4;5;7;8] [0;1;0;1;3;1; 2;1;0;3;3;1; 0;2;0;2;0;1; 1;2;0;3;0;1]
    (fun nm => if String.eqb nm "bottom" then Some (2, [0;0;0; 1;0;0]) else if String.eqb nm "left" then Some (2, [0;3;0; 2;3;0]) else None).

Example C72_demo : mesh_file_wf ["bottom"; "left"]%string demo_file /\
  match read_mesh ["bottom"; "left"]%string demo_file with
  | Ok md => rd2 (gm_coord (md_mesh md)) 5 0 = Ok 2 /\ rd2 (gm_coord (md_mesh md)) 5 1 = Ok 1 /\ rd2 (gm_IF (md_mesh md)) 2 3 = Ok 2 /\ md_nBF md = 4
  | Fail _ => False
  end.
Proof.
  split; [|vm_compute; auto].
  assert (RN : forall l k v (P : Z -> Prop), Forall P l -> rd l k = Ok v -> P v).
  { intros l k v P F E. rewrite Forall_forall in F. apply F. eapply rd_In; eassumption. }
  constructor; try (cbn; lia); try reflexivity.
  - change UINT_MAX with 4294967295. cbn. lia.
  - change UINT_MAX with 4294967295. cbn. lia.
  - change UINT_MAX with 4294967295. cbn. lia.
  - change UINT_MAX with 4294967295. cbn. lia.
  - intros k v. apply (RN _ k v (fun v => 0 <= v < 9)). cbn. repeat constructor; lia.
  - intros k v. apply (RN _ k v (fun v => 0 <= v)). cbn. repeat constructor; lia.
  - intros f s v Hf Hs. change (mf_niface demo_file) with 4 in Hf. assert (C : f = 0 \/ f = 1 \/ f = 2 \/ f = 3) by lia.
    destruct C as [-> | [-> | [-> | ->]]], Hs as [-> | ->]; intros E; vm_compute in E; injection E as <-; reflexivity.
  - intros e He. change (mf_nelem demo_file) with 4 in He. assert (C : e = 0 \/ e = 1 \/ e = 2 \/ e = 3) by lia. destruct C as [-> | [-> | [-> | ->]]]; vm_compute; discriminate.
  - intros nm [<- | [<- | []]]; (eexists; split; [reflexivity|]); (split; [cbn; lia|]; split; [reflexivity|]);
      intros i Hi; cbn [fst] in Hi; assert (C : i = 0 \/ i = 1) by lia; destruct C as [-> | ->]; (eexists; split; [vm_compute; reflexivity|vm_compute; split; congruence]).
  - intros e rows He F. inversion F as [|? r0 ? ? (g & E & G) F']; subst. inversion F' as [|? r1 ? ? (g' & E' & G') F'']; subst. inversion F''; subst.
    cbn in E, E'. injection E as <-. injection E' as <-.
    assert (G0 : bgroup_rows (2, [0;0;0; 1;0;0]) [[0;0;0];[1;0;0]]).
    { split; [reflexivity|]. intros i Hi; cbn [fst] in Hi; assert (C : i = 0 \/ i = 1) by lia; destruct C as [-> | ->]; do 3 eexists; vm_compute; auto. }
    assert (G1 : bgroup_rows (2, [0;3;0; 2;3;0]) [[0;3;0];[2;3;0]]).
    { split; [reflexivity|]. intros i Hi; cbn [fst] in Hi; assert (C : i = 0 \/ i = 1) by lia; destruct C as [-> | ->]; do 3 eexists; vm_compute; auto. }
    rewrite (bgroup_rows_inj _ _ _ G G0), (bgroup_rows_inj _ _ _ G' G1).
    change (mf_nelem demo_file) with 4 in He. assert (C : e = 0 \/ e = 1 \/ e = 2 \/ e = 3) by lia. destruct C as [-> | [-> | [-> | ->]]]; vm_compute; discriminate.
Qed.
