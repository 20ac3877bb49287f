(** AsyncProof.v -- the runs of AsyncModel.v: the invariant that relates them to the
    exchange of CommModel.v and to the step-by-step executions of TeamStep.v. *)
From Coq Require Import ZArith List Lia Reals Bool Permutation FunctionalExtensionality Classical_Prop.
From Verif Require Import Base RBase MeshModel MeshSpec SolverModel SolverSpec CommModel CommSpec CommInv CommRun.
From Verif Require CommProof PropConserve PropTeam PropTeamStep PropDevice.
From Verif Require Import TeamModel TeamKernels TeamStep AsyncModel.
Import ListNotations.
Local Open Scope Z_scope.

(** * Positions of the exchanges among the items *)
Fixpoint cnt (items : list ditem) (i : nat) : nat :=
  match i, items with
  | S i, Kernels _ :: t => cnt t i
  | S i, Exchange :: t => S (cnt t i)
  | _, _ => O
  end.
Fixpoint pos (items : list ditem) (k : nat) : nat :=
  match items with
  | [] => O
  | Kernels _ :: t => S (pos t k)
  | Exchange :: t => match k with O => O | S k => S (pos t k) end
  end.
Definition total (items : list ditem) : nat := cnt items (length items).

Lemma pos_cnt items : forall i, nth_error items i = Some Exchange -> pos items (cnt items i) = i.
Proof.
  induction items as [|[k|] t IH]; intros [|i] E; cbn in *; try discriminate; auto.
Qed.
Lemma pos_lt items : forall i k, (k < cnt items i)%nat -> (pos items k < i)%nat.
Proof.
  induction items as [|[k|] t IH]; intros [|i] q E; cbn in *; try lia.
  - specialize (IH i q E). lia.
  - destruct q as [|q]; [lia|]. specialize (IH i q ltac:(lia)). lia.
Qed.
Lemma cnt_S items : forall i, cnt items (S i) = match nth_error items i with Some Exchange => S (cnt items i) | _ => cnt items i end.
Proof.
  induction items as [|[k|] t IH]; intros [|i]; try reflexivity.
  - destruct t as [|[?|] ?]; reflexivity.
  - change (cnt (Kernels k :: t) (S (S i))) with (cnt t (S i)). rewrite IH. cbn [nth_error]. destruct (nth_error t i) as [[?|]|]; reflexivity.
  - destruct t as [|[?|] ?]; reflexivity.
  - change (cnt (Exchange :: t) (S (S i))) with (S (cnt t (S i))). rewrite IH. cbn [nth_error]. destruct (nth_error t i) as [[?|]|]; reflexivity.
Qed.
Lemma cnt_le items : forall i j, (i <= j)%nat -> (cnt items i <= cnt items j)%nat.
Proof.
  intros i j H. induction H as [|j H IH]; [lia|]. rewrite cnt_S. destruct (nth_error items j) as [[?|]|]; lia.
Qed.
Lemma cnt_total items i : (cnt items i <= total items)%nat.
Proof.
  unfold total. revert i. induction items as [|[k|] t IH]; intros [|i]; cbn; try lia; [apply IH|]. specialize (IH i). lia.
Qed.
Lemma cnt_before items i : nth_error items i = Some Exchange -> (cnt items i < total items)%nat.
Proof. intros E. pose proof (cnt_S items i) as C. rewrite E in C. pose proof (cnt_total items (S i)). lia. Qed.
Lemma skipn_next {X} (l : list X) i x r : skipn i l = x :: r -> nth_error l i = Some x /\ skipn (S i) l = r /\ (i < length l)%nat.
Proof.
  revert i. induction l as [|y l IH]; intros [|i] E; cbn [skipn] in E; try discriminate.
  - injection E as -> ->. cbn. repeat split. lia.
  - destruct (IH i E) as (A & B & C). split; [exact A|]. split; [exact B|]. cbn. lia.
Qed.
Lemma skipn_end {X} (l : list X) i : skipn i l = [] -> (i <= length l)%nat -> i = length l.
Proof. intros E H. pose proof (skipn_length i l) as L. rewrite E in L. cbn in L. lia. Qed.

(** * Executions of part of the tasks *)
Lemma executes_snoc a t m m1 m2 : executes a m m1 -> executes [t] m1 m2 -> executes (a ++ [t]) m m2.
Proof.
  revert m. induction a as [|[N T K|v] a IH]; intros m H1 H2; cbn [app executes] in *.
  - subst. exact H2.
  - destruct H1 as (m0 & L & H1). exists m0. eauto.
  - eauto.
Qed.
Lemma completes_rest a b m m1 : always_completes (a ++ b) m -> executes a m m1 -> always_completes b m1.
Proof.
  revert m. induction a as [|[N T K|v] a IH]; intros m C E; cbn [app executes always_completes] in *.
  - subst. exact C.
  - destruct E as (m0 & L & E). destruct C as [_ C]. eauto.
  - eauto.
Qed.
Lemma tsteps_snoc N T a b c : TeamModel.steps N T a b -> TeamModel.step N T b c -> TeamModel.steps N T a c.
Proof. intros H S. induction H as [s|a b' c' S1 H IH]; econstructor; eauto. constructor. Qed.

(** * Blocks written back *)
Lemma put_received nif st μ : zlen (fs_L st) = nif -> zlen (fs_R st) = nif ->
  blocks nif (view3 vUL (put_faces st μ)) = fs_L st /\ blocks nif (view3 vUR (put_faces st μ)) = fs_R st /\
  PropTeam.received μ (view3 vUL (put_faces st μ)) (view3 vUR (put_faces st μ)) (put_faces st μ).
Proof.
  intros E1 E2. assert (N : 0 <= nif) by (rewrite <- E1; apply zlen_nonneg).
  assert (ZB : forall a : arr3, zlen (blocks nif a) = nif) by (intros a; unfold blocks; rewrite zlen_map; apply zlen_zseq; exact N).
  split; [|split].
  - apply MeshProof.rd_ext; rewrite ZB; [easy|]. intros i Hi. rewrite PropConserve.blocks_rd by easy. destruct (rd_total (fs_L st) i ltac:(lia)) as (b & Eb). rewrite Eb. f_equal.
    apply functional_extensionality. intros j. apply functional_extensionality. intros k. unfold view3, at3, put_faces. cbn [Z.eqb]. now rewrite Z.eqb_refl, Eb.
  - apply MeshProof.rd_ext; rewrite ZB; [easy|]. intros i Hi. rewrite PropConserve.blocks_rd by easy. destruct (rd_total (fs_R st) i ltac:(lia)) as (b & Eb). rewrite Eb. f_equal.
    apply functional_extensionality. intros j. apply functional_extensionality. intros k. unfold view3, at3, put_faces. cbn [Z.eqb].
    replace (vUR =? vUL) with false by reflexivity. now rewrite Z.eqb_refl, Eb.
  - split; [reflexivity|]. split; [reflexivity|]. intros v i j k l H1 H2. unfold put_faces.
    rewrite (proj2 (Z.eqb_neq v vUL) H1), (proj2 (Z.eqb_neq v vUR) H2). now destruct (l =? 0).
Qed.

(** * One rank's step in the exchange only looks at part of the state *)
Section Local.
Context {A V : Type}.
Definition put_rank (r : Z) (g : gstate V) (x : rk V * list (msg V)) : gstate V :=
  mkG (fun s => if s =? r then fst x else g_rk g s) (snd x).

Lemma rank_step_local (c c' : cfg A V) r (g G : gstate V) :
  c_n c = c_n c' -> c_pm c = c_pm c' -> c_device c = false -> c_device c' = false -> c_order c = c_order c' ->
  g_net g = g_net G -> g_rk g r = g_rk G r -> (forall s, 0 <= s < c_n c -> k_ent (g_rk g s) = k_ent (g_rk G s)) ->
  (forall x, In x (g_net g) -> msg_content g x = msg_content G x) ->
  ~ (exists i, k_ph (g_rk g r) = PUnpack i /\ pm_num_neighbor_ranks (c_pm c r) <= i) ->
  exists o, rank_step c r g = option_map (put_rank r g) o /\ rank_step c' r G = option_map (put_rank r G) o.
Proof.
  intros En Ep Ed Ed' Eo Enet Er Eent Emsg NU. unfold rank_step. rewrite <- Ep, <- Eo, Ed, Ed', <- En, <- Enet, <- Er.
  set (k := g_rk g r) in *. set (pm := c_pm c r) in *. set (nn := pm_num_neighbor_ranks pm) in *.
  assert (DR : forall ref, deref G r ref = deref g r ref).
  { intros ref. unfold deref. rewrite <- Er. reflexivity. }
  assert (OC : forall (x : res (rk V * list (msg V))), exists o,
    Some (or_crash g r (bind x (fun y => Ok (put_rank r g y)))) = option_map (put_rank r g) o /\
    Some (or_crash G r (bind x (fun y => Ok (put_rank r G y)))) = option_map (put_rank r G) o).
  { intros [y|e]; cbn.
    - exists (Some y). split; reflexivity.
    - exists (Some (with_ph k (PCrash e), g_net g)). unfold crash, set_rk, put_rank. cbn. rewrite <- Er, Enet. split; reflexivity. }
  assert (ST : forall k', exists o, Some (set_rk g r k') = option_map (put_rank r g) o /\ Some (set_rk G r k') = option_map (put_rank r G) o).
  { intros k'. exists (Some (k', g_net g)). unfold set_rk, put_rank. cbn. rewrite Enet. split; reflexivity. }
  destruct (k_ph k) as [i|i|i|i| | |i| |e] eqn:Eph.
  - destruct (i <? nn); [|apply ST]. rewrite DR.
    destruct (OC (bind (rd (pm_num_faces_per_rank_boundary pm) i) (fun cnt => bind (deref g r (RBuf i)) (fun buf =>
      bind (pack pm r (k_st k) (c_order c r (k_rnd k) i cnt) i buf) (fun buf' => bind (set_send k i buf') (fun k' => Ok (with_ph k' (PPack (i + 1)), g_net g))))))) as (o & O1 & O2).
    exists o. rewrite <- O1, <- O2. unfold set_rk. rewrite <- Enet.
    destruct (rd (pm_num_faces_per_rank_boundary pm) i); cbn [bind]; [|split; reflexivity]. destruct (deref g r (RBuf i)); cbn [bind]; [|split; reflexivity].
    destruct (pack _ _ _ _ _ _); cbn [bind]; [|split; reflexivity]. destruct (set_send _ _ _); cbn [bind]; split; reflexivity.
  - destruct (i <? nn); [|apply ST]. rewrite DR.
    destruct (OC (bind (rd (pm_neighbor_ranks pm) i) (fun dst => bind (deref g r (RBuf i)) (fun buf =>
      Ok (with_ph k (PSend (i + 1)), g_net g ++ [mkMsg r dst r (RBuf i) None]))))) as (o & O1 & O2).
    exists o. rewrite <- O1, <- O2.
    destruct (rd (pm_neighbor_ranks pm) i); cbn [bind]; [|split; reflexivity]. destruct (deref g r (RBuf i)); cbn [bind]; split; reflexivity.
  - apply ST.
  - destruct (i <? nn); [|apply ST]. destruct (rd (pm_neighbor_ranks pm) i) as [src|e].
    2:{ exists (Some (with_ph k (PCrash e), g_net g)). unfold crash, set_rk, put_rank. cbn. rewrite <- Er, Enet. split; reflexivity. }
    destruct (take_msg src r src (g_net g)) as [[x net']|] eqn:Et; [|exists None; split; reflexivity].
    assert (Hx : In x (g_net g)). { destruct (take_msg_Some _ _ _ _ _ _ Et) as (l1 & l2 & -> & _). apply in_or_app. right. now left. }
    rewrite <- (Emsg x Hx).
    destruct (OC (bind (msg_content g x) (fun data => bind (rd (k_recv k) i) (fun buf => bind (recv_into buf data) (fun buf' => bind (set_recv k i buf') (fun k' =>
      Ok (with_ph k' (PRecv (i + 1)), net'))))))) as (o & O1 & O2).
    exists o. rewrite <- O1, <- O2. unfold set_rk, set_net. cbn [g_net g_rk].
    destruct (msg_content g x); cbn [bind]; [|split; reflexivity]. destruct (rd (k_recv k) i); cbn [bind]; [|split; reflexivity].
    destruct (recv_into _ _); cbn [bind]; [|split; reflexivity]. destruct (set_recv _ _ _); cbn [bind]; split; reflexivity.
  - apply ST.
  - replace (forallb (fun s => Nat.leb (k_ent k) (k_ent (g_rk G s))) (zseq (c_n c))) with (forallb (fun s => Nat.leb (k_ent k) (k_ent (g_rk g s))) (zseq (c_n c))).
    + destruct (forallb _ _); [apply ST|exists None; split; reflexivity].
    + assert (X : forall l, (forall s, In s l -> 0 <= s < c_n c) -> forallb (fun s => Nat.leb (k_ent k) (k_ent (g_rk g s))) l = forallb (fun s => Nat.leb (k_ent k) (k_ent (g_rk G s))) l).
      { induction l as [|a l IH]; intros H; [reflexivity|]. cbn [forallb]. rewrite (Eent a) by (apply H; now left). f_equal. apply IH. intros; apply H; now right. }
      apply X. intros s Hs. now apply In_zseq in Hs.
  - destruct (Z.ltb_spec i nn) as [Hi|Hi].
    2:{ exfalso. apply NU. exists i. split; [reflexivity|exact Hi]. }
    destruct (OC (bind (rd (pm_num_faces_per_rank_boundary pm) i) (fun cnt => bind (rd (k_recv k) i) (fun buf =>
      bind (unpack pm r (c_order c r (k_rnd k) i cnt) i buf (k_st k)) (fun s' => Ok (mkRk (PUnpack (i + 1)) (k_rnd k) s' (k_send k) (k_tmp k) (k_recv k) (k_ent k), g_net g)))))) as (o & O1 & O2).
    exists o. rewrite <- O1, <- O2. unfold set_rk. rewrite <- Enet.
    destruct (rd (pm_num_faces_per_rank_boundary pm) i); cbn [bind]; [|split; reflexivity]. destruct (rd (k_recv k) i); cbn [bind]; [|split; reflexivity].
    destruct (unpack _ _ _ _ _ _); cbn [bind]; split; reflexivity.
  - exists None. split; reflexivity.
  - exists None. split; reflexivity.
Qed.
End Local.

(** * Threads cannot move for ever *)
Section Product.
Context {I X : Type} (lt : X -> X -> Prop) (WFX : forall x, Acc lt x).
(** Some component gets smaller, the others do not change or get smaller too. *)
Definition less (l : list I) (f g : I -> X) : Prop :=
  (exists i, In i l /\ lt (f i) (g i)) /\ forall i, In i l -> f i = g i \/ lt (f i) (g i).
Lemma less_wf l : forall g, Acc (less l) g.
Proof.
  induction l as [|a l IH].
  - intros g. constructor. intros f [(i & [] & _) _].
  - assert (K : forall x, forall g, g a = x -> Acc (less (a :: l)) g).
    { intros x. induction (WFX x) as [x _ IHx]. intros g0 E0.
      revert E0. induction (IH g0) as [g _ IHg]. intros E. constructor. intros f [(i & Hi & Li) HA].
      destruct (HA a (or_introl eq_refl)) as [Ea|La].
      - assert (DEC : lt (f a) (g a) \/ ~ lt (f a) (g a)) by apply classic. destruct DEC as [La|Na].
        + apply (IHx (f a)); [rewrite <- E; exact La|reflexivity].
        + apply IHg; [|congruence]. split; [|intros j Hj; apply HA; now right]. destruct Hi as [<-|Hi]; [contradiction|]. eauto.
      - apply (IHx (f a)); [rewrite <- E; exact La|reflexivity]. }
    intros g. apply (K (g a)). reflexivity.
Qed.
End Product.

(** What a thread has left after one move. *)
Inductive shorter : list prog -> list prog -> Prop :=
| sh_load l k v rest : shorter (k v :: rest) (Load l k :: rest)
| sh_store l v k rest : shorter (k :: rest) (Store l v k :: rest)
| sh_done rest : shorter rest (TeamModel.Done :: rest).
Lemma shorter_wf : forall l, Acc shorter l.
Proof.
  induction l as [|p l IH]; [constructor; intros y H; inversion H|].
  induction p as [|a k IHk|a v k IHk]; constructor; intros y H; inversion H; subst; auto.
Qed.

Definition code := (Z * Z * pool)%type.
Definition members (N T : Z) : list (Z * Z) := list_prod (zseq N) (zseq T).
Definition code_less (a b : code) : Prop :=
  let '(N, T, P) := a in let '(N', T', P') := b in
  N = N' /\ T = T' /\ less shorter (members N T) (fun x => P (fst x) (snd x)) (fun x => P' (fst x) (snd x)).
Lemma code_wf : forall c, Acc code_less c.
Proof.
  intros [[N T] P].
  assert (K : forall f P, f = (fun x : Z * Z => P (fst x) (snd x)) -> Acc code_less (N, T, P)).
  { intros f. induction (less_wf shorter shorter_wf (members N T) f) as [f _ IH]. intros P1 E. constructor. intros [[N' T'] P'] (-> & -> & L).
    apply (IH (fun x => P' (fst x) (snd x))); [rewrite E; exact L|reflexivity]. }
  exact (K _ P eq_refl).
Qed.

(** A step of a kernel shortens what its threads have left. *)
Lemma step_code_less N T P μ P' μ' : 0 < T -> TeamModel.step N T (P, μ) (P', μ') -> code_less (N, T, P') (N, T, P).
Proof.
  intros HT ST. split; [reflexivity|]. split; [reflexivity|].
  assert (MB : forall g t, member N T g t -> In (g, t) (members N T)).
  { intros g t [H1 H2]. unfold members. apply in_prod_iff. rewrite !In_zseq. auto. }
  inversion ST as [P0 m0 g t l k rest Hm E|P0 m0 g t l v k rest Hm E|P0 m0 g Hg E]; subst.
  - assert (LT : shorter (k (μ' l) :: rest) (P g t)) by (rewrite E; constructor). split.
    + exists (g, t). split; [now apply MB|]. cbn [fst snd]. unfold set_thread. rewrite !Z.eqb_refl. exact LT.
    + intros [g' t'] _. cbn [fst snd]. unfold set_thread. destruct (Z.eqb_spec g' g) as [->|]; [|left; reflexivity]. destruct (Z.eqb_spec t' t) as [->|]; [right; exact LT|left; reflexivity].
  - assert (LT : shorter (k :: rest) (P g t)) by (rewrite E; constructor). split.
    + exists (g, t). split; [now apply MB|]. cbn [fst snd]. unfold set_thread. rewrite !Z.eqb_refl. exact LT.
    + intros [g' t'] _. cbn [fst snd]. unfold set_thread. destruct (Z.eqb_spec g' g) as [->|]; [|left; reflexivity]. destruct (Z.eqb_spec t' t) as [->|]; [right; exact LT|left; reflexivity].
  - assert (LT : forall t, 0 <= t < T -> shorter (tl (P g t)) (P g t)).
    { intros t Ht. destruct (E t Ht) as (rest & ->). constructor. }
    split.
    + exists (g, 0). split; [apply MB; split; [exact Hg|lia]|]. cbn [fst snd]. rewrite Z.eqb_refl. apply LT. lia.
    + intros [g' t'] Hin. unfold members in Hin. apply in_prod_iff in Hin. rewrite !In_zseq in Hin. cbn [fst snd]. destruct (Z.eqb_spec g' g) as [->|]; [right; apply LT; lia|left; reflexivity].
Qed.

(** * The invariant *)
Section Run.
Context (iter : Z -> list Z -> list Z) (zero : R) (n : Z) (m : gmesh R) (ep : list Z) (pm : Z -> pmesh R) (D : Z -> rdata).
Context (order : Z -> nat -> Z -> Z -> list Z) (v0 : arr2).
Context (WF : run_wf iter n m ep) (PT : partitioned zero iter n m ep pm).
Context (ORD : forall r k i c, Permutation (order r k i c) (zseq c)).
Context (NIF : forall r, 0 <= r < n -> d_nif (D r) = pm_num_ifaces_part (pm r)).
Context (items : list ditem) (M0 : Z -> mem).

Definition FB (r : Z) (μ : mem) : fstate arr2 := face_blocks (d_nif (D r)) (face_views μ).
(** [H i r]: the memory of rank [r] before item [i]. *)
Definition EE (H : nat -> Z -> mem) (k : nat) (r : Z) : fstate arr2 := FB r (H (pos items k) r).
Definition cE (H : nat -> Z -> mem) : cfg R arr2 := mkCfg n pm (total items) false (fun k r _ => EE H (S k) r) order v0.

Definition is_comm (a : activity) : bool := match a with Comm => true | _ => false end.
Definition abs (H : nat -> Z -> mem) (s : astate) : gstate arr2 :=
  mkG (fun r => let a := s_rank s r in
         if is_comm (a_act a) then a_rk a else start (cE H) r (k_rnd (a_rk a)) (EE H (k_rnd (a_rk a)) r) (k_ent (a_rk a))) (s_net s).

Definition past_ok (ix : Z -> nat) (h : nat -> Z -> mem) (r : Z) (i : nat) : Prop :=
  match nth_error items i with
  | Some (Kernels k) => executes (k r) (h i r) (h (S i) r)
  | Some Exchange => (forall s, 0 <= s < n -> (i <= ix s)%nat) /\
      exists X, exchanged n m ep pm (fun s => FB s (h i s)) X /\ h (S i) r = put_faces (X r) (h i r)
  | None => False
  end.
Definition now_ok (i : nat) (μ : mem) (r : Z) (a : arank) : Prop :=
  match a_act a with
  | Next => a_mem a = μ
  | Tasks l => exists k ts, nth_error items i = Some (Kernels k) /\ k r = ts ++ l /\ executes ts μ (a_mem a)
  | Busy N T P l => exists k ts K m1, nth_error items i = Some (Kernels k) /\ k r = ts ++ Launch N T K :: l /\ executes ts μ m1 /\
      TeamModel.steps N T (K, m1) (P, a_mem a)
  | Comm => nth_error items i = Some Exchange /\ a_mem a = μ
  end.
Definition extends (ix : Z -> nat) (h H : nat -> Z -> mem) : Prop := forall r i, 0 <= r < n -> (i <= ix r)%nat -> H i r = h i r.

Record J (ix : Z -> nat) (h : nat -> Z -> mem) (s : astate) : Prop := {
  j_items : forall r, 0 <= r < n -> a_items (s_rank s r) = skipn (ix r) items /\ (ix r <= length items)%nat;
  j_start : forall r, 0 <= r < n -> h O r = M0 r;
  j_past : forall r i, 0 <= r < n -> (i < ix r)%nat -> past_ok ix h r i;
  j_now : forall r, 0 <= r < n -> now_ok (ix r) (h (ix r) r) r (s_rank s r);
  j_rnd : forall r, 0 <= r < n -> k_rnd (a_rk (s_rank s r)) = cnt items (ix r);
  j_out : forall r, 0 <= r < n -> is_comm (a_act (s_rank s r)) = false -> k_ph (a_rk (s_rank s r)) = PDone;
  j_comm : forall H, extends ix h H -> Inv m ep (cE H) (EE H O) (abs H s)
}.

Lemma FB_sized r μ : 0 <= r < n -> zlen (fs_L (FB r μ)) = pm_num_ifaces_part (pm r) /\ zlen (fs_R (FB r μ)) = pm_num_ifaces_part (pm r).
Proof.
  intros Hr. rewrite <- (NIF r Hr). assert (N : 0 <= d_nif (D r)).
  { rewrite (NIF r Hr). destruct (PropMesh.C04_interior_faces R zero iter n m ep pm WF PT) as [_ H4]. destruct (H4 r Hr) as (_ & LEN & _). rewrite <- LEN. apply zlen_nonneg. }
  unfold FB, face_blocks, blocks. cbn. rewrite !zlen_map, zlen_zseq by exact N. auto.
Qed.
Lemma EE_sized H k : sized n pm (EE H k).
Proof. intros r Hr. apply FB_sized. exact Hr. Qed.
Lemma cE_wf H : comm_wf iter zero m ep (cE H).
Proof.
  constructor; cbn; auto. intros k S _ r Hr. apply (EE_sized H (Datatypes.S k)). exact Hr.
Qed.
Lemma hist_EE H k r : CommProof.hist m ep (cE H) (EE H O) k r = EE H k r.
Proof. destruct k; reflexivity. Qed.

Lemma Inv_step H g g' : Inv m ep (cE H) (EE H O) g -> CommModel.step (cE H) g g' -> Inv m ep (cE H) (EE H O) g'.
Proof. intros I S. exact (step_Inv iter zero m ep (cE H) (cE_wf H) eq_refl (EE H O) (EE_sized H O) g g' I S). Qed.

Lemma J_init : J (fun _ => O) (fun _ => M0) (astart items M0).
Proof.
  constructor; cbn.
  - intros r Hr. split; [reflexivity|lia].
  - reflexivity.
  - intros r i _ Hi. lia.
  - intros r Hr. reflexivity.
  - intros r Hr. destruct items as [|[?|] ?]; reflexivity.
  - reflexivity.
  - intros H _. exact (init_Inv iter zero m ep (cE H) (cE_wf H) (EE H O)).
Qed.

(** The invariant is about states with the same exchange part. *)
Lemma abs_eq H s s' : s_net s' = s_net s ->
  (forall r, is_comm (a_act (s_rank s' r)) = is_comm (a_act (s_rank s r)) /\ a_rk (s_rank s' r) = a_rk (s_rank s r)) -> abs H s' = abs H s.
Proof.
  intros E1 E2. unfold abs. rewrite E1. f_equal. apply functional_extensionality. intros r. destruct (E2 r) as [-> ->]. reflexivity.
Qed.

(** ** Steps of a rank by itself *)
Lemma J_local ix h s r a : J ix h s -> 0 <= r < n -> is_comm (a_act (s_rank s r)) = false -> is_comm (a_act a) = false ->
  a_rk a = a_rk (s_rank s r) -> a_items a = a_items (s_rank s r) -> now_ok (ix r) (h (ix r) r) r a -> J ix h (set_rank s r a).
Proof.
  intros [J1 J2 J3 J4 J5 JO J6] Hr C1 C2 E1 E2 N. constructor.
  - intros q Hq. cbn. destruct (Z.eqb_spec q r) as [->|]; [rewrite E2|]; auto.
  - exact J2.
  - exact J3.
  - intros q Hq. cbn. destruct (Z.eqb_spec q r) as [->|]; auto.
  - intros q Hq. cbn. destruct (Z.eqb_spec q r) as [->|]; [rewrite E1|]; auto.
  - intros q Hq. cbn. destruct (Z.eqb_spec q r) as [->|]; [rewrite E1; intros _; exact (JO r Hr C1)|auto].
  - intros H EX. rewrite (abs_eq H s); [auto|reflexivity|]. intros q. cbn. destruct (Z.eqb_spec q r) as [->|]; [|auto]. rewrite C1, C2, E1. auto.
Qed.

Definition bump (ix : Z -> nat) (r : Z) : Z -> nat := fun q => if q =? r then S (ix r) else ix q.
Definition note (ix : Z -> nat) (h : nat -> Z -> mem) (r : Z) (μ : mem) : nat -> Z -> mem :=
  fun i q => if (q =? r) && Nat.eqb i (S (ix r)) then μ else h i q.
Lemma note_old ix h r μ i q : (i <= ix q)%nat -> note ix h r μ i q = h i q.
Proof. intros Hi. unfold note. destruct (Z.eqb_spec q r) as [->|]; [|reflexivity]. destruct (Nat.eqb_spec i (S (ix r))); [lia|reflexivity]. Qed.
Lemma note_new ix h r μ : note ix h r μ (S (ix r)) r = μ.
Proof. unfold note. now rewrite Z.eqb_refl, Nat.eqb_refl. Qed.
Lemma bump_le ix r q : (ix q <= bump ix r q)%nat.
Proof. unfold bump. destruct (Z.eqb_spec q r) as [->|]; lia. Qed.
Lemma extends_note ix h r μ H : extends (bump ix r) (note ix h r μ) H -> extends ix h H.
Proof. intros E q i Hq Hi. rewrite (E q i Hq) by (pose proof (bump_le ix r q); lia). now apply note_old. Qed.
Lemma past_note ix h r μ q i : 0 <= q < n -> (i < ix q)%nat -> past_ok ix h q i -> past_ok (bump ix r) (note ix h r μ) q i.
Proof.
  intros Hq Hi. unfold past_ok. destruct (nth_error items i) as [[k|]|]; [| |easy].
  - rewrite !note_old by lia. easy.
  - intros [A (X & EX & EH)]. split; [intros p Hp; pose proof (A p Hp); pose proof (bump_le ix r p); lia|]. exists X. rewrite !note_old by lia. split; [|exact EH].
    refine (PropTeamStep.exchanged_ext iter n m ep pm WF _ _ _ _ EX). intros p Hp. cbv beta. rewrite note_old; [reflexivity|]. apply A. exact Hp.
Qed.

(** A rank completes an item. *)
Lemma J_next ix h s r a μ : J ix h s -> 0 <= r < n -> a_act a = Next -> a_mem a = μ ->
  a_items a = skipn (S (ix r)) items -> (ix r < length items)%nat -> k_rnd (a_rk a) = cnt items (S (ix r)) -> k_ph (a_rk a) = PDone ->
  past_ok (bump ix r) (note ix h r μ) r (ix r) ->
  (forall H, extends (bump ix r) (note ix h r μ) H -> Inv m ep (cE H) (EE H O) (abs H (set_rank s r a))) ->
  J (bump ix r) (note ix h r μ) (set_rank s r a).
Proof.
  intros [J1 J2 J3 J4 J5 JO J6] Hr E1 E2 E3 E4 E5 E6 PA CO. constructor.
  - intros q Hq. cbn. unfold bump. destruct (Z.eqb_spec q r) as [->|]; [rewrite E3|]; auto.
  - intros q Hq. unfold note. destruct (q =? r); cbn; auto.
  - intros q i Hq Hi. unfold bump in Hi. destruct (Z.eqb_spec q r) as [->|].
    + assert (C : i = ix r \/ (i < ix r)%nat) by lia. destruct C as [->|C]; [exact PA|]. apply past_note; auto.
    + apply past_note; auto.
  - intros q Hq. cbn. unfold bump. destruct (Z.eqb_spec q r) as [->|N].
    + unfold now_ok. rewrite E1, E2. symmetry. apply note_new.
    + rewrite note_old by lia. auto.
  - intros q Hq. cbn. unfold bump. destruct (Z.eqb_spec q r) as [->|]; auto.
  - intros q Hq. cbn. destruct (Z.eqb_spec q r) as [->|]; auto.
  - exact CO.
Qed.

(** ** Steps inside the exchange *)
Lemma abs_in H s r : is_comm (a_act (s_rank s r)) = true -> g_rk (abs H s) r = a_rk (s_rank s r).
Proof. intros E. cbn. now rewrite E. Qed.
Lemma abs_ent H s r : k_ent (g_rk (abs H s) r) = k_ent (a_rk (s_rank s r)).
Proof. cbn. destruct (is_comm _); [reflexivity|]. unfold start. destruct (Nat.eqb _ _); reflexivity. Qed.
Lemma abs_sending H s r : sending (k_ph (g_rk (abs H s) r)) -> is_comm (a_act (s_rank s r)) = true.
Proof. cbn. destruct (is_comm _); [reflexivity|]. unfold start. destruct (Nat.eqb _ _); cbn; easy. Qed.
Lemma content_abs H s x : Inv m ep (cE H) (EE H O) (abs H s) -> In x (s_net s) -> deref (comm_of s) (m_src x) (m_ref x) = deref (abs H s) (m_src x) (m_ref x).
Proof.
  intros I Hx. pose proof (mi_send _ _ _ _ _ _ (inv_msg _ _ _ _ _ I x Hx)) as MS. apply abs_sending in MS.
  unfold deref. rewrite (abs_in _ _ _ MS). reflexivity.
Qed.
Ltac nxt := match goal with |- bind ?x _ = Ok _ -> _ => let Q := fresh "Q" in destruct x eqn:Q; [|discriminate]; change (bind (Ok ?a) ?f) with (f a); cbv beta end.
Lemma rank_step_rnd (c : cfg R arr2) r g g' : rank_step c r g = Some g' ->
  ~ (exists i, k_ph (g_rk g r) = PUnpack i /\ pm_num_neighbor_ranks (c_pm c r) <= i) -> k_rnd (g_rk g' r) = k_rnd (g_rk g r).
Proof.
  unfold rank_step.
  set (k := g_rk g r). intros E NU.
  assert (OC : forall x, (forall g1, x = Ok g1 -> k_rnd (g_rk g1 r) = k_rnd k) -> k_rnd (g_rk (or_crash g r x) r) = k_rnd k).
  { intros [g1|e] HX; cbn; [now apply HX|]. now rewrite Z.eqb_refl. }
  assert (SE : forall (k1 : rk arr2) i b k2, set_send k1 i b = Ok k2 -> k_rnd k2 = k_rnd k1).
  { intros k1 i b k2 Q. unfold set_send in Q. destruct (wr _ _ _); cbn in Q; [|discriminate]. injection Q as <-. reflexivity. }
  assert (SR : forall (k1 : rk arr2) i b k2, set_recv k1 i b = Ok k2 -> k_rnd k2 = k_rnd k1).
  { intros k1 i b k2 Q. unfold set_recv in Q. destruct (wr _ _ _); cbn in Q; [|discriminate]. injection Q as <-. reflexivity. }
  destruct (k_ph k) as [i|i|i|i| | |i| |e] eqn:Eph.
  - destruct (i <? _); injection E as <-; [|cbn; now rewrite Z.eqb_refl]. apply OC. intros g1.
    nxt. nxt. nxt.
    nxt. intros [= <-]. cbn. rewrite Z.eqb_refl. cbn. eauto.
  - destruct (i <? _); injection E as <-; [|cbn; now rewrite Z.eqb_refl]. apply OC. intros g1.
    nxt. nxt. destruct (c_device c); intros [= <-]; cbn; now rewrite Z.eqb_refl.
  - injection E as <-. cbn. now rewrite Z.eqb_refl.
  - destruct (i <? _); [|injection E as <-; cbn; now rewrite Z.eqb_refl]. destruct (rd (pm_neighbor_ranks (c_pm c r)) i) as [src|e]; [|injection E as <-; cbn; now rewrite Z.eqb_refl].
    destruct (take_msg src r src (g_net g)) as [[x net']|]; [|discriminate]. injection E as <-. apply OC. intros g1.
    nxt. nxt. nxt.
    nxt. intros [= <-]. cbn. rewrite Z.eqb_refl. cbn. eauto.
  - injection E as <-. cbn. now rewrite Z.eqb_refl.
  - destruct (forallb _ _); [|discriminate]. injection E as <-. cbn. now rewrite Z.eqb_refl.
  - destruct (Z.ltb_spec i (pm_num_neighbor_ranks (c_pm c r))) as [Hi|Hi]; [|destruct NU; exists i; split; [reflexivity|exact Hi]].
    injection E as <-. apply OC. intros g1.
    nxt. nxt. nxt.
    intros [= <-]. cbn. now rewrite Z.eqb_refl.
  - discriminate.
  - discriminate.
Qed.

Lemma J_comm_step ix h s r g' : J ix h s -> 0 <= r < n -> a_act (s_rank s r) = Comm -> ~ unpacked pm r (a_rk (s_rank s r)) ->
  rank_step (comm_cfg n pm order v0) r (comm_of s) = Some g' ->
  J ix h (with_comm s g') /\ forall H, extends ix h H -> CommModel.step (cE H) (abs H s) (abs H (with_comm s g')).
Proof.
  intros HJ Hr EA NU ES. assert (CM : is_comm (a_act (s_rank s r)) = true) by now rewrite EA.
  assert (X : exists y, g' = put_rank r (comm_of s) y /\ forall H, extends ix h H -> CommModel.step (cE H) (abs H s) (put_rank r (abs H s) y)).
  { assert (Y : forall H, extends ix h H -> exists o, rank_step (comm_cfg n pm order v0) r (comm_of s) = option_map (put_rank r (comm_of s)) o /\
      rank_step (cE H) r (abs H s) = option_map (put_rank r (abs H s)) o).
    { intros H EX. pose proof (j_comm _ _ _ HJ H EX) as I. apply rank_step_local; try reflexivity.
      - cbn. now rewrite CM.
      - intros q _. rewrite abs_ent. reflexivity.
      - intros x Hx. unfold msg_content. destruct (m_data x); [reflexivity|]. exact (content_abs H s x I Hx).
      - exact NU. }
    destruct (Y h (fun _ _ _ _ => eq_refl)) as (o & O1 & _). rewrite ES in O1. destruct o as [y|]; [|discriminate]. cbn in O1. injection O1 as O1. exists y. split; [exact O1|].
    intros H EX. destruct (Y H EX) as (o' & O1' & O2). rewrite ES, O1 in O1'. destruct o' as [y'|]; [|discriminate]. cbn [option_map] in *. injection O1' as O3 O4.
    apply (step_rank (cE H) (abs H s) r); [exact Hr|]. rewrite O2. f_equal. unfold put_rank. f_equal; [|now rewrite O4].
    apply functional_extensionality. intros q. destruct (q =? r) eqn:Eq; [|reflexivity].
    apply (f_equal (fun F => F q)) in O3. cbv beta in O3. rewrite Eq in O3. now symmetry. }
  destruct X as (y & -> & ST).
  assert (AE : forall H, abs H (with_comm s (put_rank r (comm_of s) y)) = put_rank r (abs H s) y).
  { intros H. unfold abs, put_rank, with_comm. cbn [g_rk g_net s_rank s_net a_act a_rk comm_of]. f_equal. apply functional_extensionality. intros q.
    destruct (Z.eqb_spec q r) as [->|N]; [now rewrite CM|reflexivity]. }
  split.
  2:{ intros H EX. rewrite AE. now apply ST. }
  pose proof (rank_step_rnd _ _ _ _ ES NU) as RN.
  destruct HJ as [J1 J2 J3 J4 J5 JO J6]. constructor.
  - exact J1.
  - exact J2.
  - exact J3.
  - exact J4.
  - intros q Hq. cbn. destruct (Z.eqb_spec q r) as [->|N]; [|now apply J5]. cbn in RN. rewrite Z.eqb_refl in RN. rewrite RN. now apply J5.
  - intros q Hq. cbn. destruct (Z.eqb_spec q r) as [->|N]; [now rewrite CM|now apply JO].
  - intros H EX. rewrite AE. exact (Inv_step H _ _ (J6 H EX) (ST H EX)).
Qed.

Lemma J_copy_step ix h s j g' : J ix h s -> copy_step j (comm_of s) = Some g' ->
  J ix h (with_comm s g') /\ forall H, extends ix h H -> CommModel.step (cE H) (abs H s) (abs H (with_comm s g')).
Proof.
  intros HJ ES. unfold copy_step in ES. cbn [g_net comm_of] in ES.
  destruct (nth_error (s_net s) j) as [x|] eqn:Ex; [|discriminate]. destruct (m_data x) eqn:Ed; [discriminate|]. injection ES as <-.
  pose proof (nth_error_In _ _ Ex) as Hx.
  assert (D0 : exists d, deref (comm_of s) (m_src x) (m_ref x) = Ok d /\ forall H, extends ix h H ->
    CommModel.step (cE H) (abs H s) (set_net (abs H s) (set_nth (s_net s) j (mkMsg (m_src x) (m_dst x) (m_tag x) (m_ref x) (Some d))))).
  { assert (Y : forall H, extends ix h H -> exists d, deref (comm_of s) (m_src x) (m_ref x) = Ok d /\
      CommModel.step (cE H) (abs H s) (set_net (abs H s) (set_nth (s_net s) j (mkMsg (m_src x) (m_dst x) (m_tag x) (m_ref x) (Some d))))).
    { intros H EX. pose proof (j_comm _ _ _ HJ H EX) as I. rewrite (content_abs H s x I Hx).
      assert (SS : CommModel.step (cE H) (abs H s) (or_crash (abs H s) (m_src x) (bind (deref (abs H s) (m_src x) (m_ref x)) (fun d =>
        Ok (set_net (abs H s) (set_nth (s_net s) j (mkMsg (m_src x) (m_dst x) (m_tag x) (m_ref x) (Some d)))))))).
      { apply (step_copy (cE H) (abs H s) j). unfold copy_step. cbn [g_net abs]. rewrite Ex, Ed. reflexivity. }
      destruct (deref (abs H s) (m_src x) (m_ref x)) as [d|e]; cbn [bind or_crash] in SS; [eauto|].
      exfalso. apply (Inv_step H _ _ I) in SS. refine (Inv_no_crash _ _ (cE H) _ _ SS _). exists (m_src x), e. split; [exact (mi_src _ _ _ _ _ _ (inv_msg _ _ _ _ _ I x Hx))|].
      cbn. now rewrite Z.eqb_refl. }
    destruct (Y h (fun _ _ _ _ => eq_refl)) as (d & O1 & _). exists d. split; [exact O1|]. intros H EX. destruct (Y H EX) as (d' & O1' & O2). rewrite O1 in O1'. injection O1' as <-. exact O2. }
  destruct D0 as (d & O1 & ST). rewrite O1. cbn [bind or_crash].
  set (net' := set_nth (s_net s) j _) in *.
  assert (AE : forall H, abs H (with_comm s (set_net (comm_of s) net')) = set_net (abs H s) net') by reflexivity.
  split.
  2:{ intros H EX. rewrite AE. now apply ST. }
  destruct HJ as [J1 J2 J3 J4 J5 JO J6]. constructor; auto.
  intros H EX. rewrite AE. exact (Inv_step H _ _ (J6 H EX) (ST H EX)).
Qed.

Lemma J_enter ix h s r rest : J ix h s -> 0 <= r < n -> let a := s_rank s r in a_act a = Next -> a_items a = Exchange :: rest ->
  let s' := set_rank s r (mkA (a_items a) Comm (a_mem a) (enter pm D v0 r (a_rk a) (a_mem a))) in
  J ix h s' /\ forall H, extends ix h H -> abs H s' = abs H s.
Proof.
  intros HJ Hr a EA EI s'. destruct (j_items _ _ _ HJ r Hr) as [JI JL]. fold a in JI. rewrite EI in JI. symmetry in JI. apply skipn_next in JI. destruct JI as (NX & _ & _).
  pose proof (j_now _ _ _ HJ r Hr) as JN. fold a in JN. unfold now_ok in JN. rewrite EA in JN. pose proof (j_rnd _ _ _ HJ r Hr) as JR. fold a in JR.
  assert (AE : forall H, extends ix h H -> abs H s' = abs H s).
  { intros H EX. unfold abs. cbn [s_net s' set_rank s_rank]. f_equal. apply functional_extensionality. intros q. destruct (Z.eqb_spec q r) as [->|N]; [|reflexivity].
    cbn [a_act a_rk is_comm]. fold a. rewrite EA. cbn [is_comm]. unfold start. cbn [c_rounds cE c_pm c_v0]. rewrite JR.
    pose proof (cnt_before items (ix r) NX) as LT. destruct (Nat.eqb_spec (cnt items (ix r)) (total items)); [lia|].
    unfold enter. rewrite JR. f_equal. unfold EE, FB. rewrite (pos_cnt items (ix r) NX), (EX r (ix r) Hr (le_n _)), JN. reflexivity. }
  split; [|exact AE]. destruct HJ as [J1 J2 J3 J4 J5 JO J6]. constructor.
  - intros q Hq. cbn. destruct (Z.eqb_spec q r) as [->|]; [exact (J1 r Hr)|exact (J1 q Hq)].
  - exact J2.
  - exact J3.
  - intros q Hq. cbn. destruct (Z.eqb_spec q r) as [->|]; [|auto]. unfold now_ok. cbn. auto.
  - intros q Hq. cbn. destruct (Z.eqb_spec q r) as [->|]; [exact JR|exact (J5 q Hq)].
  - intros q Hq. cbn. destruct (Z.eqb_spec q r) as [->|]; [discriminate|exact (JO q Hq)].
  - intros H EX. rewrite (AE H EX). auto.
Qed.

Lemma J_leave ix h s r x rest : J ix h s -> 0 <= r < n -> let a := s_rank s r in a_act a = Comm -> unpacked pm r (a_rk a) -> a_items a = x :: rest ->
  let μ := put_faces (k_st (a_rk a)) (a_mem a) in
  let s' := set_rank s r (mkA rest Next μ (outside (S (k_rnd (a_rk a))) (k_ent (a_rk a)))) in
  J (bump ix r) (note ix h r μ) s' /\ forall H, extends (bump ix r) (note ix h r μ) H -> CommModel.step (cE H) (abs H s) (abs H s').
Proof.
  intros HJ Hr a EA (i & Eph & Hi) EI μ s'. destruct (j_items _ _ _ HJ r Hr) as [JI JL]. fold a in JI. rewrite EI in JI. symmetry in JI. apply skipn_next in JI. destruct JI as (NX & SK & LT).
  pose proof (j_now _ _ _ HJ r Hr) as JN. fold a in JN. unfold now_ok in JN. rewrite EA in JN. destruct JN as [NE JM]. rewrite NE in NX. injection NX as <-.
  pose proof (j_rnd _ _ _ HJ r Hr) as JR. fold a in JR. assert (CM : is_comm (a_act (s_rank s r)) = true) by (fold a; now rewrite EA).
  assert (ST : forall H, extends (bump ix r) (note ix h r μ) H -> CommModel.step (cE H) (abs H s) (abs H s')).
  { intros H EX. apply (step_rank (cE H) (abs H s) r); [exact Hr|]. unfold rank_step. rewrite (abs_in H s r CM). fold a. rewrite Eph. cbn [c_pm cE].
    rewrite (proj2 (Z.ltb_ge _ _) Hi). f_equal. unfold set_rk, abs. cbn [s_rank s' set_rank s_net g_rk g_net]. f_equal. apply functional_extensionality. intros q.
    destruct (Z.eqb_spec q r) as [->|N]; reflexivity. }
  split; [|exact ST].
  pose proof (j_comm _ _ _ HJ h (fun _ _ _ _ => eq_refl)) as I.
  apply (J_next ix h s r _ μ); auto.
  - cbn. rewrite JR, cnt_S, NE. reflexivity.
  - unfold past_ok. rewrite NE.
    assert (AHEAD : forall q, 0 <= q < n -> (ix r <= ix q)%nat).
    { intros q Hq. pose proof (inv_sync _ _ _ _ _ I r q Hr Hq) as SY. rewrite abs_ent in SY. unfold passed in SY. rewrite (abs_in h s r CM) in SY. fold a in SY. rewrite Eph, JR in SY. cbn [past] in SY.
      pose proof (ri_ent _ _ _ _ _ _ (inv_rk _ _ _ _ _ I q Hq)) as RE. rewrite abs_ent in RE. pose proof (j_rnd _ _ _ HJ q Hq) as JQ.
      destruct (is_comm (a_act (s_rank s q))) eqn:Cq.
      - rewrite (abs_in h s q Cq) in RE. rewrite JQ in RE.
        assert (C : (cnt items (ix r) < cnt items (ix q))%nat \/ (cnt items (ix q) = cnt items (ix r))). { unfold entered in RE. destruct (k_ph (a_rk (s_rank s q))); lia. }
        destruct C as [C|C]; [apply pos_lt in C; rewrite (pos_cnt items (ix r) NE) in C; lia|].
        pose proof (j_now _ _ _ HJ q Hq) as JNq. unfold now_ok in JNq. destruct (a_act (s_rank s q)); try discriminate. destruct JNq as [NQ _].
        pose proof (pos_cnt items (ix q) NQ) as P1. pose proof (pos_cnt items (ix r) NE) as P2. rewrite C in P1. lia.
      - cbn in RE. rewrite Cq in RE. unfold start in RE. cbn [c_rounds cE c_pm c_v0] in RE. rewrite JQ in RE. destruct (Nat.eqb _ _) in RE; cbn [k_rnd k_ph entered] in RE;
        (assert (C : (cnt items (ix r) < cnt items (ix q))%nat) by lia; apply pos_lt in C; rewrite (pos_cnt items (ix r) NE) in C; lia). }
    split; [intros q Hq; pose proof (AHEAD q Hq); pose proof (bump_le ix r q); lia|].
    exists (CommProof.exch m ep (cE h) (EE h (cnt items (ix r)))). split.
    + refine (PropTeamStep.exchanged_ext iter n m ep pm WF _ _ _ _ (CommProof.exch_ok iter zero m ep (cE h) (cE_wf h) (EE h (cnt items (ix r))) (EE_sized h _))).
      intros q Hq. unfold EE. rewrite (pos_cnt items (ix r) NE). rewrite note_old by (apply AHEAD; exact Hq). reflexivity.
    + rewrite note_new, note_old by lia. unfold μ. rewrite JM. f_equal.
      pose proof (ri_st _ _ _ _ _ _ (inv_rk _ _ _ _ _ I r Hr)) as S1. rewrite (abs_in h s r CM) in S1. fold a in S1. unfold st_ok in S1. rewrite Eph in S1. rewrite S1, JR.
      destruct (CommProof.pmf iter zero m ep (cE h) (cE_wf h) r Hr) as (Enn & _). change (c_pm (cE h) r) with (pm r) in Enn. rewrite Enn in Hi. unfold CommProof.nn in Hi.
      rewrite firstn_all2 by (unfold zlen in Hi; lia). unfold CommProof.exch, CommProof.upd_state, CommProof.upL, CommProof.upR, CommProof.valL, CommProof.valR.
      assert (HE : CommProof.hist m ep (cE h) (EE h 0) (cnt items (ix r)) = EE h (cnt items (ix r))) by (apply functional_extensionality; intros q; apply hist_EE).
      now rewrite HE.
  - intros H EX. apply (Inv_step H _ _ (j_comm _ _ _ HJ H (extends_note _ _ _ _ _ EX)) (ST H EX)).
Qed.

(** ** Every step keeps the invariant and makes something smaller *)
Fixpoint load (r : Z) (l : list ditem) : Z :=
  match l with
  | [] => 0
  | Kernels k :: t => 2 * zlen (k r) + 4 + load r t
  | Exchange :: t => 4 + load r t
  end.
Definition left_over (r : Z) (a : arank) : Z :=
  match a_act a with
  | Next => load r (a_items a)
  | Tasks l => 2 * zlen l + 1 + load r (tl (a_items a))
  | Busy _ _ _ l => 2 * zlen l + 2 + load r (tl (a_items a))
  | Comm => 1 + load r (tl (a_items a))
  end.
Definition W (s : astate) : Z := sumZ (map (fun r => left_over r (s_rank s r)) (zseq n)).

Lemma load_nonneg r l : 0 <= load r l.
Proof. induction l as [|[k|] l IH]; cbn [load]; [lia| |lia]. pose proof (zlen_nonneg (k r)). lia. Qed.
Lemma left_over_nonneg r a : 0 <= left_over r a.
Proof.
  unfold left_over. destruct (a_act a) as [|l|N T P l|].
  - apply load_nonneg.
  - pose proof (load_nonneg r (tl (a_items a))). pose proof (zlen_nonneg l). lia.
  - pose proof (load_nonneg r (tl (a_items a))). pose proof (zlen_nonneg l). lia.
  - pose proof (load_nonneg r (tl (a_items a))). lia.
Qed.
Lemma W_nonneg s : 0 <= W s.
Proof. apply sumZ_nonneg. intros x Hx. apply in_map_iff in Hx. destruct Hx as (r & <- & _). apply left_over_nonneg. Qed.
Lemma W_set s r a : 0 <= r < n -> W (set_rank s r a) = W s + (left_over r a - left_over r (s_rank s r)).
Proof.
  intros Hr. unfold W. rewrite (sumZ_upd (fun q => left_over q (s_rank s q)) (fun q => left_over q (s_rank (set_rank s r a) q)) (zseq n) r).
  - cbn. rewrite Z.eqb_refl. reflexivity.
  - apply NoDup_zseq.
  - now apply In_zseq.
  - intros x Hx. cbn. now rewrite (proj2 (Z.eqb_neq x r) Hx).
Qed.
Lemma W_comm s g : W (with_comm s g) = W s.
Proof. reflexivity. Qed.

(** A thread of the running kernel of some rank moves, nothing else changes. *)
Definition thread_moves (s s' : astate) : Prop :=
  exists r N T P P' l μ μ', 0 <= r < n /\ a_act (s_rank s r) = Busy N T P l /\ a_act (s_rank s' r) = Busy N T P' l /\
    TeamModel.step N T (P, μ) (P', μ') /\ forall q, q <> r -> a_act (s_rank s' q) = a_act (s_rank s q).

Lemma J_step ix h s s' : J ix h s -> astep n pm D order v0 s s' ->
  exists ix' h', J ix' h' s' /\ (forall H, extends ix' h' H -> extends ix h H) /\
   ((W s' < W s /\ forall H, extends ix' h' H -> abs H s' = abs H s \/ CommModel.step (cE H) (abs H s) (abs H s')) \/
    (W s' = W s /\ forall H, extends ix' h' H -> CommModel.step (cE H) (abs H s) (abs H s')) \/
    (W s' = W s /\ (forall H, abs H s' = abs H s) /\ thread_moves s s')).
Proof.
  intros HJ ST.
  assert (LOC : forall r a, 0 <= r < n -> is_comm (a_act (s_rank s r)) = false -> is_comm (a_act a) = false -> a_rk a = a_rk (s_rank s r) ->
    forall H, abs H (set_rank s r a) = abs H s).
  { intros r a Hr C1 C2 E H. apply abs_eq; [reflexivity|]. intros q. cbn. destruct (Z.eqb_spec q r) as [->|]; [|auto]. now rewrite C1, C2, E. }
  destruct ST as [r k rest Hr a EA EI|r v l Hr a EA|r N T K l Hr a EA|r N T P l P' μ' Hr a EA ST|r N T P l Hr a EA FI|r x rest Hr a EA EI|r rest Hr a EA EI|r g' Hr EA NU ES|r x rest Hr a EA UN EI|j g' ES].
  - exists ix, h. assert (C : is_comm (a_act (s_rank s r)) = false) by (fold a; now rewrite EA).
    destruct (j_items _ _ _ HJ r Hr) as [JI JL]. fold a in JI. rewrite EI in JI. symmetry in JI. apply skipn_next in JI. destruct JI as (NX & _ & _).
    pose proof (j_now _ _ _ HJ r Hr) as JN. fold a in JN. unfold now_ok in JN. rewrite EA in JN.
    split; [|split; [easy|left]].
    + apply J_local; auto. unfold now_ok. cbn. exists k, []. split; [exact NX|]. split; [reflexivity|]. exact JN.
    + split; [|intros H _; left; apply LOC; auto]. rewrite W_set by exact Hr. fold a. unfold left_over. rewrite EA. cbn [a_act a_items]. rewrite EI. cbn [load tl]. lia.
  - exists ix, h. assert (C : is_comm (a_act (s_rank s r)) = false) by (fold a; now rewrite EA).
    pose proof (j_now _ _ _ HJ r Hr) as JN. fold a in JN. unfold now_ok in JN. rewrite EA in JN. destruct JN as (k & ts & NX & EK & EX).
    split; [|split; [easy|left]].
    + apply J_local; auto. unfold now_ok. cbn. exists k, (ts ++ [Alloc v]). split; [exact NX|]. split; [rewrite <- app_assoc; exact EK|].
      apply (executes_snoc _ _ _ _ _ EX). reflexivity.
    + split; [|intros H _; left; apply LOC; auto]. rewrite W_set by exact Hr. fold a. unfold left_over. rewrite EA. cbn [a_act a_items]. rewrite zlen_cons. lia.
  - exists ix, h. assert (C : is_comm (a_act (s_rank s r)) = false) by (fold a; now rewrite EA).
    pose proof (j_now _ _ _ HJ r Hr) as JN. fold a in JN. unfold now_ok in JN. rewrite EA in JN. destruct JN as (k & ts & NX & EK & EX).
    split; [|split; [easy|left]].
    + apply J_local; auto. unfold now_ok. cbn. exists k, ts, K, (a_mem a). split; [exact NX|]. split; [exact EK|]. split; [exact EX|constructor].
    + split; [|intros H _; left; apply LOC; auto]. rewrite W_set by exact Hr. fold a. unfold left_over. rewrite EA. cbn [a_act a_items]. rewrite zlen_cons. lia.
  - exists ix, h. assert (C : is_comm (a_act (s_rank s r)) = false) by (fold a; now rewrite EA).
    pose proof (j_now _ _ _ HJ r Hr) as JN. fold a in JN. unfold now_ok in JN. rewrite EA in JN. destruct JN as (k & ts & K & m1 & NX & EK & EX & SS).
    split; [|split; [easy|right; right]].
    + apply J_local; auto. unfold now_ok. cbn. exists k, ts, K, m1. split; [exact NX|]. split; [exact EK|]. split; [exact EX|]. exact (tsteps_snoc _ _ _ _ _ SS ST).
    + split; [|split; [intros H; apply LOC; auto|]].
      * rewrite W_set by exact Hr. fold a. unfold left_over. rewrite EA. cbn [a_act a_items]. lia.
      * exists r, N, T, P, P', l, (a_mem a), μ'. split; [exact Hr|]. split; [exact EA|]. split; [cbn; now rewrite Z.eqb_refl|]. split; [exact ST|].
        intros q Hq. cbn. now rewrite (proj2 (Z.eqb_neq q r) Hq).
  - exists ix, h. assert (C : is_comm (a_act (s_rank s r)) = false) by (fold a; now rewrite EA).
    pose proof (j_now _ _ _ HJ r Hr) as JN. fold a in JN. unfold now_ok in JN. rewrite EA in JN. destruct JN as (k & ts & K & m1 & NX & EK & EX & SS).
    split; [|split; [easy|left]].
    + apply J_local; auto. unfold now_ok. cbn. exists k, (ts ++ [Launch N T K]). split; [exact NX|]. split; [rewrite <- app_assoc; exact EK|].
      apply (executes_snoc _ _ _ _ _ EX). exists (a_mem a). split; [|reflexivity]. exists P. auto.
    + split; [|intros H _; left; apply LOC; auto]. rewrite W_set by exact Hr. fold a. unfold left_over. rewrite EA. cbn [a_act a_items]. lia.
  - exists (bump ix r), (note ix h r (a_mem a)). assert (C : is_comm (a_act (s_rank s r)) = false) by (fold a; now rewrite EA).
    destruct (j_items _ _ _ HJ r Hr) as [JI JL]. fold a in JI. rewrite EI in JI. symmetry in JI. apply skipn_next in JI. destruct JI as (NX & SK & LT).
    pose proof (j_now _ _ _ HJ r Hr) as JN. fold a in JN. unfold now_ok in JN. rewrite EA in JN. destruct JN as (k & ts & NX' & EK & EX).
    rewrite NX in NX'. injection NX' as ->. rewrite app_nil_r in EK.
    assert (AE : forall H, abs H (set_rank s r (mkA rest Next (a_mem a) (a_rk a))) = abs H s) by (intros H; apply LOC; auto).
    split; [|split; [apply extends_note|left]].
    + apply J_next; auto.
      * cbn. unfold a. rewrite (j_rnd _ _ _ HJ r Hr), cnt_S, NX. reflexivity.
      * exact (j_out _ _ _ HJ r Hr C).
      * unfold past_ok. rewrite NX, note_new, note_old, EK by lia. exact EX.
      * intros H EH. rewrite AE. apply (j_comm _ _ _ HJ). exact (extends_note _ _ _ _ _ EH).
    + split; [|intros H _; left; apply AE]. rewrite W_set by exact Hr. fold a. unfold left_over. rewrite EA. cbn [a_act a_items]. rewrite EI. cbn [tl]. change (zlen (@nil task)) with 0. lia.
  - exists ix, h. destruct (J_enter ix h s r rest HJ Hr EA EI) as [J' AE]. fold a in J', AE. split; [exact J'|]. split; [easy|left]. split.
    + rewrite W_set by exact Hr. fold a. unfold left_over. rewrite EA. cbn [a_act a_items]. rewrite EI. cbn [load tl]. lia.
    + intros H EH. left. now apply AE.
  - exists ix, h. destruct (J_comm_step ix h s r g' HJ Hr EA NU ES) as [J' SS]. split; [exact J'|]. split; [easy|right; left]. split; [apply W_comm|exact SS].
  - destruct (J_leave ix h s r x rest HJ Hr EA UN EI) as [J' SS]. fold a in J', SS. eexists _, _. split; [exact J'|]. split; [apply extends_note|left]. split.
    + rewrite W_set by exact Hr. fold a. unfold left_over. rewrite EA. cbn [a_act a_items]. rewrite EI. cbn [tl]. lia.
    + intros H EH. right. now apply SS.
  - exists ix, h. destruct (J_copy_step ix h s j g' HJ ES) as [J' SS]. split; [exact J'|]. split; [easy|right; left]. split; [apply W_comm|exact SS].
Qed.

Lemma J_reaches s : areaches n pm D order v0 (astart items M0) s -> exists ix h, J ix h s.
Proof.
  induction 1 as [|s1 s2 _ IH ST]; [exists (fun _ => O), (fun _ => M0); apply J_init|].
  destruct IH as (ix & h & HJ). destruct (J_step ix h s1 s2 HJ ST) as (ix' & h' & HJ' & _). eauto.
Qed.

Lemma J_no_crash ix h s : J ix h s -> ~ acrashed n s.
Proof.
  intros HJ (r & e & Hr & E). pose proof (j_comm _ _ _ HJ h (fun _ _ _ _ => eq_refl)) as I.
  destruct (is_comm (a_act (s_rank s r))) eqn:C.
  - apply (Inv_no_crash _ _ (cE h) _ _ I). exists r, e. split; [exact Hr|]. rewrite (abs_in h s r C). exact E.
  - rewrite (j_out _ _ _ HJ r Hr C) in E. discriminate.
Qed.

(** ** Every state is on the way of a step-by-step execution *)
Lemma runs_snoc a x M M1 M2 : device_runs n m ep pm D a M M1 -> device_runs n m ep pm D [x] M1 M2 -> device_runs n m ep pm D (a ++ [x]) M M2.
Proof.
  revert M. induction a as [|[k|] a IH]; intros M H1 H2.
  - cbn [device_runs] in H1. cbn [app]. destruct x as [k|].
    + destruct H2 as (M3 & E & F). exists M3. split; [|exact F]. intros r Hr. rewrite <- (H1 r Hr). auto.
    + destruct H2 as (M3 & (X & UL & UR & EX & ER) & F). exists M3. split; [|exact F]. exists X, UL, UR. split.
      * refine (PropTeamStep.exchanged_ext iter n m ep pm WF _ _ _ _ EX). intros r Hr. now rewrite (H1 r Hr).
      * intros r Hr. rewrite <- (H1 r Hr). auto.
  - destruct H1 as (M3 & E & H1). exists M3. eauto.
  - destruct H1 as (M3 & E & H1). exists M3. eauto.
Qed.

Lemma skipn_nth {X} (l : list X) i : (i < length l)%nat -> exists x, nth_error l i = Some x /\ skipn i l = x :: skipn (S i) l /\ firstn (S i) l = firstn i l ++ [x].
Proof.
  revert i. induction l as [|y l IH]; intros [|i] Hi; cbn [length] in Hi; try lia.
  - exists y. repeat split; reflexivity.
  - destruct (IH i ltac:(lia)) as (x & A & B & C). exists x. split; [exact A|]. split; [exact B|]. cbn [firstn] in *. rewrite C. reflexivity.
Qed.

Lemma on_the_way ix h s : J ix h s -> device_completes n m ep pm D items M0 -> forall i, (i <= length items)%nat ->
  exists M, device_runs n m ep pm D (firstn i items) M0 M /\ device_completes n m ep pm D (skipn i items) M /\
    forall r, 0 <= r < n -> (i <= ix r)%nat -> M r = h i r.
Proof.
  intros HJ DC. induction i as [|i IH]; intros Hi.
  - exists M0. split; [intros r _; reflexivity|]. split; [exact DC|]. intros r Hr _. symmetry. exact (j_start _ _ _ HJ r Hr).
  - destruct (IH ltac:(lia)) as (M & R1 & C1 & EM). destruct (skipn_nth items i Hi) as (x & NX & SK & FN). rewrite SK in C1. rewrite FN.
    assert (NXT : exists M2, device_runs n m ep pm D [x] M M2 /\ device_completes n m ep pm D (skipn (S i) items) M2 /\ forall r, 0 <= r < n -> (S i <= ix r)%nat -> M2 r = h (S i) r).
    { destruct x as [k|].
      - destruct C1 as [C1 C2]. destruct (PropDevice.choose (fun _ : loc => 0%R) n (fun r μ => executes (k r) (M r) μ)) as (M1 & E1).
        { intros r Hr. exact (PropTeam.completes_executes _ _ (C1 r Hr)). }
        set (M2 := fun r => if Nat.leb (S i) (ix r) then h (S i) r else M1 r).
        assert (E2 : forall r, 0 <= r < n -> executes (k r) (M r) (M2 r)).
        { intros r Hr. unfold M2. destruct (Nat.leb_spec (S i) (ix r)) as [L|L]; [|auto].
          pose proof (j_past _ _ _ HJ r i Hr ltac:(lia)) as P. unfold past_ok in P. rewrite NX in P. rewrite (EM r Hr) by lia. exact P. }
        exists M2. split; [exists M2; split; [exact E2|intros r _; reflexivity]|]. split; [exact (C2 M2 E2)|].
        intros r Hr L. unfold M2. now rewrite (proj2 (Nat.leb_le _ _) L).
      - destruct C1 as [(M1 & X & UL & UR & EX & ER) C2].
        set (M2 := fun r => if Nat.leb (S i) (ix r) then h (S i) r else M1 r).
        assert (E2 : exchange n m ep pm D M M2).
        { exists X, (fun r => if Nat.leb (S i) (ix r) then view3 vUL (h (S i) r) else UL r), (fun r => if Nat.leb (S i) (ix r) then view3 vUR (h (S i) r) else UR r).
          split; [exact EX|]. intros r Hr. unfold M2. destruct (Nat.leb_spec (S i) (ix r)) as [L|L]; [|auto].
          pose proof (j_past _ _ _ HJ r i Hr ltac:(lia)) as P. unfold past_ok in P. rewrite NX in P. destruct P as [AH (X' & EX' & EH)].
          assert (EMA : forall q, 0 <= q < n -> FB q (M q) = FB q (h i q)) by (intros q Hq; now rewrite (EM q Hq (AH q Hq))).
          destruct (PropTeamStep.exchanged_unique zero iter n m ep pm WF PT _ _ X X' EMA EX EX' r Hr) as [Q1 Q2].
          destruct EX' as [SZ _]. destruct (SZ r Hr) as [Z1 Z2]. rewrite <- (NIF r Hr) in Z1, Z2.
          destruct (put_received (d_nif (D r)) (X' r) (h i r) Z1 Z2) as (P1 & P2 & P3). rewrite <- EH in P1, P2, P3. rewrite (EM r Hr (AH r Hr)), Q1, Q2. auto. }
        exists M2. split; [exists M2; split; [exact E2|intros r _; reflexivity]|]. split; [exact (C2 M2 E2)|].
        intros r Hr L. unfold M2. now rewrite (proj2 (Nat.leb_le _ _) L). }
    destruct NXT as (M2 & R2 & C2 & E2). exists M2. split; [exact (runs_snoc _ _ _ _ _ R1 R2)|]. auto.
Qed.

(** ** No deadlock *)
Context (DC : device_completes n m ep pm D items M0).

Definition rank_done (a : arank) : Prop := a_items a = [] /\ a_act a = Next.

Lemma rank_can ix h s r : J ix h s -> 0 <= r < n -> is_comm (a_act (s_rank s r)) = false -> rank_done (s_rank s r) \/ exists s', astep n pm D order v0 s s'.
Proof.
  intros HJ Hr C. destruct (j_items _ _ _ HJ r Hr) as [JI JL]. pose proof (j_now _ _ _ HJ r Hr) as JN.
  destruct (on_the_way ix h s HJ DC (ix r) JL) as (M & _ & C1 & EM). specialize (EM r Hr (le_n _)).
  unfold now_ok in JN. destruct (a_act (s_rank s r)) as [|l|N T P l|] eqn:EA; [| | |discriminate].
  - destruct (a_items (s_rank s r)) as [|[k|] rest] eqn:EI; [left; split; assumption| |]; right.
    + eexists. exact (as_item n pm D order v0 s r k rest Hr EA EI).
    + eexists. exact (as_enter n pm D order v0 s r rest Hr EA EI).
  - right. destruct l as [|[N T K|v] l].
    + destruct JN as (k & ts & NX & _). destruct (skipn_nth items (ix r)) as (x & _ & SK & _); [apply nth_error_Some; rewrite NX; discriminate|].
      rewrite SK in JI. eexists. exact (as_item_done n pm D order v0 s r x _ Hr EA JI).
    + eexists. exact (as_launch n pm D order v0 s r N T K l Hr EA).
    + eexists. exact (as_alloc n pm D order v0 s r v l Hr EA).
  - right. destruct JN as (k & ts & K & m1 & NX & EK & EX & SS).
    destruct (skipn_nth items (ix r)) as (x & NX' & SK & _); [apply nth_error_Some; rewrite NX; discriminate|]. rewrite NX in NX'. injection NX' as <-. rewrite SK in C1. destruct C1 as [C1 _].
    specialize (C1 r Hr). rewrite EK, EM in C1. apply (completes_rest _ _ _ _ C1) in EX. destruct EX as [[NS _] _].
    destruct (NS _ SS) as (P' & m' & ST & FI). inversion ST as [|? [P1 mm1] ? S1 _]; subst.
    + eexists. exact (as_fence n pm D order v0 s r N T P' l Hr EA FI).
    + eexists. exact (as_thread n pm D order v0 s r N T P l P1 mm1 Hr EA S1).
Qed.

Lemma J_progress ix h s : J ix h s -> afinished n s \/ exists s', astep n pm D order v0 s s'.
Proof.
  intros HJ. destruct (classic (exists s', astep n pm D order v0 s s')) as [Y|NS]; [now right|left].
  pose proof (j_comm _ _ _ HJ h (fun _ _ _ _ => eq_refl)) as I.
  assert (OUT : forall r, 0 <= r < n -> is_comm (a_act (s_rank s r)) = false -> rank_done (s_rank s r)).
  { intros r Hr C. destruct (rank_can ix h s r HJ Hr C) as [Y|Y]; [exact Y|contradiction]. }
  assert (FIN : CommModel.finished (cE h) (abs h s)).
  { destruct (progress iter zero m ep (cE h) (cE_wf h) (EE h O) _ I) as [F|(g' & ST)]; [exact F|]. exfalso. destruct ST as [r g' Hr E|j g' E].
    - change (c_n (cE h)) with n in Hr. destruct (is_comm (a_act (s_rank s r))) eqn:C.
      + assert (EA : a_act (s_rank s r) = Comm) by (destruct (a_act (s_rank s r)); try discriminate; reflexivity).
        destruct (classic (unpacked pm r (a_rk (s_rank s r)))) as [U|U].
        * apply NS. pose proof (j_now _ _ _ HJ r Hr) as JN. unfold now_ok in JN. rewrite EA in JN. destruct JN as [NX _]. destruct (j_items _ _ _ HJ r Hr) as [JI _].
          destruct (skipn_nth items (ix r)) as (x & _ & SK & _); [apply nth_error_Some; rewrite NX; discriminate|]. rewrite SK in JI.
          eexists. exact (as_leave n pm D order v0 s r x _ Hr EA U JI).
        * apply NS. destruct (rank_step_local (comm_cfg n pm order v0) (cE h) r (comm_of s) (abs h s)) as (o & O1 & O2); try reflexivity.
          -- cbn. now rewrite C.
          -- intros q _. rewrite abs_ent. reflexivity.
          -- intros x Hx. unfold msg_content. destruct (m_data x); [reflexivity|]. exact (content_abs h s x I Hx).
          -- exact U.
          -- rewrite E in O2. destruct o as [y|]; [|discriminate]. eexists. exact (as_comm n pm D order v0 s r _ Hr EA U O1).
      + destruct (OUT r Hr C) as [D1 D2]. destruct (j_items _ _ _ HJ r Hr) as [JI JL]. rewrite D1 in JI. symmetry in JI. apply skipn_end in JI; [|exact JL].
        unfold rank_step in E. cbn [g_rk abs] in E. rewrite C in E. unfold start in E. cbn [c_rounds cE c_pm c_v0] in E. rewrite (j_rnd _ _ _ HJ r Hr), JI in E.
        change (cnt items (length items)) with (total items) in E. rewrite Nat.eqb_refl in E. discriminate.
    - apply NS. unfold copy_step in E. cbn [g_net abs] in E. destruct (nth_error (s_net s) j) as [x|] eqn:Ex; [|discriminate]. destruct (m_data x) eqn:Ed; [discriminate|].
      eexists. apply (as_copy n pm D order v0 s j). unfold copy_step. cbn [g_net comm_of]. rewrite Ex, Ed. reflexivity. }
  intros r Hr. destruct (is_comm (a_act (s_rank s r))) eqn:C; [|exact (OUT r Hr C)]. exfalso.
  specialize (FIN r Hr). pose proof (ri_done _ _ _ _ _ _ (inv_rk _ _ _ _ _ I r Hr)) as RD. rewrite (abs_in h s r C) in FIN, RD. apply RD in FIN. cbn in FIN. rewrite (j_rnd _ _ _ HJ r Hr) in FIN.
  pose proof (j_now _ _ _ HJ r Hr) as JN. unfold now_ok in JN. destruct (a_act (s_rank s r)); try discriminate. destruct JN as [NX _]. pose proof (cnt_before items _ NX). lia.
Qed.

(** ** The end *)
Lemma J_finished ix h s : J ix h s -> afinished n s -> device_runs n m ep pm D items M0 (fun r => a_mem (s_rank s r)) /\ s_net s = [].
Proof.
  intros HJ F. assert (E : forall r, 0 <= r < n -> ix r = length items /\ a_mem (s_rank s r) = h (length items) r).
  { intros r Hr. destruct (F r Hr) as [D1 D2]. destruct (j_items _ _ _ HJ r Hr) as [JI JL]. rewrite D1 in JI. symmetry in JI. apply skipn_end in JI; [|exact JL].
    pose proof (j_now _ _ _ HJ r Hr) as JN. unfold now_ok in JN. rewrite D2, JI in JN. auto. }
  split.
  - destruct (on_the_way ix h s HJ DC (length items) (le_n _)) as (M & R1 & _ & EM). rewrite firstn_all in R1.
    assert (X : forall its Ma Mb Mc, device_runs n m ep pm D its Ma Mb -> (forall r, 0 <= r < n -> Mc r = Mb r) -> device_runs n m ep pm D its Ma Mc).
    { induction its as [|[k|] its IHi]; intros Ma Mb Mc R EQ; cbn [device_runs] in *.
      - intros r Hr. rewrite (EQ r Hr). auto.
      - destruct R as (M1 & Q & R). exists M1. eauto.
      - destruct R as (M1 & Q & R). exists M1. eauto. }
    apply (X _ _ M); [exact R1|]. intros r Hr. destruct (E r Hr) as [E1 E2]. rewrite (EM r Hr) by lia. exact E2.
  - pose proof (j_comm _ _ _ HJ h (fun _ _ _ _ => eq_refl)) as I. refine (Inv_finished_net m ep (cE h) (EE h O) (abs h s) I _).
    intros r Hr. change (c_n (cE h)) with n in Hr. destruct (F r Hr) as [_ D2]. cbn. rewrite D2. cbn [is_comm]. unfold start. cbn [c_rounds cE c_pm c_v0]. rewrite (j_rnd _ _ _ HJ r Hr), (proj1 (E r Hr)).
    change (cnt items (length items)) with (total items). now rewrite Nat.eqb_refl.
Qed.

(** ** Every schedule ends *)
(** Teams have threads. *)
Context (TS : forall k r N T K, In (Kernels k) items -> 0 <= r < n -> In (Launch N T K) (k r) -> 0 < T).

Definition code_of (a : activity) : code := match a with Busy N T P _ => (N, T, P) | _ => (0, 0, fun _ _ => []) end.
Definition codes (s : astate) : Z -> code := fun r => code_of (a_act (s_rank s r)).
Lemma moves_less ix h s s' : J ix h s -> thread_moves s s' -> less code_less (zseq n) (codes s') (codes s).
Proof.
  intros HJ (r & N & T & P & P' & l & μ & μ' & Hr & E1 & E2 & ST & E3).
  pose proof (j_now _ _ _ HJ r Hr) as JN. unfold now_ok in JN. rewrite E1 in JN. destruct JN as (k & ts & K & m1 & NX & EK & _).
  assert (HT : 0 < T). { apply (TS k r N T K); [exact (nth_error_In _ _ NX)|exact Hr|]. rewrite EK. apply in_or_app. right. now left. }
  pose proof (step_code_less N T P μ P' μ' HT ST) as L. split.
  - exists r. split; [now apply In_zseq|]. unfold codes. rewrite E1, E2. exact L.
  - intros q _. destruct (Z.eq_dec q r) as [->|Nq]; [right; unfold codes; rewrite E1, E2; exact L|left]. unfold codes. now rewrite (E3 q Nq).
Qed.

Lemma phi_abs H H' s : phi (cE H) (abs H s) = phi (cE H') (abs H' s).
Proof.
  unfold phi. cbn [g_net abs c_n cE]. f_equal. f_equal. f_equal. apply map_ext. intros r. unfold rem, len. cbn [g_rk abs c_rounds cE].
  change (CommProof.nn (cE H) r) with (CommProof.nn (cE H') r).
  destruct (is_comm (a_act (s_rank s r))); [reflexivity|]. unfold start. cbn [c_rounds cE]. destruct (Nat.eqb _ _); reflexivity.
Qed.
Definition size (h : nat -> Z -> mem) (s : astate) : Z := W s + phi (cE h) (abs h s).
Lemma size_nonneg ix h s : J ix h s -> 0 <= size h s.
Proof.
  intros HJ. pose proof (j_comm _ _ _ HJ h (fun _ _ _ _ => eq_refl)) as I. pose proof (phi_nonneg m ep (cE h) (EE h O) (abs h s) I). pose proof (W_nonneg s). unfold size. lia.
Qed.
Lemma step_size ix h s s' : J ix h s -> astep n pm D order v0 s s' -> exists ix' h', J ix' h' s' /\
  (size h' s' < size h s \/ (size h' s' = size h s /\ less code_less (zseq n) (codes s') (codes s))).
Proof.
  intros HJ ST. destruct (J_step ix h s s' HJ ST) as (ix' & h' & HJ' & EX & CASES). exists ix', h'. split; [exact HJ'|].
  assert (EX0 : extends ix' h' h') by (intros ? ? ? ?; reflexivity). pose proof (j_comm _ _ _ HJ h' (EX h' EX0)) as I.
  assert (PS : forall g, CommModel.step (cE h') (abs h' s) g -> phi (cE h') g < phi (cE h) (abs h s)).
  { intros g SG. rewrite (phi_abs h h' s). exact (phi_step iter zero m ep (cE h') (cE_wf h') eq_refl (EE h' O) (EE_sized h' O) _ _ I SG). }
  unfold size. destruct CASES as [[L C]|[[L C]|(L & C & TM)]].
  - left. destruct (C h' EX0) as [E|SG]; [rewrite E, (phi_abs h h' s); lia|]. specialize (PS _ SG). lia.
  - left. specialize (PS _ (C h' EX0)). lia.
  - right. split; [rewrite C, (phi_abs h h' s); lia|]. exact (moves_less ix h s s' HJ TM).
Qed.

Lemma J_ends ix h s : J ix h s -> Acc (fun b a => astep n pm D order v0 a b) s.
Proof.
  intros HJ. assert (K : forall q : nat, forall ix h s, J ix h s -> size h s < Z.of_nat q -> Acc (fun b a => astep n pm D order v0 a b) s).
  { induction q as [|q IHq]; intros ix1 h1 s1 J1 L; [pose proof (size_nonneg _ _ _ J1); lia|].
    remember (codes s1) as f eqn:Ef. revert ix1 h1 s1 J1 L Ef. induction (less_wf code_less code_wf (zseq n) f) as [f _ IHf]. intros ix1 h1 s1 J1 L Ef.
    constructor. intros s2 ST. destruct (step_size ix1 h1 s1 s2 J1 ST) as (ix2 & h2 & J2 & [C|[C TM]]).
    - apply (IHq ix2 h2 s2 J2). lia.
    - apply (IHf (codes s2)) with (ix1 := ix2) (h1 := h2); auto; [rewrite Ef; exact TM|lia]. }
  apply (K (Z.to_nat (size h s + 1)) ix h s HJ). pose proof (size_nonneg _ _ _ HJ). lia.
Qed.
End Run.
