(** TeamSetupProof.v -- what the phases of the kernels of TeamSetup.v do, and that
    none of them depends on the schedule. *)
From Coq Require Import ZArith List Lia Reals Lra Bool Permutation FunctionalExtensionality.
From Verif Require Import Base RBase LinAlgModel LinAlgProof QuadModel BasisModel PhysModel ShapeModel MeshModel SolverModel SetupModel
  TeamModel TeamProof TeamPhases TeamKernels TeamKernelProof TeamLaunch TeamSetup SetupProof.
Import ListNotations.
Local Open Scope R_scope.
Open Scope res_scope.

(** ** Loading and storing matrices *)
Definition loaded (n0 n1 : Z) (l : Z -> Z -> loc) (junk : arr2) (m : mem) : arr2 :=
  zloop n0 (fun i A => zloop n1 (fun j A => upd2 A i j (m (l i j))) A) junk.
Lemma loaded_in n0 n1 l junk m i j : (0 <= i < n0)%Z -> (0 <= j < n1)%Z -> loaded n0 n1 l junk m i j = m (l i j).
Proof.
  intros Hi Hj. unfold loaded. rewrite (zloop_fill2 n0 n1 (fun i j => m (l i j))).
  destruct (Z.leb_spec 0 i), (Z.ltb_spec i n0), (Z.leb_spec 0 j), (Z.ltb_spec j n1); try lia. reflexivity.
Qed.
Lemma run_load_mat n0 n1 l junk k m : run (load_mat n0 n1 l junk k) m = run (k (loaded n0 n1 l junk m)) m.
Proof.
  unfold load_mat, loaded. apply run_pacc. intros i A k' _. apply run_pacc. intros j A' k'' _. reflexivity.
Qed.
Lemma conf_load_mat (W A : loc -> Prop) n0 n1 l junk k : (forall i j, (0 <= i < n0)%Z -> (0 <= j < n1)%Z -> W (l i j) \/ A (l i j)) ->
  (forall M, confined W A (k M)) -> confined W A (load_mat n0 n1 l junk k).
Proof.
  intros H HK. unfold load_mat. apply confined_pacc; [|exact HK]. intros i a k' Hi Hk. apply confined_pacc; [|exact Hk].
  intros j b k'' Hj Hk'. cbn. split; [now apply H|]. intros v. apply Hk'.
Qed.
Lemma conf_store_mat (W A : loc -> Prop) n0 n1 l a : (forall i j, (0 <= i < n0)%Z -> (0 <= j < n1)%Z -> W (l i j)) -> confined W A (store_mat n0 n1 l a).
Proof. intros H. unfold store_mat. apply confined_pfor. intros i Hi. apply confined_pfor. intros j Hj. cbn. auto. Qed.

Lemma run_stores n (l : Z -> loc) (v : Z -> R) m : (forall i j, l i = l j -> i = j) ->
  (forall i, (0 <= i < n)%Z -> run (pfor n (fun i => Store (l i) (v i) Done)) m (l i) = v i) /\
  (forall a, (forall i, (0 <= i < n)%Z -> a <> l i) -> run (pfor n (fun i => Store (l i) (v i) Done)) m a = m a).
Proof.
  intros IN. rewrite run_pfor. destruct (loop_effect (mkTL n (fun _ => 0%Z) (fun i => Store (l i) (v i) Done)) (fun i a => a = l i) (fun _ _ => False) m) as [X Y].
  - intros i _. cbn. auto.
  - intros i j a _ _ N -> [E|[]]. apply N. now apply IN.
  - split.
    + intros i Hi. etransitivity; [exact (X i (l i) Hi eq_refl)|]. cbn. apply store_eq.
    + intros a Ha. apply Y. cbn. intros i Hi E. exact (Ha i Hi E).
Qed.
Lemma run_store_mat n0 n1 l a m : (forall i j i' j', l i j = l i' j' -> i = i' /\ j = j') ->
  (forall i j, (0 <= i < n0)%Z -> (0 <= j < n1)%Z -> run (store_mat n0 n1 l a) m (l i j) = a i j) /\
  (forall b, (forall i j, (0 <= i < n0)%Z -> (0 <= j < n1)%Z -> b <> l i j) -> run (store_mat n0 n1 l a) m b = m b).
Proof.
  intros IN. unfold store_mat. rewrite run_pfor.
  set (B := fun i => pfor n1 (fun j => Store (l i j) (a i j) Done)).
  destruct (loop_effect (mkTL n0 (fun _ => 0%Z) B) (fun i b => exists j, (0 <= j < n1)%Z /\ b = l i j) (fun _ _ => False) m) as [X Y].
  - intros i _. apply confined_pfor. intros j Hj. cbn. eauto.
  - intros i i' b _ _ N (j & _ & ->) [(j' & _ & E)|[]]. apply N. now destruct (IN _ _ _ _ E).
  - split.
    + intros i j Hi Hj. etransitivity; [exact (X i (l i j) Hi (ex_intro _ j (conj Hj eq_refl)))|].
      apply (run_stores n1 (l i) (a i) m); [|exact Hj]. intros j1 j2 E. now destruct (IN _ _ _ _ E).
    + intros b Hb. apply Y. cbn. intros i Hi (j & Hj & E). exact (Hb i j Hi Hj E).
Qed.

(** ** Code every thread executes *)
Lemma settled_seq S V m p q : settled S V m p -> settled S V m q -> settled S V m (seq p q).
Proof. intros HP HQ. induction p as [|l k IH|l v k IH]; cbn in *; [exact HQ| |]; tauto || (destruct HP; auto). Qed.
Lemma settled_pfor S V m n body : (forall i, (0 <= i < n)%Z -> settled S V m (body i)) -> settled S V m (pfor n body).
Proof.
  intros H. unfold pfor. assert (X : forall l p, (forall i, In i l -> (0 <= i < n)%Z) -> settled S V m p ->
    settled S V m (fold_left (fun p i => seq p (body i)) l p)).
  { induction l as [|i l IH]; intros p Hl Hp; cbn; [easy|]. apply IH; [intros j Hj; apply Hl; now right|]. apply settled_seq; [exact Hp|]. apply H, Hl. now left. }
  apply X; [|exact Logic.I]. intros i Hi. now apply In_zseq.
Qed.
Lemma settled_pacc {X} S V m n (stp : Z -> X -> (X -> prog) -> prog) (f : Z -> X -> X) a0 k :
  (forall i a k, (0 <= i < n)%Z -> settled S V m (k (f i a)) -> settled S V m (stp i a k)) ->
  settled S V m (k (zloop n f a0)) -> settled S V m (pacc n stp a0 k).
Proof.
  intros H. unfold pacc, zloop. assert (G : forall l, (forall i, In i l -> (0 <= i < n)%Z) -> forall a,
    settled S V m (k (fold_left (fun s i => f i s) l a)) -> settled S V m (fold_right (fun i k a => stp i a k) k l a)).
  { induction l as [|i l IH]; intros Hl a Ha; cbn; [easy|]. apply H; [apply Hl; now left|]. apply IH; [intros j Hj; apply Hl; now right|exact Ha]. }
  apply G. intros i Hi. now apply In_zseq.
Qed.
Lemma settled_load_mat (S : loc -> Prop) V m n0 n1 l junk k : (forall i j, (0 <= i < n0)%Z -> (0 <= j < n1)%Z -> ~ S (l i j)) ->
  settled S V m (k (loaded n0 n1 l junk m)) -> settled S V m (load_mat n0 n1 l junk k).
Proof.
  intros H HK. unfold load_mat.
  apply (settled_pacc S V m n0 _ (fun i A => zloop n1 (fun j A => upd2 A i j (m (l i j))) A)); [|exact HK].
  intros i a k' Hi Hk. apply (settled_pacc S V m n1 _ (fun j A => upd2 A i j (m (l i j)))); [|exact Hk].
  intros j b k'' Hj Hk'. cbn. split; [now apply H|exact Hk'].
Qed.
Lemma settled_store_mat (S : loc -> Prop) V m n0 n1 l a : (forall i j, (0 <= i < n0)%Z -> (0 <= j < n1)%Z -> S (l i j) /\ a i j = V (l i j)) ->
  settled S V m (store_mat n0 n1 l a).
Proof. intros H. unfold store_mat. apply settled_pfor. intros i Hi. apply settled_pfor. intros j Hj. cbn. destruct (H i j Hi Hj). auto. Qed.

(** ** Products *)
Record operand_on (o : operand) (F : loc -> Prop) (val : mem -> arr2) : Prop := {
  on_ok : operand_ok o F val;
  on_dep : forall m m' i j, (forall a, F a -> m a = m' a) -> val m i j = val m' i j
}.
Lemma table_on a F : operand_on (table a) F (fun _ => a).
Proof. constructor; [apply table_ok|reflexivity]. Qed.
Lemma inmem_on l (F : loc -> Prop) : (forall i j, F (l i j)) -> operand_on (inmem l) F (fun m i j => m (l i j)).
Proof. intros H. constructor; [now apply inmem_ok|]. intros m m' i j E. now apply E. Qed.
Lemma flip_on o F val : operand_on o F val -> operand_on (flip o) F (fun m i j => val m j i).
Proof.
  intros [[H1 H2] H3]. constructor; [constructor|]; unfold flip.
  - intros i j k m. apply H1.
  - intros W i j k H. now apply H2.
  - intros m m' i j E. now apply H3.
Qed.

Section Product.
Context (m n k : Z) (alpha : R) (A B : operand) (C : Z -> Z -> loc) (F : loc -> Prop) (vA vB : mem -> arr2) (own0 own1 : Z -> Z).
Context (Hn : (0 <= n)%Z) (CI : forall i j i' j', C i j = C i' j' -> i = i' /\ j = j') (HA : operand_on A F vA) (HB : operand_on B F vB)
  (HF : forall i j, ~ F (C i j)).
Let LS := gemm_set m n C own0.
Let LA := gemm_add m n k alpha A B C own1.

Definition pW (ij : Z) (a : loc) : Prop := a = C (ij / n)%Z (ij mod n)%Z.
Lemma product_apart i j a : (0 <= i < m * n)%Z -> (0 <= j < m * n)%Z -> i <> j -> pW i a -> ~ (pW j a \/ F a).
Proof.
  intros Hi Hj N -> [E|E]; [|exact (HF _ _ E)]. destruct (CI _ _ _ _ E) as [E1 E2]. apply N. apply (flat_inj n); auto. exact (flat_pos m n i Hn Hi).
Qed.
Lemma set_conf i : confined (pW i) F (tl_body LS i).
Proof. cbn. split; [reflexivity|exact Logic.I]. Qed.
Lemma add_conf i : confined (pW i) F (tl_body LA i).
Proof. exact (gemm_dot_conf k alpha A B C _ _ F vA vB (on_ok _ _ _ HA) (on_ok _ _ _ HB)). Qed.

Lemma product_run μ :
  (forall i j, (0 <= i < m)%Z -> (0 <= j < n)%Z -> loop_run LA (loop_run LS μ) (C i j) = alpha * rsum k (fun p => vA μ i p * vB μ p j)) /\
  (forall a, (forall i j, (0 <= i < m)%Z -> (0 <= j < n)%Z -> a <> C i j) -> loop_run LA (loop_run LS μ) a = μ a).
Proof.
  destruct (loop_effect LS pW (fun _ => F) μ) as [S1 S2]; [intros i _; apply set_conf|intros i j a Hi Hj; now apply product_apart|].
  destruct (loop_effect LA pW (fun _ => F) (loop_run LS μ)) as [A1 A2]; [intros i _; apply add_conf|intros i j a Hi Hj; now apply product_apart|].
  assert (EF : forall a, F a -> loop_run LS μ a = μ a) by (intros a Ha; apply S2; intros i _ ->; exact (HF _ _ Ha)).
  split.
  - intros i j Hi Hj. destruct (flat_of m n i j Hi Hj) as (F1 & F2 & F3).
    assert (PW : pW (i * n + j) (C i j)) by (unfold pW; now rewrite F2, F3).
    rewrite (A1 _ _ F1 PW). cbn [tl_body LA gemm_add]. rewrite F2, F3.
    rewrite (gemm_dot_run k alpha A B C i j F vA vB _ (on_ok _ _ _ HA) (on_ok _ _ _ HB)), store_eq.
    rewrite (S1 _ _ F1 PW). cbn [tl_body LS gemm_set run]. rewrite F2, F3, store_eq, Rplus_0_l. f_equal.
    apply rsum_ext. intros p _. f_equal; [apply (on_dep _ _ _ HA)|apply (on_dep _ _ _ HB)]; exact EF.
  - intros a Ha. assert (NW : forall i, (0 <= i < m * n)%Z -> ~ pW i a).
    { intros i Hi E. destruct (flat_idx m n i Hn Hi). exact (Ha _ _ H H0 E). }
    rewrite A2 by exact NW. now apply S2.
Qed.

Lemma serial_run μ :
  (forall i j, (0 <= i < m)%Z -> (0 <= j < n)%Z -> run (serial_gemm m n k alpha A B C) μ (C i j) = alpha * rsum k (fun p => vA μ i p * vB μ p j)) /\
  (forall a, (forall i j, (0 <= i < m)%Z -> (0 <= j < n)%Z -> a <> C i j) -> run (serial_gemm m n k alpha A B C) μ a = μ a).
Proof.
  assert (E : run (serial_gemm m n k alpha A B C) μ = loop_run LA (loop_run LS μ)).
  { unfold serial_gemm. rewrite run_seq, !run_pfor. reflexivity. }
  rewrite E. apply product_run.
Qed.
Lemma serial_conf (W A' : loc -> Prop) : (forall i j, (0 <= i < m)%Z -> (0 <= j < n)%Z -> W (C i j)) -> (forall a, F a -> W a \/ A' a) ->
  confined W A' (serial_gemm m n k alpha A B C).
Proof.
  intros HW HA'. unfold serial_gemm. apply confined_seq; apply confined_pfor; intros i Hi; destruct (flat_idx m n i Hn Hi).
  - cbn. auto.
  - apply (confined_weaken (pW i) F); [intros a ->; auto|exact HA'|apply add_conf].
Qed.

Lemma set_ok g T : (forall i, (0 <= own0 i < T)%Z) -> (forall i j, mine g (C i j)) -> phase_ok g T (Loop LS).
Proof.
  intros HO HM. exists pW, (fun _ _ => False). constructor.
  - intros i _. apply HO.
  - intros i _. cbn. split; [reflexivity|exact Logic.I].
  - intros i j a Hi Hj N Hw [E|[]]. apply (product_apart i j a Hi Hj N Hw). now left.
  - intros i a _ [->|[]]. apply HM.
Qed.
Lemma add_ok g T : (forall i, (0 <= own1 i < T)%Z) -> (forall i j, mine g (C i j)) -> (forall a, F a -> mine g a) -> phase_ok g T (Loop LA).
Proof.
  intros HO HM HFm. exists pW, (fun _ => F). constructor.
  - intros i _. apply HO.
  - intros i _. apply add_conf.
  - intros i j a Hi Hj. now apply product_apart.
  - intros i a _ [->|Ha]; [apply HM|now apply HFm].
Qed.
End Product.

(** ** The small linear algebra looks only at the entries of its matrices *)
Definition eqm (n0 n1 : Z) (A B : arr2) : Prop := forall i j, (0 <= i < n0)%Z -> (0 <= j < n1)%Z -> A i j = B i j.

Lemma zloop_rel {S} n (f g : Z -> S -> S) (Rel : S -> S -> Prop) :
  (forall i s t, (0 <= i < n)%Z -> Rel s t -> Rel (f i s) (g i t)) -> forall s t, Rel s t -> Rel (zloop n f s) (zloop n g t).
Proof.
  intros H. unfold zloop. assert (X : forall l, (forall i, In i l -> (0 <= i < n)%Z) -> forall s t, Rel s t ->
    Rel (fold_left (fun s i => f i s) l s) (fold_left (fun s i => g i s) l t)).
  { induction l as [|i l IH]; intros Hl s t E; cbn; [exact E|]. apply IH; [intros j Hj; apply Hl; now right|]. apply H; [apply Hl; now left|exact E]. }
  apply X. intros i Hi. now apply In_zseq.
Qed.
Lemma upd2_eqm n0 n1 A B i j x y : eqm n0 n1 A B -> x = y -> eqm n0 n1 (upd2 A i j x) (upd2 B i j y).
Proof. intros H -> i' j' Hi Hj. unfold upd2. destruct (_ && _)%bool; auto. Qed.
Lemma lu_eqm n A B : eqm n n A B -> eqm n n (lu n A) (lu n B).
Proof.
  intros H. unfold lu. revert H. apply (zloop_rel n _ _ (eqm n n)). intros p A1 B1 Hp. apply (zloop_rel (n - p - 1) _ _ (eqm n n)).
  intros i A2 B2 Hi H2. cbv zeta.
  assert (H3 : eqm n n (upd2 A2 (p + 1 + i) p (A2 (p + 1 + i)%Z p / A2 p p)) (upd2 B2 (p + 1 + i) p (B2 (p + 1 + i)%Z p / B2 p p))).
  { apply upd2_eqm; [exact H2|]. rewrite !H2 by lia. reflexivity. }
  revert H3. apply (zloop_rel (n - p - 1) _ _ (eqm n n)). intros j A3 B3 Hj H4. apply upd2_eqm; [exact H4|]. rewrite !H4 by lia. reflexivity.
Qed.
Lemma lower_eqm m n L L' B B' : eqm m m L L' -> eqm m n B B' -> eqm m n (solve_lower m n L B) (solve_lower m n L' B').
Proof.
  intros HL. unfold solve_lower. apply (zloop_rel m _ _ (eqm m n)). intros p A1 B1 Hp. apply (zloop_rel (m - p - 1) _ _ (eqm m n)).
  intros i A2 B2 Hi. cbv zeta. apply (zloop_rel n _ _ (eqm m n)). intros j A3 B3 Hj H4. apply upd2_eqm; [exact H4|]. rewrite !H4, HL by lia. reflexivity.
Qed.
Lemma upper_eqm m n L L' B B' : eqm m m L L' -> eqm m n B B' -> eqm m n (solve_upper m n L B) (solve_upper m n L' B').
Proof.
  intros HL. unfold solve_upper. apply (zloop_rel m _ _ (eqm m n)). intros q A1 B1 Hq H1. cbv zeta.
  assert (H2 : eqm m n (zloop n (fun j B => upd2 B (m - 1 - q) j (B (m - 1 - q)%Z j / L (m - 1 - q)%Z (m - 1 - q)%Z)) A1)
                       (zloop n (fun j B => upd2 B (m - 1 - q) j (B (m - 1 - q)%Z j / L' (m - 1 - q)%Z (m - 1 - q)%Z)) B1)).
  { revert H1. apply (zloop_rel n _ _ (eqm m n)). intros j A3 B3 Hj H4. apply upd2_eqm; [exact H4|]. rewrite !H4, HL by lia. reflexivity. }
  revert H2. apply (zloop_rel (m - 1 - q) _ _ (eqm m n)). intros i A2 B2 Hi. apply (zloop_rel n _ _ (eqm m n)).
  intros j A3 B3 Hj H4. apply upd2_eqm; [exact H4|]. rewrite !H4, HL by lia. reflexivity.
Qed.
Lemma identity_eqm n A B : eqm n n A B -> eqm n n (identity n n A) (identity n n B).
Proof. intros H i j Hi Hj. rewrite !identity_entry. destruct (_ && _)%bool; auto. Qed.

(** The inverse of a 1x1, 2x2, 3x3 matrix does not depend on the previous content. *)
Lemma invA_small n A B X Y : (1 <= n <= 3)%Z -> eqm n n A B -> eqm n n (invA n A X) (invA n B Y).
Proof.
  intros Hn H i j Hi Hj. unfold invA.
  destruct (Z.eqb_spec n 1) as [->|]; [|destruct (Z.eqb_spec n 2) as [->|]; [|destruct (Z.eqb_spec n 3) as [->|]; [|lia]]]; cbv zeta.
  - rewrite (H 0 0)%Z by lia. assert (i = 0%Z) as -> by lia. assert (j = 0%Z) as -> by lia. reflexivity.
  - rewrite (H 0 0)%Z, (H 0 1)%Z, (H 1 0)%Z, (H 1 1)%Z by lia.
    assert (i = 0 \/ i = 1)%Z as [-> | ->] by lia; assert (j = 0 \/ j = 1)%Z as [-> | ->] by lia; reflexivity.
  - rewrite (H 0 0)%Z, (H 0 1)%Z, (H 0 2)%Z, (H 1 0)%Z, (H 1 1)%Z, (H 1 2)%Z, (H 2 0)%Z, (H 2 1)%Z, (H 2 2)%Z by lia.
    assert (i = 0 \/ i = 1 \/ i = 2)%Z as [-> | [-> | ->]] by lia; assert (j = 0 \/ j = 1 \/ j = 2)%Z as [-> | [-> | ->]] by lia; reflexivity.
Qed.
Lemma invA_eqm n A B X Y : (1 <= n)%Z -> eqm n n A B -> eqm n n X Y -> eqm n n (invA n A X) (invA n B Y).
Proof.
  intros Hn HA HX. destruct (Z_le_gt_dec n 3) as [H|H]; [apply invA_small; auto; lia|]. unfold invA.
  rewrite (proj2 (Z.eqb_neq n 1)), (proj2 (Z.eqb_neq n 2)), (proj2 (Z.eqb_neq n 3)) by lia. cbv zeta.
  apply upper_eqm; [now apply lu_eqm|]. apply lower_eqm; [now apply lu_eqm|]. now apply identity_eqm.
Qed.
Lemma det_eqm n A B x y : (n = 2 \/ n = 3)%Z -> eqm n n A B -> det n A x = det n B y.
Proof.
  intros [-> | ->] H; unfold det; cbn [Z.eqb Pos.eqb].
  - rewrite (H 0 0)%Z, (H 0 1)%Z, (H 1 0)%Z, (H 1 1)%Z by lia. reflexivity.
  - rewrite (H 0 0)%Z, (H 0 1)%Z, (H 0 2)%Z, (H 1 0)%Z, (H 1 1)%Z, (H 1 2)%Z, (H 2 0)%Z, (H 2 1)%Z, (H 2 2)%Z by lia. reflexivity.
Qed.

(** ** The element's nodes *)
Lemma zfor_each {S} n (f : Z -> S -> res S) s s' : zfor n f s = Ok s' -> forall i, (0 <= i < n)%Z -> exists a b, f i a = Ok b.
Proof.
  revert s'. induction n as [n H|n H IH] using zind; intros s' E i Hi; [lia|]. rewrite zfor_S in E by lia.
  destruct (zfor n f s) as [s1|] eqn:E1; [|discriminate]. cbn [bind] in E. destruct (Z.eq_dec i n) as [->|]; [eauto|]. apply (IH s1 eq_refl). lia.
Qed.
Lemma pfor_ext n b b' : (forall i, (0 <= i < n)%Z -> b i = b' i) -> pfor n b = pfor n b'.
Proof.
  intros H. unfold pfor. assert (X : forall l p, (forall i, In i l -> (0 <= i < n)%Z) ->
    fold_left (fun p i => seq p (b i)) l p = fold_left (fun p i => seq p (b' i)) l p).
  { induction l as [|i l IH]; intros p Hl; cbn; [easy|]. rewrite H by (apply Hl; now left). apply IH. intros j Hj. apply Hl. now right. }
  apply X. intros i Hi. now apply In_zseq.
Qed.
Lemma coords_inv pm npe dim e junk c : (0 <= npe)%Z -> (0 <= dim)%Z -> elem_coords_from_elem_ID pm npe dim e junk = Ok c ->
  forall i j, (0 <= i < npe)%Z -> (0 <= j < dim)%Z ->
  (nd <- rd2 (pm_elem_to_node pm) e i ;; rd2 (pm_node_coords pm) nd j) = Ok (c i j).
Proof.
  intros Hn Hd E. set (f := fun i j => nd <- rd2 (pm_elem_to_node pm) e i ;; rd2 (pm_node_coords pm) nd j).
  assert (EF : forall i j c0, (nd <- rd2 (pm_elem_to_node pm) e i ;; v <- rd2 (pm_node_coords pm) nd j ;; Ok (upd2 c0 i j v)) = (v <- f i j ;; Ok (upd2 c0 i j v))).
  { intros i j c0. unfold f. destruct (rd2 (pm_elem_to_node pm) e i); reflexivity. }
  assert (OKf : forall i j, (0 <= i < npe)%Z -> (0 <= j < dim)%Z -> exists v, f i j = Ok v).
  { intros i j Hi Hj. unfold elem_coords_from_elem_ID in E. destruct (zfor_each npe _ _ _ E i Hi) as (a & b & E1).
    destruct (zfor_each dim _ _ _ E1 j Hj) as (a1 & b1 & E2). rewrite EF in E2. destruct (f i j) as [v|]; [eauto|discriminate]. }
  destruct (SetupProof.zfor_fill2 npe dim f (fun i j => match f i j with Ok v => v | Fail _ => 0 end) junk Hn Hd) as (c' & E' & V).
  { intros i j Hi Hj. destruct (OKf i j Hi Hj) as [v ->]. reflexivity. }
  assert (EC : elem_coords_from_elem_ID pm npe dim e junk = Ok c').
  { rewrite <- E'. unfold elem_coords_from_elem_ID. apply SetupProof.zfor_ext. intros i s _. apply SetupProof.zfor_ext. intros j s' _. apply EF. }
  rewrite E in EC. injection EC as <-. intros i j Hi Hj. rewrite V, (proj2 (inb_true npe i) Hi), (proj2 (inb_true dim j) Hj). cbn [andb].
  fold (f i j). destruct (OKf i j Hi Hj) as [v ->]. reflexivity.
Qed.
Lemma at3_inj v e i j i' j' : at3 v e i j = at3 v e i' j' -> i = i' /\ j = j'.
Proof. intros E. injection E. auto. Qed.
Lemma at4_inj v e q i j i' j' : At v e q i j = At v e q i' j' -> i = i' /\ j = j'.
Proof. intros E. injection E. auto. Qed.

Lemma coords_code_ok pm npe dim e junk c : (0 <= npe)%Z -> (0 <= dim)%Z -> elem_coords_from_elem_ID pm npe dim e junk = Ok c ->
  coords_code pm npe dim e = store_mat npe dim (at3 vCrd e) c.
Proof.
  intros Hn Hd E. unfold coords_code, store_mat. apply pfor_ext. intros i Hi. apply pfor_ext. intros j Hj.
  pose proof (coords_inv pm npe dim e junk c Hn Hd E i j Hi Hj) as X. destruct (rd2 (pm_elem_to_node pm) e i) as [nd|]; [|discriminate].
  cbn [bind] in *. rewrite X. reflexivity.
Qed.

(** Writes into the views [vs] of team [e] only. *)
Definition in_views (e : Z) (vs : list Z) (a : loc) : Prop := match a with At v i _ _ _ => i = e /\ In v vs end.
Lemma in_views_mine e vs a : in_views e vs a -> mine e a.
Proof. destruct a as [v i j k l]. cbn. tauto. Qed.

Section Points.
Context (e T dim npe nq : Z) (ggrad : arr3) (junk : arr2) (own : Z -> Z).
Context (Hd : (dim = 2 \/ dim = 3)%Z) (HO : forall i, (0 <= own i < T)%Z).

(** The nodes as the memory has them, and the jacobian at a point. *)
Definition node (μ : mem) (p d : Z) : R := μ (at3 vCrd e p d).
Definition Jm (μ : mem) (iq : Z) : arr2 := fun d1 d2 => rsum npe (fun p => node μ p d1 * ggrad iq p d2).

Definition jW (iq : Z) (a : loc) : Prop :=
  (exists i j, a = At vJac e iq i j) \/ a = at3 vDet e iq 0 \/ (exists i j, a = At vInv e iq i j).
Definition jA (a : loc) : Prop := exists i j, a = at3 vCrd e i j.

Lemma node_on : operand_on (flip (inmem (at3 vCrd e))) jA (fun μ i p => node μ p i).
Proof. apply (flip_on _ jA (fun μ i j => μ (at3 vCrd e i j))). apply inmem_on. intros i j. exists i, j. reflexivity. Qed.

Lemma jac_conf iq : confined (jW iq) jA (jac_body dim npe ggrad junk e iq).
Proof.
  unfold jac_body. apply confined_seq.
  - apply (serial_conf dim dim npe 1 _ _ (At vJac e iq) jA (fun μ i p => node μ p i) (fun _ => ggrad iq) (fun _ => 0%Z)).
    + destruct Hd; lia.
    + apply node_on.
    + apply table_on.
    + intros i j _ _. left. eauto.
    + auto.
  - apply conf_load_mat; [intros i j _ _; left; left; eauto|]. intros J. cbn [confined]. split; [right; left; reflexivity|].
    split; [left; right; left; reflexivity|]. intros _. apply conf_load_mat; [intros i j _ _; left; left; eauto|]. intros J'.
    apply conf_store_mat. intros i j _ _. right. right. eauto.
Qed.
Lemma jac_apart i j a : i <> j -> jW i a -> ~ (jW j a \/ jA a).
Proof.
  intros N Hi [Hj|(p & q & ->)].
  - destruct Hi as [(x & y & ->)|[->|(x & y & ->)]]; destruct Hj as [(x' & y' & E)|[E|(x' & y' & E)]]; try discriminate E; injection E; intros; congruence.
  - destruct Hi as [(x & y & E)|[E|(x & y & E)]]; discriminate E.
Qed.
Definition jac_loop : tloop := mkTL nq own (jac_body dim npe ggrad junk e).
Lemma jac_ok : phase_ok e T (Loop jac_loop).
Proof.
  exists jW, (fun _ => jA). constructor.
  - intros i _. apply HO.
  - intros i _. apply jac_conf.
  - intros i j a _ _. apply jac_apart.
  - intros i a _ [[(x & y & ->)|[->|(x & y & ->)]]|(x & y & ->)]; reflexivity.
Qed.

Lemma jac_body_run iq μ :
  (forall i j, (0 <= i < dim)%Z -> (0 <= j < dim)%Z -> run (jac_body dim npe ggrad junk e iq) μ (At vJac e iq i j) = Jm μ iq i j) /\
  run (jac_body dim npe ggrad junk e iq) μ (at3 vDet e iq 0) = det dim (Jm μ iq) 0 /\
  (forall i j, (0 <= i < dim)%Z -> (0 <= j < dim)%Z -> run (jac_body dim npe ggrad junk e iq) μ (At vInv e iq i j) = invA dim (Jm μ iq) junk i j).
Proof.
  unfold jac_body. rewrite run_seq. set (μ1 := run (serial_gemm _ _ _ _ _ _ _) μ).
  destruct (serial_run dim dim npe 1 (flip (inmem (at3 vCrd e))) (table (ggrad iq)) (At vJac e iq) jA (fun μ i p => node μ p i) (fun _ => ggrad iq) (fun _ => 0%Z) (fun _ => 0%Z)
    (ltac:(destruct Hd; lia)) (at4_inj vJac e iq) node_on (table_on _ _)) with (μ := μ) as [G1 G2].
  { intros i j (p & q & E). discriminate E. }
  fold μ1 in G1, G2. rewrite run_load_mat. set (J := loaded dim dim (At vJac e iq) junk μ1). cbn [run].
  rewrite run_load_mat. set (μ2 := store μ1 (at3 vDet e iq 0) (det dim J 0)).
  set (J' := loaded dim dim (At vJac e iq) junk μ2).
  assert (EJ : eqm dim dim J (Jm μ iq)).
  { intros i j Hi Hj. unfold J. rewrite loaded_in by easy. rewrite G1 by easy. rewrite Rmult_1_l. reflexivity. }
  assert (EJ' : eqm dim dim J' (Jm μ iq)).
  { intros i j Hi Hj. unfold J'. rewrite loaded_in by easy. unfold μ2. rewrite store_neq by discriminate. rewrite G1 by easy. rewrite Rmult_1_l. reflexivity. }
  destruct (run_store_mat dim dim (At vInv e iq) (invA dim J' junk) μ2 (at4_inj vInv e iq)) as [S1 S2].
  split; [|split].
  - intros i j Hi Hj. rewrite S2 by (intros; discriminate). unfold μ2. rewrite store_neq by discriminate. rewrite G1 by easy. rewrite Rmult_1_l. reflexivity.
  - rewrite S2 by (intros; discriminate). unfold μ2. rewrite store_eq. apply det_eqm; auto.
  - intros i j Hi Hj. rewrite S1 by easy. apply invA_small; auto. destruct Hd; lia.
Qed.

Lemma jac_loop_run μ :
  (forall iq i j, (0 <= iq < nq)%Z -> (0 <= i < dim)%Z -> (0 <= j < dim)%Z -> loop_run jac_loop μ (At vJac e iq i j) = Jm μ iq i j) /\
  (forall iq, (0 <= iq < nq)%Z -> loop_run jac_loop μ (at3 vDet e iq 0) = det dim (Jm μ iq) 0) /\
  (forall iq i j, (0 <= iq < nq)%Z -> (0 <= i < dim)%Z -> (0 <= j < dim)%Z -> loop_run jac_loop μ (At vInv e iq i j) = invA dim (Jm μ iq) junk i j) /\
  (forall a, ~ in_views e [vJac; vDet; vInv] a -> loop_run jac_loop μ a = μ a).
Proof.
  destruct (loop_effect jac_loop jW (fun _ => jA) μ) as [X Y].
  - intros i _. apply jac_conf.
  - intros i j a _ _. apply jac_apart.
  - split; [|split; [|split]].
    + intros iq i j Hq Hi Hj. rewrite (X iq _ Hq) by (left; eauto). now apply jac_body_run.
    + intros iq Hq. rewrite (X iq _ Hq) by (right; left; reflexivity). apply jac_body_run.
    + intros iq i j Hq Hi Hj. rewrite (X iq _ Hq) by (right; right; eauto). now apply jac_body_run.
    + intros a Ha. apply Y. intros i _ Hw. apply Ha. destruct Hw as [(x & y & ->)|[->|(x & y & ->)]]; cbn; auto.
Qed.

(** The variant without the inverse. *)
Definition dW (iq : Z) (a : loc) : Prop := (exists i j, a = At vJs e iq i j) \/ a = at3 vDs e iq 0.
Lemma jacdet_conf iq : confined (dW iq) jA (jacdet_body dim npe ggrad junk e iq).
Proof.
  unfold jacdet_body. apply confined_seq.
  - apply (serial_conf dim dim npe 1 _ _ (At vJs e iq) jA (fun μ i p => node μ p i) (fun _ => ggrad iq) (fun _ => 0%Z)).
    + destruct Hd; lia.
    + apply node_on.
    + apply table_on.
    + intros i j _ _. left. eauto.
    + auto.
  - apply conf_load_mat; [intros i j _ _; left; left; eauto|]. intros J. cbn [confined]. split; [right; reflexivity|exact Logic.I].
Qed.
Lemma jacdet_apart i j a : i <> j -> dW i a -> ~ (dW j a \/ jA a).
Proof.
  intros N Hi [Hj|(p & q & ->)].
  - destruct Hi as [(x & y & ->)| ->]; destruct Hj as [(x' & y' & E)|E]; try discriminate E; injection E; intros; congruence.
  - destruct Hi as [(x & y & E)|E]; discriminate E.
Qed.
Definition jacdet_loop : tloop := mkTL nq own (jacdet_body dim npe ggrad junk e).
Lemma jacdet_ok : phase_ok e T (Loop jacdet_loop).
Proof.
  exists dW, (fun _ => jA). constructor.
  - intros i _. apply HO.
  - intros i _. apply jacdet_conf.
  - intros i j a _ _. apply jacdet_apart.
  - intros i a _ [[(x & y & ->)| ->]|(x & y & ->)]; reflexivity.
Qed.
Lemma jacdet_loop_run μ :
  (forall iq, (0 <= iq < nq)%Z -> loop_run jacdet_loop μ (at3 vDs e iq 0) = det dim (Jm μ iq) 0) /\
  (forall a, ~ in_views e [vJs; vDs] a -> loop_run jacdet_loop μ a = μ a).
Proof.
  destruct (loop_effect jacdet_loop dW (fun _ => jA) μ) as [X Y].
  - intros i _. apply jacdet_conf.
  - intros i j a _ _. apply jacdet_apart.
  - split.
    + intros iq Hq. rewrite (X iq _ Hq) by (right; reflexivity). cbn [tl_body jacdet_loop]. unfold jacdet_body. rewrite run_seq.
      set (μ1 := run (serial_gemm _ _ _ _ _ _ _) μ).
      destruct (serial_run dim dim npe 1 (flip (inmem (at3 vCrd e))) (table (ggrad iq)) (At vJs e iq) jA (fun μ i p => node μ p i) (fun _ => ggrad iq) (fun _ => 0%Z) (fun _ => 0%Z)
        (ltac:(destruct Hd; lia)) (at4_inj vJs e iq) node_on (table_on _ _)) with (μ := μ) as [G1 G2].
      { intros i j (p & q & E). discriminate E. }
      fold μ1 in G1, G2. rewrite run_load_mat. cbn [run]. rewrite store_eq. apply det_eqm; [exact Hd|].
      intros i j Hi Hj. rewrite loaded_in by easy. rewrite G1 by easy. rewrite Rmult_1_l. reflexivity.
    + intros a Ha. apply Y. intros i _ Hw. apply Ha. destruct Hw as [(x & y & ->)| ->]; cbn; auto.
Qed.
End Points.

(** ** Scaling rows, copying a table *)
Section Rows.
Context (e T n nq : Z) (own : Z -> Z) (HO : forall i, (0 <= own i < T)%Z).

Section Scale.
Context (wts : arr1) (vd v : Z) (Nv : vd <> v).
Definition scale_loop : tloop := mkTL nq own (scale_body n wts vd v e).
Definition sW (iq : Z) (a : loc) : Prop := exists j, a = at3 v e iq j.
Definition sA (a : loc) : Prop := exists q, a = at3 vd e q 0.
Lemma scale_conf iq : confined (sW iq) sA (scale_body n wts vd v e iq).
Proof.
  cbn. split; [right; eexists; reflexivity|]. intros d. apply confined_pfor. intros j _. cbn. split; [left; eexists; reflexivity|]. intros x. split; [eexists; reflexivity|exact Logic.I].
Qed.
Lemma scale_apart i j a : i <> j -> sW i a -> ~ (sW j a \/ sA a).
Proof. intros N (x & ->) [(y & E)|(y & E)]; injection E; intros; congruence. Qed.
Lemma scale_ok : phase_ok e T (Loop scale_loop).
Proof.
  exists sW, (fun _ => sA). constructor.
  - intros i _. apply HO.
  - intros i _. apply scale_conf.
  - intros i j a _ _. apply scale_apart.
  - intros i a _ [(x & ->)|(x & ->)]; reflexivity.
Qed.
Lemma scale_run μ :
  (forall iq j, (0 <= iq < nq)%Z -> (0 <= j < n)%Z -> loop_run scale_loop μ (at3 v e iq j) = wts iq * μ (at3 vd e iq 0) * μ (at3 v e iq j)) /\
  (forall a, ~ in_views e [v] a -> loop_run scale_loop μ a = μ a).
Proof.
  destruct (loop_effect scale_loop sW (fun _ => sA) μ) as [X Y].
  - intros i _. apply scale_conf.
  - intros i j a _ _. apply scale_apart.
  - split.
    + intros iq j Hq Hj. rewrite (X iq _ Hq) by (eexists; reflexivity). cbn [tl_body scale_loop]. unfold scale_body. cbn [run].
      rewrite run_pfor. set (d := μ (at3 vd e iq 0)).
      destruct (loop_effect (mkTL n (fun _ => 0%Z) (fun j => Load (at3 v e iq j) (fun x => Store (at3 v e iq j) (wts iq * d * x) Done)))
        (fun j a => a = at3 v e iq j) (fun _ _ => False) μ) as [X' _].
      * intros i _. cbn. auto.
      * intros i i' a _ _ N -> [E|[]]. injection E. auto.
      * etransitivity; [exact (X' j _ Hj eq_refl)|]. cbn. apply store_eq.
    + intros a Ha. apply Y. intros i _ (j & ->). apply Ha. cbn. auto.
Qed.
End Scale.

Section Copy.
Context (b : arr2) (v : Z) (Hn : (0 <= n)%Z).
Definition copy_loop : tloop := mkTL (nq * n) own (fun ij => Store (at3 v e (ij / n) (ij mod n)) (b (ij / n) (ij mod n))%Z Done).
Lemma copy_apart i j a : (0 <= i < nq * n)%Z -> i <> j -> a = at3 v e (i / n) (i mod n) -> ~ (a = at3 v e (j / n) (j mod n) \/ False).
Proof. intros Hi N -> [E|[]]. injection E as E1 E2. apply N. apply (flat_inj n); auto. exact (flat_pos nq n i Hn Hi). Qed.
Lemma copy_ok : phase_ok e T (Loop copy_loop).
Proof.
  exists (fun ij a => a = at3 v e (ij / n) (ij mod n)), (fun _ _ => False). constructor.
  - intros i _. apply HO.
  - intros i _. cbn. auto.
  - intros i j a Hi _. now apply copy_apart.
  - intros i a _ [->|[]]. reflexivity.
Qed.
Lemma copy_run μ :
  (forall i j, (0 <= i < nq)%Z -> (0 <= j < n)%Z -> loop_run copy_loop μ (at3 v e i j) = b i j) /\
  (forall a, ~ in_views e [v] a -> loop_run copy_loop μ a = μ a).
Proof.
  destruct (loop_effect copy_loop (fun ij a => a = at3 v e (ij / n) (ij mod n)) (fun _ _ => False) μ) as [X Y].
  - intros i _. cbn. auto.
  - intros i j a Hi _. now apply copy_apart.
  - split.
    + intros i j Hi Hj. destruct (flat_of nq n i j Hi Hj) as (F1 & F2 & F3). rewrite (X _ _ F1) by now rewrite F2, F3. cbn. rewrite F2, F3. apply store_eq.
    + intros a Ha. apply Y. intros i _ ->. apply Ha. cbn. auto.
Qed.
End Copy.
End Rows.

(** ** The inverse *)
Section Inverse.
Context (e T nb : Z) (junk : arr2) (worker : Z -> Z) (Hb : (1 <= nb)%Z) (HT : (0 < T)%Z) (HO : forall i, (0 <= worker i < T)%Z).

Lemma inv_phases_ok ph : In ph (inv_phases nb e junk worker) -> phase_ok e T ph.
Proof.
  unfold inv_phases. destruct (nb <=? 3)%Z eqn:E3.
  - intros [<-|[]]. exists (fun a => exists i j, a = at3 viM e i j), (fun a => exists i j, a = at3 vMM e i j). constructor.
    + apply conf_load_mat; [intros i j _ _; right; eauto|]. intros M. apply conf_store_mat. eauto.
    + intros m. apply settled_load_mat.
      * intros i j _ _ (x & y & E). discriminate E.
      * apply settled_store_mat. intros i j Hi Hj. split; [eauto|]. rewrite run_load_mat. symmetry. apply run_store_mat; [apply at3_inj| |]; assumption.
    + intros a [(i & j & ->)|(i & j & ->)]; reflexivity.
  - intros [<-|[<-|[]]].
    + exists (fun a => exists i, a = at3 viM e i i), (fun _ => False).
      assert (EV : forall m i, (0 <= i < nb)%Z ->
        run (pfor nb (fun i => pfor nb (fun j => if (i =? j)%Z then Store (at3 viM e i j) 1 Done else Done))) m (at3 viM e i i) = 1).
      { intros m i Hi. rewrite run_pfor.
        destruct (loop_effect (mkTL nb (fun _ => 0%Z) (fun i => pfor nb (fun j => if (i =? j)%Z then Store (at3 viM e i j) 1 Done else Done)))
           (fun i a => a = at3 viM e i i) (fun _ _ => False) m) as [X _].
        - intros q _. apply confined_pfor. intros j _. destruct (Z.eqb_spec q j) as [->|]; cbn; auto.
        - intros q q' a _ _ N -> [E|[]]. injection E. auto.
        - etransitivity; [exact (X i _ Hi eq_refl)|]. cbn [tl_body]. rewrite run_pfor.
          destruct (loop_effect (mkTL nb (fun _ => 0%Z) (fun j => if (i =? j)%Z then Store (at3 viM e i j) 1 Done else Done))
           (fun j a => a = at3 viM e i j) (fun _ _ => False) m) as [X' _].
          + intros j _. cbn. destruct (i =? j)%Z; cbn; auto.
          + intros q q' a _ _ N -> [E|[]]. injection E. auto.
          + etransitivity; [exact (X' i _ Hi eq_refl)|]. cbn [tl_body]. rewrite Z.eqb_refl. cbn. apply store_eq. }
      constructor.
      * apply confined_pfor. intros i _. apply confined_pfor. intros j _. destruct (Z.eqb_spec i j) as [->|]; cbn; eauto.
      * intros m. apply settled_pfor. intros i Hi. apply settled_pfor. intros j Hj. destruct (Z.eqb_spec i j) as [->|]; [|exact Logic.I].
        cbn. split; [eauto|]. split; [|exact Logic.I]. symmetry. now apply EV.
      * intros a [(i & ->)|[]]. reflexivity.
    + exists (fun _ a => (exists i j, a = at3 viM e i j) \/ exists i j, a = at3 vMM e i j), (fun _ _ => False). constructor.
      * intros i _. apply HO.
      * intros i _. cbn [tl_body]. apply conf_load_mat; [intros x y _ _; left; right; eauto|]. intros M. apply conf_load_mat; [intros x y _ _; left; left; eauto|].
        intros B. apply confined_seq; apply conf_store_mat; intros x y _ _; [right|left]; eauto.
      * cbn [tl_n]. intros i j. lia.
      * intros i a _ [[(x & y & ->)|(x & y & ->)]|[]]; reflexivity.
Qed.

Lemma inv_phases_run μ :
  (forall i j, (0 <= i < nb)%Z -> (0 <= j < nb)%Z -> phases_run (inv_phases nb e junk worker) μ (at3 viM e i j) =
     invA nb (fun i j => μ (at3 vMM e i j)) (fun i j => μ (at3 viM e i j)) i j) /\
  (forall a, ~ in_views e [vMM; viM] a -> phases_run (inv_phases nb e junk worker) μ a = μ a).
Proof.
  unfold inv_phases. destruct (nb <=? 3)%Z eqn:E3.
  - apply Z.leb_le in E3. unfold phases_run. cbn [fold_left phase_run]. rewrite run_load_mat.
    destruct (run_store_mat nb nb (at3 viM e) (invA nb (loaded nb nb (at3 vMM e) junk μ) junk) μ (at3_inj viM e)) as [S1 S2]. split.
    + intros i j Hi Hj. rewrite S1 by easy. refine (invA_small nb _ _ _ _ (conj Hb E3) _ i j Hi Hj). intros x y Hx Hy. now apply loaded_in.
    + intros a Ha. apply S2. intros i j _ _ ->. apply Ha. cbn. auto.
  - apply Z.leb_gt in E3. unfold phases_run. cbn [fold_left phase_run]. set (μ1 := run (pfor nb _) μ). unfold loop_run. cbn [tl_n tl_body].
    change (zloop 1 (fun (_ : Z) m => run (load_mat nb nb (at3 vMM e) junk (fun M => load_mat nb nb (at3 viM e) junk (fun B =>
       seq (store_mat nb nb (at3 vMM e) (lu nb M)) (store_mat nb nb (at3 viM e) (solve_upper nb nb (lu nb M) (solve_lower nb nb (lu nb M) B)))))) m) μ1)
      with (run (load_mat nb nb (at3 vMM e) junk (fun M => load_mat nb nb (at3 viM e) junk (fun B =>
       seq (store_mat nb nb (at3 vMM e) (lu nb M)) (store_mat nb nb (at3 viM e) (solve_upper nb nb (lu nb M) (solve_lower nb nb (lu nb M) B)))))) μ1).
    rewrite !run_load_mat, run_seq. set (M := loaded nb nb (at3 vMM e) junk μ1). set (B := loaded nb nb (at3 viM e) junk μ1).
    destruct (run_store_mat nb nb (at3 vMM e) (lu nb M) μ1 (at3_inj vMM e)) as [P1 P2]. set (μ2 := run (store_mat nb nb (at3 vMM e) (lu nb M)) μ1) in *.
    destruct (run_store_mat nb nb (at3 viM e) (solve_upper nb nb (lu nb M) (solve_lower nb nb (lu nb M) B)) μ2 (at3_inj viM e)) as [S1 S2].
    assert (E1 : (forall i j, (0 <= i < nb)%Z -> (0 <= j < nb)%Z -> μ1 (at3 viM e i j) = if (i =? j)%Z then 1 else μ (at3 viM e i j)) /\
       (forall a, (forall i, (0 <= i < nb)%Z -> a <> at3 viM e i i) -> μ1 a = μ a)).
    { unfold μ1. rewrite run_pfor.
      destruct (loop_effect (mkTL nb (fun _ => 0%Z) (fun i => pfor nb (fun j => if (i =? j)%Z then Store (at3 viM e i j) 1 Done else Done)))
         (fun i a => a = at3 viM e i i) (fun _ _ => False) μ) as [X Y].
      - intros q _. apply confined_pfor. intros j _. destruct (Z.eqb_spec q j) as [->|]; cbn; auto.
      - intros q q' a _ _ N -> [E|[]]. injection E. auto.
      - split.
        + intros i j Hi Hj. destruct (Z.eqb_spec i j) as [->|N].
          * etransitivity; [exact (X j _ Hj eq_refl)|]. cbn [tl_body]. rewrite run_pfor.
            destruct (loop_effect (mkTL nb (fun _ => 0%Z) (fun k => if (j =? k)%Z then Store (at3 viM e j k) 1 Done else Done))
             (fun k a => a = at3 viM e j k) (fun _ _ => False) μ) as [X' _].
            -- intros k _. cbn. destruct (j =? k)%Z; cbn; auto.
            -- intros q q' a _ _ N -> [E|[]]. injection E. auto.
            -- etransitivity; [exact (X' j _ Hj eq_refl)|]. cbn [tl_body]. rewrite Z.eqb_refl. cbn. apply store_eq.
          * apply Y. intros k _ E. injection E. congruence.
        + intros a Ha. apply Y. cbn [tl_n]. intros i Hi E. exact (Ha i Hi E). }
    destruct E1 as [E1 E1']. split.
    + intros i j Hi Hj. rewrite S1 by easy. unfold invA.
      rewrite (proj2 (Z.eqb_neq nb 1)), (proj2 (Z.eqb_neq nb 2)), (proj2 (Z.eqb_neq nb 3)) by lia. cbv zeta.
      assert (EM : eqm nb nb M (fun i j => μ (at3 vMM e i j))).
      { intros x y Hx Hy. unfold M. rewrite loaded_in by easy. apply E1'. intros q _ E. discriminate E. }
      assert (EB : eqm nb nb B (identity nb nb (fun i j => μ (at3 viM e i j)))).
      { intros x y Hx Hy. unfold B. rewrite loaded_in by easy. rewrite E1 by easy. rewrite identity_entry, (proj2 (inb_true nb x) Hx), (proj2 (inb_true nb y) Hy). reflexivity. }
      refine (upper_eqm nb nb _ _ _ _ (lu_eqm nb _ _ EM) (lower_eqm nb nb _ _ _ _ (lu_eqm nb _ _ EM) EB) i j Hi Hj).
    + intros a Ha. rewrite S2 by (intros i j _ _ ->; apply Ha; cbn; auto). rewrite P2 by (intros i j _ _ ->; apply Ha; cbn; auto).
      apply E1'. intros i _ ->. apply Ha. cbn. auto.
Qed.
End Inverse.
