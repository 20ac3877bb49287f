(** PropTeamNormals.v -- C82: the face-normal kernel is right with one thread per
    team, and races with two. *)
From Coq Require Import ZArith List Lia Reals Lra Bool Permutation FunctionalExtensionality.
From Verif Require Import Base RBase LinAlgModel LinAlgProof PropLinAlg ShapeModel SolverModel SolverSpec
  TeamModel TeamProof TeamKernels TeamKernelProof TeamLaunch TeamNormals.
Import ListNotations.
Local Open Scope R_scope.

(** ** One thread per team *)
Definition runs_code (c : list prog) (m : mem) : mem := fold_left (fun m p => run p m) c m.
Lemma runs_cat a b m : runs_code (cat a b) m = runs_code b (runs_code a m).
Proof.
  revert m. induction a as [|p a IH]; intros m; [reflexivity|]. destruct a as [|q a].
  - destruct b as [|q b]; [reflexivity|]. cbn. now rewrite run_seq.
  - change (cat (p :: q :: a) b) with (p :: cat (q :: a) b). change (runs_code (cat (q :: a) b) (run p m) = runs_code b (runs_code (q :: a) (run p m))). apply IH.
Qed.
Lemma runs_points np body m : runs_code (for_points np body) m = zloop np (fun ip m => runs_code (body ip) m) m.
Proof.
  unfold for_points, zloop. assert (X : forall l c m, runs_code (fold_left (fun c ip => cat c (body ip)) l c) m =
    fold_left (fun m ip => runs_code (body ip) m) l (runs_code c m)).
  { induction l as [|i l IH]; intros c m0; cbn [fold_left]; [easy|]. rewrite IH, runs_cat. reflexivity. }
  rewrite X. reflexivity.
Qed.

Lemma share_one own n body m : (forall i, (0 <= i < n)%Z -> own i = 0%Z) ->
  run (share own 0 n body) m = zloop n (fun i m => run (body i) m) m.
Proof.
  intros H. unfold share. rewrite run_pfor. apply zloop_ext. intros i s Hi. now rewrite H.
Qed.

Lemma zloop_2 {S} (f : Z -> S -> S) x : zloop 2 f x = f 1%Z (f 0%Z x).
Proof. reflexivity. Qed.
Lemma zloop_3 {S} (f : Z -> S -> S) x : zloop 3 f x = f 2%Z (f 1%Z (f 0%Z x)).
Proof. reflexivity. Qed.

Section OneThread.
Context (s : eshape) (n : Z) (sign : Z -> R) (np nn : Z) (fgrad : arr3) (fc : Z -> arr2) (own0 own1 own2 : Z -> Z -> Z -> Z).
Context (O0 : forall g ip i, own0 g ip i = 0%Z) (O1 : forall g ip i, own1 g ip i = 0%Z) (O2 : forall g ip i, own2 g ip i = 0%Z).
Let K := normals_pool s sign np nn fgrad fc own0 own1 own2.
Definition nW (g t : Z) (ph : nat) (a : loc) : Prop := (exists i j ip, a = xg_at g i j ip) \/ (exists ip k, a = n_at g ip k).
Definition nA (g t : Z) (ph : nat) (a : loc) : Prop := False.

Definition all_conf (W A : loc -> Prop) (c : list prog) : Prop := forall p, In p c -> confined W A p.
Lemma conf_cat W A a b : all_conf W A a -> all_conf W A b -> all_conf W A (cat a b).
Proof.
  intros HA HB. induction a as [|p a IH]; [exact HB|]. destruct a as [|q a].
  - destruct b as [|q b]; [exact HA|]. intros r [<-|Hr]; [apply confined_seq; [apply HA|apply HB]; now left|]. apply HB. now right.
  - change (cat (p :: q :: a) b) with (p :: cat (q :: a) b). intros r [<-|Hr]; [apply HA; now left|]. apply IH; [|exact Hr].
    intros r' Hr'. apply HA. now right.
Qed.
Lemma conf_points W A np0 body : (forall ip, all_conf W A (body ip)) -> all_conf W A (for_points np0 body).
Proof.
  intros H. unfold for_points. assert (X : forall l c, all_conf W A c -> all_conf W A (fold_left (fun c ip => cat c (body ip)) l c)).
  { induction l as [|i l IH]; intros c Hc; cbn [fold_left]; [easy|]. apply IH. now apply conf_cat. }
  apply X. intros p [<-|[]]. exact Logic.I.
Qed.
Lemma gradient_conf dim fcg o0 o1 g t ip ph : all_conf (nW g t ph) (nA g t ph) (gradient_code dim nn fgrad fcg o0 o1 g t ip).
Proof.
  intros p [<-|[<-|[]]]; apply confined_share; intros i _ _; cbn [gemm_set gemm_add tl_body].
  - cbn. split; [|exact Logic.I]. left. do 3 eexists. reflexivity.
  - apply (confined_weaken (fun a => a = xg_at g (i / (dim - 1)) (i mod (dim - 1)) ip) (fun _ => False)).
    + intros l ->. left. do 3 eexists. reflexivity.
    + easy.
    + apply (gemm_dot_conf nn 1 _ _ (fun i j => xg_at g i j ip) (i / (dim - 1)) (i mod (dim - 1)) _ (fun _ i j => fcg j i) (fun _ => fgrad ip)); [apply flip_table_ok|apply table_ok].
Qed.
Lemma normals_conf g t ph : all_conf (nW g t ph) (nA g t ph) (K g t).
Proof.
  unfold K, normals_pool. destruct s; apply conf_cat.
  - apply conf_points. intros ip. apply gradient_conf.
  - intros p [<-|[]]. apply confined_pfor. intros ip _. cbn. unfold nW. repeat split; eauto 6.
  - apply conf_points. intros ip. apply gradient_conf.
  - intros p [<-|[]]. apply confined_pfor. intros ip _. unfold hex_normal_code, hex_cross_code. cbn [confined]. unfold nW.
    do 6 (split; [left; left; do 3 eexists; reflexivity|intros ?]). do 3 (split; [right; do 2 eexists; reflexivity|]).
    apply confined_share. intros i _ _. cbn. repeat split; eauto 6.
Qed.

Lemma normals_disciplined : disciplined n 1 K nW nA.
Proof.
  constructor.
  - intros g t t' [_ Ht] [_ Ht']. assert (t = t') by lia. now subst.
  - intros g t i p _ E. apply (normals_conf g t i). now apply nth_error_In in E.
  - intros g t t' i a [_ Ht] [_ Ht'] Ne. lia.
  - intros g g' t t' i i' a _ _ Ne [(x & y & z & ->)|(x & y & ->)] [[(x' & y' & z' & E)|(x' & y' & E)]|[]]; try discriminate E; injection E; easy.
Qed.

Lemma after_runs g i m : (i <= length (K g 0%Z))%nat -> team_after 1 K g i m = runs_code (firstn i (K g 0%Z)) m.
Proof.
  induction i as [|i IH]; intros Hi; [reflexivity|]. cbn [team_after]. rewrite IH by lia.
  assert (EN : nth_error (K g 0%Z) i = Some (nth i (K g 0%Z) Done)) by (apply nth_error_nth'; lia).
  assert (F : forall (l : list prog) i p, nth_error l i = Some p -> firstn (S i) l = firstn i l ++ [p]).
  { induction l as [|x l IHl]; intros j p E; [destruct j; discriminate|]. destruct j as [|j]; cbn in *; [now injection E as ->|]. now rewrite (IHl j p E). }
  rewrite (F _ _ _ EN). unfold runs_code. rewrite fold_left_app. reflexivity.
Qed.

(** What a team does when its one thread runs alone. *)
Section Team.
Context (g : Z).
Definition only_team (m m' : mem) : Prop := forall a, (forall i j ip, a <> xg_at g i j ip) -> (forall ip k, a <> n_at g ip k) -> m' a = m a.

Lemma gradient_runs dim fcg o0 o1 ip m : (2 <= dim)%Z -> (forall i, o0 i = 0%Z) -> (forall i, o1 i = 0%Z) ->
  let m' := runs_code (gradient_code dim nn fgrad fcg o0 o1 g 0 ip) m in
  (forall i j, (0 <= i < dim)%Z -> (0 <= j < dim - 1)%Z -> m' (xg_at g i j ip) = rsum nn (fun p => fcg p i * fgrad ip p j)) /\
  (forall a, (forall i j, a <> xg_at g i j ip) -> m' a = m a).
Proof.
  intros Hd H0 H1 m'. set (C := fun i j => xg_at g i j ip).
  set (L0 := gemm_set dim (dim - 1) C o0). set (L1 := gemm_add dim (dim - 1) nn 1 (flip (table fcg)) (table (fgrad ip)) C o1).
  assert (Em : m' = loop_run L1 (loop_run L0 m)).
  { unfold m', gradient_code, runs_code. cbn [fold_left]. fold C. fold L0. fold L1. rewrite !share_one by auto. reflexivity. }
  assert (EL : forall L, L = L0 \/ L = L1 -> tl_n L = (dim * (dim - 1))%Z) by (intros L [-> | ->]; reflexivity).
  set (W := fun (ij : Z) a => a = C (ij / (dim - 1))%Z (ij mod (dim - 1))%Z).
  assert (EFF : forall L m, L = L0 \/ L = L1 ->
    (forall i a, (0 <= i < tl_n L)%Z -> W i a -> loop_run L m a = run (tl_body L i) m a) /\
    (forall a, (forall i, (0 <= i < tl_n L)%Z -> ~ W i a) -> loop_run L m a = m a)).
  { intros L m0 HL. apply (loop_effect L W (fun _ _ => False)).
    - intros i _. destruct HL as [-> | ->].
      + cbn. unfold W. auto.
      + apply (gemm_dot_conf nn 1 _ _ C _ _ _ (fun _ i j => fcg j i) (fun _ => fgrad ip)); [apply flip_table_ok|apply table_ok].
    - intros i j a Hi Hj Ne Hw [Hw'|[]]. unfold W in *. subst a. unfold C, xg_at in Hw'. injection Hw' as E1 E2. apply Ne. apply (flat_inj (dim - 1)); auto. lia. }
  rewrite Em. split.
  - intros i j Hi Hj. destruct (flat_of dim (dim - 1) i j Hi Hj) as (F1 & F2 & F3).
    assert (WI : W (i * (dim - 1) + j)%Z (C i j)) by (unfold W; now rewrite F2, F3).
    change (xg_at g i j ip) with (C i j).
    rewrite (proj1 (EFF L1 (loop_run L0 m) (or_intror eq_refl)) _ _ F1 WI). cbn [L1 gemm_add tl_body]. rewrite F2, F3.
    rewrite (gemm_dot_run nn 1 _ _ C i j (fun _ => False) (fun _ i j => fcg j i) (fun _ => fgrad ip)) by (apply flip_table_ok || apply table_ok).
    rewrite store_eq. rewrite (proj1 (EFF L0 m (or_introl eq_refl)) _ _ F1 WI). cbn [L0 gemm_set tl_body run]. rewrite F2, F3, store_eq. ring.
  - intros a Ha. rewrite (proj2 (EFF L1 _ (or_intror eq_refl))), (proj2 (EFF L0 _ (or_introl eq_refl))); [reflexivity| |]; intros i _ Hw; exact (Ha _ _ Hw).
Qed.

Lemma gradients_run dim fcg o0 o1 m : (2 <= dim)%Z -> (0 <= np)%Z -> (forall ip i, o0 ip i = 0%Z) -> (forall ip i, o1 ip i = 0%Z) ->
  let m' := runs_code (for_points np (fun ip => gradient_code dim nn fgrad fcg (o0 ip) (o1 ip) g 0 ip)) m in
  forall ip i j, (0 <= ip < np)%Z -> (0 <= i < dim)%Z -> (0 <= j < dim - 1)%Z -> m' (xg_at g i j ip) = rsum nn (fun p => fcg p i * fgrad ip p j).
Proof.
  intros Hd Hn H0 H1. cbv zeta. rewrite runs_points.
  apply (zloop_inv (fun k m' => forall ip i j, (0 <= ip < k)%Z -> (0 <= i < dim)%Z -> (0 <= j < dim - 1)%Z -> m' (xg_at g i j ip) = rsum nn (fun p => fcg p i * fgrad ip p j))).
  - lia.
  - intros; lia.
  - intros k m1 Hk IH ip i j Hip Hi Hj. destruct (gradient_runs dim fcg (o0 k) (o1 k) k m1 Hd (H0 k) (H1 k)) as [G1 G2].
    destruct (Z.eq_dec ip k) as [->|Ne]; [now apply G1|]. rewrite G2; [apply IH; lia|]. intros i' j' E. injection E as _ _ E. easy.
Qed.
End Team.

Lemma normals_run g m : (0 <= np)%Z -> forall ip k, (0 <= ip < np)%Z -> (0 <= k < space_dim s)%Z ->
  runs_code (K g 0%Z) m (n_at g ip k) = normal_of s (sign g) nn fgrad (fc g) (fun _ _ => 0) ip (fun _ => 0) k.
Proof.
  intros Hn ip0 k0 Hip Hk. unfold K, normals_pool. destruct s; unfold normals_quad_code, normals_hex_code; rewrite runs_cat.
  - set (m1 := runs_code (for_points _ _) m).
    pose proof (gradients_run g 2 (fc g) (own0 g) (own1 g) m ltac:(lia) Hn (O0 g) (O1 g)) as G. cbv zeta in G. fold m1 in G.
    unfold runs_code. cbn [fold_left]. rewrite run_pfor.
    match goal with |- zloop np ?b m1 _ = _ =>
      pose proof (zloop_inv (fun q (m' : mem) => (forall i j ip, m' (xg_at g i j ip) = m1 (xg_at g i j ip)) /\
        forall ip k, (0 <= ip < q)%Z -> (0 <= k < 2)%Z -> m' (n_at g ip k) = normal_quad (sign g) nn fgrad (fc g) (fun _ _ => 0) ip (fun _ => 0) k) np b m1 Hn) as I end.
    apply I; [split; [reflexivity|lia]| |exact Hip|exact Hk].
    intros q m2 Hq [A B]. cbn [quad_normal_code run]. split.
    + intros i j ip. rewrite !store_neq by (intros E; discriminate E). apply A.
    + intros ip k Hi Hkk. rewrite (store_neq _ (n_at g q 0) _ (xg_at g 0 0 q)) by (intros E; discriminate E). rewrite !A, !G by lia.
      destruct (Z.eq_dec ip q) as [->|Ne].
      * unfold normal_quad. cbv zeta. unfold cATxB_to_C. rewrite !gemm_entry. rewrite (proj2 (inb_true 2 1)), (proj2 (inb_true 2 0)), (proj2 (inb_true 1 0)) by lia. cbn [andb].
        assert (C : (k = 0 \/ k = 1)%Z) by lia. destruct C as [-> | ->].
        -- rewrite store_neq by (intros E; injection E as E; discriminate E). rewrite store_eq.
           rewrite upd1_neq, upd1_eq by lia. ring.
        -- rewrite store_eq, upd1_eq. ring.
      * rewrite !store_neq by (intros E; injection E as E _; easy). apply B; lia.
  - set (m1 := runs_code (for_points _ _) m).
    pose proof (gradients_run g 3 (fc g) (own0 g) (own1 g) m ltac:(lia) Hn (O0 g) (O1 g)) as G. cbv zeta in G. fold m1 in G.
    unfold runs_code. cbn [fold_left]. rewrite run_pfor.
    match goal with |- zloop np ?b m1 _ = _ =>
      pose proof (zloop_inv (fun q (m' : mem) => (forall i j ip, m' (xg_at g i j ip) = m1 (xg_at g i j ip)) /\
        forall ip k, (0 <= ip < q)%Z -> (0 <= k < 3)%Z -> m' (n_at g ip k) = normal_hex (sign g) nn fgrad (fc g) (fun _ _ => 0) ip (fun _ => 0) k) np b m1 Hn) as I end.
    apply I; [split; [reflexivity|lia]| |exact Hip|exact Hk].
    intros q m2 Hq [A B]. unfold hex_normal_code, hex_cross_code. cbn [run]. rewrite share_one by auto.
    rewrite zloop_3. cbn [run].
    split.
    + intros i j ip. rewrite !store_neq by (intros E; discriminate E). apply A.
    + intros ip k Hi Hkk. rewrite !A, !G by lia.
      destruct (Z.eq_dec ip q) as [->|Ne].
      * unfold normal_hex. cbv zeta. unfold cA_to_A1. rewrite zloop_3.
        unfold cross. unfold cATxB_to_C. rewrite !gemm_entry.
        rewrite (proj2 (inb_true 3 2)), (proj2 (inb_true 3 1)), (proj2 (inb_true 3 0)), (proj2 (inb_true 2 0)), (proj2 (inb_true 2 1)) by lia. cbn [andb].
        assert (C : (k = 0 \/ k = 1 \/ k = 2)%Z) by lia. destruct C as [-> |[-> | ->]];
        repeat (rewrite store_eq || (rewrite store_neq by (intros E; injection E as E; discriminate E)));
        repeat (rewrite upd1_eq || (rewrite upd1_neq by lia)); ring.
      * rewrite !store_neq by (intros E; injection E as E _; easy). apply B; lia.
Qed.

Lemma code_pos g : (0 < length (K g 0%Z))%nat.
Proof.
  unfold K, normals_pool. destruct s; unfold normals_quad_code, normals_hex_code;
    (destruct (for_points np _) as [|p c]; [cbn; lia|destruct c; cbn; lia]).
Qed.

Lemma one_thread_launch m m' : (0 <= np)%Z -> launch n 1 K m m' ->
  (forall g ip k, (0 <= g < n)%Z -> (0 <= ip < np)%Z -> (0 <= k < space_dim s)%Z ->
     m' (n_at g ip k) = normal_of s (sign g) nn fgrad (fc g) (fun _ _ => 0) ip (fun _ => 0) k) /\
  (forall a, (forall g i j ip, a <> xg_at g i j ip) -> (forall g ip k, a <> n_at g ip k) -> m' a = m a).
Proof.
  intros Hn LA. destruct (deterministic n 1 ltac:(lia) K nW nA normals_disciplined m m' LA) as [D1 D2]. split.
  - intros g ip k Hg Hip Hk. rewrite (D1 g (n_at g ip k) Hg).
    + rewrite after_runs by lia. rewrite firstn_all. now apply normals_run.
    + exists 0%Z, O. split; [lia|]. split; [apply code_pos|]. right. do 2 eexists. reflexivity.
  - intros a H1 H2. apply D2. intros g Hg (t & i & _ & _ & [(x & y & z & E)|(x & y & E)]); [exact (H1 _ _ _ _ E)|exact (H2 _ _ _ E)].
Qed.
Lemma one_thread_completes m : never_stuck n 1 K m /\ exists m', launch n 1 K m m'.
Proof.
  pose proof (no_deadlock n 1 ltac:(lia) K nW nA normals_disciplined m) as ND. split; [exact ND|].
  destruct (ND (K, m) (steps_refl n 1 _)) as (P & m' & S & F). exists m', P. auto.
Qed.
End OneThread.

(** ** C82 *)

(** One thread per team (the thread of each team runs every iteration): every
    interleaving of the teams completes with the normals of ShapeModel.v (C21,
    C22) for every face, and changes nothing but the normals and the scratch
    memory. *)
Theorem C82_normals_one_thread_partial :
  forall s n sign np nn fgrad fc own0 own1 own2 μ,
  (0 <= np)%Z ->
  (forall g ip i, (0 <= own0 g ip i < 1)%Z) -> (forall g ip i, (0 <= own1 g ip i < 1)%Z) -> (forall g ip i, (0 <= own2 g ip i < 1)%Z) ->
  let K := normals_pool s sign np nn fgrad fc own0 own1 own2 in
  (never_stuck n 1 K μ /\ exists μ', launch n 1 K μ μ') /\
  forall μ', launch n 1 K μ μ' ->
    (forall g ip k, (0 <= g < n)%Z -> (0 <= ip < np)%Z -> (0 <= k < space_dim s)%Z ->
       μ' (n_at g ip k) = normal_of s (sign g) nn fgrad (fc g) (fun _ _ => 0) ip (fun _ => 0) k) /\
    (forall v i j k l, v <> vN -> v <> vXg -> μ' (At v i j k l) = μ (At v i j k l)).
Proof.
  intros s n sign np nn fgrad fc own0 own1 own2 μ Hn H0 H1 H2 K.
  assert (O0 : forall g ip i, own0 g ip i = 0%Z) by (intros g ip i; specialize (H0 g ip i); lia).
  assert (O1 : forall g ip i, own1 g ip i = 0%Z) by (intros g ip i; specialize (H1 g ip i); lia).
  assert (O2 : forall g ip i, own2 g ip i = 0%Z) by (intros g ip i; specialize (H2 g ip i); lia).
  split; [apply one_thread_completes|]. intros μ' L.
  destruct (one_thread_launch s n sign np nn fgrad fc own0 own1 own2 O0 O1 O2 μ μ' Hn L) as [A B]. split; [exact A|].
  intros v i j k l N1 N2. apply B; intros; unfold xg_at, n_at, at3; intros E; injection E; intros; subst; easy.
Qed.
Print Assumptions C82_normals_one_thread_partial.

(** A thread that runs a part of its program alone. *)
Lemma run_part n T g t a b rest : member n T g t -> forall P m, P g t = seq a b :: rest ->
  steps n T (P, m) (set_thread P g t (b :: rest), run a m).
Proof.
  intros Hm.
  assert (SS : forall P x y, set_thread (set_thread P g t x) g t y = set_thread P g t y).
  { intros P x y. apply functional_extensionality. intros g'. apply functional_extensionality. intros t'. unfold set_thread.
    now destruct ((g' =? g) && (t' =? t))%Z%bool. }
  assert (SE : forall P x, set_thread P g t x g t = x) by (intros; unfold set_thread; now rewrite !Z.eqb_refl).
  assert (S0 : forall P x, P g t = x -> set_thread P g t x = P).
  { intros P x E. apply functional_extensionality. intros g'. apply functional_extensionality. intros t'. unfold set_thread.
    destruct (Z.eqb_spec g' g) as [->|]; [|easy]. destruct (Z.eqb_spec t' t) as [->|]; [|easy]. now rewrite E. }
  induction a as [|l k IH|l v k IH]; intros P m E; cbn [seq run] in *.
  - rewrite S0 by easy. constructor.
  - eapply steps_cons; [exact (step_load n T P m g t l _ rest Hm E)|]. rewrite <- (SS P (seq (k (m l)) b :: rest) (b :: rest)). apply IH. apply SE.
  - eapply steps_cons; [exact (step_store n T P m g t l v _ rest Hm E)|]. rewrite <- (SS P (seq k b :: rest) (b :: rest)). apply IH. apply SE.
Qed.
Lemma seq_Done p : seq p Done = p.
Proof.
  induction p as [|l k IH|l v k IH]; cbn; [easy| |now rewrite IH]. f_equal. apply functional_extensionality. intros v. apply IH.
Qed.

Lemma pfor_S q body : (0 <= q)%Z -> pfor (q + 1) body = seq (pfor q body) (body q).
Proof. intros Hq. unfold pfor. rewrite zseq_S by lia. now rewrite fold_left_app. Qed.
Lemma cat_app c p b rest : cat (c ++ [p]) (b :: rest) = c ++ seq p b :: rest.
Proof.
  induction c as [|x c IH]; [reflexivity|]. destruct c as [|y c]; [reflexivity|].
  change (cat ((x :: y :: c) ++ [p]) (b :: rest)) with (x :: cat ((y :: c) ++ [p]) (b :: rest)). rewrite IH. reflexivity.
Qed.
(** The code of np points with two phases each. *)
Lemma points_shape (s a : Z -> prog) np : (0 <= np)%Z -> exists c p, for_points np (fun ip => [s ip; a ip]) = c ++ [p] /\ length c = Z.to_nat np.
Proof.
  intros Hn. pattern np. apply natlike_ind; [| |exact Hn].
  - exists [], Done. split; reflexivity.
  - clear np Hn. intros q Hq (c & p & E & L). unfold for_points in *. change (Z.succ q) with (q + 1)%Z. rewrite zseq_S, fold_left_app by lia. rewrite E. cbn [fold_left].
    rewrite cat_app. exists (c ++ [seq p (s q)]), (a q). rewrite <- app_assoc. split; [reflexivity|]. rewrite app_length, L. cbn. lia.
Qed.
Lemma last_point (s a : Z -> prog) np F : (1 <= np)%Z -> exists c p,
  cat (for_points np (fun ip => [s ip; a ip])) [F] = c ++ [seq p (s (np - 1)%Z); seq (a (np - 1)%Z) F] /\ length c = Z.to_nat (np - 1).
Proof.
  intros Hn. destruct (points_shape s a (np - 1)) as (c & p & E & L); [lia|]. exists c, p. split; [|exact L].
  replace np with (np - 1 + 1)%Z at 1 by lia. unfold for_points in *. rewrite zseq_S, fold_left_app by lia. rewrite E. cbn [fold_left].
  rewrite cat_app. replace (c ++ [seq p (s (np - 1)%Z); a (np - 1)%Z]) with ((c ++ [seq p (s (np - 1)%Z)]) ++ [a (np - 1)%Z]) by (rewrite <- app_assoc; reflexivity).
  rewrite cat_app, <- app_assoc. reflexivity.
Qed.

(** ** Two threads *)
Section Two.
Context (n f : Z) (Hf : (0 <= f < n)%Z) (K : pool) (μ : mem).

(** The other teams have finished; the two threads of team [f] have [p0], [p1] left. *)
Definition reach (p0 p1 : list prog) (m : mem) : Prop :=
  exists P, steps n 2 (K, μ) (P, m) /\ P f 0%Z = p0 /\ P f 1%Z = p1 /\ forall g t, member n 2 g t -> g <> f -> P g t = [].

Lemma member0 : member n 2 f 0. Proof. split; [exact Hf|lia]. Qed.
Lemma member1 : member n 2 f 1. Proof. split; [exact Hf|lia]. Qed.
Lemma set_eq P t x : set_thread P f t x f t = x. Proof. unfold set_thread. now rewrite !Z.eqb_refl. Qed.
Lemma set_other P t x g t' : g <> f \/ t' <> t -> set_thread P f t x g t' = P g t'.
Proof. intros H. unfold set_thread. destruct (Z.eqb_spec g f), (Z.eqb_spec t' t); cbn; auto. subst. tauto. Qed.

Lemma reach0 a b rest p1 m : reach (seq a b :: rest) p1 m -> reach (b :: rest) p1 (run a m).
Proof.
  intros (P & S & E0 & E1 & H). exists (set_thread P f 0 (b :: rest)). split.
  - apply (steps_trans n 2 _ (P, m)); [exact S|]. apply run_part; [apply member0|exact E0].
  - split; [apply set_eq|]. split; [rewrite set_other by lia; exact E1|]. intros g t Hm Ne. rewrite set_other by auto. now apply H.
Qed.
Lemma reach1 a b rest p0 m : reach p0 (seq a b :: rest) m -> reach p0 (b :: rest) (run a m).
Proof.
  intros (P & S & E0 & E1 & H). exists (set_thread P f 1 (b :: rest)). split.
  - apply (steps_trans n 2 _ (P, m)); [exact S|]. apply run_part; [apply member1|exact E1].
  - split; [rewrite set_other by lia; exact E0|]. split; [apply set_eq|]. intros g t Hm Ne. rewrite set_other by auto. now apply H.
Qed.
Lemma reach0_all p rest p1 m : reach (p :: rest) p1 m -> reach (Done :: rest) p1 (run p m).
Proof. intros H. apply reach0. now rewrite seq_Done. Qed.
Lemma reach1_all p rest p0 m : reach p0 (p :: rest) m -> reach p0 (Done :: rest) (run p m).
Proof. intros H. apply reach1. now rewrite seq_Done. Qed.
Lemma reach0_load l k rest p1 m : reach (Load l k :: rest) p1 m -> reach (k (m l) :: rest) p1 m.
Proof.
  intros (P & S & E0 & E1 & H). exists (set_thread P f 0 (k (m l) :: rest)). split.
  - apply (steps_trans n 2 _ (P, m)); [exact S|]. eapply steps_cons; [|constructor]. now apply step_load; [apply member0|].
  - split; [apply set_eq|]. split; [rewrite set_other by lia; exact E1|]. intros g t Hm Ne. rewrite set_other by auto. now apply H.
Qed.
Lemma reach_barrier r0 r1 m : reach (Done :: r0) (Done :: r1) m -> reach r0 r1 m.
Proof.
  intros (P & S & E0 & E1 & H). exists (fun g t => if (g =? f)%Z then tl (P g t) else P g t). split.
  - apply (steps_trans n 2 _ (P, m)); [exact S|]. eapply steps_cons; [|constructor]. apply step_barrier; [exact Hf|].
    intros t Ht. assert (C : (t = 0 \/ t = 1)%Z) by lia. destruct C as [-> | ->]; eauto.
  - rewrite Z.eqb_refl, E0, E1. split; [reflexivity|]. split; [reflexivity|]. intros g t Hm Ne.
    destruct (Z.eqb_spec g f); [easy|]. now apply H.
Qed.
Lemma reach_lockstep c0 c1 r0 r1 : length c0 = length c1 -> forall m, reach (c0 ++ r0) (c1 ++ r1) m -> exists m', reach r0 r1 m'.
Proof.
  revert c1. induction c0 as [|p c0 IH]; intros [|q c1] L m H; try discriminate L; [eauto|]. cbn [app] in H.
  apply reach0_all in H. apply reach1_all in H. apply reach_barrier in H. injection L as L. exact (IH c1 L _ H).
Qed.
Lemma reach_end m : reach [] [] m -> launch n 2 K μ m.
Proof.
  intros (P & S & E0 & E1 & H). exists P. split; [exact S|]. intros g t [Hg Ht]. destruct (Z.eq_dec g f) as [->|Ne].
  - assert (C : (t = 0 \/ t = 1)%Z) by lia. destruct C as [-> | ->]; easy.
  - apply H; [split; easy|easy].
Qed.
(** The other teams can run first. *)
Lemma reach_start : (forall g, length (K g 0%Z) = length (K g 1%Z)) -> exists m, reach (K f 0%Z) (K f 1%Z) m.
Proof.
  intros HL.
  assert (X : forall l, (forall g, In g l -> (0 <= g < n)%Z) -> exists P m, steps n 2 (K, μ) (P, m) /\
    (forall t, (0 <= t < 2)%Z -> P f t = K f t) /\ (forall g t, In g l -> g <> f -> (0 <= t < 2)%Z -> P g t = []) /\
    forall g t, ~ In g l -> P g t = K g t).
  { induction l as [|g l IH]; intros Hl.
    - exists K, μ. split; [constructor|]. split; [easy|]. split; [easy|easy].
    - destruct IH as (P & m & S & A & B & C); [intros x Hx; apply Hl; now right|].
      destruct (Z.eq_dec g f) as [->|Ne].
      { exists P, m. split; [exact S|]. split; [exact A|]. split.
        - intros g t [<-|Hg] N Ht; [easy|auto].
        - intros g t N. apply C. intros Hg. apply N. now right. }
      destruct (in_dec Z.eq_dec g l) as [Hin|Hout].
      { exists P, m. split; [exact S|]. split; [exact A|]. split.
        - intros g' t [<-|Hg] N Ht; auto.
        - intros g' t N. apply C. intros Hg. apply N. now right. }
      destruct (finish_team n 2 ltac:(lia) g (length (K g 0%Z)) (Hl g (or_introl eq_refl)) P m) as (P' & m' & S' & A' & B').
      { intros t Ht. rewrite C by easy. assert (E : (t = 0 \/ t = 1)%Z) by lia. destruct E as [-> | ->]; [easy|]. symmetry. apply HL. }
      exists P', m'. split; [exact (steps_trans n 2 _ _ _ S S')|]. split; [intros t Ht; rewrite B' by congruence; auto|]. split.
      + intros g' t [<-|Hg] N Ht; [auto|]. destruct (Z.eq_dec g' g) as [->|N2]; [auto|]. rewrite B' by easy. auto.
      + intros g' t N. destruct (Z.eq_dec g' g) as [->|N2]; [destruct N; now left|]. rewrite B' by easy. apply C. intros Hg. apply N. now right. }
  destruct (X (zseq n)) as (P & m & S & A & B & _); [intros g; apply In_zseq|]. exists m, P. split; [exact S|]. split; [apply A; lia|]. split; [apply A; lia|].
  intros g t [Hg Ht] Ne. apply B; auto. now apply In_zseq.
Qed.
End Two.

(** Iteration [i] on thread [i mod 2]. *)
Definition alternate : Z -> Z -> Z -> Z := fun _ _ i => (i mod 2)%Z.
Lemma alternate_ok g ip i : (0 <= alternate g ip i < 2)%Z.
Proof. apply Z.mod_pos_bound. lia. Qed.

Definition set_of (dim g t ip : Z) : prog :=
  share (fun i => (i mod 2)%Z) t (dim * (dim - 1)) (fun ij => Store (xg_at g (ij / (dim - 1)) (ij mod (dim - 1)) ip) 0 Done).
Definition add_of (dim nn : Z) (fgrad : arr3) (fc : arr2) (g t ip : Z) : prog :=
  share (fun i => (i mod 2)%Z) t (dim * (dim - 1)) (fun ij => gemm_dot nn 1 (flip (table fc)) (table (fgrad ip)) (fun i j => xg_at g i j ip) (ij / (dim - 1)) (ij mod (dim - 1))).

(** The threads of a team have the same number of phases. *)
Lemma code_length s sign np nn fgrad fc g : (1 <= np)%Z ->
  length (normals_pool s sign np nn fgrad fc alternate alternate alternate g 0%Z) = length (normals_pool s sign np nn fgrad fc alternate alternate alternate g 1%Z).
Proof.
  intros Hn. unfold normals_pool. destruct s; unfold normals_quad_code, normals_hex_code.
  - destruct (last_point (set_of 2 g 0) (add_of 2 nn fgrad (fc g) g 0) np (pfor np (quad_normal_code (sign g) g)) Hn) as (c & p & E & L).
    destruct (last_point (set_of 2 g 1) (add_of 2 nn fgrad (fc g) g 1) np (pfor np (quad_normal_code (sign g) g)) Hn) as (c' & p' & E' & L').
    transitivity (length (c ++ [seq p (set_of 2 g 0 (np - 1)); seq (add_of 2 nn fgrad (fc g) g 0 (np - 1)) (pfor np (quad_normal_code (sign g) g))])); [now rewrite <- E|].
    transitivity (length (c' ++ [seq p' (set_of 2 g 1 (np - 1)); seq (add_of 2 nn fgrad (fc g) g 1 (np - 1)) (pfor np (quad_normal_code (sign g) g))])); [|now rewrite <- E'].
    rewrite !app_length, L, L'. reflexivity.
  - destruct (last_point (set_of 3 g 0) (add_of 3 nn fgrad (fc g) g 0) np (pfor np (fun ip => hex_normal_code (sign g) (alternate g ip) g 0 ip)) Hn) as (c & p & E & L).
    destruct (last_point (set_of 3 g 1) (add_of 3 nn fgrad (fc g) g 1) np (pfor np (fun ip => hex_normal_code (sign g) (alternate g ip) g 1 ip)) Hn) as (c' & p' & E' & L').
    transitivity (length (c ++ [seq p (set_of 3 g 0 (np - 1)); seq (add_of 3 nn fgrad (fc g) g 0 (np - 1)) (pfor np (fun ip => hex_normal_code (sign g) (alternate g ip) g 0 ip))])); [now rewrite <- E|].
    transitivity (length (c' ++ [seq p' (set_of 3 g 1 (np - 1)); seq (add_of 3 nn fgrad (fc g) g 1 (np - 1)) (pfor np (fun ip => hex_normal_code (sign g) (alternate g ip) g 1 ip))])); [|now rewrite <- E'].
    rewrite !app_length, L, L'. reflexivity.
Qed.

(** Quadrilaterals, two threads per team: for every face and every state of the
    memory there is an execution that leaves x-component 0 in the normal of the
    face's last point, whatever the coordinates of the face. *)
Theorem C82_quad_normals_race_refuted :
  forall n sign np nn fgrad fc μ f, (1 <= np)%Z -> (0 <= f < n)%Z ->
  exists μ', launch n 2 (normals_pool EQuad sign np nn fgrad fc alternate alternate alternate) μ μ' /\ μ' (n_at f (np - 1) 0) = 0.
Proof.
  intros n sign np nn fgrad fc μ f Hn Hf. set (K := normals_pool EQuad sign np nn fgrad fc alternate alternate alternate).
  destruct (reach_start n f K μ (fun g => code_length EQuad sign np nn fgrad fc g Hn)) as (m & R0).
  set (B := quad_normal_code (sign f) f). set (q := (np - 1)%Z).
  destruct (last_point (set_of 2 f 0) (add_of 2 nn fgrad (fc f) f 0) np (pfor np B) Hn) as (c & p & E & L).
  destruct (last_point (set_of 2 f 1) (add_of 2 nn fgrad (fc f) f 1) np (pfor np B) Hn) as (c' & p' & E' & L').
  change (K f 0%Z) with (cat (for_points np (fun ip => [set_of 2 f 0 ip; add_of 2 nn fgrad (fc f) f 0 ip])) [pfor np B]) in R0.
  change (K f 1%Z) with (cat (for_points np (fun ip => [set_of 2 f 1 ip; add_of 2 nn fgrad (fc f) f 1 ip])) [pfor np B]) in R0.
  rewrite E, E' in R0. fold q in R0.
  destruct (reach_lockstep n f Hf K μ c c' _ _ ltac:(lia) m R0) as (m1 & R1). clear R0 m E E'.
  assert (EB : pfor np B = seq (pfor q B) (B q)) by (replace np with (q + 1)%Z by (unfold q; lia); apply pfor_S; unfold q; lia).
  rewrite EB in R1.
  (* both threads reset their entry of the scratch array; barrier *)
  apply reach0, reach0_all, reach1, reach1_all, reach_barrier in R1; [|exact Hf|exact Hf|exact Hf|exact Hf|exact Hf].
  set (m2 := run (set_of 2 f 1 q) _) in R1.
  assert (Z2 : m2 (xg_at f 1 0 q) = 0).
  { unfold m2. set (M := run p' _). unfold set_of, share. rewrite run_pfor. change (2 * (2 - 1))%Z with 2%Z. rewrite zloop_2.
    change (1 mod 2 =? 1)%Z with true. change (1 / (2 - 1))%Z with 1%Z. change (1 mod (2 - 1))%Z with 0%Z. cbn [run]. apply store_eq. }
  (* thread 0: its entry, all points but the last, then the load of the other
     thread's entry *)
  apply reach0, reach0 in R1; [|exact Hf|exact Hf]. set (m3 := run (pfor q B) _) in R1.
  assert (Z3 : m3 (xg_at f 1 0 q) = 0).
  { unfold m3. rewrite (run_frame (fun a => exists ip k, a = n_at f ip k) (fun a => exists i j ip, a = xg_at f i j ip)).
    - rewrite (run_frame (fun a => a = xg_at f 0 0 q) (fun _ => False)); [exact Z2| |intros C; discriminate C].
      unfold add_of. apply confined_share. intros i Hi Ho. assert (i = 0)%Z by (assert (i = 0 \/ i = 1)%Z as [? | ->] by lia; [easy|discriminate Ho]). subst i.
      apply (gemm_dot_conf nn 1 _ _ (fun i j => xg_at f i j q) _ _ _ (fun _ i j => fc f j i) (fun _ => fgrad q)); [apply flip_table_ok|apply table_ok].
    - apply confined_pfor. intros ip _. unfold B. cbn. repeat split; eauto 6.
    - intros (ip & k & C). discriminate C. }
  unfold B at 1 in R1. unfold quad_normal_code in R1. apply reach0_load in R1; [|exact Hf]. rewrite Z3 in R1.
  (* thread 1 runs to the end, then thread 0 *)
  apply reach1_all, reach0_all, reach_barrier in R1; [|exact Hf|exact Hf|exact Hf]. apply reach_end in R1.
  eexists. split; [exact R1|]. cbn [run]. fold q. rewrite store_neq by (intros C; injection C as C; discriminate C).
  rewrite store_eq. ring.
Qed.
Print Assumptions C82_quad_normals_race_refuted.

(** Hexahedra, two threads per team: for every face there is an execution in which
    the x-component of the normal of the face's last point misses the sign of the
    face: thread 1 stores the cross product again after thread 0 has scaled it. *)
Lemma both_add dim nn fgrad fc g ip m : (2 <= dim)%Z -> (forall i j, (0 <= i < dim)%Z -> (0 <= j < dim - 1)%Z -> m (xg_at g i j ip) = 0) ->
  let m' := run (add_of dim nn fgrad fc g 1 ip) (run (add_of dim nn fgrad fc g 0 ip) m) in
  forall i j, (0 <= i < dim)%Z -> (0 <= j < dim - 1)%Z -> m' (xg_at g i j ip) = rsum nn (fun p => fc p i * fgrad ip p j).
Proof.
  intros Hd H0 m' i j Hi Hj. set (C := fun i j => xg_at g i j ip).
  set (L := gemm_add dim (dim - 1) nn 1 (flip (table fc)) (table (fgrad ip)) C (fun i => (i mod 2)%Z)).
  set (W := fun (ij : Z) a => a = C (ij / (dim - 1))%Z (ij mod (dim - 1))%Z).
  assert (HC : forall i, (0 <= i < tl_n L)%Z -> confined (W i) (fun _ => False) (tl_body L i)).
  { intros k _. apply (gemm_dot_conf nn 1 _ _ C _ _ _ (fun _ i j => fc j i) (fun _ => fgrad ip)); [apply flip_table_ok|apply table_ok]. }
  assert (HD : forall i j a, (0 <= i < tl_n L)%Z -> (0 <= j < tl_n L)%Z -> i <> j -> W i a -> ~ (W j a \/ False)).
  { intros k l a Hk Hl Ne Hw [Hw'|[]]. unfold W in *. subst a. unfold C, xg_at in Hw'. injection Hw' as E1 E2. apply Ne. apply (flat_inj (dim - 1)); auto. lia. }
  assert (Em : m' = loop_run L m).
  { unfold loop_run. rewrite <- (share_all 2 (fun i => (i mod 2)%Z) (tl_n L) (tl_body L) W (fun _ _ => False) m); [reflexivity| |exact HC|exact HD].
    intros k _. apply Z.mod_pos_bound. lia. }
  destruct (loop_effect L W (fun _ _ => False) m HC HD) as [A _].
  destruct (flat_of dim (dim - 1) i j Hi Hj) as (F1 & F2 & F3).
  rewrite Em. change (xg_at g i j ip) with (C i j). rewrite (A (i * (dim - 1) + j)%Z (C i j) F1) by (unfold W; now rewrite F2, F3).
  cbn [L gemm_add tl_body]. rewrite F2, F3. rewrite (gemm_dot_run nn 1 _ _ C i j (fun _ => False) (fun _ i j => fc j i) (fun _ => fgrad ip)) by (apply flip_table_ok || apply table_ok).
  rewrite store_eq. unfold C. rewrite H0 by easy. ring.
Qed.
Lemma both_set dim g ip m : (2 <= dim)%Z ->
  forall i j, (0 <= i < dim)%Z -> (0 <= j < dim - 1)%Z -> run (set_of dim g 1 ip) (run (set_of dim g 0 ip) m) (xg_at g i j ip) = 0.
Proof.
  intros Hd i j Hi Hj. set (C := fun i j => xg_at g i j ip). set (L := gemm_set dim (dim - 1) C (fun i => (i mod 2)%Z)).
  set (W := fun (ij : Z) a => a = C (ij / (dim - 1))%Z (ij mod (dim - 1))%Z).
  assert (HC : forall i, (0 <= i < tl_n L)%Z -> confined (W i) (fun _ => False) (tl_body L i)) by (intros k _; cbn; unfold W; auto).
  assert (HD : forall i j a, (0 <= i < tl_n L)%Z -> (0 <= j < tl_n L)%Z -> i <> j -> W i a -> ~ (W j a \/ False)).
  { intros k l a Hk Hl Ne Hw [Hw'|[]]. unfold W in *. subst a. unfold C, xg_at in Hw'. injection Hw' as E1 E2. apply Ne. apply (flat_inj (dim - 1)); auto. lia. }
  transitivity (loop_run L m (C i j)).
  { unfold loop_run. rewrite <- (share_all 2 (fun i => (i mod 2)%Z) (tl_n L) (tl_body L) W (fun _ _ => False) m); [reflexivity| |exact HC|exact HD].
    intros k _. apply Z.mod_pos_bound. lia. }
  destruct (loop_effect L W (fun _ _ => False) m HC HD) as [A _]. destruct (flat_of dim (dim - 1) i j Hi Hj) as (F1 & F2 & F3).
  rewrite (A (i * (dim - 1) + j)%Z (C i j) F1) by (unfold W; now rewrite F2, F3).
  cbn [L gemm_set tl_body run]. rewrite F2, F3. apply store_eq.
Qed.

Theorem C82_hex_normals_race_refuted :
  forall n sign np nn fgrad fc μ f, (1 <= np)%Z -> (0 <= f < n)%Z ->
  exists μ', launch n 2 (normals_pool EHex sign np nn fgrad fc alternate alternate alternate) μ μ' /\
    μ' (n_at f (np - 1) 0) = normal_of EHex 1 nn fgrad (fc f) (fun _ _ => 0) (np - 1)%Z (fun _ => 0) 0%Z.
Proof.
  intros n sign np nn fgrad fc μ f Hn Hf. set (K := normals_pool EHex sign np nn fgrad fc alternate alternate alternate).
  destruct (reach_start n f K μ (fun g => code_length EHex sign np nn fgrad fc g Hn)) as (m & R0).
  set (B := fun t ip => hex_normal_code (sign f) (alternate f ip) f t ip). set (q := (np - 1)%Z).
  destruct (last_point (set_of 3 f 0) (add_of 3 nn fgrad (fc f) f 0) np (pfor np (B 0%Z)) Hn) as (c & p & E & L).
  destruct (last_point (set_of 3 f 1) (add_of 3 nn fgrad (fc f) f 1) np (pfor np (B 1%Z)) Hn) as (c' & p' & E' & L').
  change (K f 0%Z) with (cat (for_points np (fun ip => [set_of 3 f 0 ip; add_of 3 nn fgrad (fc f) f 0 ip])) [pfor np (B 0%Z)]) in R0.
  change (K f 1%Z) with (cat (for_points np (fun ip => [set_of 3 f 1 ip; add_of 3 nn fgrad (fc f) f 1 ip])) [pfor np (B 1%Z)]) in R0.
  rewrite E, E' in R0. fold q in R0.
  destruct (reach_lockstep n f Hf K μ c c' _ _ ltac:(lia) m R0) as (m1 & R1). clear R0 m E E'.
  (* both threads reset their entries of the scratch array; barrier *)
  apply reach0, reach1, reach0_all, reach1_all, reach_barrier in R1; [|exact Hf|exact Hf|exact Hf|exact Hf|exact Hf].
  match type of R1 with reach _ _ _ _ _ _ (run _ (run _ ?x)) => set (M := x) in R1 end.
  pose proof (both_set 3 f q M ltac:(lia)) as Z2. set (m2 := run (set_of 3 f 1 q) _) in R1, Z2.
  (* both add the products *)
  apply reach0, reach1 in R1; [|exact Hf|exact Hf].
  pose proof (both_add 3 nn fgrad (fc f) f q m2 ltac:(lia) Z2) as Z3. cbv zeta in Z3.
  set (m3 := run (add_of 3 nn fgrad (fc f) f 1 q) _) in R1, Z3.
  (* thread 0 runs to the end, then thread 1 *)
  apply reach0_all, reach1_all, reach_barrier in R1; [|exact Hf|exact Hf|exact Hf]. apply reach_end in R1.
  eexists. split; [exact R1|].
  assert (CF : forall t ip, confined (fun a => exists ip k, a = n_at f ip k) (fun a => exists i j ip, a = xg_at f i j ip) (B t ip)).
  { intros t ip. unfold B, hex_normal_code, hex_cross_code. cbn [confined].
    do 6 (split; [right; do 3 eexists; reflexivity|intros ?]). do 3 (split; [do 2 eexists; reflexivity|]).
    apply confined_share. intros i _ _. cbn. repeat split; eauto 6. }
  assert (FR : forall t k m i j ip, run (pfor k (B t)) m (xg_at f i j ip) = m (xg_at f i j ip)).
  { intros t k m i j ip. apply (run_frame (fun a => exists ip k, a = n_at f ip k) (fun a => exists i j ip, a = xg_at f i j ip)).
    - apply confined_pfor. intros; apply CF.
    - intros (x & y & C). discriminate C. }
  replace np with (q + 1)%Z at 1 by (unfold q; lia). rewrite pfor_S by (unfold q; lia). rewrite run_seq.
  set (m4 := run (pfor q (B 1%Z)) _).
  assert (Z4 : forall i j, (0 <= i < 3)%Z -> (0 <= j < 2)%Z -> m4 (xg_at f i j q) = rsum nn (fun p => fc f p i * fgrad q p j)).
  { intros i j Hi Hj. unfold m4. rewrite !FR. apply Z3; lia. }
  unfold B, hex_normal_code, hex_cross_code. cbn [run]. unfold share. rewrite run_pfor, zloop_3.
  unfold alternate. change (0 mod 2 =? 1)%Z with false. change (1 mod 2 =? 1)%Z with true. change (2 mod 2 =? 1)%Z with false. cbn [run]. cbv iota.
  repeat (rewrite store_neq by (intros C; injection C as C; discriminate C)). rewrite store_eq. rewrite !Z4 by lia.
  cbn [normal_of]. unfold normal_hex. cbv zeta. unfold cA_to_A1, cross.
  unfold cATxB_to_C. rewrite !gemm_entry. rewrite ?(proj2 (inb_true 3 0)), ?(proj2 (inb_true 3 1)), ?(proj2 (inb_true 3 2)), ?(proj2 (inb_true 2 1)), ?(proj2 (inb_true 2 0)) by lia. cbn [andb].
  rewrite zloop_3. fold q. repeat (rewrite upd1_eq || (rewrite upd1_neq by lia)). ring.
Qed.
Print Assumptions C82_hex_normals_race_refuted.

(** On the left edge x = 0 of a square (nodes (0,0) and (0,2), derivatives -1/2 and 1/2)
    the normal is (1, 0), and on a face with edge vectors (0,1,0), (0,0,1) and sign
    -1 its x-component is -1: the executions above leave 0 and 1. *)
Definition demo_edge : arr2 := fun p d => if ((p =? 1) && (d =? 1))%Z%bool then 2 else 0.
Definition demo_edge_grad : arr3 := fun _ p _ => if (p =? 0)%Z then -(1/2) else 1/2.
Definition demo_hex_face : arr2 := fun p d => if ((p =? 1) && (d =? 1))%Z%bool then 1 else if ((p =? 2) && (d =? 2))%Z%bool then 1 else 0.
Definition demo_hex_grad : arr3 := fun _ p j => if (p =? j + 1)%Z then 1 else if (p =? 0)%Z then -1 else 0.
Example C82_demo :
  (normal_of EQuad 1 2 demo_edge_grad demo_edge (fun _ _ => 0) 0%Z (fun _ => 0) 0%Z = 1 /\
   exists μ', launch 1 2 (normals_pool EQuad (fun _ => 1) 1 2 demo_edge_grad (fun _ => demo_edge) alternate alternate alternate) (fun _ => 0) μ' /\ μ' (n_at 0 0 0) = 0) /\
  (normal_of EHex (-1) 3 demo_hex_grad demo_hex_face (fun _ _ => 0) 0%Z (fun _ => 0) 0%Z = -1 /\
   exists μ', launch 1 2 (normals_pool EHex (fun _ => -1) 1 3 demo_hex_grad (fun _ => demo_hex_face) alternate alternate alternate) (fun _ => 0) μ' /\ μ' (n_at 0 0 0) = 1) /\
  forall g ip i, (0 <= alternate g ip i < 2)%Z.
Proof.
  assert (H3 : forall sg, normal_of EHex sg 3 demo_hex_grad demo_hex_face (fun _ _ => 0) 0%Z (fun _ => 0) 0%Z = sg).
  { intros sg. cbn [normal_of]. unfold normal_hex. cbv zeta. unfold cA_to_A1, cross, cATxB_to_C. rewrite !gemm_entry, zloop_3.
    rewrite ?(proj2 (inb_true 3 0)), ?(proj2 (inb_true 3 1)), ?(proj2 (inb_true 3 2)), ?(proj2 (inb_true 2 1)), ?(proj2 (inb_true 2 0)) by lia. cbn [andb].
    repeat (rewrite upd1_eq || (rewrite upd1_neq by lia)). rewrite !rsum_3. cbn. ring. }
  split; [|split; [|apply alternate_ok]].
  - split.
    + cbn [normal_of]. unfold normal_quad. cbv zeta. unfold cATxB_to_C. rewrite !gemm_entry.
      rewrite ?(proj2 (inb_true 2 1)), ?(proj2 (inb_true 2 0)), ?(proj2 (inb_true 1 0)) by lia. cbn [andb].
      repeat (rewrite upd1_eq || (rewrite upd1_neq by lia)). rewrite !rsum_2. cbn. lra.
    + exact (C82_quad_normals_race_refuted 1 (fun _ => 1) 1 2 demo_edge_grad (fun _ => demo_edge) (fun _ => 0) 0 ltac:(lia) ltac:(lia)).
  - split; [apply H3|].
    destruct (C82_hex_normals_race_refuted 1 (fun _ => -1) 1 3 demo_hex_grad (fun _ => demo_hex_face) (fun _ => 0) 0 ltac:(lia) ltac:(lia)) as (m & L & E).
    exists m. split; [exact L|]. rewrite <- (H3 1). exact E.
Qed.
Print Assumptions C82_demo.
