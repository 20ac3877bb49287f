(** TeamLaunch.v -- the kernels of the residual evaluation: every interleaving
    gives the result of the corresponding function of SolverModel.v. *)
From Coq Require Import ZArith List Lia Reals Lra Bool Permutation FunctionalExtensionality Classical.
From Verif Require Import Base RBase LinAlgModel LinAlgProof PhysModel ShapeModel MeshModel CommModel SolverModel SolverSpec SolverProof
  SolverFaces SolverConserve TeamModel TeamProof TeamKernels TeamKernelProof.
Import ListNotations.
Local Open Scope R_scope.
Open Scope res_scope.

(** ** Kernels without teams *)
Lemma flat_disjoint n body (W A : Z -> loc -> Prop) :
  (forall g, (0 <= g < n)%Z -> confined (W g) (A g) (body g)) ->
  (forall g g' a, (0 <= g < n)%Z -> (0 <= g' < n)%Z -> g <> g' -> W g a -> ~ (W g' a \/ A g' a)) ->
  disjoint_loops n (flat body) (fun g _ _ => W g) (fun g _ _ => A g).
Proof.
  intros HC HD. assert (L1 : forall g ph L, nth_error (flat body g) ph = Some L -> L = mkTL 1 (fun _ => 0%Z) (fun _ => body g)).
  { intros g ph L E. destruct ph as [|ph]; cbn in E; [now injection E as <-|]. destruct ph; discriminate. }
  constructor.
  - intros g ph L i Hg E Hi. rewrite (L1 g ph L E) in *. now apply HC.
  - intros g ph L i j a Hg E Hi Hj Ne. rewrite (L1 g ph L E) in *. cbn in Hi, Hj. lia.
  - intros g g' ph ph' L L' i j a Hg Hg' Ne _ _ _ _. now apply HD.
Qed.
Lemma flat_assigned n body : assigned n 1 (flat body).
Proof. intros g L i Hg [<-|[]] Hi. cbn. lia. Qed.

Lemma flat_launch n body W A order μ μ' :
  (forall g, (0 <= g < n)%Z -> confined (W g) (A g) (body g)) ->
  (forall g g' a, (0 <= g < n)%Z -> (0 <= g' < n)%Z -> g <> g' -> W g a -> ~ (W g' a \/ A g' a)) ->
  Permutation order (zseq n) -> launch n 1 (kernel (flat body)) μ μ' ->
  μ' = ploop order (fun g m => run (body g) m) μ.
Proof.
  intros HC HD PE LA. rewrite (launch_sequential n 1 ltac:(lia) (flat body) (flat_assigned n body) _ _ (flat_disjoint n body W A HC HD) order μ μ' PE LA).
  reflexivity.
Qed.
Lemma flat_completes n body W A μ :
  (forall g, (0 <= g < n)%Z -> confined (W g) (A g) (body g)) ->
  (forall g g' a, (0 <= g < n)%Z -> (0 <= g' < n)%Z -> g <> g' -> W g a -> ~ (W g' a \/ A g' a)) ->
  never_stuck n 1 (kernel (flat body)) μ /\ exists μ', launch n 1 (kernel (flat body)) μ μ'.
Proof.
  intros HC HD. exact (launch_completes n 1 ltac:(lia) (flat body) _ _ (flat_disjoint n body W A HC HD) μ).
Qed.

(** Two-dimensional ranges. *)
Section MD.
Context (n0 n1 : Z) (Hn : (0 <= n1)%Z) (body : Z -> Z -> prog) (W A : Z -> Z -> loc -> Prop).
Context (HC : forall i j, (0 <= i < n0)%Z -> (0 <= j < n1)%Z -> confined (W i j) (A i j) (body i j)).
Context (HD : forall i j i' j' a, (0 <= i < n0)%Z -> (0 <= j < n1)%Z -> (0 <= i' < n0)%Z -> (0 <= j' < n1)%Z ->
   W i j a -> W i' j' a \/ A i' j' a -> i = i' /\ j = j').

Lemma md_conf g : (0 <= g < n0 * n1)%Z -> confined (W (g / n1) (g mod n1))%Z (A (g / n1) (g mod n1))%Z (body (g / n1) (g mod n1))%Z.
Proof. intros Hg. destruct (flat_idx n0 n1 g Hn Hg). now apply HC. Qed.
Lemma md_disj g g' a : (0 <= g < n0 * n1)%Z -> (0 <= g' < n0 * n1)%Z -> g <> g' ->
  W (g / n1)%Z (g mod n1)%Z a -> ~ (W (g' / n1)%Z (g' mod n1)%Z a \/ A (g' / n1)%Z (g' mod n1)%Z a).
Proof.
  intros Hg Hg' Ne Hw Ha. destruct (flat_idx n0 n1 g Hn Hg), (flat_idx n0 n1 g' Hn Hg').
  destruct (HD _ _ _ _ a H H0 H1 H2 Hw Ha) as [E1 E2]. apply Ne. apply (flat_inj n1); auto. exact (flat_pos n0 n1 g Hn Hg).
Qed.

Lemma each_once_In order i j : each_once order n0 n1 -> In (i, j) order <-> (0 <= i < n0)%Z /\ (0 <= j < n1)%Z.
Proof.
  intros P. split.
  - intros H. apply (Permutation_in _ P) in H. apply in_prod_iff in H. now rewrite !In_zseq in H.
  - intros H. apply (Permutation_in _ (Permutation_sym P)). apply in_prod_iff. now rewrite !In_zseq.
Qed.
Lemma md_perm order : each_once order n0 n1 ->
  Permutation (map (fun p : Z * Z => fst p * n1 + snd p)%Z order) (zseq (n0 * n1)).
Proof.
  intros P. apply NoDup_Permutation.
  - apply Permutation_sym in P. assert (ND : NoDup order).
    { apply (Permutation_NoDup P). apply NoDup_list_prod; apply NoDup_zseq. }
    apply Permutation_sym in P.
    assert (X : forall l, NoDup l -> (forall p, In p l -> In p order) -> NoDup (map (fun p : Z * Z => fst p * n1 + snd p)%Z l)).
    { induction l as [|[i j] l IH]; intros N Hl; cbn [map]; [constructor|]. inversion N as [|? ? N1 N2]; subst. constructor.
      - intros H. apply in_map_iff in H. destruct H as ([i' j'] & E & Hin). cbn [fst snd] in E.
        destruct (proj1 (each_once_In order i j P) (Hl _ (or_introl eq_refl))) as [B1 B2].
        destruct (proj1 (each_once_In order i' j' P) (Hl _ (or_intror Hin))) as [B3 B4].
        destruct (flat_of n0 n1 i j B1 B2) as (_ & E1 & E2), (flat_of n0 n1 i' j' B3 B4) as (_ & E3 & E4).
        rewrite E in E3, E4. rewrite E3 in E1. rewrite E4 in E2. subst. easy.
      - apply IH; auto. intros p Hp. apply Hl. now right. }
    apply X; auto.
  - apply NoDup_zseq.
  - intros g. rewrite In_zseq, in_map_iff. split.
    + intros ([i j] & <- & H). apply (each_once_In order i j P) in H. cbn [fst snd]. destruct H as [B1 B2]. now destruct (flat_of n0 n1 i j B1 B2).
    + intros Hg. exists (g / n1, g mod n1)%Z. split; [cbn [fst snd]; pose proof (Z.div_mod g n1); pose proof (flat_pos n0 n1 g Hn Hg); lia|].
      apply (each_once_In order _ _ P). now apply flat_idx.
Qed.

Lemma md_launch order μ μ' : each_once order n0 n1 -> launch (n0 * n1) 1 (kernel (mdrange n1 body)) μ μ' ->
  μ' = fold_left (fun m p => run (body (fst p) (snd p)) m) order μ.
Proof.
  intros P LA. rewrite (flat_launch (n0 * n1) _ (fun g => W (g / n1)%Z (g mod n1)%Z) (fun g => A (g / n1)%Z (g mod n1)%Z) _ μ μ' md_conf md_disj (md_perm order P) LA).
  unfold ploop. assert (X : forall l m, (forall p, In p l -> In p order) ->
    fold_left (fun s g => run (body (g / n1)%Z (g mod n1)%Z) s) (map (fun p : Z * Z => fst p * n1 + snd p)%Z l) m =
    fold_left (fun m p => run (body (fst p) (snd p)) m) l m).
  { induction l as [|[i j] l IH]; intros m Hl; cbn [map fold_left fst snd]; [easy|].
    destruct (proj1 (each_once_In order i j P) (Hl _ (or_introl eq_refl))) as [B1 B2].
    destruct (flat_of n0 n1 i j B1 B2) as (_ & -> & ->). apply IH. intros p Hp. apply Hl. now right. }
  apply X. auto.
Qed.
Lemma md_completes μ : never_stuck (n0 * n1) 1 (kernel (mdrange n1 body)) μ /\ exists μ', launch (n0 * n1) 1 (kernel (mdrange n1 body)) μ μ'.
Proof. exact (flat_completes _ _ _ _ μ md_conf md_disj). Qed.
End MD.

(** ** Simulation of the model's loops *)
Lemma foreach_sim {X S} (l : list X) (f : X -> S -> res S) (g : X -> mem -> mem) (Rel : S -> mem -> Prop) :
  (forall x s s' m, In x l -> Rel s m -> f x s = Ok s' -> Rel s' (g x m)) ->
  forall s s' m, foreach l f s = Ok s' -> Rel s m -> Rel s' (fold_left (fun m x => g x m) l m).
Proof.
  induction l as [|x l IH]; intros H s s' m E HR; cbn in *.
  - now injection E as <-.
  - destruct (f x s) as [s1|] eqn:E1; [|discriminate]. cbn [bind] in E.
    apply (IH (fun y s s' m Hy => H y s s' m (or_intror Hy)) s1 s' _ E). exact (H x s s1 m (or_introl eq_refl) HR E1).
Qed.
Lemma zfor_sim {S} n (f : Z -> S -> res S) (g : Z -> mem -> mem) (Rel : S -> mem -> Prop) :
  (forall i s s' m, (0 <= i < n)%Z -> Rel s m -> f i s = Ok s' -> Rel s' (g i m)) ->
  forall s s' m, zfor n f s = Ok s' -> Rel s m -> Rel s' (zloop n g m).
Proof.
  intros H. unfold zfor, zloop. apply foreach_sim. intros i s s' m Hi. apply H. now apply In_zseq.
Qed.
Lemma zloop_sim {S} n (f : Z -> S -> S) (g : Z -> mem -> mem) (Rel : S -> mem -> Prop) :
  (forall i s m, (0 <= i < n)%Z -> Rel s m -> Rel (f i s) (g i m)) ->
  forall s m, Rel s m -> Rel (zloop n f s) (zloop n g m).
Proof.
  intros H. unfold zloop. assert (X : forall l, (forall i, In i l -> (0 <= i < n)%Z) -> forall s m, Rel s m ->
    Rel (fold_left (fun s i => f i s) l s) (fold_left (fun s i => g i s) l m)).
  { induction l as [|i l IH]; intros Hl s m HR; cbn; [easy|]. apply IH; [intros j Hj; apply Hl; now right|]. apply H; [|easy]. apply Hl. now left. }
  intros s m. apply X. intros i. apply In_zseq.
Qed.

(** ** Views of a memory *)
Lemma view3_store_same v m i j k x : view3 v (store m (at3 v i j k) x) = upd3 (view3 v m) i j k x.
Proof.
  apply functional_extensionality. intros i'. apply functional_extensionality. intros j'. apply functional_extensionality. intros k'.
  unfold view3, store, upd3, at3, loc_eqb. rewrite Z.eqb_refl. cbn [andb]. now rewrite andb_true_r.
Qed.
Lemma view3_store_other v m w i j k l x : v <> w -> view3 v (store m (At w i j k l) x) = view3 v m.
Proof.
  intros Ne. apply functional_extensionality. intros i'. apply functional_extensionality. intros j'. apply functional_extensionality. intros k'.
  unfold view3, at3. apply store_neq. intros E. injection E as -> _ _ _ _. easy.
Qed.
Lemma view4_store_same v m i j k l x : view4 v (store m (At v i j k l) x) = upd4 (view4 v m) i j k l x.
Proof.
  apply functional_extensionality. intros i'. apply functional_extensionality. intros j'. apply functional_extensionality. intros k'.
  apply functional_extensionality. intros l'. unfold view4, store, upd4, loc_eqb. rewrite Z.eqb_refl. reflexivity.
Qed.
Lemma view4_store_other v m w i j k l x : v <> w -> view4 v (store m (At w i j k l) x) = view4 v m.
Proof.
  intros Ne. apply functional_extensionality. intros i'. apply functional_extensionality. intros j'. apply functional_extensionality. intros k'.
  apply functional_extensionality. intros l'. unfold view4. apply store_neq. intros E. injection E as -> _ _ _ _. easy.
Qed.

(** Nothing outside the views [vs] has changed. *)
Definition keeps (vs : list Z) (m μ : mem) : Prop := forall v i j k l, ~ In v vs -> m (At v i j k l) = μ (At v i j k l).
Lemma keeps_refl vs m : keeps vs m m.
Proof. intros v i j k l _. reflexivity. Qed.
Lemma keeps_store vs m μ v i j k l x : In v vs -> keeps vs m μ -> keeps vs (store m (At v i j k l) x) μ.
Proof.
  intros Hv H w a b c d Hw. rewrite store_neq; [now apply H|]. intros E. injection E as -> _ _ _ _. easy.
Qed.
Lemma keeps_view3 vs m μ v : keeps vs m μ -> ~ In v vs -> view3 v m = view3 v μ.
Proof.
  intros H Hv. apply functional_extensionality. intros i. apply functional_extensionality. intros j. apply functional_extensionality. intros k.
  now apply H.
Qed.
Lemma keeps_view4 vs m μ v : keeps vs m μ -> ~ In v vs -> view4 v m = view4 v μ.
Proof.
  intros H Hv. apply functional_extensionality. intros i. apply functional_extensionality. intros j. apply functional_extensionality. intros k.
  apply functional_extensionality. intros l. now apply H.
Qed.
Lemma keeps_of vs m μ : (forall a, (forall v i j k l, In v vs -> a <> At v i j k l) -> m a = μ a) -> keeps vs m μ.
Proof. intros H v i j k l Hv. apply H. intros w a b c d Hw E. injection E as -> _ _ _ _. easy. Qed.

Ltac other_view := let H := fresh in intros H; cbv in H; repeat (destruct H as [H|H]; [discriminate H|]); exact H.

(** ** The products *)
Lemma flip_table_ok a F : operand_ok (flip (table a)) F (fun _ i j => a j i).
Proof. constructor; [reflexivity|]. intros W i j k H. apply H. Qed.

Lemma evaluate_state_launch np ns nb bv vin vout own0 own1 ne T order μ μ' :
  (0 <= ns)%Z -> vin <> vout -> (0 < T)%Z -> assigned ne T (evaluate_state_k np ns nb bv vin vout own0 own1) ->
  Permutation order (zseq ne) -> launch ne T (kernel (evaluate_state_k np ns nb bv vin vout own0 own1)) μ μ' ->
  view3 vout μ' = evaluate_state order np ns nb bv (view3 vin μ) (view3 vout μ) /\ keeps [vout] μ' μ.
Proof.
  intros Hn HV HT AS PE LA.
  destruct (gemm_launch np ns nb 1 (fun _ => table bv) (fun _ => bv) vin vout true own0 own1 Hn HV (fun _ => table_ok bv) ne T order μ μ' HT AS PE LA) as [X Y].
  split; [exact X|]. apply keeps_of. intros a Ha. apply Y. intros i j l. apply Ha. now left.
Qed.
Lemma evaluate_state_completes np ns nb bv vin vout own0 own1 ne T μ :
  (0 <= ns)%Z -> vin <> vout -> (0 < T)%Z ->
  never_stuck ne T (kernel (evaluate_state_k np ns nb bv vin vout own0 own1)) μ /\
  exists μ', launch ne T (kernel (evaluate_state_k np ns nb bv vin vout own0 own1)) μ μ'.
Proof.
  intros Hn HV HT.
  exact (launch_completes ne T HT _ _ _ (gemm_disjoint np ns nb 1 (fun _ => table bv) (fun _ => bv) vin vout true own0 own1 Hn HV (fun _ => table_ok bv) ne) μ).
Qed.

Lemma face_flux_integral_launch np nb ns bv own ne T order μ μ' :
  (0 <= ns)%Z -> (0 < T)%Z -> assigned ne T (face_flux_integral_k np nb ns bv own) ->
  Permutation order (zseq ne) -> launch ne T (kernel (face_flux_integral_k np nb ns bv own)) μ μ' ->
  view3 vRes μ' = face_flux_integral order np nb ns bv (view3 vFe μ) (view3 vRes μ) /\ keeps [vRes] μ' μ.
Proof.
  intros Hn HT AS PE LA.
  destruct (gemm_launch nb ns np 1 (fun _ => flip (table bv)) (fun _ i j => bv j i) vFe vRes false own own Hn ltac:(discriminate) (fun _ => flip_table_ok bv) ne T order μ μ' HT AS PE LA) as [X Y].
  split; [exact X|]. apply keeps_of. intros a Ha. apply Y. intros i j l. apply Ha. now left.
Qed.
Lemma face_flux_integral_completes np nb ns bv own ne T μ :
  (0 <= ns)%Z -> (0 < T)%Z ->
  never_stuck ne T (kernel (face_flux_integral_k np nb ns bv own)) μ /\
  exists μ', launch ne T (kernel (face_flux_integral_k np nb ns bv own)) μ μ'.
Proof.
  intros Hn HT.
  exact (launch_completes ne T HT _ _ _ (gemm_disjoint nb ns np 1 (fun _ => flip (table bv)) (fun _ i j => bv j i) vFe vRes false own own Hn ltac:(discriminate) (fun _ => flip_table_ok bv) ne) μ).
Qed.

Lemma mult_inv_mass_launch nb ns dt iMM own0 own1 ne T order μ μ' :
  (0 <= ns)%Z -> (0 < T)%Z -> assigned ne T (mult_inv_mass_k nb ns dt iMM own0 own1) ->
  Permutation order (zseq ne) -> launch ne T (kernel (mult_inv_mass_k nb ns dt iMM own0 own1)) μ μ' ->
  view3 vdU μ' = mult_inv_mass_matrix order nb ns dt iMM (view3 vRes μ) (view3 vdU μ) /\ keeps [vdU] μ' μ.
Proof.
  intros Hn HT AS PE LA.
  destruct (gemm_launch nb ns nb dt (fun e => table (iMM e)) (fun e => iMM e) vRes vdU true own0 own1 Hn ltac:(discriminate) (fun e => table_ok (iMM e)) ne T order μ μ' HT AS PE LA) as [X Y].
  split; [exact X|]. apply keeps_of. intros a Ha. apply Y. intros i j l. apply Ha. now left.
Qed.
Lemma mult_inv_mass_completes nb ns dt iMM own0 own1 ne T μ :
  (0 <= ns)%Z -> (0 < T)%Z ->
  never_stuck ne T (kernel (mult_inv_mass_k nb ns dt iMM own0 own1)) μ /\
  exists μ', launch ne T (kernel (mult_inv_mass_k nb ns dt iMM own0 own1)) μ μ'.
Proof.
  intros Hn HT.
  exact (launch_completes ne T HT _ _ _ (gemm_disjoint nb ns nb dt (fun e => table (iMM e)) (fun e => iMM e) vRes vdU true own0 own1 Hn ltac:(discriminate) (fun e => table_ok (iMM e)) ne) μ).
Qed.

(** ** Zeroing the residual *)
Definition zero_cell (nb ns g : Z) : loc := at3 vRes (g / (nb * ns)) ((g / ns) mod nb) (g mod ns).
Lemma zero_cell_inj nb ns g g' : (0 < nb)%Z -> (0 < ns)%Z -> zero_cell nb ns g = zero_cell nb ns g' -> g = g'.
Proof.
  intros Hb Hs E. unfold zero_cell in E. injection E as E1 E2 E3. apply (flat_inj ns); [lia| |easy]. apply (flat_inj nb); [lia| |easy].
  rewrite !Z.div_div by lia. now rewrite !(Z.mul_comm ns nb).
Qed.
Section Zero.
Context (ne nb ns : Z) (Hb : (0 <= nb)%Z) (Hs : (0 <= ns)%Z).
Lemma zero_pos g : (0 <= g < ne * nb * ns)%Z -> (0 < nb)%Z /\ (0 < ns)%Z.
Proof.
  intros Hg. pose proof (flat_pos (ne * nb) ns g Hs Hg). split; [|easy].
  assert (nb <> 0)%Z by (intros ->; rewrite Z.mul_0_r in Hg; cbn in Hg; lia). lia.
Qed.
Lemma zero_conf g : confined (fun a => a = zero_cell nb ns g) (fun _ => False) (Store (zero_cell nb ns g) 0 Done).
Proof. cbn. auto. Qed.
Lemma zero_disj g g' a : (0 <= g < ne * nb * ns)%Z -> (0 <= g' < ne * nb * ns)%Z -> g <> g' ->
  a = zero_cell nb ns g -> ~ (a = zero_cell nb ns g' \/ False).
Proof. intros Hg Hg' Ne -> [E|[]]. destruct (zero_pos g Hg). apply Ne. exact (zero_cell_inj nb ns g g' H H0 E). Qed.

Lemma zero_res_launch μ μ' : launch (ne * nb * ns) 1 (kernel (zero_res_k nb ns)) μ μ' ->
  view3 vRes μ' = (fun e ib is => if within3 (ne, nb, ns) e ib is then 0 else view3 vRes μ e ib is) /\ keeps [vRes] μ' μ.
Proof.
  intros LA. rewrite (flat_launch (ne * nb * ns) (fun g => Store (zero_cell nb ns g) 0 Done) (fun g a => a = zero_cell nb ns g) (fun _ _ => False) (zseq (ne * nb * ns)) μ μ'
    (fun g _ => zero_conf g) zero_disj (Permutation_refl _) LA).
  cbn [run]. unfold ploop.
  assert (X : forall l m a, (In a (map (zero_cell nb ns) l) -> fold_left (fun s g => store s (zero_cell nb ns g) 0) l m a = 0) /\
    (~ In a (map (zero_cell nb ns) l) -> fold_left (fun s g => store s (zero_cell nb ns g) 0) l m a = m a)).
  { induction l as [|g l IH]; intros m a; cbn [map In fold_left]; [easy|]. destruct (IH (store m (zero_cell nb ns g) 0) a) as [I1 I2].
    split.
    - intros H. destruct (classic (In a (map (zero_cell nb ns) l))) as [Y|N]; [auto|]. rewrite I2 by easy. destruct H as [<-|H]; [apply store_eq|easy].
    - intros H. rewrite I2 by tauto. apply store_neq. intros ->. tauto. }
  split.
  - apply functional_extensionality. intros e. apply functional_extensionality. intros ib. apply functional_extensionality. intros is.
    unfold view3 at 1. destruct (within3 (ne, nb, ns) e ib is) eqn:B.
    + apply X. apply in_map_iff. cbn in B. rewrite !andb_true_iff, !Z.leb_le, !Z.ltb_lt in B.
      exists ((e * nb + ib) * ns + is)%Z. destruct (flat_of (ne * nb) ns (e * nb + ib) is) as (F1 & F2 & F3); [nia|lia|].
      destruct (flat_of ne nb e ib) as (G1 & G2 & G3); [lia|lia|].
      split; [|now apply In_zseq]. unfold zero_cell. rewrite (Z.mul_comm nb ns), <- Z.div_div by lia. now rewrite F2, F3, G2, G3.
    + apply X. intros H. apply in_map_iff in H. destruct H as (g & E & Hg). apply In_zseq in Hg. destruct (zero_pos g Hg) as [P1 P2].
      unfold zero_cell in E. injection E as <- <- <-. rewrite within3_intro in B; [discriminate| | |].
      * rewrite (Z.mul_comm nb ns), <- Z.div_div by lia. destruct (flat_idx (ne * nb) ns g Hs Hg) as [Q _]. now destruct (flat_idx ne nb (g / ns) Hb Q).
      * apply Z.mod_pos_bound; lia.
      * apply Z.mod_pos_bound; lia.
  - apply keeps_of. intros a Ha. apply X. intros H. apply in_map_iff in H. destruct H as (g & <- & _). apply (Ha vRes (g / (nb * ns)) ((g / ns) mod nb) (g mod ns) 0)%Z; [now left|reflexivity].
Qed.
Lemma zero_res_completes μ : never_stuck (ne * nb * ns) 1 (kernel (zero_res_k nb ns)) μ /\ exists μ', launch (ne * nb * ns) 1 (kernel (zero_res_k nb ns)) μ μ'.
Proof. exact (flat_completes (ne * nb * ns) _ _ _ μ (fun g _ => zero_conf g) zero_disj). Qed.
End Zero.

(** ** Volume integral *)
Section VInt.
Context (nq nb ns nd : Z) (bg : arr3).
Definition viW (e : Z) (a : loc) : Prop := exists ib is, a = at3 vRes e ib is.
Definition viA (e : Z) (a : loc) : Prop := exists iq is id, a = At vG e iq is id.
Definition vi_body : Z -> prog :=
  fun e => pfor nb (fun ib => pfor ns (fun is => pfor nq (fun iq => pfor nd (fun id =>
      Load (at3 vRes e ib is) (fun r => Load (At vG e iq is id) (fun f => Store (at3 vRes e ib is) (r + bg iq ib id * f) Done)))))).
Lemma vi_conf e : confined (viW e) (viA e) (vi_body e).
Proof.
  unfold vi_body. do 4 (apply confined_pfor; intros ? _). cbn. unfold viW, viA. repeat split; eauto.
Qed.
Lemma vi_disj n g g' a : (0 <= g < n)%Z -> (0 <= g' < n)%Z -> g <> g' -> viW g a -> ~ (viW g' a \/ viA g' a).
Proof.
  intros _ _ Ne (i & k & ->) [(i' & k' & E)|(i' & k' & d' & E)]; injection E as E; [easy|discriminate].
Qed.
Lemma volume_flux_integral_launch ne order μ μ' : Permutation order (zseq ne) ->
  launch ne 1 (kernel (volume_flux_integral_k nq nb ns nd bg)) μ μ' ->
  view3 vRes μ' = volume_flux_integral order nq nb ns nd bg (view4 vG μ) (view3 vRes μ) /\ keeps [vRes] μ' μ.
Proof.
  intros PE LA. rewrite (flat_launch ne vi_body viW viA order μ μ' (fun g _ => vi_conf g) (vi_disj ne) PE LA).
  set (Rel := fun (rs : arr3) m => view3 vRes m = rs /\ keeps [vRes] m μ).
  assert (X : forall l rs m, Rel rs m -> Rel (volume_flux_integral l nq nb ns nd bg (view4 vG μ) rs) (ploop l (fun g m => run (vi_body g) m) m)).
  { unfold volume_flux_integral, ploop. induction l as [|e l IH]; intros rs m HR; cbn [fold_left]; [exact HR|]. apply IH.
    unfold vi_body. rewrite run_pfor. apply (zloop_sim nb _ _ Rel); [|exact HR]. intros ib r1 m1 _ H1.
    rewrite run_pfor. apply (zloop_sim ns _ _ Rel); [|exact H1]. intros is r2 m2 _ H2.
    rewrite run_pfor. apply (zloop_sim nq _ _ Rel); [|exact H2]. intros iq r3 m3 _ H3.
    rewrite run_pfor. apply (zloop_sim nd _ _ Rel); [|exact H3]. intros id r4 m4 _ [E4 K4].
    cbn [run]. split.
    - rewrite view3_store_same, E4. f_equal. unfold at3. rewrite (K4 vG e iq is id) by other_view.
      rewrite <- E4. reflexivity.
    - apply keeps_store; [now left|easy]. }
  destruct (X order (view3 vRes μ) μ) as [Y1 Y2]; [split; [easy|apply keeps_refl]|]. easy.
Qed.
Lemma volume_flux_integral_completes ne μ : never_stuck ne 1 (kernel (volume_flux_integral_k nq nb ns nd bg)) μ /\
  exists μ', launch ne 1 (kernel (volume_flux_integral_k nq nb ns nd bg)) μ μ'.
Proof. exact (flat_completes ne vi_body viW viA μ (fun g _ => vi_conf g) (vi_disj ne)). Qed.
End VInt.

(** ** Gathering the face states *)
Section FaceStates.
Context (rank : Z) (rows : list (list Z)) (nif nqf ns : Z) (qL qR : Z -> Z -> Z) (Hq : (0 <= nqf)%Z).
Definition fsW (i j : Z) (a : loc) : Prop := exists k, a = at3 vUL i j k \/ a = at3 vUR i j k.
Definition fsA (i j : Z) (a : loc) : Prop := exists e p k, a = at3 vUf e p k.
Lemma fs_conf i j : confined (fsW i j) (fsA i j) (lift (face_states_body rank rows nqf ns qL qR i j)).
Proof.
  unfold face_states_body. destruct (rd2 rows i 0) as [rL|]; [|easy]. cbn [bind]. destruct (rd2 rows i 4) as [rR|]; [|easy]. cbn [bind].
  set (P := if (rank =? rL)%Z then _ else _). assert (HP : forall p, P = Ok p -> confined (fsW i j) (fsA i j) p).
  { unfold P. destruct (rank =? rL)%Z; [|intros p E; injection E as <-; exact Logic.I].
    destruct (rd2 rows i 1); [|discriminate]. cbn [bind]. destruct (rd2 rows i 2); [|discriminate]. cbn [bind]. intros p E. injection E as <-.
    apply confined_pfor. intros k _. cbn. unfold fsW, fsA. repeat split; eauto. }
  destruct P as [p|]; [|easy]. cbn [bind].
  set (Q := if (rank =? rR)%Z then _ else _). assert (HQ : forall p, Q = Ok p -> confined (fsW i j) (fsA i j) p).
  { unfold Q. destruct (rank =? rR)%Z; [|intros q E; injection E as <-; exact Logic.I].
    destruct (rd2 rows i 5); [|discriminate]. cbn [bind]. destruct (rd2 rows i 6); [|discriminate]. cbn [bind]. intros q E. injection E as <-.
    apply confined_pfor. intros k _. cbn. unfold fsW, fsA. repeat split; eauto. }
  destruct Q as [q|]; [|easy]. cbn [bind lift]. apply confined_seq; auto.
Qed.
Lemma fs_disj i j i' j' a : fsW i j a -> fsW i' j' a \/ fsA i' j' a -> i = i' /\ j = j'.
Proof.
  intros (k & [-> | ->]) [(k' & [E|E])|(e & p & k' & E)]; injection E; intros; auto; discriminate.
Qed.

Lemma face_states_launch uext order UL UR μ μ' : each_once order nif nqf ->
  construct_face_states rank rows nif nqf ns uext qL qR order (view3 vUf μ) (view3 vUL μ) (view3 vUR μ) = Ok (UL, UR) ->
  launch (nif * nqf) 1 (kernel (face_states_k rank rows nqf ns qL qR)) μ μ' ->
  view3 vUL μ' = UL /\ view3 vUR μ' = UR /\ keeps [vUL; vUR] μ' μ.
Proof.
  intros EO MO LA. unfold face_states_k in LA.
  rewrite (md_launch nif nqf Hq (fun i j => lift (face_states_body rank rows nqf ns qL qR i j)) fsW fsA (fun i j _ _ => fs_conf i j)
    (fun i j i' j' a _ _ _ _ => fs_disj i j i' j' a) order μ μ' EO LA).
  set (Rel := fun (s : arr3 * arr3) m => view3 vUL m = fst s /\ view3 vUR m = snd s /\ keeps [vUL; vUR] m μ).
  apply (foreach_sim order _ (fun p m => run (lift (face_states_body rank rows nqf ns qL qR (fst p) (snd p))) m) Rel) with (2 := MO).
  - intros [i j] [ul ur] s' m Hin HR. cbn [fst snd]. unfold face_states_body.
    destruct (rd2 rows i 0) as [rL|]; [|discriminate]. cbn [bind]. destruct (rd2 rows i 4) as [rR|]; [|discriminate]. cbn [bind].
    set (P := if (rank =? rL)%Z then _ else Ok Done).
    match goal with |- bind ?x _ = _ -> _ => set (ML := x) end.
    assert (HL : forall ul', ML = Ok ul' -> exists p, P = Ok p /\ Rel (ul', ur) (run p m)).
    { unfold ML, P. destruct (rank =? rL)%Z; [|intros ul' E; injection E as <-; exists Done; split; [easy|exact HR]].
      destruct (rd2 rows i 1) as [el|]; [|discriminate]. cbn [bind]. destruct (rd2 rows i 2) as [fl|]; [|discriminate]. cbn [bind].
      intros ul' E. eexists. split; [reflexivity|]. rewrite run_pfor.
      apply (zfor_sim ns _ _ (fun u m => Rel (u, ur) m)) with (2 := E); [|exact HR].
      intros k u u' m1 _ (R1 & R2 & R3) E1. unfold rd3 in E1. destruct (within3 uext _ _ _); [|discriminate]. cbn [bind] in E1.
      unfold wr3 in E1. destruct (within3 _ _ _ _); [|discriminate]. injection E1 as <-. cbn [run]. unfold Rel. cbn [fst snd] in *. split; [|split].
      - rewrite view3_store_same, R1. f_equal. apply R3. other_view.
      - unfold at3. rewrite view3_store_other by discriminate. exact R2.
      - apply keeps_store; [now left|exact R3]. }
    destruct ML as [ul'|]; [|discriminate]. cbn [bind]. destruct (HL ul' eq_refl) as (p & -> & HR1). cbn [bind].
    set (Q := if (rank =? rR)%Z then _ else Ok Done).
    match goal with |- bind ?x _ = _ -> _ => set (MR := x) end.
    assert (HQ : forall ur', MR = Ok ur' -> exists q, Q = Ok q /\ Rel (ul', ur') (run q (run p m))).
    { unfold MR, Q. destruct (rank =? rR)%Z; [|intros ur' E; injection E as <-; exists Done; split; [easy|exact HR1]].
      destruct (rd2 rows i 5) as [el|]; [|discriminate]. cbn [bind]. destruct (rd2 rows i 6) as [fl|]; [|discriminate]. cbn [bind].
      intros ur' E. eexists. split; [reflexivity|]. rewrite run_pfor.
      apply (zfor_sim ns _ _ (fun u m => Rel (ul', u) m)) with (2 := E); [|exact HR1].
      intros k u u' m1 _ (R1 & R2 & R3) E1. unfold rd3 in E1. destruct (within3 uext _ _ _); [|discriminate]. cbn [bind] in E1.
      unfold wr3 in E1. destruct (within3 _ _ _ _); [|discriminate]. injection E1 as <-. cbn [run]. unfold Rel. cbn [fst snd] in *. split; [|split].
      - unfold at3. rewrite view3_store_other by discriminate. exact R1.
      - rewrite view3_store_same, R2. f_equal. apply R3. other_view.
      - apply keeps_store; [right; now left|exact R3]. }
    destruct MR as [ur'|]; [|discriminate]. cbn [bind]. destruct (HQ ur' eq_refl) as (q & -> & HR2). cbn [bind lift].
    intros E. injection E as <-. rewrite run_seq. exact HR2.
  - split; [reflexivity|]. split; [reflexivity|apply keeps_refl].
Qed.
Lemma face_states_completes μ : never_stuck (nif * nqf) 1 (kernel (face_states_k rank rows nqf ns qL qR)) μ /\
  exists μ', launch (nif * nqf) 1 (kernel (face_states_k rank rows nqf ns qL qR)) μ μ'.
Proof.
  exact (md_completes nif nqf Hq _ fsW fsA (fun i j _ _ => fs_conf i j) (fun i j i' j' a _ _ _ _ => fs_disj i j i' j' a) μ).
Qed.
End FaceStates.

(** ** Scattering the fluxes *)
Section FluxState.
Context (rank : Z) (rows : list (list Z)) (nif nqf ne NFACE ns : Z) (qL qR : Z -> Z -> Z) (Hq : (0 <= nqf)%Z).
Context (RW : rows_wf rank rows nif nqf ne NFACE (qidx qL qR)).
Let slot := SolverFaces.slot rows nqf qL qR.
Definition flW (i j : Z) (a : loc) : Prop :=
  exists sd k, srank rows i sd = rank /\ a = at3 vFe (fst (slot i sd j)) (snd (slot i sd j)) k.
Definition flA (i j : Z) (a : loc) : Prop := exists k, a = at3 vFq i j k.
Definition flux_side (i j : Z) (sd : bool) : prog :=
  if (rank =? srank rows i sd)%Z then
    pfor ns (fun is => Load (at3 vFq i j is) (fun v => Store (at3 vFe (fst (slot i sd j)) (snd (slot i sd j)) is) (if sd then v else -1 * v) Done))
  else Done.
Lemma flux_body i j : (0 <= i < nif)%Z -> flux_state_body rank rows nqf ns qL qR i j = Ok (seq (flux_side i j false) (flux_side i j true)).
Proof.
  intros Hi. unfold flux_state_body, flux_side.
  rewrite (rw_row _ _ _ _ _ _ _ RW i 0), (rw_row _ _ _ _ _ _ _ RW i 4), (rw_row _ _ _ _ _ _ _ RW i 1),
    (rw_row _ _ _ _ _ _ _ RW i 2), (rw_row _ _ _ _ _ _ _ RW i 5), (rw_row _ _ _ _ _ _ _ RW i 6) by lia. cbn [bind].
  change (ent rows i 0) with (srank rows i false). change (ent rows i 4) with (srank rows i true).
  destruct (rank =? srank rows i false)%Z; destruct (rank =? srank rows i true)%Z; reflexivity.
Qed.
Lemma side_conf i j sd : confined (flW i j) (flA i j) (flux_side i j sd).
Proof.
  unfold flux_side. destruct (Z.eqb_spec rank (srank rows i sd)) as [E|]; [|exact Logic.I].
  apply confined_pfor. intros k _. cbn [confined]. split; [right; exists k; reflexivity|]. intros v. split; [|exact Logic.I]. exists sd, k. auto.
Qed.
Lemma fl_conf i j : (0 <= i < nif)%Z -> confined (flW i j) (flA i j) (lift (flux_state_body rank rows nqf ns qL qR i j)).
Proof. intros Hi. rewrite flux_body by easy. cbn [lift]. apply confined_seq; apply side_conf. Qed.
Lemma fl_disj i j i' j' a : (0 <= i < nif)%Z -> (0 <= j < nqf)%Z -> (0 <= i' < nif)%Z -> (0 <= j' < nqf)%Z ->
  flW i j a -> flW i' j' a \/ flA i' j' a -> i = i' /\ j = j'.
Proof.
  intros Hi Hj Hi' Hj' (sd & k & R1 & ->) [(sd' & k' & R2 & E)|(k' & E)]; [|discriminate E].
  assert (ES : slot i sd j = slot i' sd' j').
  { apply (f_equal (fun a => match a with At _ x y _ _ => (x, y) end)) in E. unfold at3 in E. now rewrite <- !surjective_pairing in E. }
  destruct (slot_inj rank rows nif nqf ne NFACE qL qR RW i sd j i' sd' j' Hi Hi' Hj Hj' R1 R2 ES) as (-> & _ & ->). auto.
Qed.
Lemma flux_state_launch fext order Fe μ μ' : each_once order nif nqf ->
  construct_flux_state rank rows nif nqf ns fext qL qR order (view3 vFq μ) (view3 vFe μ) = Ok Fe ->
  launch (nif * nqf) 1 (kernel (flux_state_k rank rows nqf ns qL qR)) μ μ' ->
  view3 vFe μ' = Fe /\ keeps [vFe] μ' μ.
Proof.
  intros EO MO LA. unfold flux_state_k in LA.
  rewrite (md_launch nif nqf Hq (fun i j => lift (flux_state_body rank rows nqf ns qL qR i j)) flW flA (fun i j H _ => fl_conf i j H) fl_disj order μ μ' EO LA).
  set (Rel := fun (s : arr3) m => view3 vFe m = s /\ keeps [vFe] m μ).
  apply (foreach_sim order _ (fun p m => run (lift (flux_state_body rank rows nqf ns qL qR (fst p) (snd p))) m) Rel) with (2 := MO).
  - intros [i j] fe fe' m Hin HR. cbn [fst snd].
    destruct (proj1 (each_once_In nif nqf order i j EO) Hin) as [Hi Hj]. rewrite flux_body by easy. cbn [lift]. rewrite run_seq.
    rewrite (rw_row _ _ _ _ _ _ _ RW i 0), (rw_row _ _ _ _ _ _ _ RW i 4), (rw_row _ _ _ _ _ _ _ RW i 1),
      (rw_row _ _ _ _ _ _ _ RW i 2), (rw_row _ _ _ _ _ _ _ RW i 5), (rw_row _ _ _ _ _ _ _ RW i 6) by lia. cbn [bind].
    assert (SD : forall sd (s s' : arr3) m, Rel s m ->
      zfor ns (fun is Fe => v <- rd3 (nif, nqf, ns) (view3 vFq μ) i j is ;;
         wr3 fext Fe (fst (slot i sd j)) (snd (slot i sd j)) is (if sd then v else -1 * v)) s = Ok s' ->
      srank rows i sd = rank -> Rel s' (run (flux_side i j sd) m)).
    { intros sd s s' m1 R1 E ER. unfold flux_side. rewrite ER, Z.eqb_refl, run_pfor. apply (zfor_sim ns _ _ Rel) with (2 := E); [|exact R1].
      intros k u u' m2 _ [R2 R3] E1. unfold rd3 in E1. destruct (within3 _ _ _ _) in E1; [|discriminate]. cbn [bind] in E1.
      unfold wr3 in E1. destruct (within3 _ _ _ _) in E1; [|discriminate]. injection E1 as <-. cbn [run]. split.
      - rewrite view3_store_same, R2. f_equal. assert (EV : m2 (at3 vFq i j k) = view3 vFq μ i j k) by (apply R3; other_view). rewrite EV. reflexivity.
      - apply keeps_store; [now left|exact R3]. }
    change (ent rows i 0) with (srank rows i false). change (ent rows i 4) with (srank rows i true).
    match goal with |- bind ?x _ = _ -> _ => set (ML := x) end.
    assert (HL : forall s, ML = Ok s -> Rel s (run (flux_side i j false) m)).
    { intros s. unfold ML. destruct (Z.eqb_spec rank (srank rows i false)) as [E|Ne].
      - intros E1. apply (SD false fe s m HR); [exact E1|easy].
      - intros E1. injection E1 as <-. unfold flux_side. rewrite (proj2 (Z.eqb_neq _ _) Ne). exact HR. }
    destruct ML as [s|]; [|discriminate]. cbn [bind]. specialize (HL s eq_refl).
    destruct (Z.eqb_spec rank (srank rows i true)) as [E|Ne].
    + intros E1. apply (SD true s fe' _ HL); [exact E1|easy].
    + intros E1. injection E1 as <-. set (M := run (flux_side i j false) m) in *. unfold flux_side. rewrite (proj2 (Z.eqb_neq _ _) Ne). exact HL.
  - split; [reflexivity|apply keeps_refl].
Qed.
Lemma flux_state_completes μ : never_stuck (nif * nqf) 1 (kernel (flux_state_k rank rows nqf ns qL qR)) μ /\
  exists μ', launch (nif * nqf) 1 (kernel (flux_state_k rank rows nqf ns qL qR)) μ μ'.
Proof. exact (md_completes nif nqf Hq _ flW flA (fun i j H _ => fl_conf i j H) fl_disj μ). Qed.
End FluxState.

(** ** Fluxes *)
Lemma run_load_row n l junk k m : run (load_row n l junk k) m = run (k (zloop n (fun i U => upd1 U i (m (l i))) junk)) m.
Proof. unfold load_row. apply run_pacc. intros i a k' _. reflexivity. Qed.
Lemma conf_load_row W (A : loc -> Prop) n l junk k : (forall i, (0 <= i < n)%Z -> W (l i) \/ A (l i)) -> (forall U, confined W A (k U)) ->
  confined W A (load_row n l junk k).
Proof.
  intros H HK. unfold load_row. apply confined_pacc; [|exact HK]. intros i a k' Hi Hk. cbn. split; [now apply H|]. intros v. apply Hk.
Qed.
Lemma loaded_row n (f : Z -> R) (U : arr1) i : (0 <= i < n)%Z -> zloop n (fun i U => upd1 U i (f i)) U i = f i.
Proof.
  intros Hi. rewrite zloop_fill1. destruct (Z.leb_spec 0 i); [|lia]. destruct (Z.ltb_spec i n); [|lia]. reflexivity.
Qed.

Lemma idx_loop {V} (dim NS : Z) (f : Z -> Z -> Z -> V -> V) v : (0 <= dim)%Z -> (0 <= NS)%Z ->
  zloop dim (fun id s => zloop NS (fun is s => let '(v, idx) := s in (f id is idx v, (idx + 1)%Z)) s) (v, 0%Z) =
  (zloop dim (fun id v => zloop NS (fun is v => f id is (id * NS + is)%Z v) v) v, (dim * NS)%Z).
Proof.
  intros Hd HN.
  assert (In : forall n id v b, (0 <= n)%Z -> b = (id * NS)%Z ->
    zloop n (fun is s => let '(v, idx) := s in (f id is idx v, (idx + 1)%Z)) (v, b) =
    (zloop n (fun is v => f id is (id * NS + is)%Z v) v, (b + n)%Z)).
  { intros n id v0 b Hn. revert v0 b. pattern n. apply natlike_ind; [| |exact Hn].
    - intros v0 b Eb. rewrite !zloop_0 by lia. f_equal. lia.
    - clear n Hn. intros n Hn IH v0 b Eb. change (Z.succ n) with (n + 1)%Z. rewrite !zloop_S by lia. rewrite IH by easy. cbn [fst snd]. f_equal; [|lia].
      f_equal. lia. }
  revert v. clear -In HN Hd. pattern dim. apply (natlike_ind _); [| |exact Hd].
  - intros v. rewrite !zloop_0 by lia. f_equal.
  - intros n Hn IH v. change (Z.succ n) with (n + 1)%Z. rewrite !zloop_S by lia. rewrite IH. rewrite In by (auto; lia). f_equal. lia.
Qed.

Section VolumeFluxes.
Context (dim nq : Z) (Hdim : (dim = 2 \/ dim = 3)%Z) (gamma : R) (djac : arr2) (ijac : arr4) (wts junk gF1 gF2 : arr1) (Hq : (0 <= nq)%Z).
Definition vfW (i j : Z) (a : loc) : Prop := (exists k, a = at3 vUv i j k) \/ (exists k d, a = At vG i j k d).
Lemma vf_conf i j : confined (vfW i j) (fun _ => False) (volume_flux_body dim gamma djac ijac wts junk gF1 gF2 i j).
Proof.
  unfold volume_flux_body. apply conf_load_row.
  - intros k _. left. left. exists k. reflexivity.
  - intros U. destruct (conv_flux_interior dim gamma U gF1); [|exact Logic.I]. apply confined_seq.
    + apply confined_pfor. intros k _. cbn. split; [left; eexists; reflexivity|exact Logic.I].
    + apply confined_pfor. intros d _. apply confined_pfor. intros k _. cbn. split; [right; do 2 eexists; reflexivity|exact Logic.I].
Qed.
Lemma vf_disj i j i' j' a : vfW i j a -> vfW i' j' a \/ False -> i = i' /\ j = j'.
Proof.
  intros [(k & ->)|(k & d & ->)] [[(k' & E)|(k' & d' & E)]|[]]; try discriminate E; injection E; auto.
Qed.
Lemma volume_fluxes_launch ne order Uq' vg' μ μ' : each_once order ne nq ->
  volume_fluxes dim gamma djac ijac wts gF1 gF2 order (view3 vUv μ, view4 vG μ) = Ok (Uq', vg') ->
  launch (ne * nq) 1 (kernel (volume_fluxes_k dim nq gamma djac ijac wts junk gF1 gF2)) μ μ' ->
  view3 vUv μ' = Uq' /\ view4 vG μ' = vg' /\ keeps [vUv; vG] μ' μ.
Proof.
  intros EO MO LA. unfold volume_fluxes_k in LA.
  rewrite (md_launch ne nq Hq _ vfW (fun _ _ _ => False) (fun i j _ _ => vf_conf i j) (fun i j i' j' a _ _ _ _ => vf_disj i j i' j' a) order μ μ' EO LA).
  set (Rel := fun (s : arr3 * arr4) m => view3 vUv m = fst s /\ view4 vG m = snd s /\ keeps [vUv; vG] m μ).
  apply (foreach_sim order _ (fun p m => run (volume_flux_body dim gamma djac ijac wts junk gF1 gF2 (fst p) (snd p)) m) Rel) with (2 := MO).
  - intros [i j] [u w] s' m _ HR. cbn [fst snd]. unfold volume_flux_point, volume_flux_body. cbv zeta. rewrite run_load_row.
    set (U := zloop (dim + 2) _ junk).
    assert (EU : conv_flux_interior dim gamma U gF1 = conv_flux_interior dim gamma (fun is => u i j is) gF1).
    { apply (conv_flux_extU dim Hdim). intros k Hk. unfold U. rewrite loaded_row by easy. destruct HR as (R1 & _). cbn [fst] in R1. rewrite <- R1. reflexivity. }
    rewrite EU. destruct (conv_flux_interior dim gamma (fun is => u i j is) gF1) as [F|]; [|discriminate]. cbn [bind].
    intros E. injection E as <-. rewrite (idx_loop dim (dim + 2) (fun id is idx v => upd4 v i j is id _)) by lia. cbn [fst]. rewrite run_seq.
    set (G := zloop dim _ _). set (u1 := zloop (dim + 2) _ u).
    assert (H1 : Rel (u1, w) (run (pfor (dim + 2) (fun is => Store (at3 vUv i j is) 0 Done)) m)).
    { rewrite run_pfor. apply (zloop_sim (dim + 2) _ _ (fun s m => Rel (s, w) m)); [|exact HR].
      intros k s m1 _ (R1 & R2 & R3). cbn [run fst snd] in *. split; [|split]; cbn [fst snd].
      - now rewrite view3_store_same, R1.
      - unfold at3. now rewrite view4_store_other by discriminate.
      - apply keeps_store; [now left|easy]. }
    rewrite run_pfor. apply (zloop_sim dim _ _ (fun s m => Rel (u1, s) m)); [|exact H1].
    intros d s m1 _ HR1. rewrite run_pfor. apply (zloop_sim (dim + 2) _ _ (fun s m => Rel (u1, s) m)); [|exact HR1].
    intros k s2 m2 _ (R1 & R2 & R3). cbn [run fst snd] in *. split; [|split]; cbn [fst snd].
    + now rewrite view3_store_other by discriminate.
    + now rewrite view4_store_same, R2.
    + apply keeps_store; [right; now left|easy].
  - split; [reflexivity|]. split; [reflexivity|apply keeps_refl].
Qed.
Lemma volume_fluxes_completes ne μ : never_stuck (ne * nq) 1 (kernel (volume_fluxes_k dim nq gamma djac ijac wts junk gF1 gF2)) μ /\
  exists μ', launch (ne * nq) 1 (kernel (volume_fluxes_k dim nq gamma djac ijac wts junk gF1 gF2)) μ μ'.
Proof. exact (md_completes ne nq Hq _ vfW (fun _ _ _ => False) (fun i j _ _ => vf_conf i j) (fun i j i' j' a _ _ _ _ => vf_disj i j i' j' a) μ). Qed.
End VolumeFluxes.

Section FaceFluxes.
Context (ft : flux_type) (dim nqf : Z) (Hdim : (dim = 2 \/ dim = 3)%Z) (gamma : R) (normals : arr3) (wts junk F0 Fq0 : arr1) (Hq : (0 <= nqf)%Z).
Definition ffW (i j : Z) (a : loc) : Prop := exists k, a = at3 vFq i j k.
Definition ffA (i j : Z) (a : loc) : Prop := exists k, a = at3 vUL i j k \/ a = at3 vUR i j k.
Lemma ff_conf i j : confined (ffW i j) (ffA i j) (face_flux_body ft dim gamma normals wts junk F0 Fq0 i j).
Proof.
  unfold face_flux_body. apply conf_load_row; [intros k _; right; exists k; now left|]. intros UL.
  apply conf_load_row; [intros k _; right; exists k; now right|]. intros UR.
  destruct (get_conv_flux_numerical _ _ _ _ _ _ _ _); [|exact Logic.I].
  apply confined_pfor. intros k _. cbn. split; [eexists; reflexivity|exact Logic.I].
Qed.
Lemma ff_disj i j i' j' a : ffW i j a -> ffW i' j' a \/ ffA i' j' a -> i = i' /\ j = j'.
Proof.
  intros (k & ->) [(k' & E)|(k' & [E|E])]; try discriminate E. injection E; auto.
Qed.
Lemma face_fluxes_launch nif order Fq μ μ' : each_once order nif nqf ->
  face_fluxes ft dim gamma (view3 vUL μ) (view3 vUR μ) normals wts F0 Fq0 order (view3 vFq μ) = Ok Fq ->
  launch (nif * nqf) 1 (kernel (face_fluxes_k ft dim nqf gamma normals wts junk F0 Fq0)) μ μ' ->
  view3 vFq μ' = Fq /\ keeps [vFq] μ' μ.
Proof.
  intros EO MO LA. unfold face_fluxes_k in LA.
  rewrite (md_launch nif nqf Hq _ ffW ffA (fun i j _ _ => ff_conf i j) (fun i j i' j' a _ _ _ _ => ff_disj i j i' j' a) order μ μ' EO LA).
  set (Rel := fun (s : arr3) m => view3 vFq m = s /\ keeps [vFq] m μ).
  apply (foreach_sim order _ (fun p m => run (face_flux_body ft dim gamma normals wts junk F0 Fq0 (fst p) (snd p)) m) Rel) with (2 := MO).
  - intros [i j] f f' m _ HR. cbn [fst snd]. unfold face_flux_point, face_flux_body. cbv zeta. rewrite !run_load_row.
    set (UL := zloop (dim + 2) _ junk). set (UR := zloop (dim + 2) _ junk).
    assert (EU : get_conv_flux_numerical ft dim gamma UL UR (fun d => normals i j d) F0 Fq0 =
      get_conv_flux_numerical ft dim gamma (fun is => view3 vUL μ i j is) (fun is => view3 vUR μ i j is) (fun d => normals i j d) F0 Fq0).
    { destruct HR as [_ R2]. apply (numflux_extU dim Hdim); intros k Hk; [unfold UL|unfold UR]; rewrite loaded_row by easy; apply R2; other_view. }
    rewrite EU. clear EU. match goal with |- bind ?x _ = _ -> _ => destruct x as [F|]; [|intros E; discriminate E] end. cbn [bind].
    intros E. injection E as <-. rewrite run_pfor. apply (zloop_sim (dim + 2) _ _ Rel); [|exact HR].
    intros k s m1 _ [R1 R2]. cbn [run]. split; [now rewrite view3_store_same, R1|]. apply keeps_store; [now left|easy].
  - split; [reflexivity|apply keeps_refl].
Qed.
Lemma face_fluxes_completes nif μ : never_stuck (nif * nqf) 1 (kernel (face_fluxes_k ft dim nqf gamma normals wts junk F0 Fq0)) μ /\
  exists μ', launch (nif * nqf) 1 (kernel (face_fluxes_k ft dim nqf gamma normals wts junk F0 Fq0)) μ μ'.
Proof. exact (md_completes nif nqf Hq _ ffW ffA (fun i j _ _ => ff_conf i j) (fun i j i' j' a _ _ _ _ => ff_disj i j i' j' a) μ). Qed.
End FaceFluxes.
