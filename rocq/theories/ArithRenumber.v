(** ArithRenumber.v -- two mesh files that describe the same mesh with other
    numbers of nodes, elements and faces: the kernels on corresponding elements,
    in any arithmetic. *)
From Coq Require Import ZArith Reals List Lia Bool Permutation.
From Verif Require Import Base RBase MeshModel MeshSpec MeshProof MeshReadProof MeshProof2 PropMesh ShapeModel ShapeProof PropShape CommModel CommSpec
  SolverModel SetupModel SolverSpec PhysModel LinAlgProof SolverFaces SolverMesh ArithModel ArithProof ArithSetup ArithRun PropArith.
Import ListNotations.
Local Open Scope Z_scope.

(** * Specification *)

(** Coordinate [d] of node [i] of element [e] of a mesh file. *)
Definition node_at {A} (m : gmesh A) (e i d : Z) : res A := bind (rd (gm_eind m) (e * gm_npe m + i)) (fun g => rd2 (gm_coord m) g d).

(** Mesh [m'] is mesh [m] with other numbers: element [e] of [m] is element [pe e]
    of [m'], face [f] is face [pf f]; corresponding elements have their nodes in
    the same places (the same numbers, to the last bit), corresponding faces have
    the same elements, faces of the elements and orientations on their two sides,
    with the sides exchanged where [turn] says so.  Nodes may have any numbers. *)
Record renamed {A} (m m' : gmesh A) (pe pf : Z -> Z) (turn : Z -> bool) : Prop := {
  rm_ne : gm_num_elems m' = gm_num_elems m;
  rm_nf : gm_nIF m' = gm_nIF m;
  rm_pe : Permutation (map pe (zseq (gm_num_elems m))) (zseq (gm_num_elems m));
  rm_pf : Permutation (map pf (zseq (gm_nIF m))) (zseq (gm_nIF m));
  rm_nodes : forall e i d, 0 <= e < gm_num_elems m -> 0 <= i < gm_npe m -> 0 <= d < gm_dim m -> node_at m' (pe e) i d = node_at m e i d;
  rm_sides : forall f sd e k o, has_side m f sd e k o -> has_side m' (pf f) (xorb sd (turn f)) (pe e) k o }.

(** * Proof *)
Lemma perm_in k o i : Permutation (map o (zseq k)) (zseq k) -> 0 <= i < k -> 0 <= o i < k.
Proof. intros P Hi. apply In_zseq. apply (Permutation_in _ P), in_map, In_zseq, Hi. Qed.
Lemma perm_one k o i j : Permutation (map o (zseq k)) (zseq k) -> 0 <= i < k -> 0 <= j < k -> o i = o j -> i = j.
Proof.
  intros P Hi Hj E. assert (ND : NoDup (map o (zseq k))) by (apply (Permutation_NoDup (Permutation_sym P)), NoDup_zseq).
  apply In_zseq in Hi, Hj. clear P. induction (zseq k) as [|a l IH]; [destruct Hi|]. cbn [map] in ND. inversion ND; subst.
  destruct Hi as [->|Hi], Hj as [->|Hj]; auto.
  - exfalso. apply H1. rewrite E. now apply in_map.
  - exfalso. apply H1. rewrite <- E. now apply in_map.
Qed.
Lemma perm_onto k o i : Permutation (map o (zseq k)) (zseq k) -> 0 <= i < k -> exists j, 0 <= j < k /\ o j = i.
Proof.
  intros P Hi. apply In_zseq in Hi. apply (Permutation_in _ (Permutation_sym P)) in Hi. apply in_map_iff in Hi. destruct Hi as (j & E & Hj).
  exists j. split; [now apply In_zseq|exact E].
Qed.

Section Renumber.
Context (K : arith) (L : library (num K)) (LR : lib_reads L) (C : kcase K) (m m' : gmesh (num K)).
Notation N := (num K).
Context (CF : case_fits K C m) (CF' : case_fits K C m').
Context (iter : Z -> list Z -> list Z) (n : Z) (ep : list Z) (WF : run_wf iter n m ep).
Context (iter' : Z -> list Z -> list Z) (n' : Z) (ep' : list Z) (WF' : run_wf iter' n' m' ep').
Context (pe pf : Z -> Z) (turn : Z -> bool) (RN : renamed m m' pe pf turn).
Let s := c_shape K C.
Let dim := space_dim s.
Let ns := dim + 2.
Let nb := c_nb K C.
Let nqf := c_nqf K C.
Let NF := faces_per_elem s.
Let ne := gm_num_elems m.

Definition related (c c' : Z -> Z -> Z -> N) : Prop := forall e, 0 <= e < ne -> agree2 nb ns (c' (pe e)) (c e).

Lemma npe_same : gm_npe m' = gm_npe m.
Proof. rewrite (cf_npe _ _ _ CF), (cf_npe _ _ _ CF'). reflexivity. Qed.

Lemma nodes_same e : 0 <= e < ne -> agree2 (gm_npe m) dim (gnode K m' (pe e)) (gnode K m e).
Proof.
  intros He i d Hi Hd. unfold dim, s in Hd. rewrite <- (cf_dim _ _ _ CF) in Hd. pose proof (rm_nodes _ _ _ _ _ RN e i d He Hi Hd) as E.
  unfold node_at in E. unfold gnode. 
  destruct (rd (gm_eind m') (pe e * gm_npe m' + i)) as [g'|]; destruct (rd (gm_eind m) (e * gm_npe m + i)) as [g|]; cbn [bind] in E; try reflexivity.
  - now rewrite E.
  - now rewrite E.
  - now rewrite <- E.
Qed.

Lemma djac_same T e : 0 <= e < ne -> agree (vt_nq T) (ref_djac K L T dim (gm_npe m') (gnode K m' (pe e))) (ref_djac K L T dim (gm_npe m) (gnode K m e)).
Proof.
  intros He q Hq. unfold ref_djac, ref_jac. rewrite npe_same. apply kdet_agree; [apply space_dim23|]. apply jac_of_agree; [exact LR|]. now apply nodes_same.
Qed.
Lemma ijac_same T e q : 0 <= e < ne -> agree2 dim dim (ref_ijac K L T dim (gm_npe m') (gnode K m' (pe e)) q) (ref_ijac K L T dim (gm_npe m) (gnode K m e) q).
Proof.
  intros He. unfold ref_ijac, ref_jac. rewrite npe_same. apply kinv_small; [apply space_dim23|]. apply jac_of_agree; [exact LR|]. now apply nodes_same.
Qed.
Lemma iMM_same e : 0 <= e < ne -> agree2 nb nb (ref_iMM K L (c_TM K C) dim (gm_npe m') nb (gnode K m' (pe e))) (ref_iMM K L (c_TM K C) dim (gm_npe m) nb (gnode K m e)).
Proof. intros He. unfold ref_iMM. apply kinv_mass_agree; [exact LR|now apply djac_same|apply agree2_refl]. Qed.

Lemma init_same : related (fun e => ref_init K L m C (gnode K m e)) (fun e => ref_init K L m' C (gnode K m' e)).
Proof.
  intros e He. unfold ref_init. fold s dim ns nb. apply kgemm_agree; [exact LR|now apply iMM_same| |discriminate].
  apply kgemm_agree; [exact LR|apply agree2_refl| |discriminate].
  intros iq k Hq Hk. rewrite (djac_same (c_TI K C) e He iq Hq). f_equal. apply (cf_ic _ _ _ CF); [|exact Hk].
  intros d Hd. apply kgemm_agree; [exact LR|apply agree2_refl| |discriminate|exact Hq|exact Hd].
  intros i j Hi Hj. apply nodes_same; [exact He| |exact Hj]. pose proof (cf_gnb _ _ _ CF). lia.
Qed.

Lemma volume_same c c' e : related c c' -> 0 <= e < ne -> agree2 nb ns (ref_volume K L C m' c' (pe e)) (ref_volume K L C m c e).
Proof.
  intros HR He ib is Hb Hs. unfold ref_volume. cbv zeta. fold s dim ns nb.
  apply zloop_ext. intros iq a Hq. apply zloop_ext. intros id b Hid. f_equal. f_equal.
  apply zloop_ext. intros id2 a2 Hid2. rewrite (djac_same _ e He iq Hq), (ijac_same _ e iq He id id2 Hid Hid2).
  rewrite (kconv_agree K dim (c_gamma K C) _ (kgemm K L (vt_nq (c_TV K C)) ns nb (f1 K) (vt_val (c_TV K C)) (c e) false (fun _ _ => f0 K) iq) (fun _ => f0 K) (fun _ => f0 K) (space_dim23 s)); [reflexivity| |].
  - intros k Hk. apply kgemm_agree; [exact LR|apply agree2_refl|now apply HR|discriminate|exact Hq|exact Hk].
  - unfold ns in *. pose proof (space_dim23 s) as X. unfold dim in *. destruct X as [X|X]; rewrite X in *; lia.
Qed.

(** ** Faces *)
Lemma pf_in f : 0 <= f < gm_nIF m -> 0 <= pf f < gm_nIF m'.
Proof. intros Hf. rewrite (rm_nf _ _ _ _ _ RN). now apply perm_in; [apply RN|]. Qed.
Lemma side_same f sd : 0 <= f < gm_nIF m -> has_side m' (pf f) (xorb sd (turn f)) (pe (felem K m f sd)) (fface K m f sd) (fent K m f (if sd then 5 else 2)).
Proof. intros Hf. apply RN. now apply (file_side K C iter n m ep WF). Qed.
Lemma felem_same f sd : 0 <= f < gm_nIF m -> felem K m' (pf f) (xorb sd (turn f)) = pe (felem K m f sd) /\ 0 <= felem K m f sd < ne.
Proof.
  intros Hf. destruct (face_side_has K iter' n' m' ep' WF' _ _ _ _ _ (side_same f sd Hf)) as (_ & E & _). split; [exact E|].
  exact (proj2 (proj2 (side_nonneg iter n m ep WF _ _ _ _ _ (file_side K C iter n m ep WF f sd Hf)))).
Qed.
Lemma fpos_same f sd iq : 0 <= f < gm_nIF m -> fpos K C m' (pf f) (xorb sd (turn f)) iq = fpos K C m f sd iq.
Proof.
  intros Hf. destruct (face_side_has K iter' n' m' ep' WF' _ _ _ _ _ (side_same f sd Hf)) as (_ & _ & E1 & E2).
  unfold fpos. rewrite E1, E2. reflexivity.
Qed.

Lemma trace_same c c' f sd iq : related c c' -> 0 <= f < gm_nIF m -> 0 <= iq < nqf ->
  agree ns (ref_trace K L C m' c' (pf f) (xorb sd (turn f)) iq) (ref_trace K L C m c f sd iq).
Proof.
  intros HR Hf Hq k Hk. unfold ref_trace. fold s dim ns nb nqf NF. destruct (felem_same f sd Hf) as [-> He]. rewrite fpos_same by exact Hf.
  apply kgemm_agree; [exact LR|apply agree2_refl|now apply HR|discriminate| |exact Hk].
  exact (fpos_range K C iter n m ep WF (cf_valid _ _ _ CF) (cf_points _ _ _ CF) f sd iq Hf Hq).
Qed.

Lemma source_same e p : 0 <= e < ne ->
  fsource K C m' (pe e) p = match fsource K C m e p with Some (f, iq, sd) => Some (pf f, iq, xorb sd (turn f)) | None => None end.
Proof.
  intros He. destruct (fsource K C m e p) as [[[f iq] sd]|] eqn:E.
  - destruct (fsource_some K C m e p f iq sd E) as (Hf & Hq & <- & <-).
    rewrite <- (proj1 (felem_same f sd Hf)), <- (fpos_same f sd iq Hf).
    exact (fsource_at K C iter' n' m' ep' WF' (cf_valid _ _ _ CF') (cf_distinct _ _ _ CF') (cf_points _ _ _ CF') (pf f) iq (xorb sd (turn f)) (pf_in f Hf) Hq).
  - destruct (fsource K C m' (pe e) p) as [[[f' iq] sd']|] eqn:E'; [|reflexivity]. exfalso.
    destruct (fsource_some K C m' (pe e) p f' iq sd' E') as (Hf' & Hq & Ee & Ep). rewrite (rm_nf _ _ _ _ _ RN) in Hf'.
    destruct (perm_onto _ pf f' (rm_pf _ _ _ _ _ RN) Hf') as (f & Hf & <-).
    set (sd := xorb sd' (turn f)). assert (X : sd' = xorb sd (turn f)) by (unfold sd; destruct sd', (turn f); reflexivity).
    rewrite X in Ee, Ep. rewrite fpos_same in Ep by exact Hf. destruct (felem_same f sd Hf) as [E1 E2]. rewrite E1 in Ee.
    apply (perm_one _ pe _ _ (rm_pe _ _ _ _ _ RN) E2 He) in Ee. rewrite <- Ee, <- Ep in E.
    rewrite (fsource_at K C iter n m ep WF (cf_valid _ _ _ CF) (cf_distinct _ _ _ CF) (cf_points _ _ _ CF) f iq sd Hf Hq) in E. discriminate.
Qed.

(** What face [f] gives to the element on its side [sd]. *)
Definition side_flux (m : gmesh N) (nor : Z -> bool -> Z -> Z -> N) (c : Z -> Z -> Z -> N) (f : Z) (sd : bool) (iq k : Z) : N :=
  if sd then ref_flux K L C m nor c f sd iq k else fmul K (fm1 K) (ref_flux K L C m nor c f sd iq k).

Lemma buffer_same (E : N -> N -> Prop) nor nor' c c' e p k : E (f0 K) (f0 K) ->
  (forall f sd iq, 0 <= f < gm_nIF m -> 0 <= iq < nqf -> E (side_flux m' nor' c' (pf f) (xorb sd (turn f)) iq k) (side_flux m nor c f sd iq k)) ->
  0 <= e < ne -> E (ref_buffer K L C m' nor' c' (pe e) p k) (ref_buffer K L C m nor c e p k).
Proof.
  intros E0 HF He. unfold ref_buffer. rewrite source_same by exact He. destruct (fsource K C m e p) as [[[f iq] sd]|] eqn:ES; [|exact E0].
  destruct (fsource_some K C m e p f iq sd ES) as (Hf & Hq & _). exact (HF f sd iq Hf Hq).
Qed.

(** ** Steps *)
Section March.
Context (nor nor' : Z -> bool -> Z -> Z -> N) (ok ok' : (Z -> Z -> Z -> N) -> Prop).
Context (RES : forall c c', related c c' -> ok c -> ok' c' -> forall e, 0 <= e < ne -> agree2 nb ns (ref_residual K L C m' nor' c' (pe e)) (ref_residual K L C m nor c e)).

Lemma incr_same c c' : related c c' -> ok c -> ok' c' -> related (ref_incr K L C m nor c) (ref_incr K L C m' nor' c').
Proof.
  intros HR H1 H2 e He. unfold ref_incr. fold s dim ns nb. apply kgemm_agree; [exact LR|now apply iMM_same|now apply RES|discriminate].
Qed.

(** The coefficients at which a step evaluates the residual. *)
Definition ref_stages (m : gmesh N) (nor : Z -> bool -> Z -> Z -> N) (c : Z -> Z -> Z -> N) : list (Z -> Z -> Z -> N) :=
  let ref_incr := ref_incr K L C m nor in
  match c_kind K C with
  | StepFE => [c]
  | StepRK4 =>
    let c1 := fun e i k => l_update L (fhalf K) (ref_incr c e i k) (c e i k) in
    let c2 := fun e i k => l_update L (fhalf K) (ref_incr c1 e i k) (c e i k) in
    let c3 := fun e i k => l_update L (f1 K) (ref_incr c2 e i k) (c e i k) in
    [c; c1; c2; c3]
  end.
Fixpoint all_ok (ok : (Z -> Z -> Z -> N) -> Prop) (m : gmesh N) (nor : Z -> bool -> Z -> Z -> N) (k : nat) (c : Z -> Z -> Z -> N) : Prop :=
  match k with O => True | S k => Forall ok (ref_stages m nor c) /\ all_ok ok m nor k (ref_step K L C m nor c) end.

Lemma update_same a c c' d d' : related c c' -> related d d' -> related (fun e i k => l_update L a (d e i k) (c e i k)) (fun e i k => l_update L a (d' e i k) (c' e i k)).
Proof. intros H H' e He i k Hi Hk. now rewrite (H e He i k Hi Hk), (H' e He i k Hi Hk). Qed.
Lemma axpy_same a c c' d d' : related c c' -> related d d' -> related (fun e i k => l_axpy L a (d e i k) (c e i k)) (fun e i k => l_axpy L a (d' e i k) (c' e i k)).
Proof. intros H H' e He i k Hi Hk. now rewrite (H e He i k Hi Hk), (H' e He i k Hi Hk). Qed.

Lemma step_same c c' : related c c' -> Forall ok (ref_stages m nor c) -> Forall ok' (ref_stages m' nor' c') ->
  related (ref_step K L C m nor c) (ref_step K L C m' nor' c').
Proof.
  intros HR. unfold ref_stages, ref_step. destruct (c_kind K C); cbv zeta; intros H1 H2.
  - inversion H1; inversion H2; subst. apply axpy_same; [exact HR|]. now apply incr_same.
  - inversion H1 as [|? ? A1 H1a]; inversion H2 as [|? ? B1 H2a]; subst. inversion H1a as [|? ? A2 H1b]; inversion H2a as [|? ? B2 H2b]; subst.
    inversion H1b as [|? ? A3 H1c]; inversion H2b as [|? ? B3 H2c]; subst. inversion H1c as [|? ? A4 _]; inversion H2c as [|? ? B4 _]; subst.
    clear H1 H2 H1a H2a H1b H2b H1c H2c.
    pose proof (incr_same _ _ HR A1 B1) as I1. pose proof (update_same (fhalf K) _ _ _ _ HR I1) as R1.
    pose proof (incr_same _ _ R1 A2 B2) as I2. pose proof (update_same (fhalf K) _ _ _ _ HR I2) as R2.
    pose proof (incr_same _ _ R2 A3 B3) as I3. pose proof (update_same (f1 K) _ _ _ _ HR I3) as R3.
    pose proof (incr_same _ _ R3 A4 B4) as I4.
    apply axpy_same; [exact HR|]. apply axpy_same; [|exact I1]. apply axpy_same; [|exact I2]. now apply axpy_same.
Qed.

Lemma march_same steps : forall c c', related c c' -> all_ok ok m nor steps c -> all_ok ok' m' nor' steps c' ->
  related (ref_march K L C m nor steps c) (ref_march K L C m' nor' steps c').
Proof.
  induction steps as [|k IH]; intros c c' HR H1 H2; [exact HR|]. cbn [all_ok] in H1, H2. destruct H1 as [A1 A2], H2 as [B1 B2].
  cbn [ref_march]. apply IH; [now apply step_same|exact A2|exact B2].
Qed.
End March.

(** ** No sides exchanged: the same fluxes *)
Lemma flux_same nor nor' c c' f sd iq : related c c' -> 0 <= f < gm_nIF m -> 0 <= iq < nqf -> turn f = false ->
  same_flux K C (nor' (pf f) sd iq) (nor f sd iq) -> agree ns (ref_flux K L C m' nor' c' (pf f) sd iq) (ref_flux K L C m nor c f sd iq).
Proof.
  intros HR Hf Hq HT HN. pose proof (trace_same c c' f false iq HR Hf Hq) as TL. pose proof (trace_same c c' f true iq HR Hf Hq) as TR.
  rewrite HT in TL, TR. cbn [xorb] in TL, TR. unfold ref_flux. fold s dim.
  pose proof (knumflux_agree K (c_flux K C) dim (c_gamma K C) _ _ _ _ _ _ (fun _ => f0 K) (fun _ => f0 K) (fun _ => f0 K) (fun _ => f0 K) (space_dim23 s) TL TR (agree_refl dim (nor' (pf f) sd iq))) as SM.
  pose proof (HN (ref_trace K L C m c f false iq) (ref_trace K L C m c f true iq) (fun _ => f0 K) (fun _ => f0 K) (fun _ => f0 K) (fun _ => f0 K)) as SF.
  cbv zeta in SF. fold s dim in SF. apply (fun H => same_res_trans K _ _ _ _ H SF) in SM. clear SF.
  destruct (knumflux K (c_flux K C) dim (c_gamma K C) _ _ (nor' (pf f) sd iq) _ _) as [F'|], (knumflux K (c_flux K C) dim (c_gamma K C) _ _ (nor f sd iq) _ _) as [F|]; try (destruct SM; fail).
  - intros k Hk. f_equal. now apply SM.
  - apply agree_refl.
Qed.

Lemma side_normal_same f sd iq : 0 <= f < gm_nIF m -> turn f = false ->
  agree dim (side_normal K L m' s (c_g K C) (c_fgrad K C) (pf f) sd iq) (side_normal K L m s (c_g K C) (c_fgrad K C) f sd iq).
Proof.
  intros Hf HT. pose proof (file_side K C iter n m ep WF f sd Hf) as HS. pose proof (side_same f sd Hf) as HS'. rewrite HT, xorb_false_r in HS'.
  pose proof (side_nonneg iter n m ep WF _ _ _ _ _ HS) as (K0 & _ & He). destruct (cf_valid _ _ _ CF _ _ _ _ _ HS) as [K1 _].
  unfold side_normal. destruct HS as (H1 & H2 & _), HS' as (H1' & H2' & _).
  cbv zeta. rewrite H1, H2, H1', H2'.
  apply (knormal_agree K L LR m s (c_g K C) (cf_g _ _ _ CF) (cf_dim _ _ _ CF) (cf_npe _ _ _ CF));
    [exact (cf_valid _ _ _ CF)|split; [exact K0|exact K1]|now apply nodes_same].
Qed.
End Renumber.
