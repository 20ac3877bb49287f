(** ArithSetup.v -- the tables a rank sets up, and its initial state, in any
    arithmetic: functions of the nodes of the element in the mesh file. *)
From Coq Require Import ZArith Reals List Lia Bool Permutation.
From Verif Require Import Base RBase MeshModel MeshSpec MeshProof MeshReadProof MeshProof2 PropMesh ShapeModel ShapeProof PropShape CommModel CommSpec
  SolverModel SetupModel SolverSpec PhysModel LinAlgProof SolverFaces SolverMesh ArithModel ArithProof.
Import ListNotations.
Local Open Scope Z_scope.

Section Setup.
Context (K : arith) (L : library (num K)) (LR : lib_reads L).
Notation N := (num K).

(** Coordinates of the nodes of element [e] of the mesh file. *)
Definition gnode (m : gmesh N) (e : Z) : Z -> Z -> N := fun i d =>
  match rd (gm_eind m) (e * gm_npe m + i) with
  | Ok g => match rd2 (gm_coord m) g d with Ok v => v | _ => f0 K end
  | _ => f0 K
  end.

(** ** Kernels on the nodes of an element *)
Definition jac_of (T : vtable N) (dim npe : Z) (c : Z -> Z -> N) (J0 : Z -> Z -> N) (iq : Z) : Z -> Z -> N :=
  kgemm K L dim dim npe (f1 K) (fun i p => c p i) (vt_ggrad T iq) false J0.

Lemma kjacobians_rows nq dim npe T c j0 d0 i0 : 0 <= nq ->
  let s := kjacobians K L nq dim npe (vt_ggrad T) c (j0, d0, i0) in
  forall q, 0 <= q < nq ->
    snd (fst s) q = kdet K dim (jac_of T dim npe c (j0 q) q) /\
    snd s q = kinv K L dim (jac_of T dim npe c (j0 q) q) (i0 q).
Proof.
  intros Hn s q Hq. unfold s, kjacobians.
  match goal with |- context [zloop nq ?b _] => set (B := b) end.
  assert (X : forall k, 0 <= k <= nq -> forall q,
    (q < k -> 0 <= q -> snd (fst (zloop k B (j0, d0, i0))) q = kdet K dim (jac_of T dim npe c (j0 q) q) /\
      snd (zloop k B (j0, d0, i0)) q = kinv K L dim (jac_of T dim npe c (j0 q) q) (i0 q)) /\
    (k <= q -> fst (fst (zloop k B (j0, d0, i0))) q = j0 q /\ snd (zloop k B (j0, d0, i0)) q = i0 q)).
  { intros k. induction k as [k H|k H IH] using zind; intros Hk p.
    - rewrite zloop_0 by lia. split; [lia|easy].
    - rewrite zloop_S by lia. specialize (IH ltac:(lia)).
      destruct (IH p) as [I1 I2]. destruct (IH k) as [_ I3]. specialize (I3 ltac:(lia)).
      destruct (zloop k B (j0, d0, i0)) as [[jac djac] ijac]. cbn [fst snd] in *. destruct I3 as [E1 E2].
      unfold B, setr. cbn [fst snd].
      destruct (Z.eqb_spec p k) as [->|Hne].
      + split; [|lia]. intros _ _. rewrite E1, E2. split; reflexivity.
      + split; [intros; apply I1; lia|intros; apply I2; lia]. }
  apply (X nq ltac:(lia) q); lia.
Qed.

Lemma jac_of_agree T dim npe c c' J0 J0' q : agree2 npe dim c c' -> agree2 dim dim (jac_of T dim npe c J0 q) (jac_of T dim npe c' J0' q).
Proof.
  intros H. unfold jac_of. apply kgemm_agree; [exact LR| | |discriminate].
  - intros i p Hi Hp. now apply H.
  - apply agree2_refl.
Qed.

(** Reference values: the kernels on the nodes of the file, on zero filled memory. *)
Definition ref_jac (T : vtable N) (dim npe : Z) (X : Z -> Z -> N) (q : Z) := jac_of T dim npe X (fun _ _ => f0 K) q.
Definition ref_djac (T : vtable N) (dim npe : Z) (X : Z -> Z -> N) (q : Z) : N := kdet K dim (ref_jac T dim npe X q).
Definition ref_ijac (T : vtable N) (dim npe : Z) (X : Z -> Z -> N) (q : Z) : Z -> Z -> N := kinv K L dim (ref_jac T dim npe X q) (fun _ _ => f0 K).
Definition ref_iMM (T : vtable N) (dim npe nb : Z) (X : Z -> Z -> N) : Z -> Z -> N :=
  kinv_mass K L (vt_nq T) nb (vt_wts T) (vt_val T) (ref_djac T dim npe X) (fun _ _ => f0 K) (fun _ _ => f0 K).

Lemma kjacobians_ref nq dim npe T c X j0 d0 i0 : 0 <= nq -> dim23 dim -> agree2 npe dim c X ->
  let s := kjacobians K L nq dim npe (vt_ggrad T) c (j0, d0, i0) in
  agree nq (snd (fst s)) (ref_djac T dim npe X) /\ forall q, 0 <= q < nq -> agree2 dim dim (snd s q) (ref_ijac T dim npe X q).
Proof.
  intros Hn D H s.
  assert (X0 : forall q, 0 <= q < nq -> snd (fst s) q = kdet K dim (jac_of T dim npe c (j0 q) q) /\
     snd s q = kinv K L dim (jac_of T dim npe c (j0 q) q) (i0 q)) by (intros; now apply kjacobians_rows).
  split.
  - intros q Hq. destruct (X0 q Hq) as [E1 _]. rewrite E1. unfold ref_djac. apply kdet_agree; [exact D|]. now apply jac_of_agree.
  - intros q Hq. destruct (X0 q Hq) as [_ E2]. rewrite E2. unfold ref_ijac. apply kinv_small; [exact D|]. now apply jac_of_agree.
Qed.

Lemma kinv_mass_agree nq nb (wts : Z -> N) bval djac djac' MM MM' I I' : agree nq djac djac' -> agree2 nb nb I I' ->
  agree2 nb nb (kinv_mass K L nq nb wts bval djac MM I) (kinv_mass K L nq nb wts bval djac' MM' I').
Proof.
  intros H HI. unfold kinv_mass. cbv zeta. apply kinv_agree; [exact LR| |exact HI].
  apply kgemm_agree; [exact LR|apply agree2_refl| |discriminate].
  intros p j Hp Hj. now rewrite (H p Hp).
Qed.

(** ** One rank *)
Context (iter : Z -> list Z -> list Z) (n : Z) (m : gmesh N) (ep : list Z) (pm : Z -> pmesh N).
Context (WF : run_wf iter n m ep) (PT : partitioned (f0 K) iter n m ep pm).

Lemma kcoords_agree r le e junk : 0 <= r < n -> rd (pm_l2g_elem (pm r)) le = Ok e ->
  agree2 (gm_npe m) (gm_dim m) (kcoords K (pm r) (gm_npe m) (gm_dim m) le junk) (gnode m e).
Proof.
  intros Hr He i j Hi Hj. pose proof (C03_local_connectivity N (f0 K) iter n m ep pm WF PT r Hr) as (_ & Con & Crd & _).
  pose proof (run_mesh _ _ _ _ WF) as MW.
  unfold kcoords. rewrite !inb_in by easy. cbn [andb].
  destruct (Con le e i He Hi) as (ln & gn & E1 & E2 & E3). rewrite E1. cbn [bind].
  destruct (Crd ln gn E2) as (row & E4 & E5). unfold gnode. rewrite E3. unfold rd2. rewrite E4, E5. cbn [bind].
  destruct (rd_total row j) as (v & Ev); [|now rewrite Ev].
  assert (In row (gm_coord m)) by (eapply rd_In; exact E5).
  pose proof (wf_coord _ MW) as FA. rewrite Forall_forall in FA. rewrite (FA row); auto.
Qed.

Lemma local_in r le e : 0 <= r < n -> rd (pm_l2g_elem (pm r)) le = Ok e -> 0 <= le < pm_num_elems_part (pm r).
Proof.
  intros Hr He. destruct (C01_element_ownership N (f0 K) iter n m ep pm WF PT) as (_ & _ & H3 & _). destruct (H3 r Hr) as [_ EN].
  rewrite EN. now apply rd_in_range in He.
Qed.
Lemma local_out r le : 0 <= r < n -> 0 <= le < pm_num_elems_part (pm r) -> exists e, rd (pm_l2g_elem (pm r)) le = Ok e.
Proof.
  intros Hr He. destruct (C01_element_ownership N (f0 K) iter n m ep pm WF PT) as (_ & _ & H3 & _). destruct (H3 r Hr) as [_ EN].
  apply rd_total. lia.
Qed.
Lemma local_owner r le e : 0 <= r < n -> rd (pm_l2g_elem (pm r)) le = Ok e -> owned_by ep e r.
Proof.
  intros Hr He. pose proof (C01_element_ownership N (f0 K) iter n m ep pm WF PT) as (_ & Own & _).
  apply rd_In in He. now apply (Own r e Hr) in He.
Qed.
Lemma local_unique r le le' e : 0 <= r < n -> rd (pm_l2g_elem (pm r)) le = Ok e -> rd (pm_l2g_elem (pm r)) le' = Ok e -> le = le'.
Proof.
  intros Hr H H'. pose proof (C01_element_ownership N (f0 K) iter n m ep pm WF PT) as (_ & _ & H3 & _). destruct (H3 r Hr) as [ND _].
  eapply rd_NoDup_inj; eauto.
Qed.

Section Geometry.
Context (dim nb : Z) (TM TV : vtable N) (Dm : gm_dim m = dim) (D : dim23 dim) (HM : 0 <= vt_nq TM) (HV : 0 <= vt_nq TV).

Lemma geometry_ref r junk eo1 eo2 : 0 <= r < n ->
  Permutation eo1 (zseq (pm_num_elems_part (pm r))) -> Permutation eo2 (zseq (pm_num_elems_part (pm r))) ->
  let h := kgeometry K L (pm r) dim (gm_npe m) nb TM TV junk eo1 eo2 in
  forall le e, rd (pm_l2g_elem (pm r)) le = Ok e ->
    agree (vt_nq TV) (g_djac K h le) (ref_djac TV dim (gm_npe m) (gnode m e)) /\
    (forall q, 0 <= q < vt_nq TV -> agree2 dim dim (g_ijac K h le q) (ref_ijac TV dim (gm_npe m) (gnode m e) q)) /\
    agree2 nb nb (g_iMM K h le) (ref_iMM TM dim (gm_npe m) nb (gnode m e)).
Proof.
  intros Hr P1 P2 h le e He.
  pose proof (local_in r le e Hr He) as Hle.
  pose proof (kcoords_agree r le e junk Hr He) as CO. rewrite Dm in CO.
  set (npe := gm_npe m) in *.
  set (get := fun (h : kgeom K) e => (g_jac K h e, g_djac K h e, g_ijac K h e, g_iMM K h e)).
  set (fM := fun e (a : (Z -> Z -> Z -> N) * (Z -> N) * (Z -> Z -> Z -> N) * (Z -> Z -> N)) => let '(j, dj, ij, mm) := a in
     let s := kjacobians K L (vt_nq TM) dim npe (vt_ggrad TM) (kcoords K (pm r) npe dim e junk) (j, dj, ij) in
     (fst (fst s), snd (fst s), snd s, kinv_mass K L (vt_nq TM) nb (vt_wts TM) (vt_val TM) (snd (fst s)) junk mm)).
  set (fV := fun e (a : (Z -> Z -> Z -> N) * (Z -> N) * (Z -> Z -> Z -> N) * (Z -> Z -> N)) => let '(j, dj, ij, mm) := a in
     let s := kjacobians K L (vt_nq TV) dim npe (vt_ggrad TV) (kcoords K (pm r) npe dim e junk) (j, dj, ij) in
     (fst (fst s), snd (fst s), snd s, mm)).
  set (h1 := ploop eo1 (kmass_team K L (pm r) dim npe nb TM junk) (kgeom0 K)).
  assert (G1 : get h1 le = fM le (get (kgeom0 K) le)).
  { apply (ploop_get get (kmass_team K L (pm r) dim npe nb TM junk) fM eo1 (kgeom0 K)).
    - apply (Permutation_NoDup (Permutation_sym P1)), NoDup_zseq.
    - intros x s e'. unfold get, fM, kmass_team. cbv zeta.
      destruct (kjacobians K L (vt_nq TM) dim npe (vt_ggrad TM) (kcoords K (pm r) npe dim x junk) (g_jac K s x, g_djac K s x, g_ijac K s x)) as [[a b] c].
      cbn [fst snd g_jac g_djac g_ijac g_iMM]. unfold setr. destruct (Z.eqb_spec e' x) as [->|]; reflexivity.
    - apply (Permutation_in _ (Permutation_sym P1)). now apply In_zseq. }
  assert (G2 : get h le = fV le (get h1 le)).
  { apply (ploop_get get (kvolume_team K L (pm r) dim npe TV junk) fV eo2 h1).
    - apply (Permutation_NoDup (Permutation_sym P2)), NoDup_zseq.
    - intros x s e'. unfold get, fV, kvolume_team. cbv zeta.
      destruct (kjacobians K L (vt_nq TV) dim npe (vt_ggrad TV) (kcoords K (pm r) npe dim x junk) (g_jac K s x, g_djac K s x, g_ijac K s x)) as [[a b] c].
      cbn [fst snd g_jac g_djac g_ijac g_iMM]. unfold setr. destruct (Z.eqb_spec e' x) as [->|]; reflexivity.
    - apply (Permutation_in _ (Permutation_sym P2)). now apply In_zseq. }
  clearbody h1.
  pose proof (kjacobians_ref (vt_nq TM) dim npe TM (kcoords K (pm r) npe dim le junk) (gnode m e)
     (g_jac K (kgeom0 K) le) (g_djac K (kgeom0 K) le) (g_ijac K (kgeom0 K) le) HM D CO) as RM. cbv zeta in RM.
  pose proof (kjacobians_ref (vt_nq TV) dim npe TV (kcoords K (pm r) npe dim le junk) (gnode m e)
     (g_jac K h1 le) (g_djac K h1 le) (g_ijac K h1 le) HV D CO) as RV. cbv zeta in RV.
  unfold get, fM in G1. unfold get, fV in G2. cbv zeta in G1, G2.
  destruct (kjacobians K L (vt_nq TM) dim npe (vt_ggrad TM) _ (g_jac K (kgeom0 K) le, _, _)) as [[a b] c].
  destruct (kjacobians K L (vt_nq TV) dim npe (vt_ggrad TV) _ (g_jac K h1 le, _, _)) as [[a' b'] c'].
  cbn [fst snd] in *. injection G1 as _ _ _ E4. injection G2 as _ F2 F3 F4.
  rewrite F2, F3, F4, E4. destruct RM as [M1 _]. destruct RV as [V1 V2]. split; [exact V1|]. split; [exact V2|].
  unfold ref_iMM. apply kinv_mass_agree; [exact M1|apply agree2_refl].
Qed.
End Geometry.

(** ** Initial state *)
Section Init.
Context (C : kcase K).
Let dim := space_dim (c_shape K C).
Context (Dm : gm_dim m = dim) (Gb : c_gnb K C <= gm_npe m) (HI : 0 <= vt_nq (c_TI K C)).
(** The initial condition reads the point and writes every state variable. *)
Definition ic_reads : Prop := forall x x' u u', agree dim x x' -> agree (dim + 2) (c_ic K C x u) (c_ic K C x' u').
Context (IC : ic_reads).

Definition ref_init (X : Z -> Z -> N) : Z -> Z -> N :=
  let T := c_TI K C in
  let nq := vt_nq T in
  let zero := fun _ _ : Z => f0 K in
  let x := kgemm K L nq dim (c_gnb K C) (f1 K) (vt_gval T) X false zero in
  let f := fun iq s => l_scale L (fmul K (vt_wts T iq) (ref_djac T dim (gm_npe m) X iq)) (c_ic K C (x iq) (zero iq) s) in
  let rhs := kgemm K L (c_nb K C) (dim + 2) nq (f1 K) (fun i p => vt_val T p i) f false zero in
  kgemm K L (c_nb K C) (dim + 2) (c_nb K C) (f1 K) (ref_iMM (c_TM K C) dim (gm_npe m) (c_nb K C) X) rhs false zero.

Lemma init_ref r iMM junk eo U0 : 0 <= r < n -> Permutation eo (zseq (pm_num_elems_part (pm r))) ->
  forall le e, rd (pm_l2g_elem (pm r)) le = Ok e ->
  agree2 (c_nb K C) (c_nb K C) (iMM le) (ref_iMM (c_TM K C) dim (gm_npe m) (c_nb K C) (gnode m e)) ->
  agree2 (c_nb K C) (dim + 2) (ploop eo (kinit_team K L C (pm r) (gm_npe m) iMM junk) U0 le) (ref_init (gnode m e)).
Proof.
  intros Hr P le e He HM.
  pose proof (local_in r le e Hr He) as Hle.
  pose proof (kcoords_agree r le e junk Hr He) as CO. rewrite Dm in CO.
  assert (D : dim23 dim) by apply space_dim23.
  pose proof (kjacobians_ref (vt_nq (c_TI K C)) dim (gm_npe m) (c_TI K C) (kcoords K (pm r) (gm_npe m) dim le junk) (gnode m e)
     (fun _ => junk) (junk 0) (fun _ => junk) HI D CO) as [RD _].
  unfold kinit_team. fold dim.
  rewrite (ploop_rows (fun e a => kgemm K L (c_nb K C) (dim + 2) (c_nb K C) (f1 K) (iMM e) _ false a) eo U0 (pm_num_elems_part (pm r)) P le Hle).
  unfold ref_init. apply kgemm_agree; [exact LR|exact HM| |discriminate].
  apply kgemm_agree; [exact LR|apply agree2_refl| |discriminate].
  intros iq s Hq Hs. rewrite (RD iq Hq). f_equal. apply IC; [|exact Hs].
  intros d Hd. apply kgemm_agree; [exact LR|apply agree2_refl| |discriminate|exact Hq|exact Hd].
  intros i j Hi Hj. apply CO; [lia|exact Hj].
Qed.
End Init.

(** ** Normals *)
Section Normals.
Context (s : eshape) (g nqf : Z) (fgrad : Z -> Z -> Z -> N).
Context (Hg : 1 <= g) (Dm : gm_dim m = space_dim s) (Np : gm_npe m = (g + 1) ^ space_dim s) (FV : faces_valid s m).

Lemma face_node_range k i : 0 <= k < faces_per_elem s -> 0 <= i < face_nodes_count s g -> 0 <= face_node s k g i < gm_npe m.
Proof.
  intros Hk Hi. rewrite Np. destruct s; cbn [faces_per_elem face_nodes_count face_node space_dim] in *.
  - replace ((g + 1) ^ 2) with ((g + 1) * (g + 1)) by ring.
    apply (C20_quad_local_nodes g k (fun _ => 0) (fun _ _ => 0%R)); lia.
  - replace ((g + 1) ^ 3) with ((g + 1) * (g + 1) * (g + 1)) by ring.
    apply (C20_hex_local_nodes g k (fun _ => 0) (fun _ _ => 0%R)); lia.
Qed.

Lemma knormal_agree sign k fg c c' x x' : 0 <= k < faces_per_elem s -> agree2 (gm_npe m) (space_dim s) c c' ->
  agree (space_dim s) (knormal K L s sign k g fg c x) (knormal K L s sign k g fg c' x').
Proof.
  intros Hk H d Hd. unfold knormal.
  assert (X : forall a b, (a = space_dim s) -> agree2 a b
     (kgemm K L a b (face_nodes_count s g) (f1 K) (fun d p => c (face_node s k g p) d) fg false x)
     (kgemm K L a b (face_nodes_count s g) (f1 K) (fun d p => c' (face_node s k g p) d) fg false x')).
  { intros a b ->. apply kgemm_agree; [exact LR| |apply agree2_refl|discriminate].
    intros i p Hi Hp. apply H; [|exact Hi]. now apply face_node_range. }
  destruct s; cbn [space_dim face_nodes_count] in *.
  - specialize (X 2 1 eq_refl). rewrite (X 1 0), (X 0 0) by lia. reflexivity.
  - specialize (X 3 2 eq_refl). rewrite (X 0 0), (X 0 1), (X 1 0), (X 1 1), (X 2 0), (X 2 1) by lia. reflexivity.
Qed.

(** The normal of face [f] computed from its left ([false]) or right element. *)
Definition side_normal (f : Z) (sd : bool) (iq : Z) : Z -> N :=
  let c := if sd then 3 else 0 in
  let e := match rd2 (gm_IF m) f c with Ok x => x | Fail _ => 0 end in
  let k := match rd2 (gm_IF m) f (c + 1) with Ok x => x | Fail _ => 0 end in
  knormal K L s (if sd then fm1 K else f1 K) k g (fgrad iq) (gnode m e) (fun _ _ => f0 K).

Lemma normals_ref r junk fo : 0 <= r < n -> Permutation fo (zseq (pm_num_ifaces_part (pm r))) ->
  forall lf f iq eL, rd (pm_l2g_iface (pm r)) lf = Ok f -> 0 <= iq < nqf -> left_of m f eL ->
  agree (space_dim s)
    (ploop fo (knormals_team K L s (pm r) r (gm_npe m) g nqf fgrad junk) (fun _ _ _ => f0 K) lf iq)
    (side_normal f (match rd ep eL with Ok r' => negb (r' =? r) | Fail _ => true end) iq).
Proof.
  intros Hr P lf f iq eL Rf Hq HL.
  destruct (C04_interior_faces N (f0 K) iter n m ep pm WF PT) as [Touch H4]. destruct (H4 r Hr) as (_ & EL & _ & HF).
  destruct (HF lf f Rf) as (eL' & fL & oL & eR & fR & oR & rL & rR & lL & lR & E1 & OL & OR & E2 & LLx & LRx).
  assert (eL' = eL) as -> by (unfold left_of, rd2 in HL; rewrite E1 in HL; cbn in HL; congruence).
  assert (Hlf : 0 <= lf < pm_num_ifaces_part (pm r)) by (rewrite <- EL; now apply rd_in_range in Rf).
  set (row := fun lf (a : Z -> Z -> N) => knormals_team K L s (pm r) r (gm_npe m) g nqf fgrad junk lf (fun _ => a) lf).
  assert (RW : ploop fo (knormals_team K L s (pm r) r (gm_npe m) g nqf fgrad junk) (fun _ _ _ => f0 K) lf = row lf (fun _ _ => f0 K)).
  { apply (ploop_get (fun (a : Z -> Z -> Z -> N) e => a e) (knormals_team K L s (pm r) r (gm_npe m) g nqf fgrad junk) row fo (fun _ _ _ => f0 K)).
    - apply (Permutation_NoDup (Permutation_sym P)), NoDup_zseq.
    - intros x a e'. unfold row, knormals_team. cbv zeta. destruct (face_side r _ _) as [onleft|].
      + unfold setr. destruct (Z.eqb_spec e' x) as [->|]; [|reflexivity]. rewrite Z.eqb_refl. reflexivity.
      + destruct (Z.eqb_spec e' x) as [->|]; reflexivity.
    - apply (Permutation_in _ (Permutation_sym P)). now apply In_zseq. }
  rewrite RW. unfold row, knormals_team. cbv zeta.
  assert (EN : forall j x, rd [rL; lL; fL; oL; rR; lR; fR; oR] j = Ok x -> ent (pm_interior_faces (pm r)) lf j = x).
  { intros j x Hx. unfold ent, rd2. rewrite E2. cbn [bind]. now rewrite Hx. }
  rewrite (EN 0 rL eq_refl), (EN 4 rR eq_refl).
  assert (SL : has_side m f false eL fL oL) by (unfold has_side, rd2; rewrite E1; repeat split; reflexivity).
  assert (SR : has_side m f true eR fR oR) by (unfold has_side, rd2; rewrite E1; repeat split; reflexivity).
  assert (KL : 0 <= fL < faces_per_elem s).
  { pose proof (side_nonneg iter n m ep WF _ _ _ _ _ SL). pose proof (FV _ _ _ _ _ SL). lia. }
  assert (KR : 0 <= fR < faces_per_elem s).
  { pose proof (side_nonneg iter n m ep WF _ _ _ _ _ SR). pose proof (FV _ _ _ _ _ SR). lia. }
  unfold owned_by in OL, OR. rewrite OL. unfold face_side.
  destruct (Z.eqb_spec rL r) as [->|NL].
  - cbn [negb]. rewrite (EN 1 lL eq_refl), (EN 2 fL eq_refl). unfold setr. rewrite Z.eqb_refl, inb_in by exact Hq.
    unfold side_normal, rd2. rewrite E1. cbn [bind]. cbn.
    apply knormal_agree; [exact KL|]. pose proof (kcoords_agree r lL eL junk Hr LLx) as X. now rewrite Dm in X.
  - cbn [negb].
    destruct (Z.eqb_spec rR r) as [->|NR].
    + rewrite (EN 5 lR eq_refl), (EN 6 fR eq_refl). unfold setr. rewrite Z.eqb_refl, inb_in by exact Hq.
      unfold side_normal, rd2. rewrite E1. cbn [bind]. cbn.
      apply knormal_agree; [exact KR|]. pose proof (kcoords_agree r lR eR junk Hr LRx) as X. now rewrite Dm in X.
    + exfalso. assert (T : face_touches m ep f r) by (apply Touch; [exact Hr|now apply rd_In in Rf]).
      destruct T as (a & [Ha|Ha] & Ho); unfold left_of, right_of, rd2 in Ha; rewrite E1 in Ha; cbn in Ha; injection Ha as <-; unfold owned_by in Ho; congruence.
Qed.
End Normals.
End Setup.
