(** ArithRun.v -- one residual evaluation, one time step and a whole march in any
    arithmetic: what every rank holds for an element is a function of the mesh
    file, of the case and of the normals used on the faces, whatever the orders
    of the loops, the previous content of the work arrays and the partition. *)
From Coq Require Import ZArith Reals List Lia Bool Permutation.
From Verif Require Import Base RBase MeshModel MeshSpec MeshProof MeshReadProof MeshProof2 PropMesh ShapeModel ShapeProof PropShape CommModel CommSpec
  SolverModel SetupModel SolverSpec PhysModel LinAlgProof SolverFaces SolverMesh IOProof4 ArithModel ArithProof ArithSetup.
Import ListNotations.
Local Open Scope Z_scope.

(** A loop over pairs, written by its effect on the rows. *)
Lemma sweep_at {A} (f : Z * Z -> A -> A) order n m (body : Z * Z -> (Z -> Z -> A) -> Z -> Z -> A) a0 : each_once order n m ->
  (forall p a i j, body p a i j = if ((i =? fst p) && (j =? snd p))%bool then f p (a i j) else a i j) ->
  forall i j, 0 <= i < n -> 0 <= j < m -> sweep order body a0 i j = f (i, j) (a0 i j).
Proof.
  intros P HB i j Hi Hj.
  set (W := fun p i j => if ((i =? fst p) && (j =? snd p))%bool then Some (f p) else None).
  destruct (sweep_rows W order body) with (s0 := a0) (i := i) (j := j) as [_ H].
  - intros p s i' j' _. rewrite HB. unfold W. destruct ((i' =? fst p) && (j' =? snd p))%bool; reflexivity.
  - apply (H (i, j) (f (i, j))).
    + now apply (each_once_NoDup order n m).
    + now apply (perm_In_pairs order n m).
    + unfold W. cbn [fst snd]. now rewrite !Z.eqb_refl.
    + intros [i' j'] _. unfold W. cbn [fst snd]. destruct (Z.eqb_spec i i'), (Z.eqb_spec j j'); subst; cbn [andb]; easy.
Qed.

Lemma kblocks_rd (K : arith) nif (a : Z -> Z -> Z -> num K) i v : rd (kblocks K nif a) i = Ok v -> v = a i.
Proof.
  unfold kblocks. intros E. assert (0 <= i < nif).
  { apply rd_in_range in E. unfold zlen in E. rewrite map_length in E. fold (zlen (zseq nif)) in E.
    destruct (Z.le_gt_cases 0 nif); [rewrite zlen_zseq in E by lia; lia|]. 
    assert (zseq nif = []) as X by (destruct nif; try lia; reflexivity). rewrite X in E. cbn in E. lia. }
  rewrite (MeshProof.rd_map _ _ _ i) in E by now apply rd_zseq. congruence.
Qed.

Section Ref.
Context (K : arith) (L : library (num K)) (C : kcase K) (m : gmesh (num K)).
Notation N := (num K).
Let s := c_shape K C.
Let dim := space_dim s.
Let ns := dim + 2.
Let nb := c_nb K C.
Let nqf := c_nqf K C.
Let NF := faces_per_elem s.
Let zero2 : Z -> Z -> N := fun _ _ => f0 K.

(** Entries of the interior faces of the mesh file: element, face of that
    element, place of point [iq] of the face among that element face's points. *)
Definition fent (f j : Z) : Z := match rd2 (gm_IF m) f j with Ok x => x | Fail _ => -1 end.
Definition felem (f : Z) (sd : bool) : Z := fent f (if sd then 3 else 0).
Definition fface (f : Z) (sd : bool) : Z := fent f (if sd then 4 else 1).
Definition fpos (f : Z) (sd : bool) (iq : Z) : Z :=
  fface f sd * nqf + face_order s (fent f (if sd then 5 else 2)) nqf (fun _ => 0) iq.

(** The kernels on the coefficients [c] of all elements; [nor f sd iq]: normal
    used at point [iq] of face [f] for the element on its side [sd]. *)
Context (nor : Z -> bool -> Z -> Z -> N).
Section Coefficients.
Context (c : Z -> Z -> Z -> N).
Definition ref_trace (f : Z) (sd : bool) (iq : Z) : Z -> N :=
  kgemm K L (NF * nqf) ns nb (f1 K) (kflat K nqf (c_fval K C)) (c (felem f sd)) false zero2 (fpos f sd iq).
Definition ref_flux (f : Z) (sd : bool) (iq : Z) : Z -> N :=
  match knumflux K (c_flux K C) dim (c_gamma K C) (ref_trace f false iq) (ref_trace f true iq) (nor f sd iq) (fun _ => f0 K) (fun _ => f0 K) with
  | Ok F => fun is => fmul K (F is) (c_fwts K C iq)
  | Fail _ => fun _ => f0 K
  end.
Definition fslots : list (Z * Z * bool) := list_prod (list_prod (zseq (gm_nIF m)) (zseq nqf)) [false; true].
Definition fsource (e p : Z) : option (Z * Z * bool) :=
  find (fun t => let '(f, iq, sd) := t in ((felem f sd =? e) && (fpos f sd iq =? p))%bool) fslots.
Definition ref_buffer (e p : Z) : Z -> N :=
  match fsource e p with
  | Some (f, iq, sd) => fun is => if sd : bool then ref_flux f sd iq is else fmul K (fm1 K) (ref_flux f sd iq is)
  | None => fun _ => f0 K
  end.
Definition ref_volume (e ib is : Z) : N :=
  let T := c_TV K C in
  let Uq := kgemm K L (vt_nq T) ns nb (f1 K) (vt_val T) (c e) false zero2 in
  zloop (vt_nq T) (fun iq a => zloop dim (fun id a =>
    let F := kconv_flux K dim (c_gamma K C) (Uq iq) (fun _ => f0 K) in
    fadd K a (fmul K (vt_grad T iq ib id)
      (zloop dim (fun id2 a => fadd K a (fmul K (fmul K (fmul K (F (id2 * ns + is))
         (ref_ijac K L T dim (gm_npe m) (gnode K m e) iq id id2)) (ref_djac K L T dim (gm_npe m) (gnode K m e) iq)) (vt_wts T iq))) (f0 K)))) a) (f0 K).
Definition ref_residual (e : Z) : Z -> Z -> N :=
  kgemm K L nb ns (NF * nqf) (f1 K) (fun i p => kflat K nqf (c_fval K C) p i) (ref_buffer e) true (ref_volume e).
Definition ref_incr (e : Z) : Z -> Z -> N :=
  kgemm K L nb ns nb (c_dt K C) (ref_iMM K L (c_TM K C) dim (gm_npe m) nb (gnode K m e)) (ref_residual e) false zero2.
End Coefficients.

Definition ref_step (c : Z -> Z -> Z -> N) : Z -> Z -> Z -> N :=
  match c_kind K C with
  | StepFE => fun e i k => l_axpy L (f1 K) (ref_incr c e i k) (c e i k)
  | StepRK4 =>
    let c1 := fun e i k => l_update L (fhalf K) (ref_incr c e i k) (c e i k) in
    let c2 := fun e i k => l_update L (fhalf K) (ref_incr c1 e i k) (c e i k) in
    let c3 := fun e i k => l_update L (f1 K) (ref_incr c2 e i k) (c e i k) in
    fun e i k =>
      l_axpy L (fdiv K (f1 K) (f6 K))
       (l_axpy L (f1 K) (ref_incr c e i k)
         (l_axpy L (f2 K) (ref_incr c1 e i k)
           (l_axpy L (f2 K) (ref_incr c2 e i k) (ref_incr c3 e i k)))) (c e i k)
  end.
Fixpoint ref_march (k : nat) (c : Z -> Z -> Z -> N) : Z -> Z -> Z -> N :=
  match k with O => c | S k => ref_march k (ref_step c) end.
End Ref.

(** Two normals with which the numerical flux of any two states is the same. *)
Definition same_flux (K : arith) (C : kcase K) (Nn Nn' : Z -> num K) : Prop :=
  let dim := space_dim (c_shape K C) in
  forall UL UR F0 F0' Q0 Q0', same_res K (dim + 2) (knumflux K (c_flux K C) dim (c_gamma K C) UL UR Nn F0 Q0) (knumflux K (c_flux K C) dim (c_gamma K C) UL UR Nn' F0' Q0').

Lemma same_res_trans K n a b c : same_res K n a b -> same_res K n b c -> same_res K n a c.
Proof. destruct a, b, c; cbn; try easy; [apply agree_trans|congruence]. Qed.
Lemma same_res_sym K n a b : same_res K n a b -> same_res K n b a.
Proof. destruct a, b; cbn; try easy. apply agree_sym. Qed.

Lemma same_flux_agree K C Nn Nn' : agree (space_dim (c_shape K C)) Nn Nn' -> same_flux K C Nn Nn'.
Proof. intros H UL UR F0 F0' Q0 Q0'. apply knumflux_agree; [apply space_dim23|apply agree_refl|apply agree_refl|exact H]. Qed.
Lemma same_flux_trans K C a b c : same_flux K C a b -> same_flux K C b c -> same_flux K C a c.
Proof. intros H H' UL UR F0 F0' Q0 Q0'. eapply same_res_trans; [apply (H UL UR F0 F0' Q0 Q0')|apply H']. Qed.
Lemma same_flux_sym K C a b : same_flux K C a b -> same_flux K C b a.
Proof. intros H UL UR F0 F0' Q0 Q0'. apply same_res_sym, H. Qed.

Section Run.
Context (K : arith) (L : library (num K)) (LR : lib_reads L) (C : kcase K).
Notation N := (num K).
Context (iter : Z -> list Z -> list Z) (n : Z) (m : gmesh N) (ep : list Z) (pm : Z -> pmesh N).
Context (WF : run_wf iter n m ep) (PT : partitioned (f0 K) iter n m ep pm).
Let s := c_shape K C.
Let dim := space_dim s.
Let ns := dim + 2.
Let nb := c_nb K C.
Let nqf := c_nqf K C.
Let NF := faces_per_elem s.
Context (HV : faces_valid s m) (HD : faces_distinct m) (HP : face_points s nqf) (HQ : 0 <= vt_nq (c_TV K C)).
Context (nor : Z -> bool -> Z -> Z -> N).

(** Rank [r] works on its part of the mesh, with the tables of the case. *)
Record rank_ok (r : Z) (d : kdata K) : Prop := {
  ro_ord : forall k, Permutation (k_order K d k) (zseq (pm_num_elems_part (pm r)));
  ro_pord : each_once (k_porder K d 0%nat) (pm_num_elems_part (pm r)) (vt_nq (c_TV K C));
  ro_ford : forall k, each_once (k_porder K d (S k)) (pm_num_ifaces_part (pm r)) nqf;
  ro_data : k_rank K d = r /\ k_shape K d = s /\ k_gamma K d = c_gamma K C /\ k_flux K d = c_flux K C /\
    k_ne K d = pm_num_elems_part (pm r) /\ k_nb K d = nb /\ k_nqf K d = nqf /\ k_nif K d = pm_num_ifaces_part (pm r) /\
    k_rows K d = pm_interior_faces (pm r) /\ k_T K d = c_TV K C /\ k_fval K d = c_fval K C /\ k_fwts K d = c_fwts K C;
  ro_look : face_quadrature_lookup (face_order s) (pm_interior_faces (pm r)) (pm_num_ifaces_part (pm r)) nqf = Ok (k_qL K d, k_qR K d);
  ro_geom : forall le e, rd (pm_l2g_elem (pm r)) le = Ok e ->
    agree (vt_nq (c_TV K C)) (g_djac K (k_geom K d) le) (ref_djac K L (c_TV K C) dim (gm_npe m) (gnode K m e)) /\
    (forall q, 0 <= q < vt_nq (c_TV K C) -> agree2 dim dim (g_ijac K (k_geom K d) le q) (ref_ijac K L (c_TV K C) dim (gm_npe m) (gnode K m e) q)) /\
    agree2 nb nb (g_iMM K (k_geom K d) le) (ref_iMM K L (c_TM K C) dim (gm_npe m) nb (gnode K m e));
  ro_nor : forall lf f iq sd, rd (pm_l2g_iface (pm r)) lf = Ok f -> 0 <= iq < nqf -> srank (pm_interior_faces (pm r)) lf sd = r ->
    same_flux K C (k_normals K d lf iq) (nor f sd iq)
}.
Context (D : Z -> kdata K) (RO : forall r, 0 <= r < n -> rank_ok r (D r)).

(** The coefficients [c] (by global element) are the ones the ranks hold. *)
Definition kholds (c : Z -> Z -> Z -> N) (U : Z -> Z -> Z -> Z -> N) : Prop :=
  forall r le e, 0 <= r < n -> rd (pm_l2g_elem (pm r)) le = Ok e -> agree2 nb ns (U r le) (c e).

Lemma face_side_has f sd e k o : has_side m f sd e k o -> 0 <= f < gm_nIF m /\ felem K m f sd = e /\ fface K m f sd = k /\
   fent K m f (if sd then 5 else 2) = o.
Proof.
  intros (H1 & H2 & H3).
  assert (Hf : (0 <= f < gm_nIF m)%Z).
  { unfold rd2 in H1. destruct (rd (gm_IF m) f) as [row|] eqn:E; [|discriminate]. apply rd_in_range in E.
    rewrite (wf_if_len m (run_mesh _ _ _ _ WF)) in E. exact E. }
  split; [exact Hf|]. unfold felem, fface, fent. destruct sd.
  - change (3 + 1)%Z with 4%Z in *. change (3 + 2)%Z with 5%Z in *. rewrite H1, H2, H3. auto.
  - change (0 + 1)%Z with 1%Z in *. change (0 + 2)%Z with 2%Z in *. rewrite H1, H2, H3. auto.
Qed.

Lemma file_side f sd : 0 <= f < gm_nIF m -> has_side m f sd (felem K m f sd) (fface K m f sd) (fent K m f (if sd then 5 else 2)).
Proof.
  intros Hf. pose proof (run_mesh _ _ _ _ WF) as MW.
  destruct (rd_total (gm_IF m) f) as (row & E). { rewrite (wf_if_len m MW). lia. }
  pose proof (wf_if m MW) as WI. rewrite Forall_forall in WI.
  destruct (WI row (rd_In _ _ _ E)) as (eL & fL & oL & eR & fR & oR & -> & _).
  unfold has_side, felem, fface, fent, rd2. rewrite E. destruct sd; repeat split; reflexivity.
Qed.

(** The slot of a local face point is the place the mesh file gives. *)
Lemma local_slot r lf f sd : 0 <= r < n -> rd (pm_l2g_iface (pm r)) lf = Ok f ->
  0 <= lf < pm_num_ifaces_part (pm r) /\ 0 <= f < gm_nIF m /\
  owned_by ep (felem K m f sd) (srank (pm_interior_faces (pm r)) lf sd) /\
  (srank (pm_interior_faces (pm r)) lf sd = r -> rd (pm_l2g_elem (pm r)) (selem (pm_interior_faces (pm r)) lf sd) = Ok (felem K m f sd)) /\
  forall iq, 0 <= iq < nqf ->
    sface (pm_interior_faces (pm r)) lf sd * nqf + qidx (k_qL K (D r)) (k_qR K (D r)) sd lf iq = fpos K C m f sd iq.
Proof.
  intros Hr Rf. destruct (C04_interior_faces N (f0 K) iter n m ep pm WF PT) as [_ H4]. destruct (H4 r Hr) as (_ & EL & _).
  assert (Hlf : 0 <= lf < pm_num_ifaces_part (pm r)) by (rewrite <- EL; now apply rd_in_range in Rf).
  destruct (row_side (f0 K) iter n m ep pm WF PT r lf f Hr Rf) as [_ HS]. destruct (HS sd) as (e & S1 & S2 & S3).
  destruct (face_side_has f sd _ _ _ S1) as (Hf & <- & S4 & S5).
  split; [exact Hlf|]. split; [exact Hf|]. split; [exact S2|]. split; [exact S3|].
  intros iq Hq. destruct (rows_ok (f0 K) iter n m ep pm WF PT s nqf r _ _ Hr HV HD HP (ro_look _ _ (RO r Hr))) as [_ HQQ].
  unfold fpos. fold s nqf. rewrite S4, S5, (HQQ lf sd iq (fun _ => 0) Hlf Hq). reflexivity.
Qed.

Lemma fpos_range f sd iq : 0 <= f < gm_nIF m -> 0 <= iq < nqf -> 0 <= fpos K C m f sd iq < NF * nqf.
Proof.
  intros Hf Hq. pose proof (file_side f sd Hf) as HS. pose proof (side_nonneg iter n m ep WF _ _ _ _ _ HS) as (K0 & O0 & _).
  destruct (HV _ _ _ _ _ HS) as [K1 O1]. destruct (order_perm s nqf _ (fun _ => 0) HP (conj O0 O1)) as [OP _]. specialize (OP iq Hq).
  unfold fpos. fold s nqf. change (faces_per_elem s) with NF in K1. nia.
Qed.

Lemma fpos_inj f sd iq f' sd' iq' : 0 <= f < gm_nIF m -> 0 <= f' < gm_nIF m -> 0 <= iq < nqf -> 0 <= iq' < nqf ->
  felem K m f sd = felem K m f' sd' -> fpos K C m f sd iq = fpos K C m f' sd' iq' -> f = f' /\ sd = sd' /\ iq = iq'.
Proof.
  intros Hf Hf' Hq Hq' Ee Ep. pose proof (file_side f sd Hf) as HS. pose proof (file_side f' sd' Hf') as HS'.
  pose proof (side_nonneg iter n m ep WF _ _ _ _ _ HS) as (K0 & O0 & _). destruct (HV _ _ _ _ _ HS) as [K1 O1].
  pose proof (side_nonneg iter n m ep WF _ _ _ _ _ HS') as (K0' & O0' & _). destruct (HV _ _ _ _ _ HS') as [K1' O1'].
  destruct (order_perm s nqf _ (fun _ => 0) HP (conj O0 O1)) as [OP OI].
  destruct (order_perm s nqf _ (fun _ => 0) HP (conj O0' O1')) as [OP' _]. specialize (OP' iq' Hq').
  unfold fpos in Ep. fold s nqf in Ep. pose proof (OP iq Hq) as OPq.
  assert (EF : fface K m f sd = fface K m f' sd') by nia.
  rewrite EF, Ee in HS. destruct (HD _ _ _ _ _ _ _ _ HS HS') as (-> & ->). split; [reflexivity|]. split; [reflexivity|].
  apply OI; [exact Hq|exact Hq'|lia].
Qed.

Lemma fsource_some e p f iq sd : fsource K C m e p = Some (f, iq, sd) ->
  0 <= f < gm_nIF m /\ 0 <= iq < nqf /\ felem K m f sd = e /\ fpos K C m f sd iq = p.
Proof.
  intros H. apply find_some in H. destruct H as [HI HE]. unfold fslots in HI. rewrite !in_prod_iff, !In_zseq in HI.
  apply andb_true_iff in HE. rewrite !Z.eqb_eq in HE. fold nqf in HI. tauto.
Qed.
Lemma fsource_at f iq sd : 0 <= f < gm_nIF m -> 0 <= iq < nqf -> fsource K C m (felem K m f sd) (fpos K C m f sd iq) = Some (f, iq, sd).
Proof.
  intros Hf Hq. destruct (fsource K C m (felem K m f sd) (fpos K C m f sd iq)) as [[[f' iq'] sd']|] eqn:E.
  - apply fsource_some in E. destruct E as (Hf' & Hq' & Ee & Ep).
    destruct (fpos_inj _ _ _ _ _ _ Hf' Hf Hq' Hq Ee Ep) as (-> & -> & ->). reflexivity.
  - exfalso. pose proof (find_none _ _ E (f, iq, sd)) as X. cbv beta iota in X. rewrite !Z.eqb_refl in X. cbn [andb] in X.
    discriminate X. unfold fslots. fold nqf. apply in_prod; [apply in_prod; now apply In_zseq|destruct sd; cbn; auto].
Qed.

(** ** One evaluation *)
Section Evaluation.
Context (c : Z -> Z -> Z -> N) (Uc : Z -> Z -> Z -> Z -> N) (HU : kholds c Uc).

Lemma before_trace r lf f iq sd v : 0 <= r < n -> rd (pm_l2g_iface (pm r)) lf = Ok f -> 0 <= iq < nqf ->
  srank (pm_interior_faces (pm r)) lf sd = r ->
  agree ns ((if sd then kv_UqR K (kface_before K L (D r) (Uc r) v) else kv_UqL K (kface_before K L (D r) (Uc r) v)) lf iq) (ref_trace K L C m c f sd iq).
Proof.
  intros Hr Rf Hq SR. destruct (RO r Hr) as [O1 _ O3 (E1 & E2 & E3 & E4 & E5 & E6 & E7 & E8 & E9 & E10 & E11 & E12) LK _ _].
  destruct (local_slot r lf f sd Hr Rf) as (Hlf & Hf & _ & SE & SP). specialize (SE SR). specialize (SP iq Hq).
  set (Uq := kevaluate_state K L (k_order K (D r) 2) (k_np K (D r)) (k_ns K (D r)) (k_nb K (D r)) (kflat K (k_nqf K (D r)) (k_fval K (D r))) (Uc r) (kv_Uq K v)).
  assert (EU : Uq (selem (pm_interior_faces (pm r)) lf sd) =
     kgemm K L (NF * nqf) ns nb (f1 K) (kflat K nqf (c_fval K C)) (Uc r (selem (pm_interior_faces (pm r)) lf sd)) false (kv_Uq K v (selem (pm_interior_faces (pm r)) lf sd))).
  { unfold Uq, kevaluate_state. rewrite (ploop_rows (fun e a => kgemm K L (k_np K (D r)) (k_ns K (D r)) (k_nb K (D r)) (f1 K) (kflat K (k_nqf K (D r)) (k_fval K (D r))) (Uc r e) false a) _ _ _ (O1 2%nat)) by (eapply (local_in K iter n m ep pm WF PT); eauto).
    unfold k_np, k_ns, k_dim. rewrite E2, E6, E7, E11. reflexivity. }
  assert (EV : agree ns ((if sd then kv_UqR K (kface_before K L (D r) (Uc r) v) else kv_UqL K (kface_before K L (D r) (Uc r) v)) lf iq)
      (Uq (selem (pm_interior_faces (pm r)) lf sd) (fpos K C m f sd iq))).
  { unfold kface_before. fold Uq. cbv zeta. cbn [kv_UqL kv_UqR]. unfold kface_states. rewrite sweep_pair. cbn [fst snd].
    assert (X : forall V, agree ns (sweep (k_porder K (D r) 1) (kface_state K (D r) sd Uq) V lf iq) (Uq (selem (pm_interior_faces (pm r)) lf sd) (fpos K C m f sd iq))).
    { intros V.
      set (h := fun (p : Z * Z) (a : Z -> N) => if k_rank K (D r) =? srank (k_rows K (D r)) (fst p) sd then fun is => if inb (k_ns K (D r)) is then
         Uq (selem (k_rows K (D r)) (fst p) sd) (sface (k_rows K (D r)) (fst p) sd * k_nqf K (D r) + qidx (k_qL K (D r)) (k_qR K (D r)) sd (fst p) (snd p)) is else a is else a).
      assert (HB : forall p V' i j, kface_state K (D r) sd Uq p V' i j = if ((i =? fst p) && (j =? snd p))%bool then h p (V' i j) else V' i j).
      { intros [a b] V' i j. unfold kface_state, h. cbn [fst snd].
        destruct (k_rank K (D r) =? srank (k_rows K (D r)) a sd).
        - unfold set2. destruct (Z.eqb_spec i a) as [->|]; [destruct (Z.eqb_spec j b) as [->|]|]; reflexivity.
        - destruct ((i =? a) && (j =? b))%bool; reflexivity. }
      rewrite (sweep_at h _ _ _ _ V (O3 0%nat) HB lf iq Hlf Hq). unfold h.
      cbn [fst snd]. rewrite E1, E9, SR, Z.eqb_refl, E7, SP. intros k Hk. unfold k_ns, k_dim. rewrite E2. rewrite inb_in by exact Hk. reflexivity. }
    destruct sd; apply X. }
  eapply agree_trans; [exact EV|]. rewrite EU. unfold ref_trace. fold s dim ns nb nqf NF.
  intros k Hk. apply kgemm_agree; [exact LR|apply agree2_refl| |discriminate|now apply fpos_range|exact Hk].
  now apply (HU r).
Qed.

Context (v v' : Z -> kviews K) (rs : Z -> Z -> Z -> Z -> N).
Context (EV : kevaluates K L m ep pm n D Uc v rs v').

Lemma face_values : exists rs0 (UL UR : Z -> Z -> Z -> Z -> N),
  (forall r, 0 <= r < n -> kface_after K L (D r) (UL r) (UR r) (kface_before K L (D r) (Uc r) (v r)) (kelement_residuals K L (D r) (Uc r) (rs0 r)) = Ok (v' r, rs r)) /\
  forall r lf f iq, 0 <= r < n -> rd (pm_l2g_iface (pm r)) lf = Ok f -> 0 <= iq < nqf ->
    agree ns (UL r lf iq) (ref_trace K L C m c f false iq) /\ agree ns (UR r lf iq) (ref_trace K L C m c f true iq).
Proof.
  destruct EV as (rs0 & X & UL & UR & EX & HX). exists rs0, UL, UR. split; [intros r Hr; apply HX; exact Hr|].
  intros r lf f iq Hr Rf Hq. destruct EX as [_ EX].
  destruct (local_slot r lf f false Hr Rf) as (Hlf & Hf & OL & _). destruct (local_slot r lf f true Hr Rf) as (_ & _ & OR & _).
  set (rL := srank (pm_interior_faces (pm r)) lf false) in *. set (rR := srank (pm_interior_faces (pm r)) lf true) in *.
  assert (RG : forall e x, owned_by ep e x -> (0 <= x < n)%Z).
  { intros e x O. pose proof (run_ep _ _ _ _ WF) as [_ FA]. rewrite Forall_forall in FA. apply FA. now apply rd_In in O. }
  assert (FR : face_ranks m ep f rL rR).
  { exists (felem K m f false), (felem K m f true). pose proof (file_side f false Hf) as (HL & _). pose proof (file_side f true Hf) as (HR & _).
    repeat split; assumption. }
  assert (OW : forall sd r' lf', 0 <= r' < n -> rd (pm_l2g_iface (pm r')) lf' = Ok f -> owned_by ep (felem K m f sd) r' -> srank (pm_interior_faces (pm r')) lf' sd = r').
  { intros sd r' lf' Hr' Rf' O'. destruct (local_slot r' lf' f sd Hr' Rf') as (_ & _ & O & _). unfold owned_by in *. congruence. }
  destruct (EX r lf f rL rR Hr Rf FR) as [(a & x & Q1 & Q2 & Q3) (b & y & Q4 & Q5 & Q6)]. cbn [fs_L fs_R] in Q2, Q5.
  destruct (HX r Hr) as (BL & BR & _). rewrite <- BL in Q3. rewrite <- BR in Q6.
  apply kblocks_rd in Q2. apply kblocks_rd in Q3. apply kblocks_rd in Q5. apply kblocks_rd in Q6.
  pose proof (before_trace rL a f iq false (v rL) (RG _ _ OL) Q1 Hq (OW false rL a (RG _ _ OL) Q1 OL)) as TL. cbv iota in TL.
  pose proof (before_trace rR b f iq true (v rR) (RG _ _ OR) Q4 Hq (OW true rR b (RG _ _ OR) Q4 OR)) as TR. cbv iota in TR.
  rewrite <- Q3, <- Q6. rewrite Q2, Q5. split; assumption.
Qed.

(** The flux buffer of the elements of a rank. *)
Definition buffer_zero (v : Z -> kviews K) : Prop :=
  forall r le e p k, 0 <= r < n -> rd (pm_l2g_elem (pm r)) le = Ok e -> 0 <= p < NF * nqf -> 0 <= k < ns -> fsource K C m e p = None -> kv_Fe K (v r) le p k = f0 K.
Context (BZ : buffer_zero v).

Lemma elem_local r le e : 0 <= r < n -> rd (pm_l2g_elem (pm r)) le = Ok e -> owned_by ep e r.
Proof. apply (local_owner K iter n m ep pm WF PT). Qed.

(** A face point on a side whose element is local is a local face point. *)
Lemma face_local r le f sd : 0 <= r < n -> 0 <= f < gm_nIF m -> rd (pm_l2g_elem (pm r)) le = Ok (felem K m f sd) ->
  exists lf, rd (pm_l2g_iface (pm r)) lf = Ok f /\ srank (pm_interior_faces (pm r)) lf sd = r /\ selem (pm_interior_faces (pm r)) lf sd = le.
Proof.
  intros Hr Hf He. pose proof (elem_local r le _ Hr He) as OW.
  destruct (C04_interior_faces N (f0 K) iter n m ep pm WF PT) as [HIF _].
  assert (IN : In f (pm_l2g_iface (pm r))).
  { apply HIF; [exact Hr|]. exists (felem K m f sd). split; [|exact OW]. destruct (file_side f sd Hf) as (HS & _).
    unfold left_of, right_of. destruct sd; [right|left]; exact HS. }
  destruct (C02_id_lookups_inverse N (f0 K) iter n m ep pm WF PT r Hr (pm_l2g_iface (pm r))) as (_ & L2 & _); auto.
  specialize (L2 f IN). set (lf := search_for_local_ID f (pm_l2g_iface (pm r))) in *. rename L2 into Rf.
  exists lf. split; [exact Rf|]. destruct (local_slot r lf f sd Hr Rf) as (_ & _ & O & SE & _).
  assert (SR : srank (pm_interior_faces (pm r)) lf sd = r) by (unfold owned_by in *; congruence).
  split; [exact SR|]. eapply (local_unique K iter n m ep pm WF PT); eauto.
Qed.

Lemma flux_buffer r : 0 <= r < n -> exists rs0,
  rs r = kface_integral K L (D r) (k_order K (D r) 3) (kv_Fe K (v' r)) (kelement_residuals K L (D r) (Uc r) rs0) /\
  forall le e p, rd (pm_l2g_elem (pm r)) le = Ok e -> 0 <= p < NF * nqf -> agree ns (kv_Fe K (v' r) le p) (ref_buffer K L C m nor c e p).
Proof.
  intros Hr. destruct face_values as (rs0 & UL & UR & HA & HT). specialize (HA r Hr). exists (rs0 r).
  assert (HTr := fun lf f iq => HT r lf f iq Hr). clear HT.
  destruct (RO r Hr) as [O1 _ O3 (E1 & E2 & E3 & E4 & E5 & E6 & E7 & E8 & E9 & E10 & E11 & E12) LK _ NR].
  set (d := D r) in *. set (w := kface_before K L d (Uc r) (v r)) in *.
  unfold kface_after in HA.
  destruct (foreach (k_porder K d 2) (kface_flux K d (UL r) (UR r)) (kv_Fq K w)) as [Fq|] eqn:EF; [|discriminate].
  cbn [bind] in HA. injection HA as Hv' Hrs. split; [rewrite <- Hv'; symmetry; exact Hrs|].
  (* the fluxes *)
  set (fl := fun p : Z * Z => (F <- knumflux K (k_flux K d) (k_dim K d) (k_gamma K d) (UL r (fst p) (snd p)) (UR r (fst p) (snd p)) (k_normals K d (fst p) (snd p)) (k_junk K d) (k_junk K d) ;;
     Ok (fun (a : Z -> N) is => if inb (k_ns K d) is then fmul K (F is) (k_fwts K d (snd p)) else a is))%res).
  assert (BE : kface_flux K d (UL r) (UR r) = fun p a => (h <- fl p ;; Ok (set2 a (fst p) (snd p) (h (a (fst p) (snd p)))))%res).
  { apply FunctionalExtensionality.functional_extensionality. intros [a b]. apply FunctionalExtensionality.functional_extensionality. intros q.
    unfold kface_flux, fl. cbn [fst snd]. destruct (knumflux K _ _ _ _ _ _ _ _); reflexivity. }
  rewrite BE in EF.
  assert (FX : forall lf f iq sd, rd (pm_l2g_iface (pm r)) lf = Ok f -> 0 <= iq < nqf -> srank (pm_interior_faces (pm r)) lf sd = r ->
     agree ns (Fq lf iq) (ref_flux K L C m nor c f sd iq)).
  { intros lf f iq sd Rf Hq SR. destruct (local_slot r lf f sd Hr Rf) as (Hlf & _).
    destruct (foreach_own fl _ _ _ _ _ (O3 1%nat) EF lf iq Hlf Hq) as (h & Eh & Ea).
    unfold fl in Eh. cbn [fst snd] in Eh.
    destruct (knumflux K (k_flux K d) (k_dim K d) (k_gamma K d) (UL r lf iq) (UR r lf iq) (k_normals K d lf iq) (k_junk K d) (k_junk K d)) as [F|] eqn:EK; [|discriminate].
    cbn [bind] in Eh. injection Eh as <-. destruct (HTr lf f iq Rf Hq) as [TL TR].
    assert (DD : k_dim K d = dim) by (unfold k_dim; rewrite E2; reflexivity). rewrite E3, E4, DD in EK.
    pose proof (knumflux_agree K (c_flux K C) dim (c_gamma K C) _ _ _ _ _ _ (k_junk K d) (k_junk K d) (k_junk K d) (k_junk K d) (space_dim23 s) TL TR (agree_refl dim (k_normals K d lf iq))) as SM.
    pose proof (NR lf f iq sd Rf Hq SR (ref_trace K L C m c f false iq) (ref_trace K L C m c f true iq) (k_junk K d) (fun _ => f0 K) (k_junk K d) (fun _ => f0 K)) as SF.
    cbv zeta in SF. fold s dim in SF. apply (fun H => same_res_trans K _ _ _ _ H SF) in SM. clear SF. rewrite EK in SM. unfold ref_flux. fold s dim.
    destruct (knumflux K (c_flux K C) dim (c_gamma K C) (ref_trace K L C m c f false iq) (ref_trace K L C m c f true iq) (nor f sd iq) (fun _ => f0 K) (fun _ => f0 K)) as [F'|]; [|destruct SM].
    intros k Hk. rewrite Ea. unfold k_ns. rewrite DD. rewrite inb_in by exact Hk. rewrite E12. f_equal. now apply SM. }
  (* the buffer *)
  assert (EFe : kv_Fe K (v' r) = kflux_states K d (k_porder K d 3) Fq (kv_Fe K (v r))) by (rewrite <- Hv'; reflexivity).
  set (rows := pm_interior_faces (pm r)) in *.
  set (own := fun sd (p : Z * Z) (i j : Z) => ((r =? srank rows (fst p) sd) && ((i =? selem rows (fst p) sd) &&
      (j =? sface rows (fst p) sd * nqf + qidx (k_qL K d) (k_qR K d) sd (fst p) (snd p))))%bool).
  set (h := fun (sd : bool) (p : Z * Z) (a : Z -> N) is => if inb ns is then (if sd then Fq (fst p) (snd p) is else fmul K (fm1 K) (Fq (fst p) (snd p) is)) else a is).
  assert (ONE : forall sd p Fe i j, kflux_side K d sd Fq p Fe i j = if own sd p i j then h sd p (Fe i j) else Fe i j).
  { intros sd [a b] Fe i j. unfold kflux_side, own, h, k_ns, k_dim. cbn [fst snd]. rewrite E1, E2, E7, E9. fold dim ns.
    destruct (r =? srank rows a sd); [|reflexivity]. cbn [andb]. unfold set2.
    destruct (Z.eqb_spec i (selem rows a sd)) as [->|]; [|reflexivity]. cbn [andb].
    destruct (Z.eqb_spec j (sface rows a sd * nqf + qidx (k_qL K d) (k_qR K d) sd a b)) as [->|]; reflexivity. }
  destruct (rows_ok (f0 K) iter n m ep pm WF PT s nqf r _ _ Hr HV HD HP LK) as [RW _].
  assert (OI : forall sd p sd' p' i j, In p (k_porder K d 3) -> In p' (k_porder K d 3) -> own sd p i j = true -> own sd' p' i j = true -> sd = sd' /\ p = p').
  { intros sd [a b] sd' [a' b'] i j Ha Ha' X X'. apply (perm_In_pairs _ _ _ _ _ (O3 2%nat)) in Ha. apply (perm_In_pairs _ _ _ _ _ (O3 2%nat)) in Ha'.
    unfold own in X, X'. cbn [fst snd] in X, X'. rewrite !andb_true_iff, !Z.eqb_eq in X, X'. destruct X as (X1 & X2 & X3). destruct X' as (X1' & X2' & X3').
    destruct (slot_inj _ _ _ _ _ _ _ _ RW a sd b a' sd' b' (proj1 Ha) (proj1 Ha') (proj2 Ha) (proj2 Ha') (eq_sym X1) (eq_sym X1')) as (-> & -> & ->); [|auto].
    unfold slot. fold rows. congruence. }
  set (W := fun p i j => if own true p i j then Some (h true p) else if own false p i j then Some (h false p) else None).
  assert (HB : forall p Fe i j, In p (k_porder K d 3) -> kflux_side K d true Fq p (kflux_side K d false Fq p Fe) i j = match W p i j with Some g => g (Fe i j) | None => Fe i j end).
  { intros p Fe i j Hp. rewrite !ONE. unfold W. destruct (own true p i j) eqn:X1; destruct (own false p i j) eqn:X2; try reflexivity.
    destruct (OI true p false p i j Hp Hp X1 X2). discriminate. }
  intros le e p He Hpp. destruct (sweep_rows W (k_porder K d 3) (fun p Fe => kflux_side K d true Fq p (kflux_side K d false Fq p Fe)) HB (kv_Fe K (v r)) le p) as [SN SS].
  rewrite EFe. unfold kflux_states. unfold ref_buffer.
  destruct (fsource K C m e p) as [[[f iq] sd]|] eqn:ES.
  - apply fsource_some in ES. destruct ES as (Hf & Hq & Es & Ep). rewrite <- Es in He.
    destruct (face_local r le f sd Hr Hf He) as (lf & Rf & SR & SE). fold rows in SR, SE.
    destruct (local_slot r lf f sd Hr Rf) as (Hlf & _ & _ & _ & SP). specialize (SP iq Hq). fold rows d in SP.
    assert (OW : own sd (lf, iq) le p = true).
    { unfold own. cbn [fst snd]. rewrite SR, SE, SP, Ep, !Z.eqb_refl. reflexivity. }
    assert (IN : In (lf, iq) (k_porder K d 3)) by (apply (perm_In_pairs _ _ _ _ _ (O3 2%nat)); auto).
    rewrite (SS (lf, iq) (h sd (lf, iq))).
    + intros k Hk. unfold h. cbn [fst snd]. rewrite inb_in by exact Hk. pose proof (FX lf f iq sd Rf Hq SR k Hk) as X.
      destruct sd; rewrite X; reflexivity.
    + eapply each_once_NoDup; exact (O3 2%nat).
    + exact IN.
    + unfold W. destruct sd; [now rewrite OW|]. destruct (own true (lf, iq) le p) eqn:X; [|now rewrite OW].
      destruct (OI true (lf, iq) false (lf, iq) le p IN IN X OW). discriminate.
    + intros p' IN' HW. unfold W in HW. destruct (own true p' le p) eqn:X; [now destruct (OI _ _ _ _ _ _ IN' IN X OW)|].
      destruct (own false p' le p) eqn:X'; [now destruct (OI _ _ _ _ _ _ IN' IN X' OW)|easy].
  - rewrite SN; [intros k Hk; now apply (BZ r le e)|].
    intros [lf iq] IN. apply (perm_In_pairs _ _ _ _ _ (O3 2%nat)) in IN. destruct IN as [Hlf Hq].
    destruct (local_faces (f0 K) iter n m ep pm WF PT r lf Hr Hlf) as [f Rf].
    assert (NO : forall sd, own sd (lf, iq) le p = false).
    { intros sd. destruct (own sd (lf, iq) le p) eqn:X; [|reflexivity]. exfalso.
      unfold own in X. cbn [fst snd] in X. rewrite !andb_true_iff, !Z.eqb_eq in X. destruct X as (X1 & X2 & X3).
      destruct (local_slot r lf f sd Hr Rf) as (_ & Hf & _ & SE & SP). specialize (SP iq Hq). fold rows d in SP, SE.
      specialize (SE (eq_sym X1)). rewrite <- X2, He in SE. injection SE as ->. rewrite X3, SP, fsource_at in ES by assumption. discriminate. }
    unfold W. now rewrite !NO.
Qed.

Lemma buffer_kept : buffer_zero v'.
Proof.
  intros r le e p k Hr He Hp Hk HN. destruct (flux_buffer r Hr) as (_ & _ & HB). rewrite (HB le e p He Hp k Hk). unfold ref_buffer. now rewrite HN.
Qed.

(** The volume part. *)
Lemma volume_ref r rs0 le e : 0 <= r < n -> rd (pm_l2g_elem (pm r)) le = Ok e ->
  agree2 nb ns (kelement_residuals K L (D r) (Uc r) rs0 le) (ref_volume K L C m c e).
Proof.
  intros Hr He. destruct (RO r Hr) as [O1 O2 _ (E1 & E2 & E3 & E4 & E5 & E6 & E7 & E8 & E9 & E10 & E11 & E12) _ GE _].
  set (d := D r) in *. pose proof (local_in K iter n m ep pm WF PT r le e Hr He) as Hle.
  assert (DD : k_dim K d = dim) by (unfold k_dim; rewrite E2; reflexivity).
  assert (NS : k_ns K d = ns) by (unfold k_ns; rewrite DD; reflexivity).
  destruct (GE le e He) as (G1 & G2 & _).
  set (T := c_TV K C) in *.
  intros ib is Hib His. unfold kelement_residuals. cbv zeta.
  set (Uq := kevaluate_state K L (k_order K d 0) (vt_nq (k_T K d)) (k_ns K d) (k_nb K d) (vt_val (k_T K d)) (Uc r) (fun _ _ _ => f0 K)).
  set (vg := kvolume_fluxes K d (k_porder K d 0) Uq (fun _ _ _ _ => f0 K)).
  unfold kvolume_integral.
  set (R0 := fun e0 ib0 is0 => if (inb (k_ne K d) e0 && inb (k_nb K d) ib0 && inb (k_ns K d) is0)%bool then f0 K else rs0 e0 ib0 is0).
  rewrite (ploop_rows (fun e (a : Z -> Z -> N) ib is => if (inb (k_nb K d) ib && inb (k_ns K d) is)%bool then
    zloop (vt_nq (k_T K d)) (fun iq a => zloop (k_dim K d) (fun id a => fadd K a (fmul K (vt_grad (k_T K d) iq ib id) (vg e iq is id))) a) (a ib is)
    else a ib is) _ R0 _ (O1 1%nat)) by exact Hle.
  unfold R0. rewrite E5, E6, NS, DD, E10. rewrite !inb_in by assumption. cbn [andb].
  unfold ref_volume. cbv zeta. fold s dim ns nb T.
  apply zloop_ext. intros iq a Hq. apply zloop_ext. intros id b Hid. f_equal. f_equal.
  assert (VG : vg le iq = kvolume_flux K d Uq le iq).
  { unfold vg, kvolume_fluxes.
    apply (sweep_at (fun p _ => kvolume_flux K d Uq (fst p) (snd p)) _ _ _ _ _ O2); [|exact Hle|exact Hq].
    intros [x y] V i j. cbn [fst snd]. reflexivity. }
  rewrite VG. unfold kvolume_flux. rewrite DD, NS, E3, E10. fold T.
  apply zloop_ext. intros id2 a2 Hid2. rewrite (G1 iq Hq), (G2 iq Hq id id2 Hid Hid2).
  rewrite (kconv_agree K dim (c_gamma K C) (Uq le iq) (kgemm K L (vt_nq T) ns nb (f1 K) (vt_val T) (c e) false (fun _ _ => f0 K) iq) (k_junk K d) (fun _ => f0 K) (space_dim23 s)); [reflexivity| |].
  - intros k Hk. unfold Uq, kevaluate_state.
    rewrite (ploop_rows (fun e a => kgemm K L (vt_nq (k_T K d)) (k_ns K d) (k_nb K d) (f1 K) (vt_val (k_T K d)) (Uc r e) false a) _ _ _ (O1 0%nat)) by exact Hle.
    rewrite E6, NS, E10. fold T. apply kgemm_agree; [exact LR|apply agree2_refl| |discriminate|exact Hq|exact Hk].
    now apply (HU r).
  - fold ns. pose proof (space_dim23 s) as X. unfold ns in *. fold dim in X. clear - Hid2 His X. destruct X as [X|X]; rewrite X in *; lia.
Qed.

Lemma residual_ref r le e : 0 <= r < n -> rd (pm_l2g_elem (pm r)) le = Ok e -> agree2 nb ns (rs r le) (ref_residual K L C m nor c e).
Proof.
  intros Hr He. destruct (flux_buffer r Hr) as (rs0 & Er & HB). rewrite Er.
  destruct (RO r Hr) as [O1 O2 _ (E1 & E2 & E3 & E4 & E5 & E6 & E7 & E8 & E9 & E10 & E11 & E12) _ _ _].
  pose proof (local_in K iter n m ep pm WF PT r le e Hr He) as Hle. unfold kface_integral.
  rewrite (ploop_rows (fun e a => kgemm K L (k_nb K (D r)) (k_ns K (D r)) (k_np K (D r)) (f1 K) (fun i p => kflat K (k_nqf K (D r)) (k_fval K (D r)) p i)
     (kv_Fe K (v' r) e) true a) _ _ _ (O1 3%nat)) by exact Hle.
  unfold k_ns, k_np, k_dim. rewrite E2, E6, E7, E11. fold dim NF. unfold ref_residual. fold s dim ns nb nqf NF.
  apply kgemm_agree; [exact LR|apply agree2_refl| |intros _; now apply volume_ref].
  intros p k Hp Hk. now apply HB.
Qed.

Lemma incr_ref o r le e w : 0 <= r < n -> rd (pm_l2g_elem (pm r)) le = Ok e ->
  agree2 nb ns (kincrement K L D (c_dt K C) o r (rs r) w le) (ref_incr K L C m nor c e).
Proof.
  intros Hr He. destruct (RO r Hr) as [O1 O2 _ (E1 & E2 & E3 & E4 & E5 & E6 & E7 & E8 & E9 & E10 & E11 & E12) _ GE _].
  pose proof (local_in K iter n m ep pm WF PT r le e Hr He) as Hle. unfold kincrement, kmult_inv_mass.
  rewrite (ploop_rows (fun e a => kgemm K L (k_nb K (D r)) (k_ns K (D r)) (k_nb K (D r)) (c_dt K C) (g_iMM K (k_geom K (D r)) e) (rs r e) false a) _ _ _ (O1 (4 + o)%nat)) by exact Hle.
  unfold k_ns, k_dim. rewrite E2, E6. unfold ref_incr. fold s dim ns nb. destruct (GE le e He) as (_ & _ & G3).
  apply kgemm_agree; [exact LR|exact G3|now apply residual_ref|discriminate].
Qed.
End Evaluation.

(** ** Steps *)
Lemma kbox_at r le e f B i k : 0 <= r < n -> rd (pm_l2g_elem (pm r)) le = Ok e -> 0 <= i < nb -> 0 <= k < ns -> kbox K (D r) f B le i k = f le i k.
Proof.
  intros Hr He Hi Hk. destruct (RO r Hr) as [_ _ _ (E1 & E2 & E3 & E4 & E5 & E6 & _) _ _ _].
  unfold kbox, k_ns, k_dim. rewrite E2, E5, E6. fold dim ns. rewrite (inb_in (pm_num_elems_part (pm r))) by (eapply (local_in K iter n m ep pm WF PT); eauto).
  rewrite !inb_in by assumption. reflexivity.
Qed.

Lemma FE_ref c U v U' v' : c_kind K C = StepFE -> kholds c U -> buffer_zero v -> kstep_FE K L m ep pm n D (c_dt K C) U v U' v' ->
  kholds (ref_step K L C m nor c) U' /\ buffer_zero v'.
Proof.
  intros Kd HU BZ (rs & w & EV & HS). split; [|eapply buffer_kept; eauto].
  intros r le e Hr He i k Hi Hk. rewrite (HS r Hr). unfold kaxpy. rewrite (kbox_at r le e) by assumption.
  unfold ref_step. rewrite Kd. f_equal; [|now apply (HU r le e Hr He)].
  now apply (incr_ref c U HU v v' rs EV BZ).
Qed.

Lemma RK4_ref c U v U' v' : c_kind K C = StepRK4 -> kholds c U -> buffer_zero v -> kstep_RK4 K L m ep pm n D (c_dt K C) U v U' v' ->
  kholds (ref_step K L C m nor c) U' /\ buffer_zero v'.
Proof.
  intros Kd HU BZ (w1 & w2 & w3 & w4 & wh & rs1 & rs2 & rs3 & rs4 & U1 & U2 & U3 & v1 & v2 & v3 & EV1 & S1 & EV2 & S2 & EV3 & S3 & EV4 & S4).
  pose proof (buffer_kept c U HU v v1 rs1 EV1 BZ) as BZ1.
  set (c1 := fun e i k => l_update L (fhalf K) (ref_incr K L C m nor c e i k) (c e i k)).
  assert (HH : forall r le e i k, 0 <= r < n -> rd (pm_l2g_elem (pm r)) le = Ok e -> 0 <= i < nb -> 0 <= k < ns -> kcopy K (D r) (U r) (wh r) le i k = c e i k).
  { intros r le e i k Hr He Hi Hk. unfold kcopy. rewrite (kbox_at r le e) by assumption. now apply (HU r). }
  assert (I1 := fun o r le e w => incr_ref c U HU v v1 rs1 EV1 BZ o r le e w).
  assert (HU1 : kholds c1 U1).
  { intros r le e Hr He i k Hi Hk. rewrite (S1 r Hr). unfold kupdate. rewrite (kbox_at r le e) by assumption. unfold c1.
    rewrite (HH r le e) by assumption. now rewrite (I1 0%nat r le e _ Hr He i k Hi Hk). }
  pose proof (buffer_kept c1 U1 HU1 v1 v2 rs2 EV2 BZ1) as BZ2.
  assert (I2 := fun o r le e w => incr_ref c1 U1 HU1 v1 v2 rs2 EV2 BZ1 o r le e w).
  set (c2 := fun e i k => l_update L (fhalf K) (ref_incr K L C m nor c1 e i k) (c e i k)).
  assert (HU2 : kholds c2 U2).
  { intros r le e Hr He i k Hi Hk. rewrite (S2 r Hr). unfold kupdate. rewrite (kbox_at r le e) by assumption. unfold c2.
    rewrite (HH r le e) by assumption. now rewrite (I2 1%nat r le e _ Hr He i k Hi Hk). }
  pose proof (buffer_kept c2 U2 HU2 v2 v3 rs3 EV3 BZ2) as BZ3.
  assert (I3 := fun o r le e w => incr_ref c2 U2 HU2 v2 v3 rs3 EV3 BZ2 o r le e w).
  set (c3 := fun e i k => l_update L (f1 K) (ref_incr K L C m nor c2 e i k) (c e i k)).
  assert (HU3 : kholds c3 U3).
  { intros r le e Hr He i k Hi Hk. rewrite (S3 r Hr). unfold kupdate. rewrite (kbox_at r le e) by assumption. unfold c3.
    rewrite (HH r le e) by assumption. now rewrite (I3 2%nat r le e _ Hr He i k Hi Hk). }
  split; [|exact (buffer_kept c3 U3 HU3 v3 v' rs4 EV4 BZ3)].
  assert (I4 := fun o r le e w => incr_ref c3 U3 HU3 v3 v' rs4 EV4 BZ3 o r le e w).
  intros r le e Hr He i k Hi Hk. rewrite (S4 r Hr). unfold kaxpy, kcopy. rewrite !(kbox_at r le e) by assumption.
  rewrite (HU r le e Hr He i k Hi Hk).
  rewrite (I1 0%nat r le e _ Hr He i k Hi Hk), (I2 1%nat r le e _ Hr He i k Hi Hk), (I3 2%nat r le e _ Hr He i k Hi Hk), (I4 3%nat r le e _ Hr He i k Hi Hk).
  unfold ref_step. rewrite Kd. reflexivity.
Qed.

Lemma march_ref steps c U v U' : kholds c U -> buffer_zero v -> kmarch K L m ep pm n D (c_dt K C) (c_kind K C) steps U v U' ->
  kholds (ref_march K L C m nor steps c) U'.
Proof.
  intros HU BZ M. revert c HU BZ. 
  remember (c_kind K C) as kd eqn:Ek. induction M as [U v|j U v U1 v1 U2 HS M IH]; intros c HU BZ; [exact HU|].
  assert (X : kholds (ref_step K L C m nor c) U1 /\ buffer_zero v1).
  { destruct kd; [now apply (FE_ref c U v)|now apply (RK4_ref c U v)]. }
  destruct X as [HU1 BZ1]. exact (IH _ HU1 BZ1).
Qed.
End Run.
