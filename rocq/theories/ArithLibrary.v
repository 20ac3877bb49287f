(** ArithLibrary.v -- the library routines the code calls, in any arithmetic, and
    the existence of runs. *)
From Coq Require Import ZArith Reals List Lia Bool Permutation.
From Verif Require Import Base RBase MeshModel MeshSpec MeshProof MeshReadProof MeshProof2 PropMesh ShapeModel CommModel CommSpec
  SolverModel SetupModel SolverSpec PhysModel LinAlgProof SolverFaces SolverMesh IOProof4 ArithModel ArithProof ArithSetup ArithRun PropArith.
From Verif Require CommProof PropComm PropResidual.
Import ListNotations.
Local Open Scope Z_scope.

Section Library.
Context (K : arith).
Notation N := (num K).

(** Library (KokkosBatched SerialGemm / TeamGemm, Algo::Gemm::Unblocked): the
    entry starts from zero or from the old one and the terms (alpha a) b are
    added one after the other. *)
Definition kk_entry (m n k i j : Z) (alpha : N) (row col : Z -> N) (acc : bool) (old : N) : N :=
  zloop k (fun p c => fadd K c (fmul K (fmul K alpha (row p)) (col p))) (if acc then old else f0 K).

(** Library (SerialLU / TeamLU, unblocked), as LinAlgModel.lu. *)
Definition kk_lu (m : Z) (A : Z -> Z -> N) : Z -> Z -> N :=
  zloop m (fun p A =>
    zloop (m - p - 1) (fun i A =>
      let i := p + 1 + i in
      let A := set2 A i p (fdiv K (A i p) (A p p)) in
      zloop (m - p - 1) (fun j A =>
        let j := p + 1 + j in
        set2 A i j (fsub K (A i j) (fmul K (A i p) (A p j)))) A) A) A.
(** Library (SerialSolveLU / TeamSolveLU), as LinAlgModel.solve_lower, solve_upper. *)
Definition kk_lower (m n : Z) (A B : Z -> Z -> N) : Z -> Z -> N :=
  zloop m (fun p B =>
    zloop (m - p - 1) (fun i B =>
      let i := p + 1 + i in
      zloop n (fun j B => set2 B i j (fsub K (B i j) (fmul K (A i p) (B p j)))) B) B) B.
Definition kk_upper (m n : Z) (A B : Z -> Z -> N) : Z -> Z -> N :=
  zloop m (fun q B =>
    let p := m - 1 - q in
    let B := zloop n (fun j B => set2 B p j (fdiv K (B p j) (A p p))) B in
    zloop p (fun i B => zloop n (fun j B => set2 B i j (fsub K (B i j) (fmul K (A i p) (B p j)))) B) B) B.
Definition kk_solve (n : Z) (M B : Z -> Z -> N) : Z -> Z -> N := let A := kk_lu n M in kk_upper n n A (kk_lower n n A B).

(** Library (SerialScale; KokkosBlas axpy, update): one entry. *)
Definition kokkos : library N :=
  mkLibrary N kk_entry kk_solve (fun c a => fmul K c a) (fun c a b => fadd K (fmul K c a) b) (fun c a b => fadd K (fmul K c a) (fmul K (f1 K) b)).

Lemma zloop_rel {S S'} (P : S -> S' -> Prop) k f g a b : P a b ->
  (forall i x y, 0 <= i < k -> P x y -> P (f i x) (g i y)) -> P (zloop k f a) (zloop k g b).
Proof.
  intros H0 HS. assert (X : forall j, 0 <= j -> j <= k -> P (zloop j f a) (zloop j g b)).
  { intros j. induction j as [j H|j H IH] using zind; intros Hj Hk; [now rewrite !zloop_0 by lia|].
    rewrite !zloop_S by lia. apply HS; [lia|]. apply IH; lia. }
  destruct (Z.le_gt_cases 0 k); [apply X; lia|]. rewrite !zloop_0 by lia. exact H0.
Qed.

Lemma set2_agree n m (A A' : Z -> Z -> N) i j x x' : agree2 n m A A' -> x = x' -> agree2 n m (set2 A i j x) (set2 A' i j x').
Proof. intros H -> a b Ha Hb. unfold set2. destruct ((a =? i) && (b =? j))%bool; [reflexivity|now apply H]. Qed.

Lemma kokkos_reads : lib_reads kokkos.
Proof.
  split.
  - intros m n k i j alpha row col row' col' acc old old' Hi Hj HR HC HO. cbn. unfold kk_entry.
    assert (E : (if acc then old else f0 K) = (if acc then old' else f0 K)) by (destruct acc; auto). rewrite E.
    apply zloop_ext. intros p c Hp. now rewrite (HR p Hp), (HC p Hp).
  - intros n M M' B B' HM HB. cbn. unfold kk_solve. cbv zeta.
    assert (HA : agree2 n n (kk_lu n M) (kk_lu n M')).
    { unfold kk_lu. apply (zloop_rel (agree2 n n)); [exact HM|]. intros p x y Hp H. apply (zloop_rel (agree2 n n)); [exact H|].
      intros i x1 y1 Hi H1. cbv zeta. apply (zloop_rel (agree2 n n)).
      - apply set2_agree; [exact H1|]. now rewrite (H1 (p + 1 + i) p), (H1 p p) by lia.
      - intros j x2 y2 Hj H2. apply set2_agree; [exact H2|]. now rewrite (H2 (p + 1 + i) (p + 1 + j)), (H2 (p + 1 + i) p), (H2 p (p + 1 + j)) by lia. }
    set (A := kk_lu n M) in *. set (A' := kk_lu n M') in *. clearbody A A'.
    unfold kk_upper. apply (zloop_rel (agree2 n n)).
    + unfold kk_lower. apply (zloop_rel (agree2 n n)); [exact HB|]. intros p x y Hp H. apply (zloop_rel (agree2 n n)); [exact H|].
      intros i x1 y1 Hi H1. cbv zeta. apply (zloop_rel (agree2 n n)); [exact H1|]. intros j x2 y2 Hj H2. apply set2_agree; [exact H2|].
      now rewrite (H2 (p + 1 + i) j), (H2 p j), (HA (p + 1 + i) p) by lia.
    + intros q x y Hq H. cbv zeta. apply (zloop_rel (agree2 n n)).
      * apply (zloop_rel (agree2 n n)); [exact H|]. intros j x1 y1 Hj H1. apply set2_agree; [exact H1|].
        now rewrite (H1 (n - 1 - q) j), (HA (n - 1 - q) (n - 1 - q)) by lia.
      * intros i x1 y1 Hi H1. apply (zloop_rel (agree2 n n)); [exact H1|]. intros j x2 y2 Hj H2. apply set2_agree; [exact H2|].
        now rewrite (H2 i j), (H2 (n - 1 - q) j), (HA i (n - 1 - q)) by lia.
Qed.
End Library.

(** * Runs exist *)
Section Exist.
Context (K : arith) (L : library (num K)) (C : kcase K) (LF : c_flux K C = LaxFriedrichs).
Notation N := (num K).
Context (iter : Z -> list Z -> list Z) (n : Z) (m : gmesh N) (ep : list Z) (pm : Z -> pmesh N).
Context (WF : run_wf iter n m ep) (PT : partitioned (f0 K) iter n m ep pm).

Definition one_set_up (r : Z) : kdata K :=
  let q := match face_quadrature_lookup (face_order (c_shape K C)) (pm_interior_faces (pm r)) (pm_num_ifaces_part (pm r)) (c_nqf K C) with
    Ok q => q | Fail _ => (fun _ _ => 0, fun _ _ => 0) end in
  let dim := space_dim (c_shape K C) in
  let ne := pm_num_elems_part (pm r) in
  let nif := pm_num_ifaces_part (pm r) in
  mkKD K r (c_shape K C) (c_gamma K C) (c_flux K C) ne (c_nb K C) (c_nqf K C) nif (pm_interior_faces (pm r))
    (c_TV K C) (kgeometry K L (pm r) dim (gm_npe m) (c_nb K C) (c_TM K C) (c_TV K C) (fun _ _ => f0 K) (zseq ne) (zseq ne))
    (c_fval K C) (c_fwts K C) (ploop (zseq nif) (knormals_team K L (c_shape K C) (pm r) r (gm_npe m) (c_g K C) (c_nqf K C) (c_fgrad K C) (fun _ _ => f0 K)) (fun _ _ _ => f0 K))
    (fst q) (snd q) (fun _ => zseq ne) (fun k => match k with O => list_prod (zseq ne) (zseq (vt_nq (c_TV K C))) | S _ => list_prod (zseq nif) (zseq (c_nqf K C)) end) (fun _ => f0 K).

Lemma one_set_up_ok r : 0 <= r < n -> kset_up K L C m (pm r) r (one_set_up r).
Proof.
  intros Hr. destruct (lookup_total (f0 K) iter n m ep pm WF PT (c_shape K C) (c_nqf K C) r Hr) as (qL & qR & E).
  exists (fun _ _ => f0 K), (zseq (pm_num_elems_part (pm r))), (zseq (pm_num_elems_part (pm r))), (zseq (pm_num_ifaces_part (pm r))), qL, qR, (fun _ => zseq (pm_num_elems_part (pm r))),
    (fun k => match k with O => list_prod (zseq (pm_num_elems_part (pm r))) (zseq (vt_nq (c_TV K C))) | S _ => list_prod (zseq (pm_num_ifaces_part (pm r))) (zseq (c_nqf K C)) end), (fun _ => f0 K).
  unfold each_once. do 4 (split; [intros; reflexivity|]). split; [reflexivity|]. split; [reflexivity|]. split; [exact E|].
  unfold one_set_up. rewrite E. reflexivity.
Qed.

Lemma foreach_total {X S} (l : list X) (body : X -> S -> res S) s : (forall x s, exists s', body x s = Ok s') -> exists s', foreach l body s = Ok s'.
Proof.
  intros H. revert s. induction l as [|x l IH]; intros s; [now exists s|]. cbn [foreach]. destruct (H x s) as [s1 E]. rewrite E. cbn [bind]. apply IH.
Qed.

Lemma kblocks_nth nif (l : list (Z -> Z -> N)) : zlen l = nif -> kblocks K nif (fun lf => nth (Z.to_nat lf) l (fun _ _ => f0 K)) = l.
Proof.
  intros <-. unfold kblocks. apply (nth_ext _ _ (fun _ _ => f0 K) (fun _ _ => f0 K)).
  - rewrite map_length. assert (X : zlen (zseq (zlen l)) = zlen l) by (apply zlen_zseq; unfold zlen; lia). unfold zlen in *. lia.
  - intros i Hi. rewrite map_length in Hi.
    assert (X : zlen (zseq (zlen l)) = zlen l) by (apply zlen_zseq; unfold zlen; lia).
    assert (Hi' : 0 <= Z.of_nat i < zlen l) by (unfold zlen in *; lia).
    pose proof (rd_zseq _ _ Hi') as R. apply (MeshProof.rd_map (fun lf => nth (Z.to_nat lf) l (fun _ _ => f0 K))) in R.
    apply rd_Ok in R. destruct R as [_ R]. rewrite Nat2Z.id in R.
    erewrite nth_error_nth; [|exact R]. reflexivity.
Qed.

Lemma evaluation_exists D Uc v : (forall r, 0 <= r < n -> k_flux K (D r) = LaxFriedrichs /\ k_nif K (D r) = pm_num_ifaces_part (pm r)) ->
  exists rs v', kevaluates K L m ep pm n D Uc v rs v'.
Proof.
  intros HD.
  set (S0 := fun r => let w := kface_before K L (D r) (Uc r) (v r) in mkFS (kblocks K (k_nif K (D r)) (kv_UqL K w)) (kblocks K (k_nif K (D r)) (kv_UqR K w))).
  assert (SZ : sized n pm S0).
  { intros r Hr. unfold S0. cbv zeta. cbn [fs_L fs_R]. unfold kblocks, zlen. rewrite !map_length. destruct (HD r Hr) as [_ ->].
    destruct (C04_interior_faces N (f0 K) iter n m ep pm WF PT) as [_ H4]. destruct (H4 r Hr) as (_ & EL & _).
    assert (X : zlen (zseq (pm_num_ifaces_part (pm r))) = pm_num_ifaces_part (pm r)) by (apply zlen_zseq; rewrite <- EL; unfold zlen; lia).
    unfold zlen in X. lia. }
  destruct (PropResidual.exchange_exists (f0 K) iter n m ep pm S0 (fun _ _ => f0 K) WF PT SZ) as (X & EX).
  set (UL := fun r lf => nth (Z.to_nat lf) (fs_L (X r)) (fun _ _ => f0 K)).
  set (UR := fun r lf => nth (Z.to_nat lf) (fs_R (X r)) (fun _ _ => f0 K)).
  set (out := fun r => match kface_after K L (D r) (UL r) (UR r) (kface_before K L (D r) (Uc r) (v r)) (kelement_residuals K L (D r) (Uc r) (fun _ _ _ => f0 K)) with
     Ok x => x | Fail _ => (v r, fun _ _ _ => f0 K) end).
  exists (fun r => snd (out r)), (fun r => fst (out r)), (fun _ _ _ _ => f0 K), X, UL, UR. split; [exact EX|].
  intros r Hr. destruct EX as [SX _]. destruct (SX r Hr) as [X1 X2]. destruct (HD r Hr) as [HF HN]. rewrite HN.
  split; [now apply kblocks_nth|]. split; [now apply kblocks_nth|].
  unfold out.
  assert (T : exists x, kface_after K L (D r) (UL r) (UR r) (kface_before K L (D r) (Uc r) (v r)) (kelement_residuals K L (D r) (Uc r) (fun _ _ _ => f0 K)) = Ok x).
  { unfold kface_after.
    destruct (foreach_total (k_porder K (D r) 2) (kface_flux K (D r) (UL r) (UR r)) (kv_Fq K (kface_before K L (D r) (Uc r) (v r)))) as [Fq E].
    { intros [lf iq] s. unfold kface_flux. rewrite HF. cbn [knumflux bind]. eauto. }
    rewrite E. cbn [bind]. eauto. }
  destruct T as [[a b] T]. rewrite T. reflexivity.
Qed.

Lemma march_exists D steps : (forall r, 0 <= r < n -> k_flux K (D r) = LaxFriedrichs /\ k_nif K (D r) = pm_num_ifaces_part (pm r)) ->
  forall U v, exists U', kmarch K L m ep pm n D (c_dt K C) (c_kind K C) steps U v U'.
Proof.
  intros HD. assert (EVX := fun U v => evaluation_exists D U v HD). induction steps as [|k IH]; intros U v; [exists U; constructor|].
  assert (ST : exists U1 v1, match c_kind K C with StepFE => kstep_FE K L m ep pm n D (c_dt K C) | StepRK4 => kstep_RK4 K L m ep pm n D (c_dt K C) end U v U1 v1).
  { destruct (c_kind K C).
    - destruct (EVX U v) as (rs & v1 & E). eexists _, v1, rs, (fun _ _ _ _ => f0 K). split; [exact E|]. intros r Hr. reflexivity.
    - destruct (EVX U v) as (rs1 & v1 & E1).
      set (z := fun _ _ _ _ : Z => f0 K).
      set (U1 := fun r => kupdate K L (D r) (fhalf K) (kincrement K L D (c_dt K C) 0 r (rs1 r) (z r)) (kcopy K (D r) (U r) (z r)) (U r)).
      destruct (EVX U1 v1) as (rs2 & v2 & E2).
      set (U2 := fun r => kupdate K L (D r) (fhalf K) (kincrement K L D (c_dt K C) 1 r (rs2 r) (z r)) (kcopy K (D r) (U r) (z r)) (U1 r)).
      destruct (EVX U2 v2) as (rs3 & v3 & E3).
      set (U3 := fun r => kupdate K L (D r) (f1 K) (kincrement K L D (c_dt K C) 2 r (rs3 r) (z r)) (kcopy K (D r) (U r) (z r)) (U2 r)).
      destruct (EVX U3 v3) as (rs4 & v4 & E4).
      eexists _, v4, z, z, z, z, z, rs1, rs2, rs3, rs4, U1, U2, U3, v1, v2, v3. cbv zeta.
      split; [exact E1|]. split; [reflexivity|]. split; [exact E2|]. split; [reflexivity|]. split; [exact E3|]. split; [reflexivity|]. split; [exact E4|].
      intros r Hr. reflexivity. }
  destruct ST as (U1 & v1 & ST). destruct (IH U1 v1) as (U2 & M). exists U2. econstructor; [exact ST|exact M].
Qed.

Lemma run_exists_lf steps : exists U, computes K L C iter n m ep steps pm U.
Proof.
  set (U0 := fun r => ploop (zseq (pm_num_elems_part (pm r))) (kinit_team K L C (pm r) (gm_npe m) (g_iMM K (k_geom K (one_set_up r))) (fun _ _ => f0 K)) (fun _ _ _ => f0 K)).
  set (v0 := fun _ : Z => mkKV K (fun _ _ _ => f0 K) (fun _ _ _ => f0 K) (fun _ _ _ => f0 K) (fun _ _ _ => f0 K) (fun _ _ _ => f0 K)).
  destruct (march_exists one_set_up steps) with (U := U0) (v := v0) as (U & M).
  { intros r Hr. split; [exact LF|reflexivity]. }
  exists U. split; [exact WF|]. split; [exact PT|]. exists one_set_up, U0, v0. split; [|exact M].
  intros r Hr. split; [now apply one_set_up_ok|]. split; [|reflexivity].
  exists (fun _ _ => f0 K), (zseq (pm_num_elems_part (pm r))), (fun _ _ _ => f0 K). split; reflexivity.
Qed.
End Exist.

(** Runs with the Lax-Friedrichs flux (which has no failing branch) exist, for
    every arithmetic, library, case, mesh, assignment and number of steps. *)
Theorem C97_runs : forall (K : arith) (L : library (num K)) (C : kcase K) iter n m ep steps,
  c_flux K C = LaxFriedrichs -> run_wf iter n m ep -> exists pm U, computes K L C iter n m ep steps pm U.
Proof.
  intros K L C iter n m ep steps LF WF. destruct (C05_partitioned_exists (num K) (f0 K) iter n m ep WF) as [pm PT].
  exists pm. exact (run_exists_lf K L C LF iter n m ep pm WF PT steps).
Qed.
Print Assumptions C97_runs.
