(** PropDevice.v -- C89: the executions on the devices of all ranks, from freshly
    allocated memory through set-up, initialisation and the march in time, complete
    and leave the discontinuous Galerkin solution, whatever the schedules. *)
From Coq Require Import ZArith List Lia Reals Lra Bool Permutation.
From Verif Require Import Base RBase LinAlgModel PropLinAlg PhysModel PhysSpec PhysProof ShapeModel MeshModel MeshSpec MeshProof CommModel CommSpec SolverModel SolverSpec SolverProof
  SolverFlux SolverFaces SolverMesh PropMesh PropSolver PropComm PropConserve PropResidual StepModel StepProof PropStep PropIntegral DGSpec DGProof PropTotal.
From Verif Require Import BasisModel PropBasis PropNormals SetupModel SetupSpec SetupProof SetupPass PropSetup PropMeshRun PropInit PropPost PropDG PropHex PropWhole.
From Verif Require Import TeamModel TeamProof TeamKernels TeamKernelProof TeamLaunch PropTeam TeamPhases TeamSetup TeamSetupProof PropTeamSetup TeamStep PropTeamStep.
Import ListNotations.
Local Open Scope R_scope.
Open Scope res_scope.

(** ** C89, a march in time *)

(** The ranks' tables [D] describe the scheme [S] on the mesh [m], their inverse
    mass matrices are those of the mesh's elements, and the devices [M] hold the
    coefficients [c] and zero fluxes on the boundary.  If the discontinuous Galerkin
    solution stays physical, then for every choice of team sizes and thread
    assignments in every evaluation, and every memory layout, no launch of the
    march gets stuck, and every execution leaves the coefficients of the
    discontinuous Galerkin solution on the devices. *)
Theorem C89_device_march : forall zero iter n m ep pm S D iMM iM lay steps sch c M,
  run_wf iter n m ep -> partitioned zero iter n m ep pm -> runs_scheme S m pm n D ->
  faces_valid (sc_shape S) m -> faces_distinct m -> face_points (sc_shape S) (sc_nqf S) -> 1 < sc_gamma S ->
  (forall r le e i b, (0 <= r < n)%Z -> rd (pm_l2g_elem (pm r)) le = Ok e -> (0 <= i < sc_nb S)%Z -> (0 <= b < sc_nb S)%Z -> iMM r le i b = iM e i b) ->
  (forall r, (0 <= r < n)%Z -> fits (shape_of (sc_shape S) pm (sc_nb S) r)) -> (0 <= sc_nb S)%Z -> (0 <= sc_nq S)%Z ->
  (forall k r, (0 <= r < n)%Z -> thread_assignment (fst (sch k r)) (snd (sch k r))) ->
  stays_physical S m iM steps c ->
  holds pm n (sc_nb S) (space_dim (sc_shape S) + 2) c (fun r => view3 vUc (M r)) ->
  boundary_zero (sc_shape S) m pm n (sc_nqf S) (fun r => face_views (M r)) ->
  device_completes n m ep pm D (march_items D lay iMM steps sch) M /\
  forall M', device_runs n m ep pm D (march_items D lay iMM steps sch) M M' ->
    holds pm n (sc_nb S) (space_dim (sc_shape S) + 2) (dg_march S m iM steps c) (fun r => view3 vUc (M' r)) /\
    boundary_zero (sc_shape S) m pm n (sc_nqf S) (fun r => face_views (M' r)).
Proof.
  intros zero iter n m ep pm S D iMM iM lay steps sch c M WF PT RS HV HD HP Hg HM FT Hnb Hnq TA SP HU BZ.
  exact (device_march zero iter n m ep pm WF PT S D RS HV HD HP Hg iMM iM HM FT Hnb Hnq lay steps c M sch SP (conj HU BZ) TA).
Qed.
Print Assumptions C89_device_march.

(** ** C89, from the start *)

(** Every rank sets up: the sequential set-up gives [h] and [f] (of which the tables
    of the kernels are made); [M] is the memory of the devices after one execution
    of the set-up kernels from freshly allocated memory (C88). *)
Definition devices_set_up (s : eshape) (bt : basis_type) (p : Z) (m : gmesh R) (pm : Z -> pmesh R) (n : Z) (h : Z -> vhelpers) (f : Z -> fhelpers) (M : Z -> mem) : Prop :=
  forall r, (0 <= r < n)%Z -> exists junk eo1 eo2 fo T1 T2 own1 own2 rorder tasks,
    loops_ok (pm r) eo1 eo2 fo /\ precompute_matrix_helpers s bt p 1 (pm r) r (gm_npe m) junk eo1 eo2 fo = Ok (h r, f r) /\
    thread_assignment T1 own1 /\ thread_assignment T2 own2 /\ (forall e, Permutation (rorder e) (zseq (vh_nq (h r)))) /\
    set_up_tasks s bt p 1 (pm r) (gm_npe m) junk T1 T2 own1 own2 rorder vh_empty = Ok tasks /\ executes tasks (fun _ => 0) (M r).

(** The launches of the initialisation on every rank, which read the inverse mass
    matrices the set-up left in memory. *)
Definition initial_tasks (s : eshape) (bt : basis_type) (p : Z) (m : gmesh R) (pm : Z -> pmesh R) (n : Z) (ic : ic_type) (ph : phys) (M : Z -> mem) (ts : Z -> list task) : Prop :=
  forall r, (0 <= r < n)%Z -> exists junk T own, thread_assignment T own /\
    init_tasks s bt p 1 (pm r) (gm_npe m) (space_dim s + 2) ic ph 0 (view3 viM (M r)) junk T own = Ok (ts r).

Lemma sets_all s ic ph u : starts_as (space_dim s) ic ph 0 u -> ic_sets (space_dim s) ic.
Proof.
  intros [H _]. destruct s; [left|right]; (split; [reflexivity|]); intros ->.
  - destruct (H (fun _ => 0) (fun _ => 0)) as (V & E & EV). destruct (H (fun _ => 0) (fun _ => 1)) as (V' & E' & EV').
    injection E as <-. injection E' as <-. specialize (EV 0%Z ltac:(cbn; lia)). specialize (EV' 0%Z ltac:(cbn; lia)). cbv beta in EV, EV'. rewrite <- EV' in EV. lra.
  - destruct (H (fun _ => 0) (fun _ => 0)) as (V & E & EV). destruct (H (fun _ => 0) (fun _ => 1)) as (V' & E' & EV').
    injection E as <-. injection E' as <-. specialize (EV 0%Z ltac:(cbn; lia)). specialize (EV' 0%Z ltac:(cbn; lia)). cbv beta in EV, EV'. rewrite <- EV' in EV. lra.
Qed.

Lemma few_nodes m s bt p (RD : ready s bt p 1 m) : (0 <= gm_npe m)%Z /\ (num_basis_coeff (geom_basis s) 1 <= gm_npe m)%Z.
Proof.
  pose proof (rdy_mesh _ _ _ _ _ RD) as (F1 & F2). rewrite F2. destruct s; cbn; lia.
Qed.

Section Start.
Context (iter : Z -> list Z -> list Z) (n : Z) (m : gmesh R) (ep : list Z) (pm : Z -> pmesh R).
Context (WF : run_wf iter n m ep) (PT : partitioned 0 iter n m ep pm).
Context (s : eshape) (bt : basis_type) (p : Z) (RD : ready s bt p 1 m).
Context (nq2 : Z) (P2 : arr2) (W2 : arr1) (EQ2 : volume_quadrature s (2 * p) zero2 zero1 = Ok (nq2, P2, W2)).
Let M2 := fun e i j => rsum nq2 (fun q => W2 q * jac_det s 1 (elem_nodes m e) (P2 q) * basis_fn bt p i (P2 q) * basis_fn bt p j (P2 q)).
Context (iM : arr3) (HI : forall e, (0 <= e < gm_num_elems m)%Z -> inverse_of (nfun bt p) (M2 e) (iM e)).
Context (h : Z -> vhelpers) (f : Z -> fhelpers) (Ms : Z -> mem) (DS : devices_set_up s bt p m pm n h f Ms).

Lemma local_row r le e : (0 <= r < n)%Z -> rd (pm_l2g_elem (pm r)) le = Ok e -> (0 <= le < pm_num_elems_part (pm r))%Z.
Proof.
  intros Hr Re. destruct (C01_element_ownership R 0 iter n m ep pm WF PT) as (_ & _ & H1 & _). destruct (H1 r Hr) as [_ ->]. now apply rd_in_range in Re.
Qed.

Lemma after_set_up : all_set_up s bt p 1 m pm n h f /\
  (forall r le e i b, (0 <= r < n)%Z -> rd (pm_l2g_elem (pm r)) le = Ok e -> (0 <= i < nfun bt p)%Z -> (0 <= b < nfun bt p)%Z -> view3 viM (Ms r) le i b = iM e i b) /\
  (forall r, (0 <= r < n)%Z -> holds_masses (pm_num_elems_part (pm r)) (nfun bt p) (h r) (Ms r) /\ holds_geometry (pm_num_elems_part (pm r)) (space_dim s) (h r) (Ms r)) /\
  (forall r e i k, (0 <= r < n)%Z -> view3 vFe (Ms r) e i k = 0).
Proof.
  pose proof (rdy_order _ _ _ _ _ RD) as Op. unfold order_ok in Op. destruct (few_nodes m s bt p RD) as [N1 N2].
  assert (X : forall r, (0 <= r < n)%Z -> exists jk eo1 eo2 fo, loops_ok (pm r) eo1 eo2 fo /\ precompute_matrix_helpers s bt p 1 (pm r) r (gm_npe m) jk eo1 eo2 fo = Ok (h r, f r) /\
    holds_masses (pm_num_elems_part (pm r)) (nfun bt p) (h r) (Ms r) /\ holds_geometry (pm_num_elems_part (pm r)) (space_dim s) (h r) (Ms r) /\ (forall e i k, view3 vFe (Ms r) e i k = 0)).
  { intros r Hr. destruct (DS r Hr) as (jk & eo1 & eo2 & fo & T1 & T2 & own1 & own2 & ro & tasks & LO & E0 & TA1 & TA2 & PR & ET & EX).
    exists jk, eo1, eo2, fo. split; [exact LO|]. split; [exact E0|].
    unfold precompute_matrix_helpers in E0. destruct (compute_inv_mass_matrices _ _ _ _ _ _ _ _ _) as [h1|] eqn:E1; [|discriminate]. cbn [bind] in E0.
    destruct (compute_volume_helpers _ _ _ _ _ _ _ _ _) as [h2|] eqn:E2; [|discriminate]. cbn [bind] in E0.
    destruct (compute_interior_face_helpers _ _ _ _ _ _ _ _ _) as [f'|]; [|discriminate]. cbn [bind] in E0. injection E0 as E0 _. subst h2.
    destruct LO as (L1 & L2 & L3).
    destruct (C88_set_up_any_schedule s bt p 1 (pm r) (gm_npe m) jk eo1 eo2 vh_empty h1 (h r) T1 T2 own1 own2 ro) as (tasks' & ET' & S1); auto; try lia.
    rewrite ET in ET'. injection ET' as <-. destruct (S1 (fun _ => 0)) as (_ & R1); [intros e i j _ _ _; reflexivity|].
    destruct (R1 (Ms r) EX) as (G1 & G2 & _ & G4). rewrite (nb_eq bt p) in G2 by (try lia; apply RD). split; [exact G2|]. split; [exact G1|].
    intros e i k. unfold view3, at3. rewrite G4 by (cbn; intuition discriminate). reflexivity. }
  split; [|split; [|split]].
  - intros r Hr. destruct (X r Hr) as (jk & eo1 & eo2 & fo & LO & E0 & _). exists jk, eo1, eo2, fo. auto.
  - intros r le e i b Hr Re Hi Hb. destruct (X r Hr) as (jk & eo1 & eo2 & fo & LO & E0 & G2 & _).
    destruct (C69_inverse_mass_matrices 0 iter n m ep pm s bt p 1 r jk eo1 eo2 fo (h r) (f r) WF PT RD Hr LO E0) as (nq' & P' & W' & EQ' & Inv).
    rewrite EQ2 in EQ'. injection EQ' as <- <- <-. specialize (Inv le e Re).
    change (view3 viM (Ms r) le i b) with (Ms r (at3 viM le i b)). rewrite (G2 le i b (local_row r le e Hr Re) Hi Hb).
    apply (inverse_unique (nfun bt p) (M2 e)); try assumption. apply HI. exact (SetupProof.owned_elem 0 iter n m ep pm WF PT r le e Hr Re).
  - intros r Hr. destruct (X r Hr) as (jk & eo1 & eo2 & fo & LO & E0 & G2 & G1 & _). auto.
  - intros r e i k Hr. destruct (X r Hr) as (jk & eo1 & eo2 & fo & LO & E0 & _ & _ & G). apply G.
Qed.

Lemma after_start u ic ph c0 ts : starts_as (space_dim s) ic ph 0 u -> projects s m bt p M2 u c0 -> initial_tasks s bt p m pm n ic ph Ms ts ->
  forall r, (0 <= r < n)%Z -> always_completes (ts r) (Ms r) /\ forall μ, executes (ts r) (Ms r) μ ->
    (forall le e j k, rd (pm_l2g_elem (pm r)) le = Ok e -> (0 <= j < nfun bt p)%Z -> (0 <= k < space_dim s + 2)%Z -> view3 vUc μ le j k = c0 e j k) /\
    (forall e i k, view3 vFe μ e i k = 0).
Proof.
  intros SA (nq3 & P3 & W3 & EQ3 & PJ) IT r Hr. destruct (few_nodes m s bt p RD) as [N1 N2].
  pose proof (rdy_order _ _ _ _ _ RD) as Op. unfold order_ok in Op.
  destruct after_set_up as (AS & HM & HH & HZ). destruct (IT r Hr) as (junk & T & own & TA & ET).
  destruct (AS r Hr) as (jk & eo1 & eo2 & fo & LO & E0).
  destruct (C73_initial_state 0 iter n m ep pm s bt p 1 r jk eo1 eo2 fo (h r) (f r) ic ph 0 u junk zero3 zero1 (zseq (pm_num_elems_part (pm r))) (zseq nq3) zero3 WF PT RD Hr LO E0 SA (Permutation_refl _))
    as (q1 & P1 & W1 & q2 & P4 & W4 & EQ1 & EQ4 & H73).
  rewrite EQ2 in EQ1. injection EQ1 as <- <- <-. rewrite EQ3 in EQ4. injection EQ4 as <- <- <-.
  destruct (H73 (Permutation_refl _)) as (Uc & EU & OG).
  destruct (C88_initial_state_any_schedule s bt p 1 (pm r) (gm_npe m) ic ph 0 (vh_iMM (h r)) (view3 viM (Ms r)) junk zero3 zero1 (zseq (pm_num_elems_part (pm r))) (zseq nq3) zero3 Uc nq3 P3 W3 T own)
    as (tasks & ET' & R0); auto.
  { exact (sets_all s ic ph u SA). }
  { intros e i j He Hi Hj. rewrite (nb_eq bt p) in Hi, Hj by (try lia; apply RD). exact (proj1 (HH r Hr) e i j He Hi Hj). }
  rewrite ET in ET'. injection ET' as <-. destruct (R0 (Ms r)) as (C & R1). split; [exact C|]. intros μ EX. destruct (R1 μ EX) as (V1 & V2). split.
  - intros le e j k Re Hj Hk. rewrite V1; [|exact (local_row r le e Hr Re)|rewrite (nb_eq bt p) by (try lia; apply RD); exact Hj|exact Hk].
    assert (He := SetupProof.owned_elem 0 iter n m ep pm WF PT r le e Hr Re).
    revert j Hj. apply (solves_unique (nfun bt p) (M2 e) (iM e) (fun j => Uc le j k) (fun j => c0 e j k)); [now apply HI|]. intros i Hi.
    rewrite (PJ e i k He Hi Hk). rewrite <- (OG le e Re i k Hi Hk). unfold M2.
    rewrite (rsum_ext (nfun bt p) _ (fun j => rsum nq2 (fun q => W2 q * jac_det s 1 (elem_nodes m e) (P2 q) * basis_fn bt p i (P2 q) * basis_fn bt p j (P2 q) * Uc le j k))) by (intros; now rewrite rsum_scal_r).
    rewrite rsum_swap. apply rsum_ext. intros q Hq. rewrite <- rsum_scal. apply rsum_ext. intros. ring.
  - intros e i k. unfold view3, at3. rewrite V2 by (cbn; intuition discriminate). exact (HZ r e i k Hr).
Qed.
End Start.

Lemma device_run iter n m ep pm s bt p S ft gamma nq2 P2 W2 iM c0 u ic ph steps h f ord pord jk lay sch M1 ts :
  run_wf iter n m ep -> partitioned 0 iter n m ep pm -> ready s bt p 1 m -> starts_as (space_dim s) ic ph 0 u ->
  let M := fun e i j => rsum nq2 (fun q => W2 q * jac_det s 1 (elem_nodes m e) (P2 q) * basis_fn bt p i (P2 q) * basis_fn bt p j (P2 q)) in
  volume_quadrature s (2 * p) zero2 zero1 = Ok (nq2, P2, W2) ->
  (forall e, (0 <= e < gm_num_elems m)%Z -> inverse_of (nfun bt p) (M e) (iM e)) -> projects s m bt p M u c0 ->
  sc_shape S = s -> sc_nb S = nfun bt p -> sc_nqf S = face_count s p -> sc_gamma S = gamma -> (0 <= sc_nq S)%Z ->
  devices_set_up s bt p m pm n h f M1 -> inner_loops_ok pm n ord pord -> initial_tasks s bt p m pm n ic ph M1 ts ->
  let D := tables s bt p pm gamma ft h f ord pord jk in
  (all_set_up s bt p 1 m pm n h f -> runs_scheme S m pm n D) ->
  faces_valid s m -> faces_distinct m -> face_points s (face_count s p) -> 1 < gamma -> (0 <= nfun bt p)%Z ->
  (forall r, (0 <= r < n)%Z -> fits (shape_of s pm (nfun bt p) r)) -> stays_physical S m iM steps c0 ->
  (forall k r, (0 <= r < n)%Z -> thread_assignment (fst (sch k r)) (snd (sch k r))) ->
  let items := Kernels ts :: march_items D lay (fun r => view3 viM (M1 r)) steps sch in
  device_completes n m ep pm D items M1 /\
  forall M', device_runs n m ep pm D items M1 M' -> holds pm n (nfun bt p) (space_dim s + 2) (dg_march S m iM steps c0) (fun r => view3 vUc (M' r)).
Proof.
  intros WF PT RD SA M EQ2 HI PJ E1 E2 E3 E4 Hq DS IL IT D RS FV FD FP Gm Hb FT SP TA items.
  destruct (after_set_up iter n m ep pm WF PT s bt p RD nq2 P2 W2 EQ2 iM HI h f M1 DS) as (AS & HM & _ & HZ). specialize (RS AS).
  pose proof (after_start iter n m ep pm WF PT s bt p RD nq2 P2 W2 EQ2 iM HI h f M1 DS u ic ph c0 ts SA PJ IT) as ST.
  assert (NX : forall M2, (forall r, (0 <= r < n)%Z -> executes (ts r) (M1 r) (M2 r)) ->
    device_completes n m ep pm D (march_items D lay (fun r => view3 viM (M1 r)) steps sch) M2 /\
    forall M', device_runs n m ep pm D (march_items D lay (fun r => view3 viM (M1 r)) steps sch) M2 M' ->
      holds pm n (nfun bt p) (space_dim s + 2) (dg_march S m iM steps c0) (fun r => view3 vUc (M' r))).
  { intros M2 EX. destruct (C89_device_march 0 iter n m ep pm S D (fun r => view3 viM (M1 r)) iM lay steps sch c0 M2) as [X1 X2]; rewrite ?E1, ?E2, ?E3, ?E4; auto.
    - intros r le e j k Hr Re Hj Hk. cbv beta. destruct (ST r Hr) as (_ & Q). apply (Q (M2 r) (EX r Hr)); auto.
    - intros r le pos k Hr _. destruct (ST r Hr) as (_ & Q). apply (Q (M2 r) (EX r Hr)).
    - split; [exact X1|]. intros M' EM. rewrite <- E1, <- E2. apply (X2 M' EM). }
  split.
  - split; [intros r Hr; apply (ST r Hr)|]. intros M2 EX. apply (NX M2 EX).
  - intros M' (M2 & EX & EM). apply (NX M2 EX). exact EM.
Qed.

(** A case in two dimensions on a good mesh, partitioned in any way.  The devices
    have executed the set-up from fresh memory ([M1]); then the initialisation is
    launched, then the march in time, which reads the inverse mass matrices in
    memory and tables made of the set-up's results.  If the discontinuous Galerkin
    solution of the case stays physical, then for all team sizes, thread assignments,
    interleavings, memory layouts and previous contents of uninitialised variables,
    the executions complete, and the devices hold the discontinuous Galerkin
    solution of the case afterwards. *)
Theorem C89_device_run : forall iter n m ep pm bt p gamma ft ic ph u steps h f ord pord jk lay sch M1 ts,
  run_wf iter n m ep -> partitioned 0 iter n m ep pm -> good_quads m -> basis_for EQuad bt -> supported bt p -> order_ok p -> 1 < gamma ->
  small m (nfun bt p) 4 -> starts_as 2 ic ph 0 u -> quad_physical m bt p gamma ft u steps ->
  devices_set_up EQuad bt p m pm n h f M1 -> inner_loops_ok pm n ord pord -> initial_tasks EQuad bt p m pm n ic ph M1 ts ->
  (forall k r, (0 <= r < n)%Z -> thread_assignment (fst (sch k r)) (snd (sch k r))) ->
  let D := tables EQuad bt p pm gamma ft h f ord pord jk in
  let items := Kernels ts :: march_items D lay (fun r => view3 viM (M1 r)) steps sch in
  device_completes n m ep pm D items M1 /\
  exists c, quad_solution m bt p gamma ft u steps c /\
    forall M', device_runs n m ep pm D items M1 M' -> holds pm n (nfun bt p) 4 c (fun r => view3 vUc (M' r)).
Proof.
  intros iter n m ep pm bt p gamma ft ic ph u steps h f ord pord jk lay sch M1 ts WF PT [FV FD SQ CF Hne Hall] BF Sup Op Gm SM SA
    (nq & P & W & fp & fw & nq2 & P2 & W2 & EQ & EFQ & EQ2 & iM & c0 & HI & PJ & SP) DS IL IT TA D items.
  assert (Hnb : (0 < nfun bt p)%Z) by (unfold nfun, order_ok in *; apply Z.pow_pos_nonneg; [lia|destruct bt; cbn; lia]).
  assert (RD : ready EQuad bt p 1 m) by (constructor; auto; [lia|apply SQ|now apply convex_untangled]).
  assert (FT : forall r, (0 <= r < n)%Z -> fits (shape_of EQuad pm (nfun bt p) r)) by (intros r Hr; apply (small_state iter n m ep pm EQuad (nfun bt p) r WF PT); auto; lia).
  assert (FP : face_points EQuad (p + 1)) by (unfold order_ok in Op; cbn; lia).
  assert (Hq : (0 <= nq)%Z) by (apply (vq_nonneg EQuad p zero2 zero1 nq P W); [unfold order_ok in Op; lia|exact EQ]).
  destruct (device_run iter n m ep pm EQuad bt p (quad_scheme bt p m gamma ft nq P W (p + 1) fp fw) ft gamma nq2 P2 W2 iM c0 u ic ph steps h f ord pord jk lay sch M1 ts)
    as [X1 X2]; auto; try lia.
  { intros AS. destruct (quad_runs 0 iter n m ep pm bt p h f gamma ft ord pord jk WF PT FV SQ CF RD AS IL) as (nq' & P' & W' & fp' & fw' & EQ' & EF' & _ & RS).
    rewrite EQ in EQ'. injection EQ' as <- <- <-. rewrite EFQ in EF'. injection EF' as <- <-. exact RS. }
  split; [exact X1|]. exists (dg_march (quad_scheme bt p m gamma ft nq P W (p + 1) fp fw) m iM steps c0). split; [|exact X2].
  exists nq, P, W, fp, fw, nq2, P2, W2. split; [exact EQ|]. split; [exact EFQ|]. split; [exact EQ2|]. exists iM, c0. split; [exact HI|]. split; [exact PJ|]. reflexivity.
Qed.
Print Assumptions C89_device_run.

(** The same for hexahedra. *)
Theorem C89_device_run_hexahedra : forall iter n m ep pm bt p gamma ft ic ph u steps h f ord pord jk lay sch M1 ts,
  run_wf iter n m ep -> partitioned 0 iter n m ep pm -> good_hexes m -> basis_for EHex bt -> supported bt p -> order_ok p -> 1 < gamma ->
  small m (nfun bt p) 5 -> starts_as 3 ic ph 0 u -> hex_physical m bt p gamma ft u steps ->
  devices_set_up EHex bt p m pm n h f M1 -> inner_loops_ok pm n ord pord -> initial_tasks EHex bt p m pm n ic ph M1 ts ->
  (forall k r, (0 <= r < n)%Z -> thread_assignment (fst (sch k r)) (snd (sch k r))) ->
  let D := tables EHex bt p pm gamma ft h f ord pord jk in
  let items := Kernels ts :: march_items D lay (fun r => view3 viM (M1 r)) steps sch in
  device_completes n m ep pm D items M1 /\
  exists c, hex_solution m bt p gamma ft u steps c /\
    forall M', device_runs n m ep pm D items M1 M' -> holds pm n (nfun bt p) 5 c (fun r => view3 vUc (M' r)).
Proof.
  intros iter n m ep pm bt p gamma ft ic ph u steps h f ord pord jk lay sch M1 ts WF PT [FV FD FH CF Hne Hall] BF Sup Op Gm SM SA
    (nq & P & W & fp & fw & nq2 & P2 & W2 & EQ & EFQ & EQ2 & iM & c0 & HI & PJ & SP) DS IL IT TA D items.
  assert (Hnb : (0 < nfun bt p)%Z) by (unfold nfun, order_ok in *; apply Z.pow_pos_nonneg; [lia|destruct bt; cbn; lia]).
  assert (RD : ready EHex bt p 1 m) by (constructor; auto; [lia|apply FH|apply FH]).
  assert (FT : forall r, (0 <= r < n)%Z -> fits (shape_of EHex pm (nfun bt p) r)) by (intros r Hr; apply (small_state iter n m ep pm EHex (nfun bt p) r WF PT); auto; lia).
  assert (FP : face_points EHex ((p + 2) * (p + 2))) by (unfold order_ok in Op; exists (p + 2)%Z; split; [lia|reflexivity]).
  assert (Hq : (0 <= nq)%Z) by (apply (vq_nonneg EHex p zero2 zero1 nq P W); [unfold order_ok in Op; lia|exact EQ]).
  destruct (device_run iter n m ep pm EHex bt p (hex_scheme bt p m gamma ft nq P W ((p + 2) * (p + 2)) fp fw) ft gamma nq2 P2 W2 iM c0 u ic ph steps h f ord pord jk lay sch M1 ts)
    as [X1 X2]; auto; try lia.
  { intros AS. destruct (hex_runs 0 iter n m ep pm bt p h f gamma ft ord pord jk WF PT FV FH CF RD AS IL) as (nq' & P' & W' & fp' & fw' & EQ' & EF' & _ & RS).
    rewrite EQ in EQ'. injection EQ' as <- <- <-. rewrite EFQ in EF'. injection EF' as <- <-. exact RS. }
  split; [exact X1|]. exists (dg_march (hex_scheme bt p m gamma ft nq P W ((p + 2) * (p + 2)) fp fw) m iM steps c0). split; [|exact X2].
  exists nq, P, W, fp, fw, nq2, P2, W2. split; [exact EQ|]. split; [exact EFQ|]. split; [exact EQ2|]. exists iM, c0. split; [exact HI|]. split; [exact PJ|]. reflexivity.
Qed.
Print Assumptions C89_device_run_hexahedra.

(** ** Executions exist *)

Lemma choose {X} (d : X) n (P : Z -> X -> Prop) : (forall r, (0 <= r < n)%Z -> exists x, P r x) -> exists F, forall r, (0 <= r < n)%Z -> P r (F r).
Proof.
  intros H. assert (K : forall k : nat, exists F : Z -> X, forall r, (0 <= r < n)%Z -> (r < Z.of_nat k)%Z -> P r (F r)).
  { induction k as [|k (F & HF)]; [exists (fun _ => d); intros; lia|].
    assert (C : (Z.of_nat k < n)%Z \/ (n <= Z.of_nat k)%Z) by lia. destruct C as [C|C].
    - destruct (H (Z.of_nat k) ltac:(lia)) as (x & Hx). exists (fun r => if (r =? Z.of_nat k)%Z then x else F r). intros r Hr Hk.
      destruct (Z.eqb_spec r (Z.of_nat k)) as [->|N]; [exact Hx|]. apply HF; lia.
    - exists F. intros r Hr Hk. apply HF; lia. }
  destruct (K (Z.to_nat n)) as (F & HF). exists F. intros r Hr. apply HF; lia.
Qed.

Lemma completes_runs {A} n (m : gmesh A) ep pm D items : forall M, device_completes n m ep pm D items M -> exists M', device_runs n m ep pm D items M M'.
Proof.
  induction items as [|[k|] rest IH]; intros M H.
  - exists M. intros r _. reflexivity.
  - destruct H as [H1 H2]. destruct (choose (fun _ : loc => 0) n (fun r μ => executes (k r) (M r) μ)) as (M1 & E1).
    { intros r Hr. exact (completes_executes _ _ (H1 r Hr)). }
    destruct (IH M1 (H2 M1 E1)) as (M' & E2). exists M', M1. auto.
  - destruct H as [(M1 & E1) H2]. destruct (IH M1 (H2 M1 E1)) as (M' & E2). exists M', M1. auto.
Qed.

Definition in_turns (T : Z) : nat -> Z -> Z -> Z := fun _ _ i => (i mod T)%Z.
Lemma in_turns_ok T : (0 < T)%Z -> thread_assignment T (in_turns T).
Proof. intros H. split; [exact H|]. intros. apply Z.mod_pos_bound. exact H. Qed.

(** Set-up and initialisation with any team size, e.g. with threads taking turns. *)
Lemma devices_start iter n m ep pm s bt p ic ph T : (0 < T)%Z -> run_wf iter n m ep -> partitioned 0 iter n m ep pm -> ready s bt p 1 m ->
  exists h f M1 ts, devices_set_up s bt p m pm n h f M1 /\ initial_tasks s bt p m pm n ic ph M1 ts.
Proof.
  intros HT WF PT RD. pose proof (in_turns_ok T HT) as TA. pose proof (rdy_order _ _ _ _ _ RD) as Op. unfold order_ok in Op.
  destruct (few_nodes m s bt p RD) as [N1 N2]. destruct (setup_exists iter n m ep pm s bt p WF PT RD) as (h & f & AS).
  set (ro := fun (r _ : Z) => zseq (vh_nq (h r))).
  destruct (choose (fun _ : loc => 0) n (fun r μ => exists junk eo1 eo2 fo tasks, loops_ok (pm r) eo1 eo2 fo /\ precompute_matrix_helpers s bt p 1 (pm r) r (gm_npe m) junk eo1 eo2 fo = Ok (h r, f r) /\
    set_up_tasks s bt p 1 (pm r) (gm_npe m) junk T T (in_turns T) (in_turns T) (ro r) vh_empty = Ok tasks /\ executes tasks (fun _ => 0) μ)) as (M1 & HM1).
  { intros r Hr. destruct (AS r Hr) as (jk & eo1 & eo2 & fo & LO & E0). pose proof E0 as E0'.
    unfold precompute_matrix_helpers in E0. destruct (compute_inv_mass_matrices _ _ _ _ _ _ _ _ _) as [h1|] eqn:E1; [|discriminate]. cbn [bind] in E0.
    destruct (compute_volume_helpers _ _ _ _ _ _ _ _ _) as [h2|] eqn:E2; [|discriminate]. cbn [bind] in E0.
    destruct (compute_interior_face_helpers _ _ _ _ _ _ _ _ _) as [f'|]; [|discriminate]. cbn [bind] in E0. injection E0 as E0 _. subst h2.
    pose proof LO as (L1 & L2 & L3).
    destruct (C88_set_up_any_schedule s bt p 1 (pm r) (gm_npe m) jk eo1 eo2 vh_empty h1 (h r) T T (in_turns T) (in_turns T) (ro r)) as (tasks & ET & S1); auto; try lia.
    destruct (S1 (fun _ => 0)) as (C1 & _); [intros e i j _ _ _; reflexivity|]. destruct (completes_executes _ _ C1) as (μ & X).
    exists μ, jk, eo1, eo2, fo, tasks. auto. }
  exists h, f, M1.
  destruct (volume_rule s (2 * Z.max p 1) ltac:(split; lia)) as (x & xw & _ & A). destruct (A zero2 zero1) as (P & W & EQ & _).
  destruct (choose (@nil task) n (fun r t => init_tasks s bt p 1 (pm r) (gm_npe m) (space_dim s + 2) ic ph 0 (view3 viM (M1 r)) zero2 T (in_turns T) = Ok t)) as (ts & Hts).
  { intros r Hr. unfold init_tasks. rewrite EQ. cbn [bind]. eexists. reflexivity. }
  exists ts. split.
  - intros r Hr. destruct (HM1 r Hr) as (jk & eo1 & eo2 & fo & tasks & LO & E0 & ET & EX). exists jk, eo1, eo2, fo, T, T, (in_turns T), (in_turns T), (ro r), tasks.
    split; [exact LO|]. split; [exact E0|]. split; [exact TA|]. split; [exact TA|]. split; [intros; apply Permutation_refl|]. split; [exact ET|exact EX].
  - intros r Hr. exists zero2, T, (in_turns T). split; [exact TA|]. exact (Hts r Hr).
Qed.

From Verif Require Import ReadModel PropRead PropCtor PropHexDemo PropHexCase.

Definition any_ord (pm : Z -> pmesh R) : Z -> nat -> list Z := fun r _ => zseq (pm_num_elems_part (pm r)).
Definition any_pord : Z -> nat -> Z -> Z -> list (Z * Z) := fun _ _ a b => list_prod (zseq a) (zseq b).
Lemma any_ok pm n : inner_loops_ok pm n (any_ord pm) any_pord.
Proof. intros r Hr. split; intros; [apply Permutation_refl|]. unfold each_once, any_pord. apply Permutation_refl. Qed.

(** Four squares on three ranks, order 2, threads of teams of three taking turns,
    a uniform state: there are executions of the set-up, the initialisation and a
    step, and they end with the discontinuous Galerkin solution on the devices. *)
Example C89_demo : exists pm h f M1 ts c M',
  let ph := Build_phys 2 1 (fun k => if (k =? 3)%Z then 5 else if (k =? 0)%Z then 1 else 0) in
  let D := tables EQuad LagrangeQuad 2 pm 2 HLLC h f (any_ord pm) any_pord (fun _ => zero1) in
  partitioned 0 (fun _ l => rev l) 3 demo_rmesh demo_ep pm /\ devices_set_up EQuad LagrangeQuad 2 demo_rmesh pm 3 h f M1 /\
  initial_tasks EQuad LagrangeQuad 2 demo_rmesh pm 3 Uniform ph M1 ts /\
  device_runs 3 demo_rmesh demo_ep pm D (Kernels ts :: march_items D LLeft (fun r => view3 viM (M1 r)) [(ForwardEuler, 1 / 10)] (fun _ _ => (3%Z, in_turns 3))) M1 M' /\
  quad_solution demo_rmesh LagrangeQuad 2 2 HLLC (fun _ k => ph_IC ph k) [(ForwardEuler, 1 / 10)] c /\
  holds pm 3 9 4 c (fun r => view3 vUc (M' r)).
Proof.
  destruct demo_straight as (SQ & CF & FV & FD).
  assert (GQ : good_quads demo_rmesh) by (constructor; auto; [reflexivity|exact case_nodes]).
  destruct (C05_partitioned_exists R 0 (fun _ l => rev l) 3%Z demo_rmesh demo_ep demo_rrun) as (pm & PT).
  assert (RD : ready EQuad LagrangeQuad 2 1 demo_rmesh) by (constructor; auto; [lia|apply SQ|now apply convex_untangled|now left|unfold order_ok; lia|now left]).
  set (ph := Build_phys 2 1 (fun k => if (k =? 3)%Z then 5 else if (k =? 0)%Z then 1 else 0)).
  destruct (devices_start _ _ _ _ pm EQuad LagrangeQuad 2 Uniform ph 3 ltac:(lia) demo_rrun PT RD) as (h & f & M1 & ts & DS & IT).
  destruct (C89_device_run _ _ _ _ pm LagrangeQuad 2 2 HLLC Uniform ph (fun _ k => ph_IC ph k) [(ForwardEuler, 1 / 10)] h f (any_ord pm) any_pord (fun _ => zero1) LLeft (fun _ _ => (3%Z, in_turns 3)) M1 ts demo_rrun PT GQ)
    as (C & c & QS & R); auto.
  - now left.
  - now left.
  - unfold order_ok. lia.
  - lra.
  - split; reflexivity.
  - apply uniform_starts. lia.
  - apply uniform_quads; auto; try lia; [now left|now left|unfold order_ok; lia|].
    unfold admissible, pressure, density, energy, vdot, velocity, momentum. rewrite rsum_2. unfold density. cbn. lra.
  - apply any_ok.
  - intros k r _. apply in_turns_ok. reflexivity.
  - destruct (completes_runs _ _ _ _ _ _ _ C) as (M' & E). exists pm, h, f, M1, ts, c, M'. cbv zeta. fold ph.
    split; [exact PT|]. split; [exact DS|]. split; [exact IT|]. split; [exact E|]. split; [exact QS|]. exact (R M' E).
Qed.

(** The same for four cubes on two ranks. *)
Example C89_hexahedra_demo : exists pm h f M1 ts c M',
  let ph := ProgramModel.cf_phys cube_config in
  let D := tables EHex LagrangeHex 1 pm 2 HLLC h f (any_ord pm) any_pord (fun _ => zero1) in
  partitioned 0 (fun _ l => l) 2 four_cubes (cube_ep 2) pm /\ devices_set_up EHex LagrangeHex 1 four_cubes pm 2 h f M1 /\
  initial_tasks EHex LagrangeHex 1 four_cubes pm 2 Uniform ph M1 ts /\
  device_runs 2 four_cubes (cube_ep 2) pm D (Kernels ts :: march_items D LRight (fun r => view3 viM (M1 r)) [(ForwardEuler, 1 / 10)] (fun _ _ => (4%Z, in_turns 4))) M1 M' /\
  hex_solution four_cubes LagrangeHex 1 2 HLLC (fun _ k => ph_IC ph k) [(ForwardEuler, 1 / 10)] c /\
  holds pm 2 8 5 c (fun r => view3 vUc (M' r)).
Proof.
  destruct cube_good as [FV FD FH CF Hne Hall].
  assert (RW : run_wf (fun _ l => l) 2 four_cubes (cube_ep 2)).
  { destruct (C76_mesh_constructor R 0 (fun _ l => l) case_metis None [] cube_file 2 cube_wf ltac:(lia) (fun r l => Permutation_refl l)) as (md & RM & _ & H & _).
    assert (EM : md_mesh md = four_cubes). { destruct (ltac:(cbv -[IZR]; eexists; split; reflexivity) : exists md, read_mesh [] cube_file = Ok md /\ md_mesh md = four_cubes) as (md' & E1 & E2). rewrite E1 in RM. injection RM as <-. exact E2. }
    rewrite EM in H. exact (proj1 (H (cube_ep 2) (cube_intended 2 ltac:(auto)))). }
  destruct (C05_partitioned_exists R 0 (fun _ l => l) 2%Z four_cubes (cube_ep 2) RW) as (pm & PT).
  assert (RD : ready EHex LagrangeHex 1 1 four_cubes) by (constructor; auto; [lia|apply FH|apply FH|now left|unfold order_ok; lia|now left]).
  set (ph := ProgramModel.cf_phys cube_config).
  destruct (devices_start _ _ _ _ pm EHex LagrangeHex 1 Uniform ph 4 ltac:(lia) RW PT RD) as (h & f & M1 & ts & DS & IT).
  destruct (C89_device_run_hexahedra _ _ _ _ pm LagrangeHex 1 2 HLLC Uniform ph (fun _ k => ph_IC ph k) [(ForwardEuler, 1 / 10)] h f (any_ord pm) any_pord (fun _ => zero1) LRight (fun _ _ => (4%Z, in_turns 4)) M1 ts RW PT cube_good)
    as (C & c & QS & R); auto.
  - now left.
  - now left.
  - unfold order_ok. lia.
  - lra.
  - split; reflexivity.
  - apply uniform_starts. lia.
  - apply uniform_hexes; [exact cube_good|now left|now left|unfold order_ok; lia|lia|exact cube_admissible].
  - apply any_ok.
  - intros k r _. apply in_turns_ok. reflexivity.
  - destruct (completes_runs _ _ _ _ _ _ _ C) as (M' & E). exists pm, h, f, M1, ts, c, M'. cbv zeta. fold ph.
    split; [exact PT|]. split; [exact DS|]. split; [exact IT|]. split; [exact E|]. split; [exact QS|]. exact (R M' E).
Qed.
