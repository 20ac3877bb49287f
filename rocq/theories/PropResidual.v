(** PropResidual.v -- property C64: a residual evaluation on any number of ranks
    succeeds for admissible states and sees the right traces on every face. *)
From Coq Require Import ZArith List Lia Reals Lra Bool Permutation FunctionalExtensionality.
From Verif Require Import Base RBase MeshModel MeshSpec MeshProof MeshReadProof MeshProof2 PropMesh
  LinAlgModel LinAlgProof PropLinAlg PhysModel PhysSpec PhysProof PropPhys ShapeModel CommModel CommSpec CommProof PropComm
  SolverModel SolverProof SolverFaces SolverSpec SolverMesh SolverConserve SolverFlux PropSolver PropConserve.
Import ListNotations.
Local Open Scope R_scope.
Open Scope res_scope.

(** An exchange exists: the one the communication protocol performs. *)
Lemma exchange_exists {A V} (zero : A) iter n m ep (pm : Z -> pmesh A) (S : Z -> fstate V) (v0 : V) :
  run_wf iter n m ep -> partitioned zero iter n m ep pm -> sized n pm S -> exists X, exchanged n m ep pm S X.
Proof.
  intros WF PT SZ.
  set (c := mkCfg n pm 1 false (fun _ _ s => s) (fun _ _ _ cnt => zseq cnt) v0).
  assert (CW : comm_wf iter zero m ep c).
  { constructor; cbn; auto. }
  destruct (C12_exchange_delivers A V iter zero m ep c S CW eq_refl SZ) as (E & X & (H0 & _ & H2 & _) & _).
  exists (X O). specialize (H2 O). destruct H2 as [Z1 Z2]. split; [exact Z1|].
  intros r lf f rL rR Hr Rf FR. destruct (Z2 r lf f rL rR Hr Rf FR) as [(a & v & Q1 & Q2 & Q3) (b & w & Q4 & Q5 & Q6)].
  rewrite H0 in Q2, Q5. split; [exists a, v|exists b, w]; auto.
Qed.

Lemma admissible_ext dim g U U' : dim23 dim -> (forall i, (0 <= i < dim + 2)%Z -> U i = U' i) ->
  admissible dim g U -> admissible dim g U'.
Proof.
  intros Hd H [H1 H2]. assert (Hd2 : (2 <= dim)%Z) by (destruct Hd; lia).
  assert (EVV : vdot dim (velocity U) (velocity U) = vdot dim (velocity U') (velocity U')).
  { apply rsum_ext. intros i Hi. unfold velocity, momentum, density. rewrite !H by lia. reflexivity. }
  unfold admissible, pressure in *. rewrite EVV in H2. unfold density, energy in *.
  rewrite (H 0%Z) in H1, H2 by lia. rewrite (H (dim + 1)%Z) in H2 by lia. auto.
Qed.

(** ** C64 *)
Theorem C64_evaluates :
  forall A (zero : A) iter n m ep pm s nqf nb gamma ft fb fw D Uc rs0 v0,
  run_wf iter n m ep -> partitioned zero iter n m ep pm ->
  faces_valid s m -> faces_distinct m -> face_points s nqf -> 1 < gamma ->
  same_setup s m pm n nqf nb gamma ft fb fw D -> 
  (forall r lf iq, (0 <= r < n)%Z -> (0 <= lf < pm_num_ifaces_part (pm r))%Z -> (0 <= iq < nqf)%Z ->
     vdot (space_dim s) (d_normals (D r) lf iq) (d_normals (D r) lf iq) <> 0) ->
  (* non-zero density at the volume points, admissible states on both sides of
     the interior faces *)
  (forall r e q, (0 <= r < n)%Z -> (0 <= e < pm_num_elems_part (pm r))%Z -> (0 <= q < d_nq (D r))%Z ->
     density (vol_state (D r) (Uc r) e q) <> 0) ->
  (forall f sd e kf o r le q, has_side m f sd e kf o -> (0 <= r < n)%Z -> rd (pm_l2g_elem (pm r)) le = Ok e -> (0 <= q < nqf)%Z ->
     admissible (space_dim s) gamma (face_trace nb fb (Uc r) le kf q)) ->
  exists UL UR v2 rs2,
    evaluates m ep pm n D Uc rs0 v0 UL UR v2 rs2 /\
    (* on every rank holding face f, the two states at point iq are the traces of
       the elements on its two sides, wherever those live *)
    (forall r lf f iq sd e kf o re le k, (0 <= r < n)%Z -> rd (pm_l2g_iface (pm r)) lf = Ok f ->
       (0 <= iq < nqf)%Z -> has_side m f sd e kf o -> owned_by ep e re -> rd (pm_l2g_elem (pm re)) le = Ok e ->
       (0 <= k < space_dim s + 2)%Z ->
       (if sd then UR r else UL r) lf iq k = face_trace nb fb (Uc re) le kf (face_order s o nqf (fun _ => 0%Z) iq) k) /\
    (forall r lf iq, (0 <= r < n)%Z -> (0 <= lf < pm_num_ifaces_part (pm r))%Z -> (0 <= iq < nqf)%Z ->
       admissible (space_dim s) gamma (UL r lf iq) /\ admissible (space_dim s) gamma (UR r lf iq)).
Proof.
  intros A zero iter n m ep pm s nqf nb gamma ft fb fw D Uc rs0 v0 WF PT HV HD HP Hg SS NZ HVOL HFACE.
  set (dim := space_dim s). assert (Hd : dim23 dim) by (unfold dim, dim23; destruct s; cbn; lia).
  assert (Hd2 : (2 <= dim)%Z) by (destruct Hd; lia).
  set (NF := faces_per_elem s) in *.
  assert (HNF : (0 < NF)%Z) by (unfold NF; destruct s; cbn; lia).
  destruct (C04_interior_faces A zero iter n m ep pm WF PT) as [_ H4].
  destruct (C01_element_ownership A zero iter n m ep pm WF PT) as (_ & HOW & H1 & _).
  assert (RG : forall e x, owned_by ep e x -> (0 <= x < n)%Z).
  { intros e x O. pose proof (run_ep _ _ _ _ WF) as [_ FA]. rewrite Forall_forall in FA. apply FA. now apply rd_In in O. }
  (* element terms *)
  set (rs1 := fun r => match element_residuals (D r) (Uc r) (rs0 r) with Ok x => x | Fail _ => rs0 r end).
  assert (ER : forall r, (0 <= r < n)%Z -> element_residuals (D r) (Uc r) (rs0 r) = Ok (rs1 r)).
  { intros r Hr. destruct (ss_sizes _ _ _ _ _ _ _ _ _ _ _ SS r Hr) as (_ & S2 & S3 & _).
    destruct (C57_element_term (D r) (Uc r) (rs0 r)) as (x & E & _).
    - rewrite S2. exact Hd.
    - apply (ss_orders _ _ _ _ _ _ _ _ _ _ _ SS r Hr).
    - rewrite S3. intros e q He Hq. now apply HVOL.
    - unfold rs1. now rewrite E. }
  (* face states before the exchange *)
  set (v1 := fun r => match face_residuals_before (D r) (Uc r) (v0 r) with Ok x => x | Fail _ => v0 r end).
  assert (EB : forall r, (0 <= r < n)%Z -> face_residuals_before (D r) (Uc r) (v0 r) = Ok (v1 r) /\
    forall lf iq sd le kf o e f k, rd (pm_l2g_iface (pm r)) lf = Ok f -> (0 <= iq < nqf)%Z -> has_side m f sd e kf o ->
      rd (pm_l2g_elem (pm r)) le = Ok e -> (0 <= k < dim + 2)%Z ->
      (if sd then v_UqR (v1 r) else v_UqL (v1 r)) lf iq k =
      face_trace nb fb (Uc r) le kf (face_order s o nqf (fun _ => 0%Z) iq) k).
  { intros r Hr. destruct (ss_sizes _ _ _ _ _ _ _ _ _ _ _ SS r Hr) as (S1 & S2 & S3 & S4 & S5 & S6 & S7 & S8).
    pose proof (ss_lookup _ _ _ _ _ _ _ _ _ _ _ SS r Hr) as LK. rewrite S7, S8 in LK.
    destruct (ss_orders _ _ _ _ _ _ _ _ _ _ _ SS r Hr) as [O1 O2].
    destruct (C23_face_flux_slots A zero iter n m ep pm s nqf WF PT HV HD HP r Hr) as (qL & qR & LK' & _ & SR & G).
    rewrite LK in LK'. injection LK' as EqL EqR.
    destruct (G (dim + 2)%Z (d_porder (D r) 1 (pm_num_ifaces_part (pm r)) nqf) ltac:(lia) (O2 _ _ _)) as [_ G2].
    set (fbf := flat_face_basis NF nqf nb (d_face_basis (D r))).
    set (Uq := evaluate_state (d_order (D r) 2) (NF * nqf) (dim + 2) nb fbf (Uc r) (v_Uq (v0 r))).
    destruct (G2 Uq (v_UqL (v0 r)) (v_UqR (v0 r))) as (UL & UR & E & T1 & _).
    assert (EV : v1 r = mkRV Uq UL UR (v_Fq (v0 r)) (v_Fe (v0 r)) /\ face_residuals_before (D r) (Uc r) (v0 r) = Ok (v1 r)).
    { assert (EE : face_residuals_before (D r) (Uc r) (v0 r) = Ok (mkRV Uq UL UR (v_Fq (v0 r)) (v_Fe (v0 r)))).
      { unfold face_residuals_before. cbv zeta. rewrite S1, S2, S3, S4, S5, S6, S7, S8, EqL, EqR. fold dim NF. fold fbf. fold Uq. fold NF in E.
        rewrite E. reflexivity. }
      unfold v1. rewrite EE. auto. }
    destruct EV as [EV EV']. split; [exact EV'|].
    intros lf iq sd le kf o e f k Rf Hiq HS Re Hk.
    set (pos := (kf * nqf + face_order s o nqf (fun _ => 0%Z) iq)%Z).
    assert (MI : slot_of s m pm nqf r lf iq sd le pos) by (split; [easy|]; exists f, e, kf, o; auto).
    rewrite EV. cbn [v_UqL v_UqR]. rewrite (T1 lf iq sd le pos k MI Hk).
    destruct (SR lf iq sd le pos MI) as [B1 B2]. fold NF in B2.
    unfold Uq. rewrite (evaluate_state_entry _ (pm_num_elems_part (pm r))) by (rewrite <- S3; apply O1).
    rewrite !(proj2 (inb_true _ _)) by easy. cbn [andb]. unfold face_trace. apply rsum_ext. intros j Hj.
    assert (Hq0 : (0 < nqf)%Z) by lia.
    pose proof (side_nonneg iter n m ep WF _ _ _ _ _ HS) as (K0 & O0 & _). destruct (HV _ _ _ _ _ HS) as [K1 O1'].
    destruct (order_perm s nqf o (fun _ => 0%Z) HP ltac:(lia)) as [OP _]. specialize (OP iq Hiq).
    unfold fbf. rewrite flat_face_basis_entry by (auto; lia).
    assert (D1 : (pos / nqf = kf)%Z) by (unfold pos; symmetry; apply Z.div_unique with (r := face_order s o nqf (fun _ => 0%Z) iq); lia).
    assert (D2 : (pos mod nqf = face_order s o nqf (fun _ => 0%Z) iq)%Z) by (unfold pos; symmetry; apply Z.mod_unique with (q := kf); lia).
    rewrite D1, D2, (ss_face _ _ _ _ _ _ _ _ _ _ _ SS) by (auto; lia). reflexivity. }
  (* exchange *)
  set (S := fun r => face_blocks (d_nif (D r)) (v1 r)).
  assert (ZB : forall nif (a : arr3), (0 <= nif)%Z -> zlen (blocks nif a) = nif).
  { intros nif a H. unfold blocks. rewrite zlen_map. now apply zlen_zseq. }
  assert (NI : forall r, (0 <= r < n)%Z -> (0 <= pm_num_ifaces_part (pm r))%Z).
  { intros r Hr. destruct (H4 r Hr) as (_ & <- & _). apply zlen_nonneg. }
  assert (SZ : sized n pm S).
  { intros r Hr. destruct (ss_sizes _ _ _ _ _ _ _ _ _ _ _ SS r Hr) as (_ & _ & _ & _ & _ & _ & S7 & _).
    unfold S, face_blocks. cbn [fs_L fs_R]. rewrite S7, !ZB by auto. auto. }
  destruct (exchange_exists zero iter n m ep pm S (fun _ _ => 0) WF PT SZ) as (X & EX).
  set (pick := fun (l : list arr2) lf => match rd l lf with Ok b => b | Fail _ => fun _ _ => 0 end).
  set (UL := fun r => pick (fs_L (X r))). set (UR := fun r => pick (fs_R (X r))).
  assert (PB : forall nif (l : list arr2), zlen l = nif -> blocks nif (pick l) = l).
  { intros nif l E. assert (N0 : (0 <= nif)%Z) by (rewrite <- E; apply zlen_nonneg). apply rd_ext; rewrite ZB by easy; [easy|].
    intros i Hi. rewrite blocks_rd by easy. unfold pick. destruct (rd_total l i) as (b & ->); [lia|easy]. }
  assert (TR : forall r lf f iq sd e kf o re le k, (0 <= r < n)%Z -> rd (pm_l2g_iface (pm r)) lf = Ok f ->
       (0 <= iq < nqf)%Z -> has_side m f sd e kf o -> owned_by ep e re -> rd (pm_l2g_elem (pm re)) le = Ok e ->
       (0 <= k < dim + 2)%Z ->
       (if sd then UR r else UL r) lf iq k = face_trace nb fb (Uc re) le kf (face_order s o nqf (fun _ => 0%Z) iq) k).
  { intros r lf f iq sd e kf o re le k Hr Rf Hiq HS OW Re Hk.
    destruct (H4 r Hr) as (_ & _ & _ & RF).
    destruct (RF lf f Rf) as (eL & fL & oL & eR & fR & oR & rL & rR & lL & lR & E1 & OL & OR & _).
    assert (FR : face_ranks m ep f rL rR).
    { exists eL, eR. unfold left_of, right_of, rd2. rewrite E1. repeat split; auto. }
    destruct EX as [_ EX]. destruct (EX r lf f rL rR Hr Rf FR) as [(a & v & Q1 & Q2 & Q3) (b & w & Q4 & Q5 & Q6)].
    assert (Hre : (0 <= re < n)%Z) by eauto.
    destruct (ss_sizes _ _ _ _ _ _ _ _ _ _ _ SS re Hre) as (_ & _ & _ & _ & _ & _ & S7 & _).
    destruct HS as (X1 & X2 & X3). unfold rd2 in X1, X2, X3. rewrite E1 in X1, X2, X3. cbn [bind] in X1, X2, X3.
    destruct sd.
    - cbv in X1. injection X1 as <-. assert (re = rR) by (unfold owned_by in *; congruence). subst re.
      unfold UR, pick. rewrite Q6. unfold S, face_blocks in Q5. cbn [fs_R] in Q5.
      destruct (H4 rR Hre) as (_ & LL & _). rewrite S7, blocks_rd in Q5 by (apply rd_in_range in Q4; lia). injection Q5 as <-.
      destruct (EB rR Hre) as [_ EB2]. apply (EB2 b iq true le kf o eR f k); auto.
      unfold has_side, rd2. rewrite E1. cbn [bind]. auto.
    - cbv in X1. injection X1 as <-. assert (re = rL) by (unfold owned_by in *; congruence). subst re.
      unfold UL, pick. rewrite Q3. unfold S, face_blocks in Q2. cbn [fs_L] in Q2.
      destruct (H4 rL Hre) as (_ & LL & _). rewrite S7, blocks_rd in Q2 by (apply rd_in_range in Q1; lia). injection Q2 as <-.
      destruct (EB rL Hre) as [_ EB2]. apply (EB2 a iq false le kf o eL f k); auto.
      unfold has_side, rd2. rewrite E1. cbn [bind]. auto. }
  assert (AD : forall r lf iq, (0 <= r < n)%Z -> (0 <= lf < pm_num_ifaces_part (pm r))%Z -> (0 <= iq < nqf)%Z ->
       admissible dim gamma (UL r lf iq) /\ admissible dim gamma (UR r lf iq)).
  { intros r lf iq Hr Hlf Hiq. destruct (local_faces zero iter n m ep pm WF PT r lf Hr Hlf) as [f Rf].
    destruct (row_side zero iter n m ep pm WF PT r lf f Hr Rf) as [_ RS].
    assert (Y : forall sd : bool, admissible dim gamma ((if sd then UR r else UL r) lf iq)).
    { intros sd. destruct (RS sd) as (e & HS & OW & _). set (re := srank (pm_interior_faces (pm r)) lf sd) in *.
      set (kf := sface (pm_interior_faces (pm r)) lf sd) in *. set (o := sorient (pm_interior_faces (pm r)) lf sd) in *.
      assert (Hre : (0 <= re < n)%Z) by eauto.
      assert (IN : In e (pm_l2g_elem (pm re))) by (apply HOW; auto).
      destruct (C02_id_lookups_inverse A zero iter n m ep pm WF PT re Hre (pm_l2g_elem (pm re))) as (_ & L2 & _); auto.
      specialize (L2 e IN). set (le := search_for_local_ID e (pm_l2g_elem (pm re))) in *.
      pose proof (side_nonneg iter n m ep WF _ _ _ _ _ HS) as (K0 & O0 & _). destruct (HV _ _ _ _ _ HS) as [K1 O1'].
      destruct (order_perm s nqf o (fun _ => 0%Z) HP ltac:(lia)) as [OP _]. specialize (OP iq Hiq).
      apply (admissible_ext dim gamma (face_trace nb fb (Uc re) le kf (face_order s o nqf (fun _ => 0%Z) iq))); [easy| |].
      - intros k Hk. symmetry. apply (TR r lf f iq sd e kf o re le k); auto.
      - apply (HFACE f sd e kf o re le); try easy; lia. }
    split; [exact (Y false)|exact (Y true)]. }
  (* face terms *)
  set (fin := fun r => match face_residuals_after (D r) (UL r) (UR r) (v1 r) (rs1 r) with Ok x => x | Fail _ => (v0 r, rs0 r) end).
  assert (EF : forall r, (0 <= r < n)%Z -> face_residuals_after (D r) (UL r) (UR r) (v1 r) (rs1 r) = Ok (fin r)).
  { intros r Hr. destruct (ss_sizes _ _ _ _ _ _ _ _ _ _ _ SS r Hr) as (S1 & S2 & S3 & S4 & S5 & S6 & S7 & S8).
    pose proof (ss_lookup _ _ _ _ _ _ _ _ _ _ _ SS r Hr) as LK. rewrite S7, S8 in LK.
    destruct (ss_orders _ _ _ _ _ _ _ _ _ _ _ SS r Hr) as [O1 O2].
    destruct (ss_phys _ _ _ _ _ _ _ _ _ _ _ SS r Hr) as (P1 & P2 & P3).
    assert (EE : exists x, face_residuals_after (D r) (UL r) (UR r) (v1 r) (rs1 r) = Ok x).
    { unfold face_residuals_after. cbv zeta. rewrite S1, S2, S3, S4, S5, S6, S7, S8, P1, P2, P3. fold dim NF.
      destruct (face_fluxes_ok ft dim gamma (UL r) (UR r) (d_normals (D r)) fw (d_garbage (D r)) (d_garbage (D r))
         (d_porder (D r) 2 (pm_num_ifaces_part (pm r)) nqf) (pm_num_ifaces_part (pm r)) nqf (v_Fq (v1 r)) Hd Hg (O2 _ _ _))
         as (Fq & EQ & _).
      { intros lf iq Hlf Hiq. destruct (AD r lf iq Hr Hlf Hiq). split; [easy|]. split; [easy|]. now apply NZ. }
      rewrite EQ, bind_l.
      destruct (C23_face_flux_slots A zero iter n m ep pm s nqf WF PT HV HD HP r Hr) as (qL & qR & LK' & _ & _ & G).
      rewrite LK in LK'. injection LK' as EqL EqR.
      destruct (G (dim + 2)%Z (d_porder (D r) 3 (pm_num_ifaces_part (pm r)) nqf) ltac:(lia) (O2 _ _ _)) as [G1 _].
      destruct (G1 Fq (v_Fe (v1 r))) as (Fe & EE & _). rewrite <- EqL, <- EqR in EE. fold NF in EE. rewrite EE, bind_l. eauto. }
    destruct EE as [x E]. unfold fin. now rewrite E. }
  exists UL, UR, (fun r => fst (fin r)), (fun r => snd (fin r)). split; [|split; [exact TR|exact AD]].
  exists rs1, v1, X. split; [|split; [exact EX|]].
  - intros r Hr. split; [now apply ER|]. now apply EB.
  - intros r Hr. destruct (ss_sizes _ _ _ _ _ _ _ _ _ _ _ SS r Hr) as (_ & _ & _ & _ & _ & _ & S7 & _).
    destruct EX as [SX _]. destruct (SX r Hr) as [ZL ZR]. rewrite S7.
    split; [now apply PB|]. split; [now apply PB|]. rewrite EF by easy. now rewrite <- surjective_pairing.
Qed.
Print Assumptions C64_evaluates.

(** In particular if the states are admissible at all face points. *)
Theorem C64_residual_well_defined :
  forall A (zero : A) iter n m ep pm s nqf nb gamma ft fb fw D Uc rs0 v0,
  run_wf iter n m ep -> partitioned zero iter n m ep pm ->
  faces_valid s m -> faces_distinct m -> face_points s nqf -> 1 < gamma ->
  same_setup s m pm n nqf nb gamma ft fb fw D -> normals_agree s pm n nqf D ->
  (* non-zero density at the volume points, admissible states at the face points *)
  (forall r e q, (0 <= r < n)%Z -> (0 <= e < pm_num_elems_part (pm r))%Z -> (0 <= q < d_nq (D r))%Z ->
     density (vol_state (D r) (Uc r) e q) <> 0) ->
  (forall r e f q, (0 <= r < n)%Z -> (0 <= e < pm_num_elems_part (pm r))%Z -> (0 <= f < faces_per_elem s)%Z -> (0 <= q < nqf)%Z ->
     admissible (space_dim s) gamma (face_trace nb fb (Uc r) e f q)) ->
  exists UL UR v2 rs2,
    evaluates m ep pm n D Uc rs0 v0 UL UR v2 rs2 /\
    (* on every rank holding face f, the two states at point iq are the traces of
       the elements on its two sides, wherever those live *)
    (forall r lf f iq sd e kf o re le k, (0 <= r < n)%Z -> rd (pm_l2g_iface (pm r)) lf = Ok f ->
       (0 <= iq < nqf)%Z -> has_side m f sd e kf o -> owned_by ep e re -> rd (pm_l2g_elem (pm re)) le = Ok e ->
       (0 <= k < space_dim s + 2)%Z ->
       (if sd then UR r else UL r) lf iq k = face_trace nb fb (Uc re) le kf (face_order s o nqf (fun _ => 0%Z) iq) k) /\
    (forall r lf iq, (0 <= r < n)%Z -> (0 <= lf < pm_num_ifaces_part (pm r))%Z -> (0 <= iq < nqf)%Z ->
       admissible (space_dim s) gamma (UL r lf iq) /\ admissible (space_dim s) gamma (UR r lf iq)).
Proof.
  intros A zero iter n m ep pm s nqf nb gamma ft fb fw D Uc rs0 v0 WF PT HV HD HP Hg SS [NZ _] HVOL HFACE.
  apply (C64_evaluates A zero iter n m ep pm s nqf nb gamma ft fb fw D Uc rs0 v0 WF PT HV HD HP Hg SS NZ HVOL).
  intros f sd e kf o r le q HS Hr Re Hq. apply HFACE; try assumption.
  - destruct (C01_element_ownership A zero iter n m ep pm WF PT) as (_ & _ & H1 & _). destruct (H1 r Hr) as [_ ->]. now apply rd_in_range in Re.
  - pose proof (side_nonneg iter n m ep WF _ _ _ _ _ HS) as (K0 & _). destruct (HV _ _ _ _ _ HS) as [K1 _]. lia.
Qed.
Print Assumptions C64_residual_well_defined.

(** The 2x2 mesh on three ranks, a gas at rest, piecewise constants, three
    points per face: the hypotheses of C24 and C64 are met. *)
Definition demo_lookup (r : Z) : (Z -> Z -> Z) * (Z -> Z -> Z) :=
  match face_quadrature_lookup (face_order EQuad) (pm_interior_faces (demo_pm r)) (pm_num_ifaces_part (demo_pm r)) 3 with
  | Ok q => q
  | Fail _ => (fun _ _ => 0%Z, fun _ _ => 0%Z)
  end.
Definition demo_D (r : Z) : rdata :=
  mkRD r 2 2 HLLC (pm_num_elems_part (demo_pm r)) 1 1 4 3 (pm_num_ifaces_part (demo_pm r)) (pm_interior_faces (demo_pm r))
    (fun _ _ => 1) (fun _ _ _ => 0) (fun _ => 4) (fun _ _ => 1) (fun _ _ i j => if (i =? j)%Z then 1 else 0)
    (fun _ _ _ => 1) (fun _ => 2/3) (fun _ _ i => if (i =? 0)%Z then 1 else 0) (fst (demo_lookup r)) (snd (demo_lookup r))
    (fun _ => rev (zseq (pm_num_elems_part (demo_pm r)))) (fun _ a b => rev (list_prod (zseq a) (zseq b))) (fun _ => 7).
Definition demo_U : arr3 := fun _ _ k => if (k =? 0)%Z then 1 else if (k =? 3)%Z then 5 else 0.

Lemma demo_partitioned : partitioned 0%Z (fun _ l => rev l) 3 demo_mesh demo_ep demo_pm.
Proof. intros r Hr. assert (X : (r = 0 \/ r = 1 \/ r = 2)%Z) by lia. destruct X as [->|[->| ->]]; vm_compute; reflexivity. Qed.

Example demo_setup :
  same_setup EQuad demo_mesh demo_pm 3 3 1 2 HLLC (fun _ _ _ => 1) (fun _ => 2/3) demo_D /\
  normals_agree EQuad demo_pm 3 3 demo_D /\
  constant_one EQuad 3 3 1 (fun _ _ _ => 1) demo_D (fun _ => 1) /\
  (forall r e q, (0 <= r < 3)%Z -> density (vol_state (demo_D r) demo_U e q) <> 0) /\
  (forall e f q, admissible 2 2 (face_trace 1 (fun _ _ _ => 1) demo_U e f q)).
Proof.
  split; [|split; [|split; [|split]]].
  - constructor.
    + intros r Hr. cbn. repeat split; reflexivity.
    + intros r Hr. cbn [demo_D d_rows d_nif d_qL d_qR].
      destruct (lookup_total 0%Z (fun _ l => rev l) 3 demo_mesh demo_ep demo_pm demo_run demo_partitioned EQuad 3 r Hr) as (a & b & E).
      unfold demo_lookup. rewrite E. reflexivity.
    + intros r Hr. split; intros; cbn; [|unfold each_once]; symmetry; apply Permutation_rev.
    + intros r Hr. cbn. auto.
    + reflexivity.
  - split; [|reflexivity]. intros. cbn [space_dim demo_D d_normals]. unfold vdot. rewrite rsum_2. cbn. lra.
  - split.
    + intros. rewrite rsum_1. lra.
    + intros. rewrite rsum_1. cbn. lra.
  - intros. unfold density, vol_state. cbn [demo_D d_nb d_basis_val]. rewrite rsum_1. cbn. lra.
  - intros. unfold admissible, pressure, density, energy, face_trace, vdot, velocity, momentum. cbn [Z.add].
    rewrite rsum_2, !rsum_1. unfold demo_U, density. rewrite !rsum_1. cbn. lra.
Qed.

(** So the gas at rest has a residual on the three ranks, and its total is zero. *)
Example demo_residual : forall rs0, exists UL UR v2 rs2,
  evaluates demo_mesh demo_ep demo_pm 3 demo_D (fun _ => demo_U) rs0
     (fun _ => mkRV zero3 zero3 zero3 zero3 zero3) UL UR v2 rs2 /\
  forall k, (0 <= k < 4)%Z -> total demo_pm 3 1 (fun _ => 1) k rs2 = 0.
Proof.
  intros rs0. destruct demo_setup as (S1 & S2 & S3 & S4 & S5). destruct C23_demo as (_ & FV & FD & FP).
  destruct (C64_residual_well_defined Z 0%Z (fun _ l => rev l) 3 demo_mesh demo_ep demo_pm EQuad 3 1 2 HLLC _ _ demo_D (fun _ => demo_U) rs0
    (fun _ => mkRV zero3 zero3 zero3 zero3 zero3) demo_run demo_partitioned FV FD FP ltac:(lra) S1 S2) as (UL & UR & v2 & rs2 & E & _ & AD).
  - intros. now apply S4.
  - intros. apply S5.
  - exists UL, UR, v2, rs2. split; [exact E|].
    apply (C24_residual_conserves Z 0%Z (fun _ l => rev l) 3 demo_mesh demo_ep demo_pm EQuad 3 1 2 HLLC _ _ demo_D (fun _ => demo_U) rs0
      (fun _ => mkRV zero3 zero3 zero3 zero3 zero3) UL UR v2 rs2 (fun _ => 1) demo_run demo_partitioned FV FD FP ltac:(lra) S1 S2 S3); auto.
    intros r le pos k Hr _. reflexivity.
Qed.
