(** PropConserve.v -- property C24: the face terms, and with them the whole
    residual, conserve every state variable. *)
From Coq Require Import ZArith List Lia Reals Lra Bool Permutation FunctionalExtensionality.
From Verif Require Import Base RBase MeshModel MeshSpec MeshProof MeshReadProof MeshProof2 PropMesh
  LinAlgModel LinAlgProof PropLinAlg PhysModel PhysSpec PhysProof PropPhys ShapeModel CommModel CommSpec
  SolverModel SolverProof SolverFaces SolverSpec SolverMesh SolverConserve SolverFlux PropSolver.
Import ListNotations.
Local Open Scope R_scope.
Open Scope res_scope.

Section Conserve.
Context {A : Type} (zero : A) (iter : Z -> list Z -> list Z) (n : Z) (m : gmesh A) (ep : list Z) (pm : Z -> pmesh A).
Context (WF : run_wf iter n m ep) (PT : partitioned zero iter n m ep pm).
Context (s : eshape) (nqf : Z) (HV : faces_valid s m) (HD : faces_distinct m) (HP : face_points s nqf).

(** Fluxes that agree on the ranks of a face are a function of the global face. *)
Lemma global_flux (Fq : Z -> arr3) k :
  (forall r r' lf lf' f iq, (0 <= r < n)%Z -> (0 <= r' < n)%Z -> (0 <= iq < nqf)%Z ->
     rd (pm_l2g_iface (pm r)) lf = Ok f -> rd (pm_l2g_iface (pm r')) lf' = Ok f -> Fq r lf iq k = Fq r' lf' iq k) ->
  exists Fg : Z -> Z -> R, forall r lf f iq, (0 <= r < n)%Z -> (0 <= iq < nqf)%Z ->
     rd (pm_l2g_iface (pm r)) lf = Ok f -> Fq r lf iq k = Fg f iq.
Proof.
  intros H.
  exists (fun f iq => Fq (rkL m ep f) (search_for_local_ID f (pm_l2g_iface (pm (rkL m ep f)))) iq k).
  intros r lf f iq Hr Hiq Rf.
  destruct (C04_interior_faces A zero iter n m ep pm WF PT) as [IF _].
  assert (FT : face_touches m ep f r) by (apply IF; auto; now apply rd_In in Rf).
  pose proof (run_mesh _ _ _ _ WF) as MW. pose proof (run_ep _ _ _ _ WF) as EW.
  assert (Hf : (0 <= f < gm_nIF m)%Z) by (eapply face_touches_rk; eauto).
  assert (FR : face_ranks m ep f (rkL m ep f) (rkR m ep f)) by (apply (face_ranks_rk m n ep MW EW); auto).
  assert (HL : (0 <= rkL m ep f < n)%Z).
  { destruct FR as (eL & eR & _ & _ & OL & _). destruct EW as [_ FA]. rewrite Forall_forall in FA. apply FA. now apply rd_In in OL. }
  assert (IN : In f (pm_l2g_iface (pm (rkL m ep f)))).
  { apply IF; auto. destruct FR as (eL & eR & L & _ & OL & _). exists eL. auto. }
  destruct (C02_id_lookups_inverse A zero iter n m ep pm WF PT (rkL m ep f) HL (pm_l2g_iface (pm (rkL m ep f)))) as (_ & H2 & _); auto.
  specialize (H2 f IN). eapply H; eauto.
Qed.

(** The sum over ranks of all per-element face buffers is zero. *)
Lemma slots_cancel (Fq Fe : Z -> arr3) k :
  (forall r lf iq sd le pos, (0 <= r < n)%Z -> slot_of s m pm nqf r lf iq sd le pos -> Fe r le pos k = side_sign sd * Fq r lf iq k) ->
  (forall r le pos, (0 <= r < n)%Z -> (forall lf iq sd, ~ slot_of s m pm nqf r lf iq sd le pos) -> Fe r le pos k = 0) ->
  (forall r r' lf lf' f iq, (0 <= r < n)%Z -> (0 <= r' < n)%Z -> (0 <= iq < nqf)%Z ->
     rd (pm_l2g_iface (pm r)) lf = Ok f -> rd (pm_l2g_iface (pm r')) lf' = Ok f -> Fq r lf iq k = Fq r' lf' iq k) ->
  rsum n (fun r => rsum (pm_num_elems_part (pm r)) (fun e => rsum (faces_per_elem s * nqf) (fun p => Fe r e p k))) = 0.
Proof.
  intros H1 H2 H3. destruct (global_flux Fq k H3) as (Fg & HG).
  pose proof (run_mesh _ _ _ _ WF) as MW. pose proof (run_ep _ _ _ _ WF) as EW.
  rewrite <- (ranks_cancel iter n m ep WF (fun f => rsum nqf (fun iq => Fg f iq))).
  apply rsum_ext. intros r Hr.
  destruct (lookup_total zero iter n m ep pm WF PT s nqf r Hr) as (qL & qR & HQ).
  destruct (rows_ok zero iter n m ep pm WF PT s nqf r qL qR Hr HV HD HP HQ) as [W _].
  destruct (C04_interior_faces A zero iter n m ep pm WF PT) as [_ H4]. destruct (H4 r Hr) as (_ & EL & _ & RF).
  rewrite (rank_sum _ _ _ _ _ _ qL qR W (Fq r) (Fe r) k).
  - apply (local_sum zero iter n m ep pm WF PT r); [easy|]. intros lf f R.
    assert (Hlf : (0 <= lf < pm_num_ifaces_part (pm r))%Z) by (apply rd_in_range in R; lia).
    destruct (RF lf f R) as (eL & fL & oL & eR & fR & oR & rL & rR & lL & lR & E1 & OL & OR & E2 & _ & _).
    assert (FR : face_ranks m ep f rL rR).
    { exists eL, eR. unfold left_of, right_of, rd2. rewrite E1. repeat split; auto. }
    apply (face_ranks_rk m n ep MW EW) in FR. destruct FR as (_ & -> & ->).
    unfold srank, ent, rd2. rewrite E2. cbn [bind].
    change (rd [rL; lL; fL; oL; rR; lR; fR; oR] (col true 0)) with (Ok (A:=Z) rR).
    change (rd [rL; lL; fL; oL; rR; lR; fR; oR] (col false 0)) with (Ok (A:=Z) rL). cbv iota.
    rewrite rsum_minus. f_equal.
    + destruct (rR =? r)%Z; [apply rsum_ext; intros; now apply HG|now apply rsum_zero].
    + destruct (rL =? r)%Z; [apply rsum_ext; intros; now apply HG|now apply rsum_zero].
  - intros lf sd iq Hlf Hiq ER. apply (H1 r lf iq sd); [easy|].
    apply (slot_of_iff zero iter n m ep pm WF PT s nqf HV HD HP r lf iq sd _ _ qL qR Hr HQ).
    rewrite <- surjective_pairing. auto.
  - intros e p He Hp Hn. apply H2; [easy|]. intros lf iq sd C.
    apply (slot_of_iff zero iter n m ep pm WF PT s nqf HV HD HP r lf iq sd _ _ qL qR Hr HQ) in C.
    destruct C as (C1 & C2 & C3 & C4). exact (Hn lf sd iq C1 C2 C3 C4).
Qed.

(** Tested with the coefficients of 1, the face integrals add the sum of the
    buffer. *)
Lemma face_integral_total (order : Z -> list Z) nb ns (fbf : Z -> arr2) (Fe rs : Z -> arr3) c k : (0 <= k < ns)%Z ->
  (forall r, (0 <= r < n)%Z -> Permutation (order r) (zseq (pm_num_elems_part (pm r)))) ->
  (forall r p, (0 <= r < n)%Z -> (0 <= p < faces_per_elem s * nqf)%Z -> rsum nb (fun i => c i * fbf r p i) = 1) ->
  total pm n nb c k (fun r => face_flux_integral (order r) (faces_per_elem s * nqf) nb ns (fbf r) (Fe r) (rs r)) =
  total pm n nb c k rs +
  rsum n (fun r => rsum (pm_num_elems_part (pm r)) (fun e => rsum (faces_per_elem s * nqf) (fun p => Fe r e p k))).
Proof.
  intros Hk HO HC. unfold total. rewrite <- rsum_plus. apply rsum_ext. intros r Hr.
  rewrite <- rsum_plus. apply rsum_ext. intros e He.
  rewrite (rsum_ext nb _ (fun i => c i * rs r e i k + rsum (faces_per_elem s * nqf) (fun p => c i * fbf r p i * Fe r e p k))).
  - rewrite rsum_plus. f_equal. rewrite rsum_swap. apply rsum_ext. intros p Hp. rewrite rsum_scal_r, HC by easy. ring.
  - intros i Hi. rewrite (face_flux_integral_entry _ (pm_num_elems_part (pm r))) by now apply HO.
    rewrite !(proj2 (inb_true _ _)) by easy. cbn [andb]. rewrite Rmult_plus_distr_l, <- rsum_scal. f_equal.
    apply rsum_ext. intros. ring.
Qed.
End Conserve.

(** ** C24: face contributions tested against the constant function cancel --
    whatever the fluxes are, as long as the ranks of a face computed the same. *)
Theorem C24_face_terms_cancel :
  forall A (zero : A) iter n m ep pm s nqf nb ns order porder qL qR fb Fq Fe0 Fe rs c k,
  run_wf iter n m ep -> partitioned zero iter n m ep pm ->
  faces_valid s m -> faces_distinct m -> face_points s nqf -> (0 <= k < ns)%Z ->
  (forall r, (0 <= r < n)%Z -> Permutation (order r) (zseq (pm_num_elems_part (pm r))) /\
     each_once (porder r) (pm_num_ifaces_part (pm r)) nqf /\
     face_quadrature_lookup (face_order s) (pm_interior_faces (pm r)) (pm_num_ifaces_part (pm r)) nqf = Ok (qL r, qR r) /\
     construct_flux_state r (pm_interior_faces (pm r)) (pm_num_ifaces_part (pm r)) nqf ns
       (pm_num_elems_part (pm r), (faces_per_elem s * nqf)%Z, ns) (qL r) (qR r) (porder r) (Fq r) (Fe0 r) = Ok (Fe r)) ->
  (* boundary slots hold nothing *)
  (forall r le pos, (0 <= r < n)%Z -> (forall lf iq sd, ~ slot_of s m pm nqf r lf iq sd le pos) -> Fe0 r le pos k = 0) ->
  (* the two ranks of a face computed the same flux *)
  (forall r r' lf lf' f iq, (0 <= r < n)%Z -> (0 <= r' < n)%Z -> (0 <= iq < nqf)%Z ->
     rd (pm_l2g_iface (pm r)) lf = Ok f -> rd (pm_l2g_iface (pm r')) lf' = Ok f -> Fq r lf iq k = Fq r' lf' iq k) ->
  (* c: coefficients of the function 1 *)
  (forall r p, (0 <= r < n)%Z -> (0 <= p < faces_per_elem s * nqf)%Z -> rsum nb (fun i => c i * fb r p i) = 1) ->
  total pm n nb c k (fun r => face_flux_integral (order r) (faces_per_elem s * nqf) nb ns (fb r) (Fe r) (rs r)) =
  total pm n nb c k rs.
Proof.
  intros A zero iter n m ep pm s nqf nb ns order porder qL qR fb Fq Fe0 Fe rs c k WF PT HV HD HP Hk HR HZ HF HC.
  rewrite (face_integral_total n pm s nqf order nb ns fb Fe rs c k Hk) by (auto; intros; now apply HR).
  assert (SL : forall r, (0 <= r < n)%Z ->
    (forall lf iq sd le pos, slot_of s m pm nqf r lf iq sd le pos -> Fe r le pos k = side_sign sd * Fq r lf iq k) /\
    (forall le pos, (forall lf iq sd, ~ slot_of s m pm nqf r lf iq sd le pos) -> Fe r le pos k = Fe0 r le pos k)).
  { intros r Hr. destruct (HR r Hr) as (_ & PO & LK & ES).
    destruct (C23_face_flux_slots A zero iter n m ep pm s nqf WF PT HV HD HP r Hr) as (qL' & qR' & LK' & _ & _ & G).
    rewrite LK in LK'. injection LK' as <- <-.
    destruct (G ns (porder r) ltac:(lia) PO) as [G1 _]. destruct (G1 (Fq r) (Fe0 r)) as (Fe' & E' & S1 & S2).
    rewrite ES in E'. injection E' as <-. split; [|auto]. intros. now apply S1. }
  rewrite (slots_cancel zero iter n m ep pm WF PT s nqf HV HD HP Fq Fe k).
  - ring.
  - intros. now apply SL.
  - intros r le pos Hr HN. destruct (SL r Hr) as [_ S2]. rewrite S2 by easy. now apply HZ.
  - exact HF.
Qed.
Print Assumptions C24_face_terms_cancel.

(** The exchanged states are the same on the ranks of a face. *)
Lemma exchanged_agree {A} n m ep (pm : Z -> pmesh A) (S X : Z -> fstate arr2) (zero : A) iter :
  run_wf iter n m ep -> partitioned zero iter n m ep pm -> exchanged n m ep pm S X ->
  forall r r' lf lf' f, (0 <= r < n)%Z -> (0 <= r' < n)%Z ->
  rd (pm_l2g_iface (pm r)) lf = Ok f -> rd (pm_l2g_iface (pm r')) lf' = Ok f ->
  rd (fs_L (X r)) lf = rd (fs_L (X r')) lf' /\ rd (fs_R (X r)) lf = rd (fs_R (X r')) lf'.
Proof.
  intros WF PT [_ EX] r r' lf lf' f Hr Hr' R R'.
  destruct (C04_interior_faces A zero iter n m ep pm WF PT) as [_ H4]. destruct (H4 r Hr) as (_ & _ & _ & RF).
  destruct (RF lf f R) as (eL & fL & oL & eR & fR & oR & rL & rR & lL & lR & E1 & OL & OR & _).
  assert (FR : face_ranks m ep f rL rR).
  { exists eL, eR. unfold left_of, right_of, rd2. rewrite E1. repeat split; auto. }
  assert (RG : forall e x, owned_by ep e x -> (0 <= x < n)%Z).
  { intros e x O. pose proof (run_ep _ _ _ _ WF) as [_ FA]. rewrite Forall_forall in FA. apply FA. now apply rd_In in O. }
  destruct (EX r lf f rL rR Hr R FR) as [(a & v & Q1 & Q2 & Q3) (b & w & Q4 & Q5 & Q6)].
  destruct (EX r' lf' f rL rR Hr' R' FR) as [(a' & v' & Q1' & Q2' & Q3') (b' & w' & Q4' & Q5' & Q6')].
  assert (a = a'). { destruct (H4 rL (RG _ _ OL)) as (ND & _). exact (rd_NoDup_inj _ _ _ _ ND Q1 Q1'). }
  assert (b = b'). { destruct (H4 rR (RG _ _ OR)) as (ND & _). exact (rd_NoDup_inj _ _ _ _ ND Q4 Q4'). }
  subst. split; congruence.
Qed.

Lemma blocks_rd nif a lf : (0 <= lf < nif)%Z -> rd (blocks nif a) lf = Ok (a lf).
Proof.
  intros H. unfold blocks. apply (rd_map a (zseq nif) lf lf). apply rd_Ok. split; [lia|]. now apply nth_error_zseq.
Qed.

(** What the ranks computed in one residual evaluation, whatever their normals:
    the fluxes, the per-element buffers, and the sum of the residual against the
    constant function, which is the sum of the buffers. *)
Lemma residual_total :
  forall A (zero : A) iter n m ep pm s nqf nb gamma ft fb fw D Uc rs0 v0 UL UR v2 rs2 c,
  run_wf iter n m ep -> partitioned zero iter n m ep pm ->
  faces_valid s m -> faces_distinct m -> face_points s nqf -> 1 < gamma ->
  same_setup s m pm n nqf nb gamma ft fb fw D -> constant_one s n nqf nb fb D c ->
  (forall r lf iq, (0 <= r < n)%Z -> (0 <= lf < pm_num_ifaces_part (pm r))%Z -> (0 <= iq < nqf)%Z ->
     vdot (space_dim s) (d_normals (D r) lf iq) (d_normals (D r) lf iq) <> 0) ->
  evaluates m ep pm n D Uc rs0 v0 UL UR v2 rs2 ->
  (forall r lf iq, (0 <= r < n)%Z -> (0 <= lf < pm_num_ifaces_part (pm r))%Z -> (0 <= iq < nqf)%Z ->
     admissible (space_dim s) gamma (UL r lf iq) /\ admissible (space_dim s) gamma (UR r lf iq)) ->
  (forall r lf iq k, (0 <= r < n)%Z -> (0 <= lf < pm_num_ifaces_part (pm r))%Z -> (0 <= iq < nqf)%Z -> (0 <= k < space_dim s + 2)%Z ->
     v_Fq (v2 r) lf iq k = numflux ft (space_dim s) gamma (UL r lf iq) (UR r lf iq) (d_normals (D r) lf iq) k * fw iq) /\
  (forall r lf iq sd le pos k, (0 <= r < n)%Z -> slot_of s m pm nqf r lf iq sd le pos -> (0 <= k < space_dim s + 2)%Z ->
     v_Fe (v2 r) le pos k = side_sign sd * v_Fq (v2 r) lf iq k) /\
  (forall r le pos k, (0 <= r < n)%Z -> (forall lf iq sd, ~ slot_of s m pm nqf r lf iq sd le pos) -> v_Fe (v2 r) le pos k = v_Fe (v0 r) le pos k) /\
  (forall k, (0 <= k < space_dim s + 2)%Z -> total pm n nb c k rs2 =
     rsum n (fun r => rsum (pm_num_elems_part (pm r)) (fun e => rsum (faces_per_elem s * nqf) (fun p => v_Fe (v2 r) e p k)))) /\
  (forall r r' lf lf' f iq, (0 <= r < n)%Z -> (0 <= r' < n)%Z -> (0 <= iq < nqf)%Z ->
     rd (pm_l2g_iface (pm r)) lf = Ok f -> rd (pm_l2g_iface (pm r')) lf' = Ok f -> UL r lf iq = UL r' lf' iq /\ UR r lf iq = UR r' lf' iq).
Proof.
  intros A zero iter n m ep pm s nqf nb gamma ft fb fw D Uc rs0 v0 UL UR v2 rs2 c
    WF PT HV HD HP Hg SS [C1 C2] NZ (rs1 & v1 & X & EV1 & EX & EV2) ADM.
  set (dim := space_dim s). assert (Hd : dim23 dim) by (unfold dim, dim23; destruct s; cbn; lia).
  assert (Hd2 : (2 <= dim)%Z) by (destruct Hd; lia).
  (* what each rank computed *)
  assert (PER : forall r, (0 <= r < n)%Z ->
    (forall lf iq k, (0 <= lf < pm_num_ifaces_part (pm r))%Z -> (0 <= iq < nqf)%Z -> (0 <= k < dim + 2)%Z ->
       v_Fq (v2 r) lf iq k = numflux ft dim gamma (UL r lf iq) (UR r lf iq) (d_normals (D r) lf iq) k * fw iq) /\
    (forall lf iq sd le pos k, slot_of s m pm nqf r lf iq sd le pos -> (0 <= k < dim + 2)%Z ->
        v_Fe (v2 r) le pos k = side_sign sd * v_Fq (v2 r) lf iq k) /\
    (forall le pos k, (forall lf iq sd, ~ slot_of s m pm nqf r lf iq sd le pos) -> v_Fe (v2 r) le pos k = v_Fe (v0 r) le pos k) /\
    rs2 r = face_flux_integral (d_order (D r) 3) (faces_per_elem s * nqf) nb (dim + 2)
        (flat_face_basis (faces_per_elem s) nqf nb (d_face_basis (D r))) (v_Fe (v2 r)) (rs1 r) /\
    exists F4 rz, rs1 r = volume_flux_integral (d_order (D r) 1) (d_nq (D r)) nb (dim + 2) dim (d_basis_ref_grad (D r)) F4 rz /\
      forall e i k, (0 <= e < pm_num_elems_part (pm r))%Z -> (0 <= i < nb)%Z -> (0 <= k < dim + 2)%Z -> rz e i k = 0).
  { intros r Hr. destruct (ss_sizes _ _ _ _ _ _ _ _ _ _ _ SS r Hr) as (S1 & S2 & S3 & S4 & S5 & S6 & S7 & S8).
    pose proof (ss_lookup _ _ _ _ _ _ _ _ _ _ _ SS r Hr) as LK. rewrite S7, S8 in LK.
    destruct (ss_orders _ _ _ _ _ _ _ _ _ _ _ SS r Hr) as [O1 O2].
    destruct (ss_phys _ _ _ _ _ _ _ _ _ _ _ SS r Hr) as (P1 & P2 & P3).
    destruct (EV1 r Hr) as [E1 E2]. destruct (EV2 r Hr) as (_ & _ & E3).
    assert (FE01 : v_Fe (v1 r) = v_Fe (v0 r)).
    { unfold face_residuals_before in E2. destruct (construct_face_states _ _ _ _ _ _ _ _ _ _ _ _) as [p|]; [|discriminate].
      cbn [bind] in E2. injection E2 as <-. reflexivity. }
    unfold face_residuals_after in E3. rewrite S1, S2, S3, S4, S5, S6, S7, S8, P1, P2, P3 in E3. fold dim in E3.
    destruct (face_fluxes_ok ft dim gamma (UL r) (UR r) (d_normals (D r)) fw (d_garbage (D r)) (d_garbage (D r))
       (d_porder (D r) 2 (pm_num_ifaces_part (pm r)) nqf) (pm_num_ifaces_part (pm r)) nqf (v_Fq (v1 r)) Hd Hg (O2 _ _ _))
       as (Fq & EF & HF & _).
    { intros lf iq Hlf Hiq. destruct (ADM r lf iq Hr Hlf Hiq). split; [easy|]. split; [easy|]. now apply NZ. }
    rewrite EF in E3. cbn [bind] in E3.
    destruct (C23_face_flux_slots A zero iter n m ep pm s nqf WF PT HV HD HP r Hr) as (qL & qR & LK' & _ & _ & G).
    rewrite LK in LK'. injection LK' as EqL EqR.
    destruct (G (dim + 2)%Z (d_porder (D r) 3 (pm_num_ifaces_part (pm r)) nqf) ltac:(lia) (O2 _ _ _)) as [G1 _].
    destruct (G1 Fq (v_Fe (v1 r))) as (Fe & EE & T1 & T2). rewrite <- EqL, <- EqR in EE.
    rewrite EE in E3. cbn [bind] in E3. injection E3 as Ev Er. rewrite <- Ev, <- Er. cbn [v_Fq v_Fe].
    split; [intros; now apply HF|]. split; [intros; now apply T1|]. split; [intros; rewrite <- FE01; now apply T2|].
    split; [reflexivity|].
    unfold element_residuals in E1.
    destruct (volume_fluxes _ _ _ _ _ _ _ _ _) as [p|]; [|discriminate]. cbn [bind] in E1. injection E1 as E1.
    rewrite <- E1, S2, S3, S4. fold dim.
    exists (snd p), (fun e ib is => if within3 (pm_num_elems_part (pm r), nb, (dim + 2)%Z) e ib is then 0 else rs0 r e ib is). split; [reflexivity|].
    intros e i k He Hi Hk. cbv beta. rewrite within3_intro by easy. reflexivity. }
  split; [intros r lf iq k Hr; now apply (PER r Hr)|]. split; [intros r lf iq sd le pos k Hr; now apply (PER r Hr)|]. split; [intros r le pos k Hr; now apply (PER r Hr)|].
  split; [intros k Hk|].
  - transitivity (total pm n nb c k rs1 + rsum n (fun r => rsum (pm_num_elems_part (pm r)) (fun e => rsum (faces_per_elem s * nqf) (fun p => v_Fe (v2 r) e p k)))).
    + unfold total at 1. rewrite (rsum_ext n _ (fun r => rsum (pm_num_elems_part (pm r)) (fun e => rsum nb (fun i => c i *
       face_flux_integral (d_order (D r) 3) (faces_per_elem s * nqf) nb (dim + 2)
        (flat_face_basis (faces_per_elem s) nqf nb (d_face_basis (D r))) (v_Fe (v2 r)) (rs1 r) e i k)))).
      2:{ intros r Hr. destruct (PER r Hr) as (_ & _ & _ & -> & _). reflexivity. }
      apply (face_integral_total n pm s nqf (fun r => d_order (D r) 3) nb (dim + 2)
       (fun r => flat_face_basis (faces_per_elem s) nqf nb (d_face_basis (D r))) (fun r => v_Fe (v2 r)) rs1 c k Hk).
      * intros r Hr. destruct (ss_sizes _ _ _ _ _ _ _ _ _ _ _ SS r Hr) as (_ & _ & <- & _). apply (ss_orders _ _ _ _ _ _ _ _ _ _ _ SS r Hr).
      * intros r p Hr Hp. assert (0 < faces_per_elem s)%Z by (destruct s; cbn; lia).
        assert (0 < nqf)%Z by nia.
        assert (0 <= p / nqf < faces_per_elem s)%Z by (split; [apply Z.div_pos; lia|apply Z.div_lt_upper_bound; nia]).
        pose proof (Z.mod_pos_bound p nqf ltac:(lia)).
        rewrite <- (C1 (p / nqf)%Z (p mod nqf)%Z) by easy. apply rsum_ext. intros i Hi.
        rewrite flat_face_basis_entry by (auto; lia). now rewrite (ss_face _ _ _ _ _ _ _ _ _ _ _ SS).
    + assert (Z1 : total pm n nb c k rs1 = 0); [|rewrite Z1; ring].
      apply rsum_zero. intros r Hr. apply rsum_zero. intros e He.
      destruct (PER r Hr) as (_ & _ & _ & _ & F4 & rz & -> & HZ).
      destruct (ss_sizes _ _ _ _ _ _ _ _ _ _ _ SS r Hr) as (_ & _ & S3 & _).
      destruct (ss_orders _ _ _ _ _ _ _ _ _ _ _ SS r Hr) as [O1 _]. rewrite S3 in O1.
      rewrite (rsum_ext nb _ (fun i => rsum (d_nq (D r)) (fun q => rsum dim (fun j => c i * d_basis_ref_grad (D r) q i j * F4 e q k j)))).
      * rewrite rsum_swap. apply rsum_zero. intros q Hq. rewrite rsum_swap. apply rsum_zero. intros j Hj.
        rewrite rsum_scal_r, C2 by easy. ring.
      * intros i Hi. rewrite (volume_flux_integral_entry _ (pm_num_elems_part (pm r))) by apply O1.
        rewrite !(proj2 (inb_true _ _)) by easy. cbn [andb]. rewrite HZ by easy. rewrite Rplus_0_l, <- rsum_scal.
        apply rsum_ext. intros q Hq. rewrite <- rsum_scal. apply rsum_ext. intros. ring.
  - intros r r' lf lf' f iq Hr Hr' Hiq R R'.
    destruct (C04_interior_faces A zero iter n m ep pm WF PT) as [_ H4].
    assert (B : (0 <= lf < pm_num_ifaces_part (pm r))%Z) by (destruct (H4 r Hr) as (_ & <- & _); now apply rd_in_range in R).
    assert (B' : (0 <= lf' < pm_num_ifaces_part (pm r'))%Z) by (destruct (H4 r' Hr') as (_ & <- & _); now apply rd_in_range in R').
    destruct (exchanged_agree n m ep pm _ X zero iter WF PT EX r r' lf lf' f Hr Hr' R R') as [QL QR].
    destruct (EV2 r Hr) as (BL & BR & _). destruct (EV2 r' Hr') as (BL' & BR' & _).
    destruct (ss_sizes _ _ _ _ _ _ _ _ _ _ _ SS r Hr) as (_ & _ & _ & _ & _ & _ & S7 & _).
    destruct (ss_sizes _ _ _ _ _ _ _ _ _ _ _ SS r' Hr') as (_ & _ & _ & _ & _ & _ & S7' & _).
    rewrite S7 in BL, BR. rewrite S7' in BL', BR'.
    rewrite <- BL, <- BL', !blocks_rd in QL by easy. rewrite <- BR, <- BR', !blocks_rd in QR by easy.
    injection QL as ->. injection QR as ->. auto.
Qed.

(** ** C24, the whole residual: its sum against the constant function is zero for
    every state variable. *)
Theorem C24_residual_conserves :
  forall A (zero : A) iter n m ep pm s nqf nb gamma ft fb fw D Uc rs0 v0 UL UR v2 rs2 c,
  run_wf iter n m ep -> partitioned zero iter n m ep pm ->
  faces_valid s m -> faces_distinct m -> face_points s nqf -> 1 < gamma ->
  same_setup s m pm n nqf nb gamma ft fb fw D -> normals_agree s pm n nqf D -> constant_one s n nqf nb fb D c ->
  boundary_zero s m pm n nqf v0 ->
  evaluates m ep pm n D Uc rs0 v0 UL UR v2 rs2 ->
  (forall r lf iq, (0 <= r < n)%Z -> (0 <= lf < pm_num_ifaces_part (pm r))%Z -> (0 <= iq < nqf)%Z ->
     admissible (space_dim s) gamma (UL r lf iq) /\ admissible (space_dim s) gamma (UR r lf iq)) ->
  (forall k, (0 <= k < space_dim s + 2)%Z -> total pm n nb c k rs2 = 0) /\
  boundary_zero s m pm n nqf v2.
Proof.
  intros A zero iter n m ep pm s nqf nb gamma ft fb fw D Uc rs0 v0 UL UR v2 rs2 c
    WF PT HV HD HP Hg SS [NZ NA] CO BZ EV ADM.
  destruct (residual_total A zero iter n m ep pm s nqf nb gamma ft fb fw D Uc rs0 v0 UL UR v2 rs2 c WF PT HV HD HP Hg SS CO NZ EV ADM) as (TF & TS & TN & TT & TX).
  split.
  2:{ intros r le pos k Hr HN. rewrite TN by easy. now apply BZ. }
  intros k Hk. rewrite TT by exact Hk.
  apply (slots_cancel zero iter n m ep pm WF PT s nqf HV HD HP (fun r => v_Fq (v2 r)) (fun r => v_Fe (v2 r)) k).
  - intros r lf iq sd le pos Hr HS. now apply TS.
  - intros r le pos Hr HN. rewrite TN by easy. now apply BZ.
  - intros r r' lf lf' f iq Hr Hr' Hiq R R'.
    destruct (C04_interior_faces A zero iter n m ep pm WF PT) as [_ H4].
    assert (B : (0 <= lf < pm_num_ifaces_part (pm r))%Z) by (destruct (H4 r Hr) as (_ & <- & _); now apply rd_in_range in R).
    assert (B' : (0 <= lf' < pm_num_ifaces_part (pm r'))%Z) by (destruct (H4 r' Hr') as (_ & <- & _); now apply rd_in_range in R').
    rewrite !TF by easy. f_equal. destruct (TX r r' lf lf' f iq Hr Hr' Hiq R R') as (-> & ->).
    apply numflux_ext; [|destruct s; cbn; unfold dim23; lia || easy]. intros j Hj. now apply (NA r r' lf lf' f).
Qed.
Print Assumptions C24_residual_conserves.
