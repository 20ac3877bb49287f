(** PropBalance.v -- C87: conservation on meshes of hexahedra with faces of any
    shape: kept if the faces shared by two ranks are parallelograms, and lost
    otherwise. *)
From Coq Require Import ZArith List Lia Reals Lra Bool Permutation FunctionalExtensionality.
From Coquelicot Require Import Coquelicot.
From Verif Require Import Base RBase LinAlgModel LinAlgProof PropLinAlg QuadModel QuadProof PropQuad BasisModel BasisProof PropBasis PropSolver PropNormals.
From Verif Require Import ShapeModel ShapeProof PropShape MeshModel MeshSpec MeshProof PropMesh PhysModel PhysSpec PhysProof SolverModel SolverSpec SolverProof SolverMesh.
From Verif Require Import SolverFaces SolverConserve SolverFlux.
From Verif Require Import StepModel StepProof PropStep PropConserve PropResidual PropIntegral.
From Verif Require CommProof.
From Verif Require Import SetupModel SetupSpec MassProof SetupProof SetupPass SetupFaces PropSetup PropVortex PropMeshRun PropInit PropPost DGSpec DGProof PropDG PropHex PropHexDemo PropHexNormals.
Import ListNotations.
Local Open Scope R_scope.
Open Scope res_scope.

(** ** Specification *)

(** Hexahedra, not folded over, with interior faces of any shape. *)
Definition sound_hexes (m : gmesh R) : Prop := mesh_fits EHex 1 m /\ untangled EHex 1 m.

(** Every interior face has both its elements on one rank, or its two sides are
    the same parallelogram (up to a translation, for periodic meshes). *)
Definition shared_faces_flat (m : gmesh R) (ep : list Z) : Prop :=
  forall f eL kL oL eR kR oR, has_side m f false eL kL oL -> has_side m f true eR kR oR ->
  (exists r, owned_by ep eL r /\ owned_by ep eR r) \/
  ((exists P A B, parallelogram m eL kL P A B) /\ (exists P A B, parallelogram m eR kR P A B) /\ same_surface m eL kL eR kR).

(** ** Fluxes that were computed had non-zero normals *)

Lemma flux_nonzero t dim g UL UR N F0 Fq0 F : dim23 dim -> get_conv_flux_numerical t dim g UL UR N F0 Fq0 = Ok F -> vdot dim N N <> 0.
Proof.
  intros Hd E Z0.
  assert (S0 : cksqrt 0 = Ok 0) by (unfold cksqrt; destruct (Rlt_dec 0 0); [lra|now rewrite sqrt_0]).
  assert (D0 : ckdiv 1 0 = Fail BadArith) by (unfold ckdiv; destruct (Req_EM_T 0 0); [reflexivity|lra]).
  destruct t; cbn [get_conv_flux_numerical] in E.
  - unfold laxfriedrichs in E. cbv zeta in E.
    rewrite (zloop_acc dim (fun i => N i * N i) 0) in E. unfold vdot in Z0. rewrite Z0, Rplus_0_l, S0 in E. cbn [bind] in E. rewrite D0 in E. discriminate.
  - unfold hllc in E.
    assert (DI : dot_inst dim N N = 0).
    { rewrite <- Z0. unfold vdot. destruct Hd as [-> | ->]; cbn -[rsum IZR]; [rewrite rsum_2|rewrite rsum_3]; unfold dot2, dot3; ring. }
    rewrite DI, S0 in E. cbn [bind] in E. rewrite D0 in E. discriminate.
Qed.

Lemma foreach_each {A S} (body : A -> S -> res S) l : forall s s', foreach l body s = Ok s' -> forall x, In x l -> exists t t', body x t = Ok t'.
Proof.
  induction l as [|y l IH]; intros s s' E x Hx; [easy|]. cbn [foreach] in E. destruct (body y s) as [t|] eqn:B; [|discriminate].
  destruct Hx as [->|Hx]; [eauto|]. eapply IH; eauto.
Qed.

Lemma evaluates_nonzero {A} s (m : gmesh A) ep pm n nqf nb gamma ft fb fw D Uc rs0 v0 UL UR v2 rs2 :
  same_setup s m pm n nqf nb gamma ft fb fw D -> evaluates m ep pm n D Uc rs0 v0 UL UR v2 rs2 ->
  forall r lf iq, (0 <= r < n)%Z -> (0 <= lf < pm_num_ifaces_part (pm r))%Z -> (0 <= iq < nqf)%Z ->
     vdot (space_dim s) (d_normals (D r) lf iq) (d_normals (D r) lf iq) <> 0.
Proof.
  intros SS (rs1 & v1 & X & _ & _ & EV2) r lf iq Hr Hlf Hiq.
  destruct (ss_sizes _ _ _ _ _ _ _ _ _ _ _ SS r Hr) as (S1 & S2 & S3 & S4 & S5 & S6 & S7 & S8).
  destruct (ss_orders _ _ _ _ _ _ _ _ _ _ _ SS r Hr) as [O1 O2].
  destruct (EV2 r Hr) as (_ & _ & E3). unfold face_residuals_after in E3. rewrite S2, S6, S7 in E3.
  destruct (face_fluxes _ _ _ _ _ _ _ _ _ _ _) as [Fq|] eqn:E; [|discriminate].
  unfold face_fluxes in E.
  destruct (foreach_each _ _ _ _ E (lf, iq)) as (t & t' & B).
  - apply (Permutation_in _ (Permutation_sym (O2 2%nat (pm_num_ifaces_part (pm r)) nqf))). apply in_prod_iff. now rewrite !In_zseq.
  - unfold face_flux_point in B. destruct (get_conv_flux_numerical _ _ _ _ _ _ _ _) as [F|] eqn:G; [|discriminate].
    apply flux_nonzero in G; [exact G|]. unfold dim23. destruct s; cbn; lia.
Qed.

(** A run that takes a step evaluates the residual. *)
Lemma stepping_evaluates {A} s (m : gmesh A) ep pm n nqf nb gamma D iMM k U w U' w' : (0 < n)%Z ->
  stepping s m ep pm n nqf nb gamma D iMM (S k) U w U' w' -> exists U0 rs w1, evaluation s m ep pm n nqf gamma D U0 w rs w1.
Proof.
  intros Hn H. inversion H as [|k' U1 w1 P U2 w2 U3 w3 HS RA HN]; subst. inversion RA as [P0 wa out tm HD|P0 wa t Ua ka rs wb out w4 HA EV RA']; subst.
  - exfalso. specialize (HD 0%Z ltac:(lia)). destruct HS; discriminate HD.
  - eauto.
Qed.

(** ** Shared flat faces *)

Section Normals.
Context (zero : R) (iter : Z -> list Z -> list Z) (n : Z) (m : gmesh R) (ep : list Z) (pm : Z -> pmesh R).
Context (WF : run_wf iter n m ep) (PT : partitioned zero iter n m ep pm).
Context (FV : faces_valid EHex m) (SF : shared_faces_flat m ep).

Lemma shared_normals bt p h fh : ready EHex bt p 1 m -> all_set_up EHex bt p 1 m pm n h fh ->
  forall r r' lf lf' f iq d, (0 <= r < n)%Z -> (0 <= r' < n)%Z ->
    rd (pm_l2g_iface (pm r)) lf = Ok f -> rd (pm_l2g_iface (pm r')) lf' = Ok f -> (0 <= iq < (p + 2) * (p + 2))%Z -> (0 <= d < 3)%Z ->
    fh_normals (fh r) lf iq d = fh_normals (fh r') lf' iq d.
Proof.
  intros RD AS r r' lf lf' f iq d Hr Hr' Ef Ef' Hq Hd. pose proof RD as [Hg Fit Un BF Op Sup]. pose proof Op as Op'. unfold order_ok in Op'.
  destruct (C04_interior_faces R zero iter n m ep pm WF PT) as [TC H4].
  destruct (Z.eq_dec r r') as [<-|NE].
  { destruct (H4 r Hr) as (ND & _). now rewrite (rd_NoDup_inj _ _ _ _ ND Ef Ef'). }
  assert (FS : exists eL kL oL eR kR oR, has_side m f false eL kL oL /\ has_side m f true eR kR oR).
  { destruct (row_side zero iter n m ep pm WF PT r lf f Hr Ef) as (_ & SD). destruct (SD false) as (eL & HL & _). destruct (SD true) as (eR & HR & _). eauto 10. }
  destruct FS as (eL & kL & oL & eR & kR & oR & HL & HR).
  assert (RK : forall x lx, (0 <= x < n)%Z -> rd (pm_l2g_iface (pm x)) lx = Ok f -> owned_by ep eL x \/ owned_by ep eR x).
  { intros x lx Hx Ex. apply rd_In in Ex. apply TC in Ex; [|exact Hx]. destruct Ex as (e & He & Ow). destruct He as [He|He]; [left|right]; unfold left_of, right_of in He.
    - destruct HL as (L1 & _). cbn [negb] in L1. replace eL with e by congruence. exact Ow.
    - destruct HR as (L1 & _). replace eR with e by congruence. exact Ow. }
  destruct (SF f eL kL oL eR kR oR HL HR) as [(x & OL & OR)|(PL & PR & SS)].
  { exfalso. apply NE. assert (U : forall y ly, (0 <= y < n)%Z -> rd (pm_l2g_iface (pm y)) ly = Ok f -> y = x) by (intros y ly Hy Ey; unfold owned_by in *; destruct (RK y ly Hy Ey); congruence).
    now rewrite (U r lf Hr Ef), (U r' lf' Hr' Ef'). }
  assert (NN : forall r lf, (0 <= r < n)%Z -> rd (pm_l2g_iface (pm r)) lf = Ok f -> fh_normals (fh r) lf iq d = flat_normal m f d).
  2:{ rewrite (NN r lf), (NN r' lf'); auto. }
  clear r r' lf lf' Hr Hr' Ef Ef' NE. intros r lf Hr Ef.
  destruct (AS r Hr) as (jk & eo1 & eo2 & fo & LO & E0).
  destruct (setup_master zero iter n m ep pm WF PT EHex bt p 1 RD r jk eo1 eo2 fo Hr LO) as (h1 & h' & f' & E & _ & _ & E3).
  rewrite E in E0. injection E0 as -> ->. destruct LO as (P1 & P2 & P3).
  destruct (faces_pass zero iter n m ep pm WF PT EHex bt p 1 ltac:(lia) Sup BF Fit r jk fo Hr Op P3) as (f' & x' & w' & fp' & E3' & _ & Nq & _ & EQ & Pts & LK & NR).
  rewrite E3 in E3'. injection E3' as <-. rewrite hex_points in Nq. rewrite Nq in *.
  destruct (Pts 0%Z ltac:(cbn; lia)) as (PF & _). unfold points_on_face in PF.
  destruct (points_on_face_hex 0 0 ((p + 2) * (p + 2)) fp' zero2) as [PP|] eqn:EP; [|discriminate]. injection PF as PF. rewrite PF in EP.
  apply (face_row_normal iter n m ep pm WF FV r ((p + 2) * (p + 2)) fp' zero2 (fh_pts (fh r) 0%Z) lf f (fh_normals (fh r) lf)); try assumption.
  - intros sd e k o HS. destruct sd.
    + destruct (side_fun m f true _ _ _ _ _ _ HS HR) as (-> & -> & ->). exact PR.
    + destruct (side_fun m f false _ _ _ _ _ _ HS HL) as (-> & -> & ->). exact PL.
  - intros a b c a' b' c' H H'.
    destruct (side_fun m f false _ _ _ _ _ _ H HL) as (-> & -> & ->). destruct (side_fun m f true _ _ _ _ _ _ H' HR) as (-> & -> & ->). exact SS.
  - exact (NR lf).
Qed.
End Normals.

(** ** C87: what is conserved *)

(** A run on a mesh of hexahedra, not folded over, with a partition for which
    the faces shared by two ranks are parallelograms; faces inside a rank may have
    any shape.  Over any number of forward Euler or RK4 steps the integral over the
    domain of every conserved quantity does not change. *)
Theorem C87_conservation_partial : forall zero iter n m ep pm bt p h f gamma ft ord pord junk steps U v rs U' v' rs',
  run_wf iter n m ep -> partitioned zero iter n m ep pm -> faces_valid EHex m -> faces_distinct m ->
  sound_hexes m -> shared_faces_flat m ep -> basis_for EHex bt -> supported bt p -> order_ok p -> 1 < gamma ->
  all_set_up EHex bt p 1 m pm n h f -> inner_loops_ok pm n ord pord ->
  (forall r, (0 <= r < n)%Z -> fits (shape_of EHex pm (nfun bt p) r)) ->
  boundary_zero EHex m pm n ((p + 2) * (p + 2)) v ->
  stepping EHex m ep pm n ((p + 2) * (p + 2)) (nfun bt p) gamma (tables EHex bt p pm gamma ft h f ord pord junk) (fun r => vh_iMM (h r))
    steps U (v, rs) U' (v', rs') ->
  exists nq P W, volume_quadrature EHex (2 * p) zero2 zero1 = Ok (nq, P, W) /\
  let integral k U := rsum n (fun r => rsum (pm_num_elems_part (pm r)) (fun le => rsum nq (fun q =>
      W q * jac_det EHex 1 (elem_nodes m (global_elem pm r le)) (P q) * rsum (nfun bt p) (fun i => basis_fn bt p i (P q) * U r le i k)))) in
  forall k, (0 <= k < 5)%Z -> integral k U' = integral k U.
Proof.
  intros zero iter n m ep pm bt p h f gamma ft ord pord junk steps U v rs U' v' rs' WF PT FV FD (Fit & Un) SF BF Sup Op Gm AS IL Fits BZ ST.
  assert (RD : ready EHex bt p 1 m) by (constructor; auto; lia).
  pose proof Op as Op'. unfold order_ok in Op'.
  destruct (C70_setup_consistent zero iter n m ep pm EHex bt p 1 h f gamma ft ord pord junk WF PT RD AS IL) as (fp & fw & _ & FP & SS & CO).
  rewrite hex_points in *.
  destruct (volume_rule EHex (2 * p) ltac:(split; lia)) as (x & w & _ & A). destruct (A zero2 zero1) as (P & W & EQ & _).
  set (nq := ((2 * p + 2) ^ space_dim EHex)%Z) in *.
  exists nq, P, W. split; [exact EQ|]. intros integral k Hk.
  destruct steps as [|steps]; [inversion ST; reflexivity|].
  destruct (Z_lt_le_dec 0 n) as [Hn|Hn]; [|unfold integral; now rewrite !rsum_0 by lia].
  destruct (stepping_evaluates _ _ _ _ _ _ _ _ _ _ _ _ _ _ _ Hn ST) as (U0 & rs0 & w1 & UL & UR & EV & _).
  pose proof (evaluates_nonzero EHex m ep pm n ((p + 2) * (p + 2)) (nfun bt p) gamma ft _ fw _ _ _ _ _ _ _ _ SS EV) as NZ.
  assert (NA : normals_agree EHex pm n ((p + 2) * (p + 2)) (tables EHex bt p pm gamma ft h f ord pord junk)).
  { split; [exact NZ|]. intros r r' lf lf' fc iq j Hr Hr' Ef Ef' Hq Hj.
    exact (shared_normals zero iter n m ep pm WF PT FV SF bt p h f RD AS r r' lf lf' fc iq j Hr Hr' Ef Ef' Hq Hj). }
  pose proof (C65_integrals_conserved R zero iter n m ep pm EHex ((p + 2) * (p + 2)) (nfun bt p) gamma ft _ fw _ (fun r => vh_iMM (h r)) (ones bt) nq
    (fun q i => basis_fn bt p i (P q)) W (fun r le q => jac_det EHex 1 (elem_nodes m (global_elem pm r le)) (P q)) (S steps) U v rs U' v' rs'
    WF PT FV FD FP Gm SS NA CO) as CC.
  apply CC; try assumption.
  - intros q Hq. apply ones_sum; [lia|exact Sup].
  - intros r le Hr Hle. destruct (AS r Hr) as (jk & eo1 & eo2 & fo & LO & E0).
    destruct (C69_inverse_mass_matrices zero iter n m ep pm EHex bt p 1 r jk eo1 eo2 fo (h r) (f r) WF PT RD Hr LO E0) as (nq' & P' & W' & EQ' & Inv).
    rewrite EQ in EQ'. injection EQ' as <- <- <-.
    destruct (local_elem zero iter n m ep pm WF PT r le Hr Hle) as (e & He). unfold global_elem. rewrite He. exact (Inv le e He).
Qed.
Print Assumptions C87_conservation_partial.

(** On one rank nothing is shared: the theorem holds for every mesh. *)
Lemma one_rank_shared iter m ep : run_wf iter 1 m ep -> shared_faces_flat m ep.
Proof.
  intros WF f eL kL oL eR kR oR HL HR. left. exists 0%Z.
  assert (OW : forall e, (0 <= e < gm_num_elems m)%Z -> owned_by ep e 0%Z).
  { intros e He. pose proof (run_ep _ _ _ _ WF) as (LE & FA). destruct (rd_total ep e ltac:(lia)) as (x & Ex). unfold owned_by. rewrite Ex. f_equal.
    rewrite List.Forall_forall in FA. specialize (FA x (rd_In _ _ _ Ex)). lia. }
  destruct (side_nonneg iter 1 m ep WF _ _ _ _ _ HL) as (_ & _ & EL). destruct (side_nonneg iter 1 m ep WF _ _ _ _ _ HR) as (_ & _ & ER). auto.
Qed.

(** ** The balance: what the ranks lose at shared faces *)

Section Balance.
Context {A : Type} (zero : A) (iter : Z -> list Z -> list Z) (n : Z) (m : gmesh A) (ep : list Z) (pm : Z -> pmesh A).
Context (WF : run_wf iter n m ep) (PT : partitioned zero iter n m ep pm).

Lemma ranks_balance (g : Z -> Z -> R) :
  rsum n (fun r => gsum (faces_of m ep r) (fun f => (if (rkR m ep f =? r)%Z then g r f else 0) - (if (rkL m ep f =? r)%Z then g r f else 0))) =
  rsum (gm_nIF m) (fun f => g (rkR m ep f) f - g (rkL m ep f) f).
Proof.
  assert (X : forall l, (forall f, In f l -> (0 <= f < gm_nIF m)%Z) -> rsum n (fun r => gsum (filter (on_rank m ep r) l)
      (fun f => (if (rkR m ep f =? r)%Z then g r f else 0) - (if (rkL m ep f =? r)%Z then g r f else 0))) = gsum l (fun f => g (rkR m ep f) f - g (rkL m ep f) f)).
  { induction l as [|f l IH]; intros Hl.
    - apply rsum_zero. reflexivity.
    - assert (E : forall r, gsum (filter (on_rank m ep r) (f :: l)) (fun f => (if (rkR m ep f =? r)%Z then g r f else 0) - (if (rkL m ep f =? r)%Z then g r f else 0))
         = ((if (r =? rkR m ep f)%Z then g r f else 0) - (if (r =? rkL m ep f)%Z then g r f else 0)) +
           gsum (filter (on_rank m ep r) l) (fun f => (if (rkR m ep f =? r)%Z then g r f else 0) - (if (rkL m ep f =? r)%Z then g r f else 0))).
      { intros r. cbn [filter]. unfold on_rank at 1. rewrite !(Z.eqb_sym r).
        destruct (Z.eqb_spec (rkL m ep f) r), (Z.eqb_spec (rkR m ep f) r); cbn [orb]; rewrite ?gsum_cons; try lra.
        - rewrite (proj2 (Z.eqb_eq _ _) e), (proj2 (Z.eqb_eq _ _) e0). lra.
        - rewrite (proj2 (Z.eqb_eq _ _) e), (proj2 (Z.eqb_neq _ _) n0). lra.
        - rewrite (proj2 (Z.eqb_neq _ _) n0), (proj2 (Z.eqb_eq _ _) e). lra. }
      rewrite (rsum_ext n _ _ (fun r _ => E r)). rewrite rsum_plus, IH by (intros; apply Hl; now right). rewrite gsum_cons.
      rewrite rsum_minus.
      assert (B : forall x, (0 <= x < n)%Z -> rsum n (fun r => if (r =? x)%Z then g r f else 0) = g x f)
        by (intros x Hx; now rewrite (rsum_delta n x (fun r => g r f))).
      assert (Hf : (0 <= f < gm_nIF m)%Z) by (apply Hl; now left).
      assert (FR : face_ranks m ep f (rkL m ep f) (rkR m ep f)) by (apply (face_ranks_rk m n ep (run_mesh _ _ _ _ WF) (run_ep _ _ _ _ WF)); auto).
      destruct FR as (eL & eR & _ & _ & OL & OR).
      assert (RG : forall e r, owned_by ep e r -> (0 <= r < n)%Z).
      { intros e r O. pose proof (run_ep _ _ _ _ WF) as [_ FA]. rewrite List.Forall_forall in FA. apply FA. now apply rd_In in O. }
      rewrite !B by eauto. lra. }
  apply X. intros f. apply In_zseq.
Qed.

Context (s : eshape) (nqf : Z) (HV : faces_valid s m) (HD : faces_distinct m) (HP : face_points s nqf).

Lemma slots_balance (Fq Fe : Z -> arr3) (Fg : Z -> Z -> Z -> R) k :
  (forall r lf iq sd le pos, (0 <= r < n)%Z -> slot_of s m pm nqf r lf iq sd le pos -> Fe r le pos k = side_sign sd * Fq r lf iq k) ->
  (forall r le pos, (0 <= r < n)%Z -> (forall lf iq sd, ~ slot_of s m pm nqf r lf iq sd le pos) -> Fe r le pos k = 0) ->
  (forall r lf f iq, (0 <= r < n)%Z -> (0 <= iq < nqf)%Z -> rd (pm_l2g_iface (pm r)) lf = Ok f -> Fq r lf iq k = Fg r f iq) ->
  rsum n (fun r => rsum (pm_num_elems_part (pm r)) (fun e => rsum (faces_per_elem s * nqf) (fun p => Fe r e p k))) =
  rsum (gm_nIF m) (fun f => rsum nqf (fun iq => Fg (rkR m ep f) f iq - Fg (rkL m ep f) f iq)).
Proof.
  intros H1 H2 HG.
  pose proof (run_mesh _ _ _ _ WF) as MW. pose proof (run_ep _ _ _ _ WF) as EW.
  transitivity (rsum (gm_nIF m) (fun f => rsum nqf (fun iq => Fg (rkR m ep f) f iq) - rsum nqf (fun iq => Fg (rkL m ep f) f iq))).
  2:{ apply rsum_ext. intros f Hf. now rewrite rsum_minus. }
  rewrite <- (ranks_balance (fun r f => rsum nqf (fun iq => Fg r f iq))).
  apply rsum_ext. intros r Hr.
  destruct (lookup_total zero iter n m ep pm WF PT s nqf r Hr) as (qL & qR & HQ).
  destruct (rows_ok zero iter n m ep pm WF PT s nqf r qL qR Hr HV HD HP HQ) as [W _].
  destruct (C04_interior_faces A zero iter n m ep pm WF PT) as [_ H4]. destruct (H4 r Hr) as (_ & EL & _ & RF).
  rewrite (rank_sum _ _ _ _ _ _ qL qR W (Fq r) (Fe r) k).
  - apply (local_sum zero iter n m ep pm WF PT r); [easy|]. intros lf f R.
    assert (Hlf : (0 <= lf < pm_num_ifaces_part (pm r))%Z) by (apply rd_in_range in R; lia).
    destruct (RF lf f R) as (eL & fL & oL & eR & fR & oR & rL & rR & lL & lR & E1 & OL & OR & E2 & _ & _).
    assert (FR : face_ranks m ep f rL rR).
    { exists eL, eR. unfold left_of, right_of, rd2. rewrite E1. repeat split; auto. }
    apply (face_ranks_rk m n ep MW EW) in FR. destruct FR as (_ & -> & ->).
    unfold srank, ent, rd2. rewrite E2. cbn [bind].
    change (rd [rL; lL; fL; oL; rR; lR; fR; oR] (col true 0)) with (Ok (A:=Z) rR).
    change (rd [rL; lL; fL; oL; rR; lR; fR; oR] (col false 0)) with (Ok (A:=Z) rL). cbv iota.
    rewrite rsum_minus. f_equal.
    + destruct (rR =? r)%Z; [apply rsum_ext; intros; now apply HG|now apply rsum_zero].
    + destruct (rL =? r)%Z; [apply rsum_ext; intros; now apply HG|now apply rsum_zero].
  - intros lf sd iq Hlf Hiq ER. apply (H1 r lf iq sd); [easy|].
    apply (slot_of_iff zero iter n m ep pm WF PT s nqf HV HD HP r lf iq sd _ _ qL qR Hr HQ).
    rewrite <- surjective_pairing. auto.
  - intros e p He Hp Hn. apply H2; [easy|]. intros lf iq sd C.
    apply (slot_of_iff zero iter n m ep pm WF PT s nqf HV HD HP r lf iq sd _ _ qL qR Hr HQ) in C.
    destruct C as (C1 & C2 & C3 & C4). exact (Hn lf sd iq C1 C2 C3 C4).
Qed.
End Balance.

(** One residual evaluation, with the normals the ranks have: the sum of the
    residual against the constant function is the sum over the interior faces of
    the flux computed by the rank of the right element minus the flux computed by
    the rank of the left one. *)
Theorem C87_balance : forall A (zero : A) iter n m ep pm s nqf nb gamma ft fb fw D Uc rs0 v0 UL UR v2 rs2 c k F,
  run_wf iter n m ep -> partitioned zero iter n m ep pm ->
  faces_valid s m -> faces_distinct m -> face_points s nqf -> 1 < gamma ->
  same_setup s m pm n nqf nb gamma ft fb fw D -> constant_one s n nqf nb fb D c -> boundary_zero s m pm n nqf v0 ->
  evaluates m ep pm n D Uc rs0 v0 UL UR v2 rs2 ->
  (forall r lf iq, (0 <= r < n)%Z -> (0 <= lf < pm_num_ifaces_part (pm r))%Z -> (0 <= iq < nqf)%Z ->
     admissible (space_dim s) gamma (UL r lf iq) /\ admissible (space_dim s) gamma (UR r lf iq)) ->
  (* F r f q: the flux of state variable k that rank r computes at point q of face f of the mesh *)
  (0 <= k < space_dim s + 2)%Z ->
  (forall r lf f q, (0 <= r < n)%Z -> rd (pm_l2g_iface (pm r)) lf = Ok f -> (0 <= q < nqf)%Z ->
     numflux ft (space_dim s) gamma (UL r lf q) (UR r lf q) (d_normals (D r) lf q) k = F r f q) ->
  (* rL f, rR f: the ranks of its elements *)
  forall rL rR, (forall f, (0 <= f < gm_nIF m)%Z -> face_ranks m ep f (rL f) (rR f)) ->
  total pm n nb c k rs2 = rsum (gm_nIF m) (fun f => rsum nqf (fun q => fw q * (F (rR f) f q - F (rL f) f q))).
Proof.
  intros A zero iter n m ep pm s nqf nb gamma ft fb fw D Uc rs0 v0 UL UR v2 rs2 c k F WF PT HV HD HP Hg SS CO BZ EV AD Hk HF rL rR FR.
  pose proof (evaluates_nonzero s m ep pm n nqf nb gamma ft fb fw D _ _ _ _ _ _ _ SS EV) as NZ.
  destruct (residual_total A zero iter n m ep pm s nqf nb gamma ft fb fw D Uc rs0 v0 UL UR v2 rs2 c WF PT HV HD HP Hg SS CO NZ EV AD) as (TF & TS & TN & TT & TX).
  rewrite TT by exact Hk.
  rewrite (slots_balance zero iter n m ep pm WF PT s nqf HV HD HP (fun r => v_Fq (v2 r)) (fun r => v_Fe (v2 r)) (fun r f iq => F r f iq * fw iq) k).
  - apply rsum_ext. intros f Hf. specialize (FR f Hf). apply (face_ranks_rk m n ep (run_mesh _ _ _ _ WF) (run_ep _ _ _ _ WF)) in FR. destruct FR as (_ & -> & ->).
    apply rsum_ext. intros q Hq. ring.
  - intros r lf iq sd le pos Hr HS. now apply TS.
  - intros r le pos Hr HN. rewrite TN by easy. now apply BZ.
  - intros r lf f iq Hr Hiq Ef. destruct (C04_interior_faces A zero iter n m ep pm WF PT) as [_ H4].
    assert (B : (0 <= lf < pm_num_ifaces_part (pm r))%Z) by (destruct (H4 r Hr) as (_ & <- & _); now apply rd_in_range in Ef).
    rewrite TF by easy. now rewrite (HF r lf f iq).
Qed.
Print Assumptions C87_balance.
