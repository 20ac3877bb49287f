(** PropMeshRun.v -- C71: from the mesh file to conservation, for meshes of
    straight-sided quadrilaterals. *)
From Coq Require Import ZArith List Lia Reals Lra Bool Permutation.
From Coquelicot Require Import Coquelicot.
From Verif Require Import Base RBase LinAlgModel LinAlgProof PropLinAlg QuadModel QuadProof PropQuad BasisModel BasisProof PropBasis PropSolver PropNormals.
From Verif Require Import ShapeModel ShapeProof PropShape MeshModel MeshSpec MeshProof PropMesh PhysModel PhysSpec SolverModel SolverSpec SolverProof SolverMesh.
From Verif Require Import StepModel StepProof PropStep PropConserve PropResidual PropIntegral.
From Verif Require Import SetupModel SetupSpec MassProof SetupProof SetupPass SetupFaces PropSetup.
Import ListNotations.
Local Open Scope R_scope.
Open Scope res_scope.

(** A mesh of straight-sided convex quadrilaterals, corners listed as in the mesh
    file (tensor order), counter-clockwise along the boundary. *)
Definition straight_quads (m : gmesh R) : Prop :=
  mesh_fits EQuad 1 m /\ forall e, (0 <= e < gm_num_elems m)%Z -> convex_ccw (elem_nodes m e).

(** The two sides of an interior face are the same edge, run through in opposite
    directions -- up to a translation, for periodic meshes. *)
Definition conforming (m : gmesh R) : Prop :=
  forall f eL kL oL eR kR oR, has_side m f false eL kL oL -> has_side m f true eR kR oR ->
  let XL := elem_nodes m eL in let XR := elem_nodes m eR in
  exists v : Z -> R, forall d, (0 <= d < 2)%Z ->
    XR (ccw kR) d = XL (ccw (kL + 1)) d + v d /\ XR (ccw (kR + 1)) d = XL (ccw kL) d + v d.

Lemma place_bilinear X y d : place EQuad 1 X y d =
  ((1 - y 0%Z) * (1 - y 1%Z) * X 0%Z d + (1 + y 0%Z) * (1 - y 1%Z) * X 1%Z d +
   (1 - y 0%Z) * (1 + y 1%Z) * X 2%Z d + (1 + y 0%Z) * (1 + y 1%Z) * X 3%Z d) / 4.
Proof.
  unfold place, geom_basis. rewrite map_quad by lia. change (1 + 1)%Z with 2%Z. rewrite rsum_2, !rsum_2. rewrite !LL1 by lia. cbn -[IZR]. lra.
Qed.

Lemma jacobian_bilinear X y j :
  jacobian EQuad 1 X y j 0%Z = ((1 - y 1%Z) * (X 1%Z j - X 0%Z j) + (1 + y 1%Z) * (X 3%Z j - X 2%Z j)) / 4 /\
  jacobian EQuad 1 X y j 1%Z = ((1 - y 0%Z) * (X 2%Z j - X 0%Z j) + (1 + y 0%Z) * (X 3%Z j - X 1%Z j)) / 4.
Proof.
  unfold jacobian. remember (y 0%Z) as a eqn:Ea. remember (y 1%Z) as b eqn:Eb. split; apply is_derive_unique.
  - apply (is_derive_ext (fun t => ((1 - t) * (1 - b) * X 0%Z j + (1 + t) * (1 - b) * X 1%Z j + (1 - t) * (1 + b) * X 2%Z j + (1 + t) * (1 + b) * X 3%Z j) / 4)).
    + intros t. rewrite place_bilinear. unfold with_coord. cbn [Z.eqb]. rewrite <- Eb. reflexivity.
    + generalize (X 0%Z j) (X 1%Z j) (X 2%Z j) (X 3%Z j). intros x0 x1 x2 x3. auto_derive; [exact I|]. field.
  - apply (is_derive_ext (fun t => ((1 - a) * (1 - t) * X 0%Z j + (1 + a) * (1 - t) * X 1%Z j + (1 - a) * (1 + t) * X 2%Z j + (1 + a) * (1 + t) * X 3%Z j) / 4)).
    + intros t. rewrite place_bilinear. unfold with_coord. cbn [Z.eqb]. rewrite <- Ea. reflexivity.
    + generalize (X 0%Z j) (X 1%Z j) (X 2%Z j) (X 3%Z j). intros x0 x1 x2 x3. auto_derive; [exact I|]. field.
Qed.

Lemma corner_combo a b x0 y0 x1 y1 x2 y2 x3 y3 : -1 < a < 1 -> -1 < b < 1 ->
  0 < (x1 - x0) * (y3 - y1) - (y1 - y0) * (x3 - x1) -> 0 < (x3 - x1) * (y2 - y3) - (y3 - y1) * (x2 - x3) ->
  0 < (x2 - x3) * (y0 - y2) - (y2 - y3) * (x0 - x2) -> 0 < (x0 - x2) * (y1 - y0) - (y0 - y2) * (x1 - x0) ->
  0 < ((1 - b) * (x1 - x0) + (1 + b) * (x3 - x2)) / 4 * (((1 - a) * (y2 - y0) + (1 + a) * (y3 - y1)) / 4) -
      ((1 - a) * (x2 - x0) + (1 + a) * (x3 - x1)) / 4 * (((1 - b) * (y1 - y0) + (1 + b) * (y3 - y2)) / 4).
Proof.
  intros Ha Hb C0 C1 C2 C3.
  apply (Rlt_le_trans _ (((1 + a) * (1 - b) * ((x1 - x0) * (y3 - y1) - (y1 - y0) * (x3 - x1)) +
     (1 + a) * (1 + b) * ((x3 - x1) * (y2 - y3) - (y3 - y1) * (x2 - x3)) +
     (1 - a) * (1 + b) * ((x2 - x3) * (y0 - y2) - (y2 - y3) * (x0 - x2)) +
     (1 - a) * (1 - b) * ((x0 - x2) * (y1 - y0) - (y0 - y2) * (x1 - x0))) / 16 +
     0)); [|right].
  - rewrite Rplus_0_r. apply Rdiv_lt_0_compat; [|lra]. repeat apply Rplus_lt_0_compat; repeat apply Rmult_lt_0_compat; lra.
  - field.
Qed.

(** The determinant inside is a positive combination of its corner values. *)
Lemma convex_untangled m : straight_quads m -> untangled EQuad 1 m.
Proof.
  intros (Fit & Cv) e y He Hy. specialize (Cv e He). set (X := elem_nodes m e) in *.
  pose proof (Hy 0%Z ltac:(cbn; lia)) as Y0. pose proof (Hy 1%Z ltac:(cbn; lia)) as Y1.
  pose proof (Cv 0%Z ltac:(lia)) as C0. pose proof (Cv 1%Z ltac:(lia)) as C1. pose proof (Cv 2%Z ltac:(lia)) as C2. pose proof (Cv 3%Z ltac:(lia)) as C3.
  cbv zeta in C0, C1, C2, C3. unfold cross2 in *.
  change (ccw 0) with 0%Z in *. change (ccw (0 + 1)) with 1%Z in *. change (ccw (0 + 2)) with 3%Z in *.
  change (ccw 1) with 1%Z in *. change (ccw (1 + 1)) with 3%Z in *. change (ccw (1 + 2)) with 2%Z in *.
  change (ccw 2) with 3%Z in *. change (ccw (2 + 1)) with 2%Z in *. change (ccw (2 + 2)) with 0%Z in *.
  change (ccw 3) with 2%Z in *. change (ccw (3 + 1)) with 0%Z in *. change (ccw (3 + 2)) with 1%Z in *.
  unfold jac_det, small_det, det2, minor2. cbn [space_dim Z.eqb Pos.eqb].
  destruct (jacobian_bilinear X y 0) as (-> & ->). destruct (jacobian_bilinear X y 1) as (-> & ->).
  apply corner_combo; assumption.
Qed.

Section Normals.
Context (zero : R) (iter : Z -> list Z -> list Z) (n : Z) (m : gmesh R) (ep : list Z) (pm : Z -> pmesh R).
Context (WF : run_wf iter n m ep) (PT : partitioned zero iter n m ep pm).
Context (FV : faces_valid EQuad m) (SQ : straight_quads m) (CF : conforming m).

Lemma straight_row_normal r nqf fp e0 pts0 lf f N : (0 <= r < n)%Z -> points_on_face_quad 0 0 nqf fp e0 = Some pts0 ->
  normals_row m ep pm EQuad 1 r nqf pts0 lf N -> rd (pm_l2g_iface (pm r)) lf = Ok f ->
  exists eL kL oL, has_side m f false eL kL oL /\ forall iq, (0 <= iq < nqf)%Z ->
    N iq 0%Z = (elem_nodes m eL (ccw (kL + 1)) 1%Z - elem_nodes m eL (ccw kL) 1%Z) / 2 /\
    N iq 1%Z = - (elem_nodes m eL (ccw (kL + 1)) 0%Z - elem_nodes m eL (ccw kL) 0%Z) / 2.
Proof.
  intros Hr HP NR Ef. destruct (NR f Ef) as (sd & e & k & o & le & c & HS & Hle & Ow & _ & Vc & V).
  assert (CC : forall k, (0 <= ccw k < 4)%Z).
  { intros k'. unfold ccw. pose proof (Z.mod_pos_bound k' 4 ltac:(lia)) as B. assert (C : (k' mod 4 = 0 \/ k' mod 4 = 1 \/ k' mod 4 = 2 \/ k' mod 4 = 3)%Z) by lia.
    destruct C as [-> | [-> | [-> | ->]]]; (split; [discriminate|reflexivity]). }
  assert (Vc' : forall k d, (0 <= d < 2)%Z -> c (ccw k) d = elem_nodes m e (ccw k) d).
  { intros k' d Hd. apply Vc; [cbn [geom_basis]; rewrite nfun_quad; exact (CC k')|exact Hd]. }
  destruct (side_nonneg iter n m ep WF f sd e k o HS) as (K0 & _ & _). destruct (FV f sd e k o HS) as (K1 & _). cbn in K1.
  assert (SN : forall iq, (0 <= iq < nqf)%Z -> let sg := if sd then -1 else 1 in
     N iq 0%Z = sg * (elem_nodes m e (ccw (k + 1)) 1%Z - elem_nodes m e (ccw k) 1%Z) / 2 /\
     N iq 1%Z = - sg * (elem_nodes m e (ccw (k + 1)) 0%Z - elem_nodes m e (ccw k) 0%Z) / 2).
  { intros iq Hq. rewrite !V by (cbn; lia). unfold shape_normal. 
    destruct (straight_normal (if sd then -1 else 1) k nqf c fp e0 pts0 iq ltac:(lia) Hq HP) as (S0 & S1).
    cbv zeta. rewrite S0, S1, !Vc' by lia. auto. }
  destruct sd; cbn [negb] in SN.
  - destruct (row_side zero iter n m ep pm WF PT r lf f Hr Ef) as (_ & RS).
    assert (EX : exists eL kL oL, has_side m f false eL kL oL).
    { destruct HS as (H1 & _). unfold has_side, rd2 in *. destruct (rd (gm_IF m) f) as [row|] eqn:Er; [|discriminate].
      pose proof (run_mesh _ _ _ _ WF) as MW. pose proof (wf_if _ MW) as FA. rewrite Forall_forall in FA.
      destruct (FA row (rd_In _ _ _ Er)) as (a & b & c' & a' & b' & c'' & -> & _). exists a, b, c'. repeat split. }
    destruct EX as (eL & kL & oL & HL). exists eL, kL, oL. split; [exact HL|]. intros iq Hq.
    destruct (SN iq Hq) as (S0 & S1). destruct (CF f eL kL oL e k o HL HS) as (v & Cv).
    rewrite S0, S1. destruct (Cv 0%Z ltac:(lia)) as (-> & ->). destruct (Cv 1%Z ltac:(lia)) as (-> & ->). split; field.
  - exists e, k, o. split; [exact HS|]. intros iq Hq. destruct (SN iq Hq) as (-> & ->). split; field.
Qed.

Lemma straight_normals_agree bt p h fh gamma ft ord pord junk : ready EQuad bt p 1 m ->
  all_set_up EQuad bt p 1 m pm n h fh ->
  normals_agree EQuad pm n (face_rule_points EQuad p ^ (space_dim EQuad - 1)) (tables EQuad bt p pm gamma ft h fh ord pord junk).
Proof.
  intros RD AS. pose proof RD as [Hg Fit Un BF Op Sup]. pose proof Op as Op'. unfold order_ok in Op'.
  set (nqf := (face_rule_points EQuad p ^ (space_dim EQuad - 1))%Z).
  assert (NN : forall r lf f, (0 <= r < n)%Z -> rd (pm_l2g_iface (pm r)) lf = Ok f ->
    exists eL kL oL, has_side m f false eL kL oL /\ forall iq, (0 <= iq < nqf)%Z ->
      fh_normals (fh r) lf iq 0%Z = (elem_nodes m eL (ccw (kL + 1)) 1%Z - elem_nodes m eL (ccw kL) 1%Z) / 2 /\
      fh_normals (fh r) lf iq 1%Z = - (elem_nodes m eL (ccw (kL + 1)) 0%Z - elem_nodes m eL (ccw kL) 0%Z) / 2).
  { intros r lf f Hr Ef. destruct (AS r Hr) as (jk & eo1 & eo2 & fo & LO & E0).
    destruct (setup_master zero iter n m ep pm WF PT EQuad bt p 1 RD r jk eo1 eo2 fo Hr LO) as (h1 & h' & f' & E & _ & _ & E3).
    rewrite E in E0. injection E0 as -> ->. destruct LO as (P1 & P2 & P3).
    destruct (faces_pass zero iter n m ep pm WF PT EQuad bt p 1 ltac:(lia) Sup BF Fit r jk fo Hr Op P3) as (f' & x' & w' & fp' & E3' & _ & Nq & _ & EQ & Pts & LK & NR).
    rewrite E3 in E3'. injection E3' as <-. fold nqf in Nq. rewrite Nq in *.
    destruct (Pts 0%Z ltac:(cbn; lia)) as (PF & _). unfold points_on_face in PF.
    destruct (points_on_face_quad 0 0 nqf fp' zero2) as [PP|] eqn:EP; [|discriminate]. injection PF as PF. rewrite PF in EP.
    apply (straight_row_normal r nqf fp' zero2 (fh_pts (fh r) 0%Z) lf f (fh_normals (fh r) lf) Hr EP (NR lf) Ef). }
  split.
  - intros r lf iq Hr Hlf Hq. destruct (local_faces zero iter n m ep pm WF PT r lf Hr Hlf) as (f & Ef).
    destruct (NN r lf f Hr Ef) as (eL & kL & oL & HL & V). destruct (V iq Hq) as (V0 & V1).
    destruct (side_nonneg iter n m ep WF f false eL kL oL HL) as (K0 & _ & KE). destruct (FV f false eL kL oL HL) as (K1 & _). cbn in K1.
    destruct SQ as (_ & Cv). specialize (Cv eL KE kL ltac:(lia)). cbv zeta in Cv. unfold cross2 in Cv.
    unfold tables, residual_data. cbn [d_normals space_dim]. unfold vdot. rewrite rsum_2, V0, V1. intros Z0.
    set (dy := elem_nodes m eL (ccw (kL + 1)) 1%Z - elem_nodes m eL (ccw kL) 1%Z) in *.
    set (dx := elem_nodes m eL (ccw (kL + 1)) 0%Z - elem_nodes m eL (ccw kL) 0%Z) in *.
    assert (S2 : dy ^ 2 + dx ^ 2 = 0) by (replace (dy ^ 2 + dx ^ 2) with (4 * (dy / 2 * (dy / 2) + - dx / 2 * (- dx / 2))) by field; rewrite Z0; ring).
    pose proof (pow2_ge_0 dy). pose proof (pow2_ge_0 dx).
    assert (dy = 0) by (apply Rsqr_0_uniq; unfold Rsqr; nra). assert (dx = 0) by (apply Rsqr_0_uniq; unfold Rsqr; nra).
    rewrite H1, H2 in Cv. lra.
  - intros r r' lf lf' f iq j Hr Hr' Ef Ef' Hq Hj.
    destruct (NN r lf f Hr Ef) as (eL & kL & oL & HL & V). destruct (NN r' lf' f Hr' Ef') as (eL' & kL' & oL' & HL' & V').
    destruct (side_fun m f false _ _ _ _ _ _ HL HL') as (<- & <- & <-).
    unfold tables, residual_data. cbn [d_normals]. cbn in Hj. assert (C : (j = 0 \/ j = 1)%Z) by lia.
    destruct (V iq Hq) as (V0 & V1), (V' iq Hq) as (V0' & V1'). destruct C as [-> | ->]; congruence.
Qed.
End Normals.

(** Number in the mesh file of a local element. *)
Definition global_elem (pm : Z -> pmesh R) (r le : Z) : Z := match rd (pm_l2g_elem (pm r)) le with Ok e => e | _ => 0%Z end.

(** ** C71: conservation *)

(** A run on a mesh of straight-sided convex quadrilaterals whose interior faces
    match (possibly periodically): all tables come from the solver's own set-up.
    Over any number of forward Euler or RK4 steps the integral over the domain of
    every conserved quantity -- by the quadrature rule of the mass matrix, with
    the exact Jacobian determinants of the mesh's elements -- does not change. *)
Theorem C71_conservation_from_mesh : forall zero iter n m ep pm bt p h f gamma ft ord pord junk steps U v rs U' v' rs',
  run_wf iter n m ep -> partitioned zero iter n m ep pm -> faces_valid EQuad m -> faces_distinct m ->
  straight_quads m -> conforming m -> basis_for EQuad bt -> supported bt p -> order_ok p -> 1 < gamma ->
  all_set_up EQuad bt p 1 m pm n h f -> inner_loops_ok pm n ord pord ->
  (forall r, (0 <= r < n)%Z -> fits (shape_of EQuad pm (nfun bt p) r)) ->
  boundary_zero EQuad m pm n (p + 1) v ->
  stepping EQuad m ep pm n (p + 1) (nfun bt p) gamma (tables EQuad bt p pm gamma ft h f ord pord junk) (fun r => vh_iMM (h r))
    steps U (v, rs) U' (v', rs') ->
  exists nq P W, volume_quadrature EQuad (2 * p) zero2 zero1 = Ok (nq, P, W) /\
  let integral k U := rsum n (fun r => rsum (pm_num_elems_part (pm r)) (fun le => rsum nq (fun q =>
      W q * jac_det EQuad 1 (elem_nodes m (global_elem pm r le)) (P q) * rsum (nfun bt p) (fun i => basis_fn bt p i (P q) * U r le i k)))) in
  forall k, (0 <= k < 4)%Z -> integral k U' = integral k U.
Proof.
  intros zero iter n m ep pm bt p h f gamma ft ord pord junk steps U v rs U' v' rs' WF PT FV FD SQ CF BF Sup Op Gm AS IL Fits BZ ST.
  assert (RD : ready EQuad bt p 1 m) by (constructor; auto; [lia|apply SQ|now apply convex_untangled]).
  pose proof Op as Op'. unfold order_ok in Op'.
  destruct (C70_setup_consistent zero iter n m ep pm EQuad bt p 1 h f gamma ft ord pord junk WF PT RD AS IL) as (fp & fw & _ & FP & SS & CO).
  pose proof (straight_normals_agree zero iter n m ep pm WF PT FV SQ CF bt p h f gamma ft ord pord junk RD AS) as NA.
  assert (E1 : (face_rule_points EQuad p ^ (space_dim EQuad - 1))%Z = (p + 1)%Z) by (cbn [face_rule_points space_dim]; change (2 - 1)%Z with 1%Z; apply Z.pow_1_r).
  rewrite E1 in *.
  destruct (volume_rule EQuad (2 * p) ltac:(split; lia)) as (x & w & _ & A). destruct (A zero2 zero1) as (P & W & EQ & _).
  set (nq := ((2 * p + 2) ^ space_dim EQuad)%Z) in *.
  exists nq, P, W. split; [exact EQ|]. intros integral k Hk.
  pose proof (C65_integrals_conserved R zero iter n m ep pm EQuad (p + 1) (nfun bt p) gamma ft _ fw _ (fun r => vh_iMM (h r)) (ones bt) nq
    (fun q i => basis_fn bt p i (P q)) W (fun r le q => jac_det EQuad 1 (elem_nodes m (global_elem pm r le)) (P q)) steps U v rs U' v' rs'
    WF PT FV FD FP Gm SS NA CO) as CC.
  apply CC; try assumption.
  - intros q Hq. apply ones_sum; [lia|exact Sup].
  - intros r le Hr Hle. destruct (AS r Hr) as (jk & eo1 & eo2 & fo & LO & E0).
    destruct (C69_inverse_mass_matrices zero iter n m ep pm EQuad bt p 1 r jk eo1 eo2 fo (h r) (f r) WF PT RD Hr LO E0) as (nq' & P' & W' & EQ' & Inv).
    rewrite EQ in EQ'. injection EQ' as <- <- <-.
    destruct (local_elem zero iter n m ep pm WF PT r le Hr Hle) as (e & He). unfold global_elem. rewrite He. exact (Inv le e He).
Qed.
Print Assumptions C71_conservation_from_mesh.

(** ** A concrete run *)

(** Four quadrilaterals (not parallelograms) around the node (11, 9), on three
    ranks; second order Lagrange basis; gas at rest. *)
Definition demo_rmesh : gmesh R :=
  mkGMesh 2 4 9 4 4 [0;1;3;4; 1;2;4;5; 3;4;6;7; 4;5;7;8]%Z
    [[0;0];[10;0];[20;0];[0;10];[11;9];[20;10];[0;20];[10;20];[20;20]]
    [[0;1;0;1;3;1]; [2;1;0;3;3;1]; [0;2;0;2;0;1]; [1;2;0;3;0;1]]%Z.

Ltac four e := let C := fresh in assert (C : (e = 0 \/ e = 1 \/ e = 2 \/ e = 3)%Z) by lia; destruct C as [-> | [-> | [-> | ->]]].

Lemma demo_rrun : run_wf (fun _ l => rev l) 3 demo_rmesh demo_ep.
Proof.
  constructor.
  - constructor; try (cbn -[IZR]; unfold UINT_MAX; lia); try reflexivity.
    + repeat constructor; cbn; lia.
    + repeat (apply Forall_cons; [reflexivity|]). apply Forall_nil.
    + repeat (apply Forall_cons; [do 6 eexists; split; [reflexivity|]; cbn; lia|]). apply Forall_nil.
  - split; [reflexivity|]. repeat constructor; cbn; lia.
  - intros r l. symmetry. apply Permutation_rev.
Qed.

Lemma demo_sides f sd e k o : has_side demo_rmesh f sd e k o ->
  (0 <= f < 4)%Z /\ [e; k; o] = (if sd then skipn 3 else firstn 3) (nth (Z.to_nat f) (gm_IF demo_rmesh) []).
Proof.
  intros (H1 & H2 & H3). unfold rd2 in *. destruct (rd (gm_IF demo_rmesh) f) as [row|] eqn:E; [|discriminate].
  pose proof (rd_in_range _ _ _ E) as Rg. change (zlen (gm_IF demo_rmesh)) with 4%Z in Rg. split; [exact Rg|].
  cbn [bind] in *. four f; injection E as <-; destruct sd; injection H1 as <-; injection H2 as <-; injection H3 as <-; reflexivity.
Qed.

Example demo_straight : straight_quads demo_rmesh /\ conforming demo_rmesh /\ faces_valid EQuad demo_rmesh /\ faces_distinct demo_rmesh.
Proof.
  split; [|split; [|split]].
  - split; [split; reflexivity|]. intros e He k Hk. change (gm_num_elems demo_rmesh) with 4%Z in He. four e; four k; cbv -[IZR Rminus Rmult Rlt]; lra.
  - intros f eL kL oL eR kR oR HL HR XL XR. apply demo_sides in HL, HR. destruct HL as (Hf & HL), HR as (_ & HR). subst XL XR.
    four f; injection HL as -> -> ->; injection HR as -> -> ->; exists (fun _ => 0); intros d Hd;
      (assert (C : (d = 0 \/ d = 1)%Z) by lia); destruct C as [-> | ->]; cbv -[IZR Rplus]; lra.
  - intros f sd e k o H. apply demo_sides in H. destruct H as (Hf & H). four f; destruct sd; injection H as -> -> ->; cbn; lia.
  - intros f sd e k o f' sd' o' H H'. apply demo_sides in H, H'. destruct H as (Hf & H), H' as (Hf' & H').
    four f; four f'; destruct sd, sd'; cbn in H, H'; injection H as -> -> ->; injection H'; intros; try discriminate; auto.
Qed.

(** All hypotheses of C71 are met by a run of one forward Euler step. *)
Example C71_demo : exists pm h f U' x',
  let v0 := fun _ : Z => mkRV zero3 zero3 zero3 zero3 zero3 in
  let ord := fun (r : Z) (_ : nat) => zseq (pm_num_elems_part (pm r)) in
  let pord := fun (_ : Z) (_ : nat) a b => list_prod (zseq a) (zseq b) in
  partitioned 0 (fun _ l => rev l) 3 demo_rmesh demo_ep pm /\ all_set_up EQuad LagrangeQuad 2 1 demo_rmesh pm 3 h f /\
  inner_loops_ok pm 3 ord pord /\ (forall r, (0 <= r < 3)%Z -> fits (shape_of EQuad pm (nfun LagrangeQuad 2) r)) /\
  boundary_zero EQuad demo_rmesh pm 3 3 v0 /\
  stepping EQuad demo_rmesh demo_ep pm 3 3 (nfun LagrangeQuad 2) 2 (tables EQuad LagrangeQuad 2 pm 2 HLLC h f ord pord (fun _ => zero1)) (fun r => vh_iMM (h r))
    1 (fun _ _ _ k => demo_U 0%Z 0%Z k) (v0, fun _ => zero3) U' x'.
Proof.
  destruct demo_straight as (SQ & CF & FV & FD).
  assert (RD : ready EQuad LagrangeQuad 2 1 demo_rmesh).
  { constructor; [lia|apply SQ|now apply convex_untangled|now left|unfold order_ok; lia|now left]. }
  destruct (C05_partitioned_exists R 0 (fun _ l => rev l) 3 demo_rmesh demo_ep demo_rrun) as (pm & PT).
  exists pm.
  assert (SE : forall r, (0 <= r < 3)%Z -> exists hf, precompute_matrix_helpers EQuad LagrangeQuad 2 1 (pm r) r (gm_npe demo_rmesh) zero2
     (zseq (pm_num_elems_part (pm r))) (zseq (pm_num_elems_part (pm r))) (zseq (pm_num_ifaces_part (pm r))) = Ok hf).
  { intros r Hr. destruct (C68_setup_geometry 0 (fun _ l => rev l) 3 demo_rmesh demo_ep pm EQuad LagrangeQuad 2 1 r zero2
      (zseq (pm_num_elems_part (pm r))) (zseq (pm_num_elems_part (pm r))) (zseq (pm_num_ifaces_part (pm r))) demo_rrun PT RD Hr) as (h & f & x & w & E & _).
    - repeat split; apply Permutation_refl.
    - eauto. }
  set (G r := match precompute_matrix_helpers EQuad LagrangeQuad 2 1 (pm r) r (gm_npe demo_rmesh) zero2
     (zseq (pm_num_elems_part (pm r))) (zseq (pm_num_elems_part (pm r))) (zseq (pm_num_ifaces_part (pm r))) with Ok hf => hf | _ => (vh_empty, mkFH 0 zero3 zero1 zero3 (fun _ _ => 0%Z) (fun _ _ => 0%Z) zero3) end).
  assert (AS : all_set_up EQuad LagrangeQuad 2 1 demo_rmesh pm 3 (fun r => fst (G r)) (fun r => snd (G r))).
  { intros r Hr. exists zero2, (zseq (pm_num_elems_part (pm r))), (zseq (pm_num_elems_part (pm r))), (zseq (pm_num_ifaces_part (pm r))).
    split; [repeat split; apply Permutation_refl|]. destruct (SE r Hr) as ([h f] & E). unfold G. rewrite E. reflexivity. }
  exists (fun r => fst (G r)), (fun r => snd (G r)).
  set (ord := fun (r : Z) (_ : nat) => zseq (pm_num_elems_part (pm r))).
  set (pord := fun (_ : Z) (_ : nat) a b => list_prod (zseq a) (zseq b)).
  set (v0 := fun _ : Z => mkRV zero3 zero3 zero3 zero3 zero3).
  assert (IL : inner_loops_ok pm 3 ord pord).
  { intros r Hr. split; intros; [apply Permutation_refl|]. unfold each_once, pord. apply Permutation_refl. }
  set (D := tables EQuad LagrangeQuad 2 pm 2 HLLC (fun r => fst (G r)) (fun r => snd (G r)) ord pord (fun _ => zero1)).
  destruct (C70_setup_consistent 0 (fun _ l => rev l) 3 demo_rmesh demo_ep pm EQuad LagrangeQuad 2 1 (fun r => fst (G r)) (fun r => snd (G r)) 2 HLLC ord pord (fun _ => zero1)
    demo_rrun PT RD AS IL) as (fp & fw & _ & FP & SS & CO).
  pose proof (straight_normals_agree 0 (fun _ l => rev l) 3 demo_rmesh demo_ep pm demo_rrun PT FV SQ CF LagrangeQuad 2 _ _ 2 HLLC ord pord (fun _ => zero1) RD AS) as NA.
  fold D in SS, CO, NA. change (face_rule_points EQuad 2 ^ (space_dim EQuad - 1))%Z with 3%Z in *.
  assert (US : forall (b : Z -> R), rsum (nfun LagrangeQuad 2) (fun i => ones LagrangeQuad i * b i) = 1 ->
    forall k, rsum (nfun LagrangeQuad 2) (fun j => b j * demo_U 0%Z 0%Z k) = demo_U 0%Z 0%Z k).
  { intros b Hb k. rewrite rsum_scal_r. rewrite (rsum_ext _ b (fun i => ones LagrangeQuad i * b i)) by (intros; cbn; ring). rewrite Hb. ring. }
  destruct (C64_residual_well_defined R 0 (fun _ l => rev l) 3 demo_rmesh demo_ep pm EQuad 3 (nfun LagrangeQuad 2) 2 HLLC _ fw D (fun _ _ _ k => demo_U 0%Z 0%Z k) (fun _ => zero3)
      v0 demo_rrun PT FV FD FP ltac:(lra) SS NA) as (UL & UR & v2 & rs2 & E & _ & AD).
  - intros r e q Hr He Hq. unfold density, vol_state. destruct (ss_sizes _ _ _ _ _ _ _ _ _ _ _ SS r Hr) as (_ & _ & _ & -> & _). rewrite US; [cbn; lra|].
    destruct (AS r Hr) as (jk & eo1 & eo2 & fo & LO & E0).
    destruct (C68_setup_geometry 0 (fun _ l => rev l) 3 demo_rmesh demo_ep pm EQuad LagrangeQuad 2 1 r jk eo1 eo2 fo demo_rrun PT RD Hr LO) as (h' & f' & x' & w' & E & _ & _ & _ & _ & V & _).
    rewrite E in E0. injection E0 as -> ->. rewrite (rsum_ext _ _ (fun i => ones LagrangeQuad i * basis_fn LagrangeQuad 2 i (vh_pts (fst (G r)) q))).
    + apply ones_sum; [lia|now left].
    + intros i Hi. f_equal. apply (V q i); assumption.
  - intros r e k q Hr He Hk Hq.
    assert (ET : face_trace (nfun LagrangeQuad 2) (fun k q i => basis_fn LagrangeQuad 2 i (face_at EQuad k (fp q))) (fun _ _ k => demo_U 0%Z 0%Z k) e k q = demo_U 0%Z 0%Z).
    { apply FunctionalExtensionality.functional_extensionality. intros j. unfold face_trace. apply US. apply ones_sum; [lia|now left]. }
    rewrite ET. unfold admissible, pressure, density, energy, vdot, velocity, momentum. cbn [space_dim Z.add].
    rewrite rsum_2. unfold demo_U, density. cbn. lra.
  - eexists. exists (v2, rs2). cbv zeta. split; [exact PT|]. split; [exact AS|]. split; [exact IL|]. split; [|split].
    + intros r Hr. destruct (C01_element_ownership R 0 (fun _ l => rev l) 3 demo_rmesh demo_ep pm demo_rrun PT) as (_ & _ & CN & CS).
      change (zseq 3) with [0; 1; 2]%Z in CS. cbn [map sumZ fold_right gm_num_elems demo_rmesh] in CS.
      assert (forall r, (0 <= r < 3)%Z -> (0 <= pm_num_elems_part (pm r))%Z) as NN by (intros r' Hr'; destruct (CN r' Hr') as (_ & ->); apply zlen_nonneg).
      pose proof (NN 0%Z ltac:(lia)). pose proof (NN 1%Z ltac:(lia)). pose proof (NN 2%Z ltac:(lia)).
      assert (0 <= pm_num_elems_part (pm r) <= 4)%Z by (assert (C : (r = 0 \/ r = 1 \/ r = 2)%Z) by lia; destruct C as [-> | [-> | ->]]; lia).
      unfold fits, shape_of, extents_ok, entries. cbn [space_dim]. change (nfun LagrangeQuad 2) with 9%Z. repeat split; lia.
    + intros r le pos k Hr _. reflexivity.
    + eapply stepping_S with (w1 := (v2, rs2)); [|eapply ra_ask with (w1 := (v2, rs2)) (rs := rs2)|apply stepping_0].
      * apply (step_fe EQuad pm 3 (nfun LagrangeQuad 2) (fun r => vh_iMM (fst (G r))) (fun _ _ _ k => demo_U 0%Z 0%Z k) LRight (fun r _ => zseq (pm_num_elems_part (pm r))) (1/10) 0).
        intros r Hr st. apply Permutation_refl.
      * intros r Hr. unfold FE_step. reflexivity.
      * exists UL, UR. split; [exact E|]. split; [reflexivity|exact AD].
      * apply ra_done with (tm := fun _ => 0 + 1 / 10). intros r Hr. reflexivity.
Qed.
