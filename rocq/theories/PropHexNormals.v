(** PropHexNormals.v -- C83: do the ranks agree on the normals of shared faces? *)
From Coq Require Import ZArith List Lia Reals Lra Bool Permutation FunctionalExtensionality.
From Coquelicot Require Import Coquelicot.
From Verif Require Import Base RBase LinAlgModel LinAlgProof PropLinAlg QuadModel QuadProof PropQuad BasisModel BasisProof PropBasis PropSolver PropNormals.
From Verif Require Import ShapeModel ShapeProof PropShape MeshModel MeshSpec MeshProof PropMesh PhysModel PhysSpec SolverModel SolverSpec SolverProof SolverMesh.
From Verif Require CommProof.
From Verif Require Import SetupModel SetupSpec MassProof SetupProof SetupPass SetupFaces PropSetup PropMeshRun DGSpec PropDG PropHex PropHexDemo.
Import ListNotations.
Local Open Scope R_scope.
Open Scope res_scope.

(** ** C83 *)

(** Any mesh of straight-sided convex quadrilaterals, any partition: two ranks
    that hold an interior face store the same normals for it, and these are
    perpendicular to the edge, half as long, pointing from the left element to the
    right one. *)
Theorem C83_shared_normals_quads : forall zero iter n m ep pm bt p h fh,
  run_wf iter n m ep -> partitioned zero iter n m ep pm -> faces_valid EQuad m -> straight_quads m -> conforming m ->
  basis_for EQuad bt -> supported bt p -> order_ok p -> all_set_up EQuad bt p 1 m pm n h fh ->
  forall r lf f iq d, (0 <= r < n)%Z -> rd (pm_l2g_iface (pm r)) lf = Ok f -> (0 <= iq < p + 1)%Z -> (0 <= d < 2)%Z ->
    fh_normals (fh r) lf iq d = edge_normal m f d.
Proof.
  intros zero iter n m ep pm bt p h fh WF PT FV SQ CF BF Sup Op AS r lf f iq d Hr Ef Hq Hd.
  assert (RD : ready EQuad bt p 1 m) by (constructor; auto; [lia|apply SQ|now apply convex_untangled]).
  pose proof Op as Op'. unfold order_ok in Op'.
  destruct (AS r Hr) as (jk & eo1 & eo2 & fo & LO & E0).
  destruct (setup_master zero iter n m ep pm WF PT EQuad bt p 1 RD r jk eo1 eo2 fo Hr LO) as (h1 & h' & f' & E & _ & _ & E3).
  rewrite E in E0. injection E0 as -> ->. destruct LO as (P1 & P2 & P3).
  destruct (faces_pass zero iter n m ep pm WF PT EQuad bt p 1 ltac:(lia) Sup BF (proj1 SQ) r jk fo Hr Op P3) as (f' & x' & w' & fp' & E3' & _ & Nq & _ & EQ' & Pts & LK & NR).
  rewrite E3 in E3'. injection E3' as <-.
  assert (E1 : (face_rule_points EQuad p ^ (space_dim EQuad - 1))%Z = (p + 1)%Z) by (cbn [face_rule_points space_dim]; change (2 - 1)%Z with 1%Z; apply Z.pow_1_r).
  rewrite E1 in Nq. rewrite Nq in *.
  destruct (Pts 0%Z ltac:(cbn; lia)) as (PF & _). unfold points_on_face in PF.
  destruct (points_on_face_quad 0 0 (p + 1) fp' zero2) as [PP|] eqn:EP; [|discriminate]. injection PF as PF. rewrite PF in EP.
  destruct (straight_row_normal zero iter n m ep pm WF PT FV CF r (p + 1) fp' zero2 (fh_pts (fh r) 0%Z) lf f (fh_normals (fh r) lf) Hr EP (NR lf) Ef) as (eL & kL & oL & HL & V).
  assert (Ee : side_elem m f false = eL /\ side_face m f false = kL).
  { destruct HL as (L1 & L2 & _). unfold side_elem, side_face, face_entry. change (0 + 1)%Z with 1%Z in L2. now rewrite L1, L2. }
  destruct (V iq Hq) as (V0 & V1). unfold edge_normal. destruct Ee as (-> & ->).
  assert (C : (d = 0 \/ d = 1)%Z) by lia. destruct C as [-> | ->]; cbn [Z.eqb]; assumption.
Qed.
Print Assumptions C83_shared_normals_quads.

(** Hexahedra, if the interior faces are parallelograms. *)
Theorem C83_shared_normals_partial : forall zero iter n m ep pm bt p h fh,
  run_wf iter n m ep -> partitioned zero iter n m ep pm -> faces_valid EHex m -> flat_hexes m -> conforming_hexes m ->
  basis_for EHex bt -> supported bt p -> order_ok p -> all_set_up EHex bt p 1 m pm n h fh ->
  forall r lf f iq d, (0 <= r < n)%Z -> rd (pm_l2g_iface (pm r)) lf = Ok f -> (0 <= iq < (p + 2) * (p + 2))%Z -> (0 <= d < 3)%Z ->
    fh_normals (fh r) lf iq d = flat_normal m f d.
Proof.
  intros zero iter n m ep pm bt p h fh WF PT FV FH CF BF Sup Op AS.
  assert (RD : ready EHex bt p 1 m) by (constructor; auto; [lia|apply FH|apply FH]).
  exact (flat_normals zero iter n m ep pm WF PT FV FH CF bt p h fh RD AS).
Qed.
Print Assumptions C83_shared_normals_partial.

Lemma tangent (F G : R -> R) t l : is_derive F t l -> (forall s, F s = G s) -> l = Derive G t.
Proof. intros H E. symmetry. apply is_derive_unique. exact (is_derive_ext F G t l E H). Qed.

(** Not in general: two well-formed, matching hexahedra, each on its own rank,
    whose common face is not flat.  For every order and basis, the two ranks store
    different normals for the same point of that face. *)
Theorem C83_shared_normals_refuted :
  let m := two_hexes (1 / 4) in let ep := [0; 1]%Z in
  mesh_wf m /\ mesh_fits EHex 1 m /\ untangled EHex 1 m /\ faces_valid EHex m /\ faces_distinct m /\ conforming_hexes m /\
  forall iter pm bt p h fh, run_wf iter 2 m ep -> partitioned 0 iter 2 m ep pm ->
    basis_for EHex bt -> supported bt p -> order_ok p -> all_set_up EHex bt p 1 m pm 2 h fh ->
    exists lf lf', rd (pm_l2g_iface (pm 0%Z)) lf = Ok 0%Z /\ rd (pm_l2g_iface (pm 1%Z)) lf' = Ok 0%Z /\
      fh_normals (fh 0%Z) lf 0%Z 2%Z <> fh_normals (fh 1%Z) lf' 0%Z 2%Z.
Proof.
  intros m ep. destruct (two_faces (1 / 4)) as (FV & FD).
  assert (Un : untangled EHex 1 m) by (apply two_untangled; lra).
  assert (Fit : mesh_fits EHex 1 m) by (split; reflexivity).
  split; [apply two_wf|]. split; [exact Fit|]. split; [exact Un|]. split; [exact FV|]. split; [exact FD|]. split; [apply two_conforming|].
  intros iter pm bt p h fh WF PT BF Sup Op AS.
  assert (RD : ready EHex bt p 1 m) by (constructor; auto; lia).
  pose proof Op as Op'. unfold order_ok in Op'. set (zero := 0) in PT.
  destruct (C04_interior_faces R zero iter 2 m ep pm WF PT) as (TC & _).
  assert (LF : forall r, (0 <= r < 2)%Z -> exists lf, rd (pm_l2g_iface (pm r)) lf = Ok 0%Z).
  { intros r Hr. apply CommProof.In_rd. apply TC; [exact Hr|]. assert (C : (r = 0 \/ r = 1)%Z) by lia. destruct C as [-> | ->]; [exists 0%Z|exists 1%Z]; (split; [|reflexivity]); [left|right]; reflexivity. }
  destruct (face_rule EHex p ltac:(lia) ltac:(lia) ltac:(lia)) as (x & w & fp & fw & G & TR & EF).
  cbn [face_rule_points space_dim] in *. change (3 - 1)%Z with 2%Z in *. set (np := (p + 2)%Z) in *. set (nqf := (np ^ 2)%Z) in *.
  assert (X0 : x 0%Z < 0).
  { destruct G as (G1 & G2 & _). destruct (G1 0%Z ltac:(lia)) as (_ & _ & G3 & _). specialize (G2 0%Z (np - 1)%Z ltac:(lia) ltac:(lia)). replace (np - 1 - 0)%Z with (np - 1)%Z in G3 by lia. lra. }
  assert (Q0 : (0 <= 0 < nqf)%Z) by (unfold nqf; rewrite Z.pow_2_r; nia).
  assert (F0 : fp 0%Z 0%Z = x 0%Z /\ fp 0%Z 1%Z = x 0%Z).
  { destruct (TR 0%Z Q0) as (T & _). rewrite !T by lia. unfold digit. rewrite !Z.div_0_l, Z.mod_0_l by (try apply Z.pow_nonzero; lia). auto. }
  (* the stored normal at the first point *)
  assert (NN : forall r lf, (0 <= r < 2)%Z -> rd (pm_l2g_iface (pm r)) lf = Ok 0%Z ->
     fh_normals (fh r) lf 0%Z 2%Z = - / 32 * (1 + (if (r =? 0)%Z then x 0%Z else - x 0%Z))).
  { intros r lf Hr Ef. destruct (AS r Hr) as (jk & eo1 & eo2 & fo & LO & E0).
    destruct (setup_master zero iter 2 m ep pm WF PT EHex bt p 1 RD r jk eo1 eo2 fo Hr LO) as (h1 & h' & f' & E & _ & _ & E3).
    rewrite E in E0. injection E0 as -> ->. destruct LO as (P1 & P2 & P3).
    destruct (faces_pass zero iter 2 m ep pm WF PT EHex bt p 1 ltac:(lia) Sup BF Fit r jk fo Hr Op P3) as (f' & x' & w' & fp' & E3' & _ & Nq & _ & EQ & Pts & LK & NR).
    rewrite E3 in E3'. injection E3' as <-. rewrite EF in EQ. assert (EN : nqf = fh_nq (fh r)) by (clear - EQ; congruence). assert (fp' = fp) as -> by (clear - EQ; congruence).
    destruct (Pts 0%Z ltac:(cbn; lia)) as (PF & _). unfold points_on_face in PF. rewrite <- EN in *.
    destruct (points_on_face_hex 0 0 nqf fp zero2) as [PP|] eqn:EP; [|discriminate]. injection PF as PF. rewrite PF in EP.
    destruct (NR lf 0%Z Ef) as (sd & e & k & o & le & c & HS & Hle & Ow & _ & Vc & V). apply two_sides in HS. destruct HS as (_ & HS).
    rewrite V by (cbn; lia). unfold shape_normal.
    assert (EM : forall u v d, (0 <= d < 3)%Z -> elem_map LagrangeHex 1 c (hex_face k u v) d = face_surface m e k u v d) by (intros; now apply map_nodes).
    unfold owned_by in Ow.
    destruct sd; injection HS as -> -> ->; injection Ow as <-; cbn [Z.eqb Pos.eqb].
    - destruct (C22_hex_normals_partial 1 4 (-1) nqf c fp zero2 (fh_pts (fh 1%Z) 0%Z) 0 ltac:(lia) ltac:(lia) Q0 EP) as ((A & B & D & NV) & _).
      rewrite NV by lia. destruct F0 as (F0 & F1). rewrite F0, F1 in D. rewrite cross_vprod by lia. unfold vprod. cbn [Z.eqb Pos.eqb].
      destruct (D 0%Z) as (A0 & B0), (D 1%Z) as (A1 & B1).
      apply (tangent _ (fun s' => vec3 (1 + 1/4 * ((1 - s') * (1 + x 0%Z) / 4)) ((1 - s') / 2) ((1 + x 0%Z) / 2) 0%Z)) in A0; [|intros z; rewrite (EM z (x 0%Z) 0%Z ltac:(lia)); exact (proj2 (two_face (1/4) z (x 0%Z) 0%Z ltac:(lia)))].
      apply (tangent _ (fun s' => vec3 (1 + 1/4 * ((1 - s') * (1 + x 0%Z) / 4)) ((1 - s') / 2) ((1 + x 0%Z) / 2) 1%Z)) in A1; [|intros z; rewrite (EM z (x 0%Z) 1%Z ltac:(lia)); exact (proj2 (two_face (1/4) z (x 0%Z) 1%Z ltac:(lia)))].
      apply (tangent _ (fun t' => vec3 (1 + 1/4 * ((1 - x 0%Z) * (1 + t') / 4)) ((1 - x 0%Z) / 2) ((1 + t') / 2) 0%Z)) in B0; [|intros z; rewrite (EM (x 0%Z) z 0%Z ltac:(lia)); exact (proj2 (two_face (1/4) (x 0%Z) z 0%Z ltac:(lia)))].
      apply (tangent _ (fun t' => vec3 (1 + 1/4 * ((1 - x 0%Z) * (1 + t') / 4)) ((1 - x 0%Z) / 2) ((1 + t') / 2) 1%Z)) in B1; [|intros z; rewrite (EM (x 0%Z) z 1%Z ltac:(lia)); exact (proj2 (two_face (1/4) (x 0%Z) z 1%Z ltac:(lia)))].
      unfold vec3 in A0, A1, B0, B1. cbn [Z.eqb Pos.eqb] in A0, A1, B0, B1.
      rewrite A0, A1, B0, B1. clear. generalize (x 0%Z). intros y.
      replace (Derive (fun t => 1 + 1/4 * ((1 - t) * (1 + y) / 4)) y) with (- (1 + y) / 16) by (symmetry; apply is_derive_unique; auto_derive; [exact Logic.I|field]).
      replace (Derive (fun t => 1 + 1/4 * ((1 - y) * (1 + t) / 4)) y) with ((1 - y) / 16) by (symmetry; apply is_derive_unique; auto_derive; [exact Logic.I|field]).
      replace (Derive (fun t => (1 - t) / 2) y) with (- 1 / 2) by (symmetry; apply is_derive_unique; auto_derive; [exact Logic.I|field]).
      rewrite Derive_const. field.
    - destruct (C22_hex_normals_partial 1 2 1 nqf c fp zero2 (fh_pts (fh 0%Z) 0%Z) 0 ltac:(lia) ltac:(lia) Q0 EP) as ((A & B & D & NV) & _).
      rewrite NV by lia. destruct F0 as (F0 & F1). rewrite F0, F1 in D. rewrite cross_vprod by lia. unfold vprod. cbn [Z.eqb Pos.eqb].
      destruct (D 0%Z) as (A0 & B0), (D 1%Z) as (A1 & B1).
      apply (tangent _ (fun s' => vec3 (1 + 1/4 * ((1 + s') * (1 + x 0%Z) / 4)) ((1 + s') / 2) ((1 + x 0%Z) / 2) 0%Z)) in A0; [|intros z; rewrite (EM z (x 0%Z) 0%Z ltac:(lia)); exact (proj1 (two_face (1/4) z (x 0%Z) 0%Z ltac:(lia)))].
      apply (tangent _ (fun s' => vec3 (1 + 1/4 * ((1 + s') * (1 + x 0%Z) / 4)) ((1 + s') / 2) ((1 + x 0%Z) / 2) 1%Z)) in A1; [|intros z; rewrite (EM z (x 0%Z) 1%Z ltac:(lia)); exact (proj1 (two_face (1/4) z (x 0%Z) 1%Z ltac:(lia)))].
      apply (tangent _ (fun t' => vec3 (1 + 1/4 * ((1 + x 0%Z) * (1 + t') / 4)) ((1 + x 0%Z) / 2) ((1 + t') / 2) 0%Z)) in B0; [|intros z; rewrite (EM (x 0%Z) z 0%Z ltac:(lia)); exact (proj1 (two_face (1/4) (x 0%Z) z 0%Z ltac:(lia)))].
      apply (tangent _ (fun t' => vec3 (1 + 1/4 * ((1 + x 0%Z) * (1 + t') / 4)) ((1 + x 0%Z) / 2) ((1 + t') / 2) 1%Z)) in B1; [|intros z; rewrite (EM (x 0%Z) z 1%Z ltac:(lia)); exact (proj1 (two_face (1/4) (x 0%Z) z 1%Z ltac:(lia)))].
      unfold vec3 in A0, A1, B0, B1. cbn [Z.eqb Pos.eqb] in A0, A1, B0, B1.
      rewrite A0, A1, B0, B1. clear. generalize (x 0%Z). intros y.
      replace (Derive (fun t => 1 + 1/4 * ((1 + t) * (1 + y) / 4)) y) with ((1 + y) / 16) by (symmetry; apply is_derive_unique; auto_derive; [exact Logic.I|field]).
      replace (Derive (fun t => 1 + 1/4 * ((1 + y) * (1 + t) / 4)) y) with ((1 + y) / 16) by (symmetry; apply is_derive_unique; auto_derive; [exact Logic.I|field]).
      replace (Derive (fun t => (1 + t) / 2) y) with (1 / 2) by (symmetry; apply is_derive_unique; auto_derive; [exact Logic.I|field]).
      rewrite Derive_const. field. }
  destruct (LF 0%Z ltac:(lia)) as (lf & E0). destruct (LF 1%Z ltac:(lia)) as (lf' & E1). exists lf, lf'. split; [exact E0|]. split; [exact E1|].
  rewrite (NN 0%Z lf ltac:(lia) E0), (NN 1%Z lf' ltac:(lia) E1). cbn [Z.eqb Pos.eqb]. lra.
Qed.
Print Assumptions C83_shared_normals_refuted.

(** Such runs exist: every partition of a mesh that is [ready] can be set up. *)
Lemma set_up_exists iter n m ep s bt p : run_wf iter n m ep -> ready s bt p 1 m ->
  exists pm h fh, partitioned 0 iter n m ep pm /\ all_set_up s bt p 1 m pm n h fh.
Proof.
  intros WF RD. destruct (C05_partitioned_exists R 0 iter n m ep WF) as (pm & PT). exists pm. set (zero := 0) in PT.
  set (G r := match precompute_matrix_helpers s bt p 1 (pm r) r (gm_npe m) zero2
     (zseq (pm_num_elems_part (pm r))) (zseq (pm_num_elems_part (pm r))) (zseq (pm_num_ifaces_part (pm r))) with Ok hf => hf | _ => (vh_empty, mkFH 0 zero3 zero1 zero3 (fun _ _ => 0%Z) (fun _ _ => 0%Z) zero3) end).
  exists (fun r => fst (G r)), (fun r => snd (G r)). split; [exact PT|]. intros r Hr.
  exists zero2, (zseq (pm_num_elems_part (pm r))), (zseq (pm_num_elems_part (pm r))), (zseq (pm_num_ifaces_part (pm r))).
  assert (LO : loops_ok (pm r) (zseq (pm_num_elems_part (pm r))) (zseq (pm_num_elems_part (pm r))) (zseq (pm_num_ifaces_part (pm r)))) by (repeat split; apply Permutation_refl).
  split; [exact LO|].
  destruct (C68_setup_geometry zero iter n m ep pm s bt p 1 r zero2 _ _ _ WF PT RD Hr LO) as (h & f & x & w & E & _).
  unfold G. rewrite E. reflexivity.
Qed.

Example C83_demo :
  (exists iter pm h fh, run_wf iter 2 (two_hexes 0) [1; 0]%Z /\ partitioned 0 iter 2 (two_hexes 0) [1; 0]%Z pm /\
     flat_hexes (two_hexes 0) /\ conforming_hexes (two_hexes 0) /\ all_set_up EHex LegendreHex 3 1 (two_hexes 0) pm 2 h fh) /\
  (exists iter pm h fh, run_wf iter 2 (two_hexes (1/4)) [0; 1]%Z /\ partitioned 0 iter 2 (two_hexes (1/4)) [0; 1]%Z pm /\
     basis_for EHex LagrangeHex /\ supported LagrangeHex 2 /\ order_ok 2 /\ all_set_up EHex LagrangeHex 2 1 (two_hexes (1/4)) pm 2 h fh).
Proof.
  split.
  - exists (fun _ l => rev l). assert (WF : run_wf (fun _ l => rev l) 2 (two_hexes 0) [1; 0]%Z).
    { constructor; [apply two_wf| |intros r l; symmetry; apply Permutation_rev]. split; [reflexivity|]. repeat constructor; lia. }
    destruct (set_up_exists _ 2 _ _ EHex LegendreHex 3 WF) as (pm & h & fh & PT & AS).
    { constructor; [lia|apply two_flat|apply two_flat|now right|unfold order_ok; lia|right; lia]. }
    exists pm, h, fh. repeat (split; [first [assumption | apply two_flat | apply two_conforming]|]). exact AS.
  - exists (fun _ l => rev l). assert (WF : run_wf (fun _ l => rev l) 2 (two_hexes (1/4)) [0; 1]%Z).
    { constructor; [apply two_wf| |intros r l; symmetry; apply Permutation_rev]. split; [reflexivity|]. repeat constructor; lia. }
    destruct (set_up_exists _ 2 _ _ EHex LagrangeHex 2 WF) as (pm & h & fh & PT & AS).
    { constructor; [lia|split; reflexivity|apply two_untangled; lra|now left|unfold order_ok; lia|now left]. }
    exists pm, h, fh. split; [exact WF|]. split; [exact PT|]. split; [now left|]. split; [now left|]. split; [unfold order_ok; lia|]. exact AS.
Qed.
