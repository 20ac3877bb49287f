(** PropHex.v -- C71, C77, C78 in three dimensions, and C83: the ranks agree on
    the normals of a shared face of hexahedra if it is a parallelogram, and not
    in general. *)
From Coq Require Import ZArith List Lia Reals Lra Bool Permutation FunctionalExtensionality.
From Coquelicot Require Import Coquelicot.
From Verif Require Import Base RBase LinAlgModel LinAlgProof PropLinAlg QuadModel QuadProof PropQuad BasisModel BasisProof PropBasis PropSolver PropNormals.
From Verif Require Import ShapeModel ShapeProof PropShape MeshModel MeshSpec MeshProof PropMesh PhysModel PhysSpec SolverModel SolverSpec SolverProof SolverMesh.
From Verif Require Import StepModel StepProof PropStep PropConserve PropResidual PropIntegral.
From Verif Require CommProof.
From Verif Require Import SetupModel SetupSpec MassProof SetupProof SetupPass SetupFaces PropSetup PropVortex PropMeshRun PropInit PropPost DGSpec DGProof PropDG.
Import ListNotations.
Local Open Scope R_scope.
Open Scope res_scope.

(** ** Vocabulary *)

(** The vector product. *)
Definition vprod (a b : arr1) : arr1 := fun d =>
  if (d =? 0)%Z then a 1%Z * b 2%Z - a 2%Z * b 1%Z else if (d =? 1)%Z then a 2%Z * b 0%Z - a 0%Z * b 2%Z else a 0%Z * b 1%Z - a 1%Z * b 0%Z.

(** Face [k] of element [e] of the mesh, as a surface with parameters in
    [-1,1]^2 (outward orientation, C19). *)
Definition face_surface (m : gmesh R) (e k : Z) (s t : R) : arr1 := place EHex 1 (elem_nodes m e) (hex_face k s t).

(** Face [k] of element [e] is the parallelogram with centre [P] and
    half edges [A], [B], not degenerate. *)
Definition parallelogram (m : gmesh R) (e k : Z) (P A B : arr1) : Prop :=
  (forall s t d, (0 <= d < 3)%Z -> face_surface m e k s t d = P d + s * A d + t * B d) /\
  exists d, (0 <= d < 3)%Z /\ vprod A B d <> 0.

(** A mesh of trilinear hexahedra, not folded over, whose interior faces are
    parallelograms. *)
Definition flat_hexes (m : gmesh R) : Prop :=
  mesh_fits EHex 1 m /\ untangled EHex 1 m /\
  forall f sd e k o, has_side m f sd e k o -> exists P A B, parallelogram m e k P A B.

(** The two sides of an interior face are the same surface, seen from opposite
    sides -- up to a translation, for periodic meshes.  The orientations 4-7 are
    the reflections of the square. *)
Definition same_surface (m : gmesh R) (eL kL eR kR : Z) : Prop :=
  exists a v, (4 <= a <= 7)%Z /\ forall s t d, (0 <= d < 3)%Z ->
    (let '(s', t') := hex_turn a s t in face_surface m eR kR s' t' d) = face_surface m eL kL s t d + v d.
Definition conforming_hexes (m : gmesh R) : Prop :=
  forall f eL kL oL eR kR oR, has_side m f false eL kL oL -> has_side m f true eR kR oR -> same_surface m eL kL eR kR.

(** Normal of an interior face: vector product of the half edges of its left side. *)
Definition flat_normal (m : gmesh R) (f : Z) : arr1 :=
  let T := face_surface m (side_elem m f false) (side_face m f false) in
  vprod (fun d => T 1 0 d - T 0 0 d) (fun d => T 0 1 d - T 0 0 d).

Lemma cross_vprod a b d : (0 <= d < 3)%Z -> cross a b (fun _ => 0) d = vprod a b d.
Proof.
  intros Hd. assert (C : (d = 0 \/ d = 1 \/ d = 2)%Z) by lia. unfold cross, upd1, vprod. destruct C as [-> | [-> | ->]]; reflexivity.
Qed.

Lemma vprod_ext a b a' b' d : (forall d, (0 <= d < 3)%Z -> a d = a' d /\ b d = b' d) -> vprod a b d = vprod a' b' d.
Proof.
  intros H. unfold vprod. destruct (H 0%Z ltac:(lia)) as (-> & ->), (H 1%Z ltac:(lia)) as (-> & ->), (H 2%Z ltac:(lia)) as (-> & ->). reflexivity.
Qed.

Lemma map_nodes (X c : arr2) y d : (forall i d, (0 <= i < nfun (geom_basis EHex) 1)%Z -> (0 <= d < 3)%Z -> c i d = X i d) -> (0 <= d < 3)%Z ->
  elem_map LagrangeHex 1 c y d = elem_map LagrangeHex 1 X y d.
Proof. intros H Hd. unfold elem_map. apply rsum_ext. intros k Hk. rewrite H by assumption. reflexivity. Qed.

(** Half edges of a parallelogram, from the surface. *)
Lemma para_edges m e k P A B : parallelogram m e k P A B -> forall d, (0 <= d < 3)%Z ->
  face_surface m e k 1 0 d - face_surface m e k 0 0 d = A d /\ face_surface m e k 0 1 d - face_surface m e k 0 0 d = B d.
Proof. intros (H & _) d Hd. rewrite !H by exact Hd. split; ring. Qed.

Section Normals.
Context (zero : R) (iter : Z -> list Z -> list Z) (n : Z) (m : gmesh R) (ep : list Z) (pm : Z -> pmesh R).
Context (WF : run_wf iter n m ep) (PT : partitioned zero iter n m ep pm).
Context (FV : faces_valid EHex m).

(** One face. *)
Lemma face_row_normal r nqf fp e0 pts0 lf f N :
  (forall sd e k o, has_side m f sd e k o -> exists P A B, parallelogram m e k P A B) ->
  (forall eL kL oL eR kR oR, has_side m f false eL kL oL -> has_side m f true eR kR oR -> same_surface m eL kL eR kR) ->
  (0 <= r < n)%Z -> points_on_face_hex 0 0 nqf fp e0 = Some pts0 ->
  normals_row m ep pm EHex 1 r nqf pts0 lf N -> rd (pm_l2g_iface (pm r)) lf = Ok f ->
  forall iq d, (0 <= iq < nqf)%Z -> (0 <= d < 3)%Z -> N iq d = flat_normal m f d.
Proof.
  intros PF CF Hr HP NR Ef iq d Hq Hd. destruct (NR f Ef) as (sd & e & k & o & le & c & HS & Hle & Ow & _ & Vc & V).
  destruct (side_nonneg iter n m ep WF f sd e k o HS) as (K0 & _ & _). destruct (FV f sd e k o HS) as (K1 & _). cbn in K1.
  destruct (PF sd e k o HS) as (P & A & B & PG).
  rewrite V by (cbn; lia). unfold shape_normal.
  destruct (C22_hex_normals_partial 1 k (if sd then -1 else 1) nqf c fp e0 pts0 iq ltac:(lia) ltac:(lia) Hq HP) as (_ & NN).
  rewrite (NN P A B) with (d := d); [|intros s t d' Hd'; rewrite (map_nodes (elem_nodes m e)) by (assumption || exact Vc); apply PG; exact Hd'|exact Hd].
  rewrite cross_vprod by exact Hd.
  destruct sd.
  - assert (EX : exists eL kL oL, has_side m f false eL kL oL).
    { destruct HS as (H1 & _). unfold has_side, rd2 in *. destruct (rd (gm_IF m) f) as [row|] eqn:Er; [|discriminate].
      pose proof (run_mesh _ _ _ _ WF) as MW. pose proof (wf_if _ MW) as FA. rewrite Forall_forall in FA.
      destruct (FA row (rd_In _ _ _ Er)) as (a & b & c' & a' & b' & c'' & -> & _). exists a, b, c'. repeat split. }
    destruct EX as (eL & kL & oL & HL). destruct (CF eL kL oL e k o HL HS) as (a & v & Ha & Cv).
    assert (Ee : side_elem m f false = eL /\ side_face m f false = kL).
    { destruct HL as (L1 & L2 & _). unfold side_elem, side_face, face_entry. cbn [negb] in *. change (0 + 1)%Z with 1%Z in L2. now rewrite L1, L2. }
    unfold flat_normal. destruct Ee as (-> & ->). destruct PG as (PG & _).
    assert (T : forall s t d, (0 <= d < 3)%Z -> face_surface m eL kL s t d = (let '(s', t') := hex_turn a s t in P d + s' * A d + t' * B d) - v d).
    { intros s t d' Hd'. specialize (Cv s t d' Hd'). destruct (hex_turn a s t) as [s' t']. rewrite PG in Cv by exact Hd'. lra. }
    unfold vprod. rewrite !T by lia.
    destruct (hex_turn_table 1 0) as (_ & _ & _ & _ & S4 & S5 & S6 & S7). destruct (hex_turn_table 0 0) as (_ & _ & _ & _ & O4 & O5 & O6 & O7).
    destruct (hex_turn_table 0 1) as (_ & _ & _ & _ & T4 & T5 & T6 & T7).
    assert (Ca : (a = 4 \/ a = 5 \/ a = 6 \/ a = 7)%Z) by lia. assert (Cd : (d = 0 \/ d = 1 \/ d = 2)%Z) by lia.
    destruct Ca as [-> | [-> | [-> | ->]]]; rewrite ?S4, ?S5, ?S6, ?S7, ?O4, ?O5, ?O6, ?O7, ?T4, ?T5, ?T6, ?T7;
      destruct Cd as [-> | [-> | ->]]; cbn [Z.eqb Pos.eqb]; ring.
  - assert (Ee : side_elem m f false = e /\ side_face m f false = k).
    { destruct HS as (L1 & L2 & _). unfold side_elem, side_face, face_entry. cbn [negb] in *. change (0 + 1)%Z with 1%Z in L2. now rewrite L1, L2. }
    unfold flat_normal. destruct Ee as (-> & ->). rewrite Rmult_1_l. apply vprod_ext. intros d' Hd'. destruct (para_edges m e k P A B PG d' Hd') as (-> & ->). auto.
Qed.

Context (FH : flat_hexes m) (CF : conforming_hexes m).

Lemma flat_row_normal r nqf fp e0 pts0 lf f N : (0 <= r < n)%Z -> points_on_face_hex 0 0 nqf fp e0 = Some pts0 ->
  normals_row m ep pm EHex 1 r nqf pts0 lf N -> rd (pm_l2g_iface (pm r)) lf = Ok f ->
  forall iq d, (0 <= iq < nqf)%Z -> (0 <= d < 3)%Z -> N iq d = flat_normal m f d.
Proof.
  apply face_row_normal; [intros sd e k o; apply FH|]. intros eL kL oL eR kR oR. apply CF.
Qed.

Lemma hex_points p : (face_rule_points EHex p ^ (space_dim EHex - 1))%Z = ((p + 2) * (p + 2))%Z.
Proof. cbn [face_rule_points space_dim]. change (3 - 1)%Z with 2%Z. apply Z.pow_2_r. Qed.

(** The normals the set-up stores. *)
Lemma flat_normals bt p h fh : ready EHex bt p 1 m -> all_set_up EHex bt p 1 m pm n h fh ->
  forall r lf f iq d, (0 <= r < n)%Z -> rd (pm_l2g_iface (pm r)) lf = Ok f -> (0 <= iq < (p + 2) * (p + 2))%Z -> (0 <= d < 3)%Z ->
    fh_normals (fh r) lf iq d = flat_normal m f d.
Proof.
  intros RD AS r lf f iq d Hr Ef Hq Hd. pose proof RD as [Hg Fit Un BF Op Sup]. pose proof Op as Op'. unfold order_ok in Op'.
  destruct (AS r Hr) as (jk & eo1 & eo2 & fo & LO & E0).
  destruct (setup_master zero iter n m ep pm WF PT EHex bt p 1 RD r jk eo1 eo2 fo Hr LO) as (h1 & h' & f' & E & _ & _ & E3).
  rewrite E in E0. injection E0 as -> ->. destruct LO as (P1 & P2 & P3).
  destruct (faces_pass zero iter n m ep pm WF PT EHex bt p 1 ltac:(lia) Sup BF Fit r jk fo Hr Op P3) as (f' & x' & w' & fp' & E3' & _ & Nq & _ & EQ & Pts & LK & NR).
  rewrite E3 in E3'. injection E3' as <-. rewrite hex_points in Nq. rewrite Nq in *.
  destruct (Pts 0%Z ltac:(cbn; lia)) as (PF & _). unfold points_on_face in PF.
  destruct (points_on_face_hex 0 0 ((p + 2) * (p + 2)) fp' zero2) as [PP|] eqn:EP; [|discriminate]. injection PF as PF. rewrite PF in EP.
  exact (flat_row_normal r _ fp' zero2 (fh_pts (fh r) 0%Z) lf f (fh_normals (fh r) lf) Hr EP (NR lf) Ef iq d Hq Hd).
Qed.

Lemma flat_nonzero f e k o : has_side m f false e k o -> vdot 3 (flat_normal m f) (flat_normal m f) <> 0.
Proof.
  intros HS. destruct FH as (_ & _ & PF). destruct (PF _ _ _ _ _ HS) as (P & A & B & PG).
  assert (Ee : side_elem m f false = e /\ side_face m f false = k).
  { destruct HS as (L1 & L2 & _). unfold side_elem, side_face, face_entry. change (0 + 1)%Z with 1%Z in L2. now rewrite L1, L2. }
  assert (EV : forall d, flat_normal m f d = vprod A B d).
  { intros d. unfold flat_normal. destruct Ee as (-> & ->). apply vprod_ext. intros d' Hd'. apply (para_edges _ _ _ _ _ _ PG d' Hd'). }
  destruct PG as (_ & (d & Hd & NZ)). unfold vdot. rewrite rsum_3, !EV. intros Z0.
  pose proof (Rle_0_sqr (vprod A B 0%Z)) as Q0. pose proof (Rle_0_sqr (vprod A B 1%Z)) as Q1. pose proof (Rle_0_sqr (vprod A B 2%Z)) as Q2. unfold Rsqr in *.
  apply NZ. assert (C : (d = 0 \/ d = 1 \/ d = 2)%Z) by lia. destruct C as [-> | [-> | ->]]; apply Rsqr_0_uniq; unfold Rsqr; lra.
Qed.

Lemma flat_normals_agree bt p h fh gamma ft ord pord junk : ready EHex bt p 1 m -> all_set_up EHex bt p 1 m pm n h fh ->
  normals_agree EHex pm n ((p + 2) * (p + 2)) (tables EHex bt p pm gamma ft h fh ord pord junk).
Proof.
  intros RD AS. split.
  - intros r lf iq Hr Hlf Hq. destruct (local_faces zero iter n m ep pm WF PT r lf Hr Hlf) as (f & Ef).
    unfold tables, residual_data. cbn [d_normals space_dim].
    destruct (row_side zero iter n m ep pm WF PT r lf f Hr Ef) as (_ & RS). destruct (RS false) as (e & HS & _).
    intros Z0. apply (flat_nonzero f _ _ _ HS). rewrite <- Z0. unfold vdot. apply rsum_ext. intros j Hj.
    rewrite (flat_normals bt p h fh RD AS r lf f iq j Hr Ef Hq Hj). reflexivity.
  - intros r r' lf lf' f iq j Hr Hr' Ef Ef' Hq Hj. unfold tables, residual_data. cbn [d_normals]. cbn [space_dim] in Hj.
    rewrite (flat_normals bt p h fh RD AS r lf f iq j Hr Ef Hq Hj), (flat_normals bt p h fh RD AS r' lf' f iq j Hr' Ef' Hq Hj). reflexivity.
Qed.
End Normals.

(** ** The scheme *)

(** Inverse of a 3 x 3 matrix: the adjugate divided by the determinant. *)
Definition inverse3 (A : arr2) : arr2 := fun i j =>
  let u k := ((k + 1) mod 3)%Z in let v k := ((k + 2) mod 3)%Z in
  (A (u j) (u i) * A (v j) (v i) - A (u j) (v i) * A (v j) (u i)) / det3 A.

Definition hex_scheme (bt : basis_type) (p : Z) (m : gmesh R) (gamma : R) (ft : flux_type)
  (nq : Z) (P : arr2) (W : arr1) (nqf : Z) (fp : arr2) (fw : arr1) : scheme := {|
  sc_shape := EHex; sc_nb := nfun bt p; sc_gamma := gamma; sc_flux := ft;
  sc_nq := nq;
  sc_val := fun q i => basis_fn bt p i (P q);
  sc_grad := fun q i d => Derive (fun t => basis_fn bt p i (with_coord (P q) d t)) (P q d);
  sc_wts := W;
  sc_nqf := nqf;
  sc_fval := fun k q i => basis_fn bt p i (face_at EHex k (fp q));
  sc_fwts := fw;
  sc_det := fun e q => jac_det EHex 1 (elem_nodes m e) (P q);
  sc_inv := fun e q => inverse3 (jacobian EHex 1 (elem_nodes m e) (P q));
  sc_normal := fun f _ => flat_normal m f |}.

Lemma inverse3_inverse A : det3 A <> 0 -> inverse_of 3 A (inverse3 A).
Proof.
  intros D i j Hi Hj. rewrite !rsum_3. unfold inverse3. cbv zeta. unfold det3, minor2 in *.
  assert (Ci : (i = 0 \/ i = 1 \/ i = 2)%Z) by lia. assert (Cj : (j = 0 \/ j = 1 \/ j = 2)%Z) by lia.
  change ((0 + 1) mod 3)%Z with 1%Z. change ((1 + 1) mod 3)%Z with 2%Z. change ((2 + 1) mod 3)%Z with 0%Z.
  change ((0 + 2) mod 3)%Z with 2%Z. change ((1 + 2) mod 3)%Z with 0%Z. change ((2 + 2) mod 3)%Z with 1%Z.
  destruct Ci as [-> | [-> | ->]], Cj as [-> | [-> | ->]];
  change ((0 + 1) mod 3)%Z with 1%Z; change ((1 + 1) mod 3)%Z with 2%Z; change ((2 + 1) mod 3)%Z with 0%Z;
  change ((0 + 2) mod 3)%Z with 2%Z; change ((1 + 2) mod 3)%Z with 0%Z; change ((2 + 2) mod 3)%Z with 1%Z;
  cbn [Z.eqb Pos.eqb]; split; field; exact D.
Qed.

Lemma inverse3_unique A X : det3 A <> 0 -> inverse_of 3 A X -> forall i j, (0 <= i < 3)%Z -> (0 <= j < 3)%Z -> X i j = inverse3 A i j.
Proof. intros D HX. apply (inverse_unique 3 A); [exact HX|now apply inverse3_inverse]. Qed.

Lemma inverse3_ext A B i j : (forall i j, (0 <= i < 3)%Z -> (0 <= j < 3)%Z -> A i j = B i j) -> inverse3 A i j = inverse3 B i j.
Proof.
  intros H. assert (D : det3 A = det3 B) by (unfold det3, minor2; now rewrite !H by lia).
  unfold inverse3. cbv zeta. rewrite D.
  assert (M : forall k, (0 <= k mod 3 < 3)%Z) by (intros; apply Z.mod_pos_bound; lia).
  rewrite (H ((j + 1) mod 3)%Z ((i + 1) mod 3)%Z), (H ((j + 2) mod 3)%Z ((i + 2) mod 3)%Z), (H ((j + 1) mod 3)%Z ((i + 2) mod 3)%Z), (H ((j + 2) mod 3)%Z ((i + 1) mod 3)%Z) by apply M.
  reflexivity.
Qed.

Lemma hex_runs zero iter n m ep pm bt p h f gamma ft ord pord junk :
  run_wf iter n m ep -> partitioned zero iter n m ep pm -> faces_valid EHex m -> flat_hexes m -> conforming_hexes m ->
  ready EHex bt p 1 m -> all_set_up EHex bt p 1 m pm n h f -> inner_loops_ok pm n ord pord ->
  exists nq P W fp fw, volume_quadrature EHex p zero2 zero1 = Ok (nq, P, W) /\ face_quadrature EHex p = Ok (((p + 2) * (p + 2))%Z, fp, fw) /\
    face_points EHex ((p + 2) * (p + 2)) /\
    runs_scheme (hex_scheme bt p m gamma ft nq P W ((p + 2) * (p + 2)) fp fw) m pm n (tables EHex bt p pm gamma ft h f ord pord junk).
Proof.
  intros WF PT FV FH CF RD AS IL. pose proof RD as [Hg Fit Un BF Op Sup]. pose proof Op as Op'. unfold order_ok in Op'.
  destruct (C70_setup_consistent zero iter n m ep pm EHex bt p 1 h f gamma ft ord pord junk WF PT RD AS IL) as (fp & fw & EF & FP & SS & _).
  rewrite hex_points in *.
  destruct (volume_rule EHex p ltac:(split; lia)) as (x & w & G & A). destruct (A zero2 zero1) as (P & W & EQ & TR).
  set (nq := ((p + 2) ^ space_dim EHex)%Z) in *.
  exists nq, P, W, fp, fw. split; [exact EQ|]. split; [exact EF|]. split; [exact FP|].
  assert (BD := basis_for_dim EHex bt BF).
  constructor; cbn [hex_scheme sc_shape sc_nb sc_gamma sc_flux sc_nq sc_val sc_grad sc_wts sc_nqf sc_fval sc_fwts sc_det sc_inv sc_normal].
  - exact SS.
  - intros r Hr. destruct (AS r Hr) as (jk & eo1 & eo2 & fo & LO & E0).
    destruct (rank_rule zero iter n m ep pm EHex bt p 1 r jk eo1 eo2 fo (h r) (f r) nq P W WF PT RD Hr LO E0 EQ) as (N0 & R0).
    destruct (C68_setup_geometry zero iter n m ep pm EHex bt p 1 r jk eo1 eo2 fo WF PT RD Hr LO) as (h' & f' & x' & w' & E & _ & _ & _ & _ & V & _).
    rewrite E in E0. injection E0 as -> ->.
    unfold tables, residual_data. cbn [d_nq d_wts d_basis_val d_basis_ref_grad]. split; [exact N0|]. rewrite N0 in V.
    intros q Hq. destruct (R0 q Hq) as (R1 & R2). split; [exact R1|]. intros i Hi. destruct (V q i Hq Hi) as (V1 & V2). split.
    + rewrite V1. apply basis_fn_ext. rewrite BD. exact R2.
    + intros d Hd. specialize (V2 d Hd). apply is_derive_unique in V2. rewrite <- V2, (R2 d Hd). apply Derive_ext. intros t. apply basis_fn_ext. rewrite BD. 
      intros d' Hd'. unfold with_coord. destruct (Z.eqb_spec d' d); auto.
  - intros r le e q Hr He Hq. destruct (AS r Hr) as (jk & eo1 & eo2 & fo & LO & E0).
    destruct (rank_rule zero iter n m ep pm EHex bt p 1 r jk eo1 eo2 fo (h r) (f r) nq P W WF PT RD Hr LO E0 EQ) as (N0 & R0).
    destruct (C68_setup_geometry zero iter n m ep pm EHex bt p 1 r jk eo1 eo2 fo WF PT RD Hr LO) as (h' & f' & x' & w' & E & _ & _ & _ & _ & _ & Rows).
    rewrite E in E0. injection E0 as -> ->. destruct (Rows le e He) as (Rq & _). rewrite N0 in Rq. destruct (Rq q Hq) as (_ & _ & Dj & Dp & Inv).
    destruct (R0 q Hq) as (_ & R2). unfold tables, residual_data. cbn [d_djac d_ijac]. split.
    + rewrite Dj. apply jac_det_point. exact R2.
    + cbn [space_dim] in *. intros d j Hd Hj. rewrite Dj in Dp.
      rewrite (inverse3_unique _ _ ltac:(apply Rgt_not_eq; exact Dp) Inv d j Hd Hj).
      apply inverse3_ext. intros a b Ha Hb. now apply jacobian_point.
  - intros r lf fc iq Hr Ef Hq.
    assert (NN : forall j, (0 <= j < space_dim EHex)%Z -> fh_normals (f r) lf iq j = flat_normal m fc j).
    { intros j Hj. exact (flat_normals zero iter n m ep pm WF PT FV FH CF bt p h f RD AS r lf fc iq j Hr Ef Hq Hj). }
    split; [|exact NN].
    destruct (row_side zero iter n m ep pm WF PT r lf fc Hr Ef) as (_ & SD). destruct (SD false) as (e & HS & _).
    exact (flat_nonzero m FH fc _ _ _ HS).
Qed.

(** ** C71 *)

(** A run on a mesh of hexahedra whose interior faces are parallelograms
    and match (possibly periodically): all tables come from the solver's own set-up.
    Over any number of forward Euler or RK4 steps the integral over the domain of
    every conserved quantity -- by the quadrature rule of the mass matrix, with
    the exact Jacobian determinants of the mesh's elements -- does not change. *)
Theorem C71_conservation_hexahedra : forall zero iter n m ep pm bt p h f gamma ft ord pord junk steps U v rs U' v' rs',
  run_wf iter n m ep -> partitioned zero iter n m ep pm -> faces_valid EHex m -> faces_distinct m ->
  flat_hexes m -> conforming_hexes m -> basis_for EHex bt -> supported bt p -> order_ok p -> 1 < gamma ->
  all_set_up EHex bt p 1 m pm n h f -> inner_loops_ok pm n ord pord ->
  (forall r, (0 <= r < n)%Z -> fits (shape_of EHex pm (nfun bt p) r)) ->
  boundary_zero EHex m pm n ((p + 2) * (p + 2)) v ->
  stepping EHex m ep pm n ((p + 2) * (p + 2)) (nfun bt p) gamma (tables EHex bt p pm gamma ft h f ord pord junk) (fun r => vh_iMM (h r))
    steps U (v, rs) U' (v', rs') ->
  exists nq P W, volume_quadrature EHex (2 * p) zero2 zero1 = Ok (nq, P, W) /\
  let integral k U := rsum n (fun r => rsum (pm_num_elems_part (pm r)) (fun le => rsum nq (fun q =>
      W q * jac_det EHex 1 (elem_nodes m (global_elem pm r le)) (P q) * rsum (nfun bt p) (fun i => basis_fn bt p i (P q) * U r le i k)))) in
  forall k, (0 <= k < 5)%Z -> integral k U' = integral k U.
Proof.
  intros zero iter n m ep pm bt p h f gamma ft ord pord junk steps U v rs U' v' rs' WF PT FV FD FH CF BF Sup Op Gm AS IL Fits BZ ST.
  assert (RD : ready EHex bt p 1 m) by (constructor; auto; [lia|apply FH|apply FH]).
  pose proof Op as Op'. unfold order_ok in Op'.
  destruct (C70_setup_consistent zero iter n m ep pm EHex bt p 1 h f gamma ft ord pord junk WF PT RD AS IL) as (fp & fw & _ & FP & SS & CO).
  pose proof (flat_normals_agree zero iter n m ep pm WF PT FV FH CF bt p h f gamma ft ord pord junk RD AS) as NA.
  rewrite hex_points in *.
  destruct (volume_rule EHex (2 * p) ltac:(split; lia)) as (x & w & _ & A). destruct (A zero2 zero1) as (P & W & EQ & _).
  set (nq := ((2 * p + 2) ^ space_dim EHex)%Z) in *.
  exists nq, P, W. split; [exact EQ|]. intros integral k Hk.
  pose proof (C65_integrals_conserved R zero iter n m ep pm EHex ((p + 2) * (p + 2)) (nfun bt p) gamma ft _ fw _ (fun r => vh_iMM (h r)) (ones bt) nq
    (fun q i => basis_fn bt p i (P q)) W (fun r le q => jac_det EHex 1 (elem_nodes m (global_elem pm r le)) (P q)) steps U v rs U' v' rs'
    WF PT FV FD FP Gm SS NA CO) as CC.
  apply CC; try assumption.
  - intros q Hq. apply ones_sum; [lia|exact Sup].
  - intros r le Hr Hle. destruct (AS r Hr) as (jk & eo1 & eo2 & fo & LO & E0).
    destruct (C69_inverse_mass_matrices zero iter n m ep pm EHex bt p 1 r jk eo1 eo2 fo (h r) (f r) WF PT RD Hr LO E0) as (nq' & P' & W' & EQ' & Inv).
    rewrite EQ in EQ'. injection EQ' as <- <- <-.
    destruct (local_elem zero iter n m ep pm WF PT r le Hr Hle) as (e & He). unfold global_elem. rewrite He. exact (Inv le e He).
Qed.
Print Assumptions C71_conservation_hexahedra.

(** ** C77 *)

(** On a mesh of hexahedra whose interior faces are parallelograms, with the tables the solver's own
    set-up computes: the scheme is the one of the mesh file, with the exact
    basis functions, Jacobians and face normals, and the tabulated rules. *)
Theorem C77_residual_is_dg_hexahedra : forall zero iter n m ep pm bt p h f gamma ft ord pord junk c U w rs w1,
  run_wf iter n m ep -> partitioned zero iter n m ep pm -> faces_valid EHex m -> faces_distinct m ->
  flat_hexes m -> conforming_hexes m -> basis_for EHex bt -> supported bt p -> order_ok p -> 1 < gamma ->
  all_set_up EHex bt p 1 m pm n h f -> inner_loops_ok pm n ord pord ->
  holds_solution pm n (nfun bt p) 5 c U -> boundary_zero EHex m pm n ((p + 2) * (p + 2)) (fst w) ->
  evaluation EHex m ep pm n ((p + 2) * (p + 2)) gamma (tables EHex bt p pm gamma ft h f ord pord junk) U w rs w1 ->
  exists nq P W fp fw, volume_quadrature EHex p zero2 zero1 = Ok (nq, P, W) /\ face_quadrature EHex p = Ok (((p + 2) * (p + 2))%Z, fp, fw) /\
  forall r le e i k, (0 <= r < n)%Z -> rd (pm_l2g_elem (pm r)) le = Ok e -> (0 <= i < nfun bt p)%Z -> (0 <= k < 5)%Z ->
    rs r le i k = dg_residual (hex_scheme bt p m gamma ft nq P W ((p + 2) * (p + 2)) fp fw) m c e i k.
Proof.
  intros zero iter n m ep pm bt p h f gamma ft ord pord junk c U w rs w1 WF PT FV FD FH CF BF Sup Op Gm AS IL HU BZ EV.
  assert (RD : ready EHex bt p 1 m) by (constructor; auto; [lia|apply FH|apply FH]).
  destruct (hex_runs zero iter n m ep pm bt p h f gamma ft ord pord junk WF PT FV FH CF RD AS IL) as (nq & P & W & fp & fw & EQ & EF & FP & RS).
  exists nq, P, W, fp, fw. split; [exact EQ|]. split; [exact EF|]. intros r le e i k Hr He Hi Hk.
  exact (C77_residual_of_scheme zero iter n m ep pm _ _ c U w rs w1 WF PT RS FV FD FP Gm HU BZ EV r le e i k Hr He Hi Hk).
Qed.
Print Assumptions C77_residual_is_dg_hexahedra.

(** ** C78 *)

(** Mass matrix of element [e] of the mesh. *)
Definition mass_matrix3 (bt : basis_type) (p : Z) (m : gmesh R) (nq : Z) (P : arr2) (W : arr1) (e : Z) : arr2 := fun i j =>
  rsum nq (fun q => W q * jac_det EHex 1 (elem_nodes m e) (P q) * basis_fn bt p i (P q) * basis_fn bt p j (P q)).

(** Any number of forward Euler and RK4 steps, on any number of ranks: the ranks
    hold the coefficients the scheme computes on the whole mesh with exact
    inverses of its mass matrices. *)
Theorem C78_run_is_dg_hexahedra : forall zero iter n m ep pm bt p h f gamma ft ord pord junk steps c U w U' w',
  run_wf iter n m ep -> partitioned zero iter n m ep pm -> faces_valid EHex m -> faces_distinct m ->
  flat_hexes m -> conforming_hexes m -> basis_for EHex bt -> supported bt p -> order_ok p -> 1 < gamma ->
  all_set_up EHex bt p 1 m pm n h f -> inner_loops_ok pm n ord pord ->
  (forall r, (0 <= r < n)%Z -> fits (shape_of EHex pm (nfun bt p) r)) ->
  holds_solution pm n (nfun bt p) 5 c U -> boundary_zero EHex m pm n ((p + 2) * (p + 2)) (fst w) ->
  marching EHex m ep pm n ((p + 2) * (p + 2)) (nfun bt p) gamma (tables EHex bt p pm gamma ft h f ord pord junk) (fun r => vh_iMM (h r))
    steps U w U' w' ->
  exists nq P W fp fw nq2 P2 W2, volume_quadrature EHex p zero2 zero1 = Ok (nq, P, W) /\ face_quadrature EHex p = Ok (((p + 2) * (p + 2))%Z, fp, fw) /\
    volume_quadrature EHex (2 * p) zero2 zero1 = Ok (nq2, P2, W2) /\
  forall iM, (forall e, (0 <= e < gm_num_elems m)%Z -> inverse_of (nfun bt p) (mass_matrix3 bt p m nq2 P2 W2 e) (iM e)) ->
    holds_solution pm n (nfun bt p) 5 (dg_march (hex_scheme bt p m gamma ft nq P W ((p + 2) * (p + 2)) fp fw) m iM steps c) U'.
Proof.
  intros zero iter n m ep pm bt p h f gamma ft ord pord junk steps c U w U' w' WF PT FV FD FH CF BF Sup Op Gm AS IL FT HU BZ MA.
  assert (RD : ready EHex bt p 1 m) by (constructor; auto; [lia|apply FH|apply FH]).
  pose proof Op as Op'. unfold order_ok in Op'.
  destruct (hex_runs zero iter n m ep pm bt p h f gamma ft ord pord junk WF PT FV FH CF RD AS IL) as (nq & P & W & fp & fw & EQ & EF & FP & RS).
  destruct (volume_rule EHex (2 * p) ltac:(split; lia)) as (x & xw & _ & A). destruct (A zero2 zero1) as (P2 & W2 & EQ2 & _).
  set (nq2 := ((2 * p + 2) ^ space_dim EHex)%Z) in *.
  exists nq, P, W, fp, fw, nq2, P2, W2. split; [exact EQ|]. split; [exact EF|]. split; [exact EQ2|]. intros iM HI.
  apply (marches zero iter n m ep pm WF PT (hex_scheme bt p m gamma ft nq P W ((p + 2) * (p + 2)) fp fw) _ RS FV FD FP Gm (fun r => vh_iMM (h r)) iM) with (U := U) (w := w) (w' := w'); try assumption.
  intros r le e i b Hr He Hi Hb. destruct (AS r Hr) as (jk & eo1 & eo2 & fo & LO & E0).
  destruct (C69_inverse_mass_matrices zero iter n m ep pm EHex bt p 1 r jk eo1 eo2 fo (h r) (f r) WF PT RD Hr LO E0) as (nq' & P' & W' & EQ' & Inv).
  rewrite EQ2 in EQ'. injection EQ' as <- <- <-.
  apply (inverse_unique (nfun bt p) (mass_matrix3 bt p m nq2 P2 W2 e)); [exact (Inv le e He)|apply HI; eapply owned_elem; eassumption|exact Hi|exact Hb].
Qed.
Print Assumptions C78_run_is_dg_hexahedra.

(** A run on [n] ranks that hold the parts [pm] of the mesh: its set-up, then the
    listed steps from state [U] to state [U'] -- with any partition, any parallel
    schedules, any memory layout and any previous content of memory. *)
Definition hex_run (m : gmesh R) (bt : basis_type) (p : Z) (gamma : R) (ft : flux_type) (steps : list (stepper * R))
  (n : Z) (pm : Z -> pmesh R) (h : Z -> vhelpers) (U U' : Z -> arr3) : Prop :=
  exists iter ep f ord pord junk w w',
    run_wf iter n m ep /\ partitioned 0 iter n m ep pm /\ all_set_up EHex bt p 1 m pm n h f /\ inner_loops_ok pm n ord pord /\
    (forall r, (0 <= r < n)%Z -> fits (shape_of EHex pm (nfun bt p) r)) /\
    boundary_zero EHex m pm n ((p + 2) * (p + 2)) (fst w) /\
    marching EHex m ep pm n ((p + 2) * (p + 2)) (nfun bt p) gamma (tables EHex bt p pm gamma ft h f ord pord junk) (fun r => vh_iMM (h r)) steps U w U' w'.

(** Two runs of the same steps on the same mesh, from the same solution, end with
    the same solution, however the mesh is partitioned. *)
Theorem C78_partition_independent_hexahedra : forall m bt p gamma ft steps n pm h U U' n2 pm2 h2 V V',
  faces_valid EHex m -> faces_distinct m -> flat_hexes m -> conforming_hexes m ->
  basis_for EHex bt -> supported bt p -> order_ok p -> 1 < gamma ->
  hex_run m bt p gamma ft steps n pm h U U' -> hex_run m bt p gamma ft steps n2 pm2 h2 V V' ->
  same_solution (nfun bt p) 5 n pm U n2 pm2 V ->
  same_solution (nfun bt p) 5 n pm U' n2 pm2 V'.
Proof.
  intros m bt p gamma ft steps n pm h U U' n2 pm2 h2 V V' FV FD FH CF BF Sup Op Gm
    (iter & ep & f & ord & pord & junk & w & w' & WF & PT & AS & IL & FT & BZ & MA)
    (iter2 & ep2 & f2 & ord2 & pord2 & junk2 & w2 & w2' & WF2 & PT2 & AS2 & IL2 & FT2 & BZ2 & MA2) SAME.
  set (zero := 0) in *. set (zero2' := 0) in *.
  assert (RD : ready EHex bt p 1 m) by (constructor; auto; [lia|apply FH|apply FH]).
  destruct (gather zero iter n m ep pm U WF PT) as (c & Hc).
  destruct (gather zero iter n m ep pm (fun r => vh_iMM (h r)) WF PT) as (iM & HiM).
  assert (HU : holds_solution pm n (nfun bt p) 5 c U) by (intros r le e j k Hr He _ _; now apply Hc).
  assert (HV : holds_solution pm2 n2 (nfun bt p) 5 c V).
  { intros r le e j k Hr He Hj Hk.
    assert (RE : (0 <= e < gm_num_elems m)%Z) by (apply (owned_elem zero2' iter2 n2 m ep2 pm2 WF2 PT2 r le e Hr He)).
    destruct (owner_of zero iter n m ep pm e WF PT RE) as (r1 & le1 & Hr1 & He1).
    rewrite <- (SAME r1 le1 r le e j k) by assumption. now apply Hc. }
  destruct (C78_run_is_dg_hexahedra zero iter n m ep pm bt p h f gamma ft ord pord junk steps c U w U' w' WF PT FV FD FH CF BF Sup Op Gm AS IL FT HU BZ MA)
    as (nq & P & W & fp & fw & nq2 & P2 & W2 & EQ & EF & EQ2 & R1).
  destruct (C78_run_is_dg_hexahedra zero2' iter2 n2 m ep2 pm2 bt p h2 f2 gamma ft ord2 pord2 junk2 steps c V w2 V' w2' WF2 PT2 FV FD FH CF BF Sup Op Gm AS2 IL2 FT2 HV BZ2 MA2)
    as (nq' & P' & W' & fp' & fw' & nq2' & P2' & W2' & EQ' & EF' & EQ2' & R2).
  rewrite EQ in EQ'. injection EQ' as <- <- <-. rewrite EF in EF'. injection EF' as <- <-. rewrite EQ2 in EQ2'. injection EQ2' as <- <- <-.
  assert (HI : forall e, (0 <= e < gm_num_elems m)%Z -> inverse_of (nfun bt p) (mass_matrix3 bt p m nq2 P2 W2 e) (iM e)).
  { intros e He. destruct (owner_of zero iter n m ep pm e WF PT He) as (r & le & Hr & Hle).
    destruct (AS r Hr) as (jk & eo1 & eo2 & fo & LO & E0).
    destruct (C69_inverse_mass_matrices zero iter n m ep pm EHex bt p 1 r jk eo1 eo2 fo (h r) (f r) WF PT RD Hr LO E0) as (nq' & P' & W' & EQ' & Inv).
    rewrite EQ2 in EQ'. injection EQ' as <- <- <-. specialize (Inv le e Hle).
    intros i j Hi Hj. destruct (Inv i j Hi Hj) as (I1 & I2). split.
    - rewrite <- I1. apply rsum_ext. intros a Ha. f_equal. symmetry. now apply HiM.
    - rewrite <- I2. apply rsum_ext. intros a Ha. f_equal. symmetry. now apply HiM. }
  specialize (R1 iM HI). specialize (R2 iM HI).
  intros r le r' le' e j k Hr Hr' He He' Hj Hk. rewrite (R1 r le e j k), (R2 r' le' e j k) by assumption. reflexivity.
Qed.
Print Assumptions C78_partition_independent_hexahedra.

(** The state of every rank after initialising from an initial condition. *)
Definition hexes_initialised (m : gmesh R) (bt : basis_type) (p : Z) (ic : ic_type) (ph : phys) (t : R)
  (n : Z) (pm : Z -> pmesh R) (h : Z -> vhelpers) (U : Z -> arr3) : Prop :=
  forall r, (0 <= r < n)%Z -> exists junk2 junk3 junk1 eo po Uc0,
    Permutation eo (zseq (pm_num_elems_part (pm r))) /\ Permutation po (zseq ((2 * Z.max p 1 + 2) ^ 3)) /\
    init_state_from_fcn EHex bt p 1 (pm r) (gm_npe m) 5 ic ph t (vh_iMM (h r)) junk2 junk3 junk1 eo po Uc0 = Ok (U r).

Lemma hexes_projection zero iter n m ep pm bt p h f ic ph t u U :
  run_wf iter n m ep -> partitioned zero iter n m ep pm -> ready EHex bt p 1 m -> all_set_up EHex bt p 1 m pm n h f ->
  starts_as 3 ic ph t u -> hexes_initialised m bt p ic ph t n pm h U ->
  exists nq P W nq' P' W', volume_quadrature EHex (2 * p) zero2 zero1 = Ok (nq, P, W) /\ volume_quadrature EHex (2 * Z.max p 1) zero2 zero1 = Ok (nq', P', W') /\
  forall r le e k, (0 <= r < n)%Z -> rd (pm_l2g_elem (pm r)) le = Ok e -> (0 <= k < 5)%Z ->
    forall i, (0 <= i < nfun bt p)%Z -> rsum (nfun bt p) (fun j => mass_matrix3 bt p m nq P W e i j * U r le j k) =
      rsum nq' (fun q => W' q * jac_det EHex 1 (elem_nodes m e) (P' q) * basis_fn bt p i (P' q) * u (place EHex 1 (elem_nodes m e) (P' q)) k).
Proof.
  intros WF PT RD AS SA IN. pose proof RD as [Hg Fit Un BF Op Sup]. unfold order_ok in Op.
  destruct (volume_rule EHex (2 * p) ltac:(split; lia)) as (x & xw & _ & A). destruct (A zero2 zero1) as (P & W & EQ & _).
  destruct (volume_rule EHex (2 * Z.max p 1) ltac:(split; lia)) as (x' & xw' & _ & A'). destruct (A' zero2 zero1) as (P' & W' & EQ' & _).
  set (nq := ((2 * p + 2) ^ space_dim EHex)%Z) in *. set (nq' := ((2 * Z.max p 1 + 2) ^ space_dim EHex)%Z) in *.
  exists nq, P, W, nq', P', W'. split; [exact EQ|]. split; [exact EQ'|]. intros r le e k Hr He Hk i Hi.
  destruct (AS r Hr) as (jk & eo1 & eo2 & fo & LO & E0). destruct (IN r Hr) as (junk2 & junk3 & junk1 & eo & po & Uc0 & Pe & Po & EI).
  destruct (C73_initial_state zero iter n m ep pm EHex bt p 1 r jk eo1 eo2 fo (h r) (f r) ic ph t u junk2 junk3 junk1 eo po Uc0 WF PT RD Hr LO E0 SA Pe)
    as (q1 & P1 & W1 & q2 & P2 & W2 & EQ1 & EQ2 & HH).
  rewrite EQ in EQ1. injection EQ1 as <- <- <-. rewrite EQ' in EQ2. injection EQ2 as <- <- <-.
  destruct (HH Po) as (Uc & EI' & OG). cbn [space_dim] in EI'. change (3 + 2)%Z with 5%Z in EI'. rewrite EI in EI'. injection EI' as <-.
  rewrite <- (OG le e He i k Hi Hk). unfold mass_matrix3.
  rewrite (rsum_ext (nfun bt p) _ (fun j => rsum nq (fun q => W q * jac_det EHex 1 (elem_nodes m e) (P q) * basis_fn bt p i (P q) * basis_fn bt p j (P q) * U r le j k))) by (intros; now rewrite rsum_scal_r).
  rewrite rsum_swap. apply rsum_ext. intros q Hq. rewrite <- rsum_scal. apply rsum_ext. intros. ring.
Qed.

(** Two whole runs -- set-up, initial condition, steps -- with the same inputs but
    different partitions end with the same solution. *)
Theorem C78_whole_run_hexahedra : forall m bt p gamma ft ic ph t u steps n pm h U U' n2 pm2 h2 V V',
  faces_valid EHex m -> faces_distinct m -> flat_hexes m -> conforming_hexes m ->
  basis_for EHex bt -> supported bt p -> order_ok p -> 1 < gamma ->
  starts_as 3 ic ph t u ->
  hexes_initialised m bt p ic ph t n pm h U -> hexes_initialised m bt p ic ph t n2 pm2 h2 V ->
  hex_run m bt p gamma ft steps n pm h U U' -> hex_run m bt p gamma ft steps n2 pm2 h2 V V' ->
  same_solution (nfun bt p) 5 n pm U' n2 pm2 V'.
Proof.
  intros m bt p gamma ft ic ph t u steps n pm h U U' n2 pm2 h2 V V' FV FD FH CF BF Sup Op Gm SA IN IN2 RN RN2.
  apply (C78_partition_independent_hexahedra m bt p gamma ft steps n pm h U U' n2 pm2 h2 V V' FV FD FH CF BF Sup Op Gm RN RN2).
  set (zero := 0). set (zero' := 0). destruct RN as (iter & ep & f & ord & pord & junk & w & w' & WF & PT & AS & _).
  destruct RN2 as (iter2 & ep2 & f2 & ord2 & pord2 & junk2 & w2 & w2' & WF2 & PT2 & AS2 & _).
  assert (RD : ready EHex bt p 1 m) by (constructor; auto; [lia|apply FH|apply FH]).
  destruct (hexes_projection zero iter n m ep pm bt p h f ic ph t u U WF PT RD AS SA IN) as (nq & P & W & nq' & P' & W' & EQ & EQ' & R1).
  destruct (hexes_projection zero' iter2 n2 m ep2 pm2 bt p h2 f2 ic ph t u V WF2 PT2 RD AS2 SA IN2) as (q1 & P1 & W1 & q2 & P2 & W2 & EQ1 & EQ2 & R2).
  rewrite EQ in EQ1. injection EQ1 as <- <- <-. rewrite EQ' in EQ2. injection EQ2 as <- <- <-.
  intros r le r' le' e j k Hr Hr' He He' Hj Hk.
  destruct (AS r Hr) as (jk & eo1 & eo2 & fo & LO & E0).
  destruct (C69_inverse_mass_matrices zero iter n m ep pm EHex bt p 1 r jk eo1 eo2 fo (h r) (f r) WF PT RD Hr LO E0) as (q1 & P1 & W1 & EQ1 & Inv).
  rewrite EQ in EQ1. injection EQ1 as <- <- <-. specialize (Inv le e He).
  change (inverse_of (nfun bt p) (mass_matrix3 bt p m nq P W e) (vh_iMM (h r) le)) in Inv.
  assert (REC : forall X : Z -> R, X j = rsum (nfun bt p) (fun i => vh_iMM (h r) le j i * rsum (nfun bt p) (fun a => mass_matrix3 bt p m nq P W e i a * X a))).
  { intros X. rewrite (rsum_ext (nfun bt p) _ (fun i => rsum (nfun bt p) (fun a => vh_iMM (h r) le j i * mass_matrix3 bt p m nq P W e i a * X a))).
    2:{ intros i Hi. rewrite <- rsum_scal. apply rsum_ext. intros. ring. }
    rewrite rsum_swap. rewrite (rsum_ext (nfun bt p) _ (fun a => X a * (if (a =? j)%Z then 1 else 0))).
    - now rewrite rsum_delta_r.
    - intros a Ha. rewrite rsum_scal_r, (proj2 (Inv j a Hj Ha)), (Z.eqb_sym j a). ring. }
  rewrite (REC (fun a => U r le a k)). symmetry. rewrite (REC (fun a => V r' le' a k)). symmetry. apply rsum_ext. intros i Hi. f_equal.
  transitivity (rsum nq' (fun q => W' q * jac_det EHex 1 (elem_nodes m e) (P' q) * basis_fn bt p i (P' q) * u (place EHex 1 (elem_nodes m e) (P' q)) k)); [exact (R1 r le e k Hr He Hk i Hi)|symmetry; exact (R2 r' le' e k Hr' He' Hk i Hi)].
Qed.
Print Assumptions C78_whole_run_hexahedra.

