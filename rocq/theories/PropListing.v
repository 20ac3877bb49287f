(** PropListing.v -- C107: the solution exists, and neither the numbering nor the
    first corners in a mesh file matter, together. *)
From Coq Require Import ZArith List Lia Reals Lra String Bool Permutation.
From Flocq Require Import BinarySingleNaN.
From Verif Require Import Base RBase MeshModel MeshSpec MeshProof CommProof IOProof4 PropMesh IOModel PropIO PropOutput.
From Verif Require Import ReadModel PropRead PropCtor UtilModel TimeModel ProgramModel PropProgram.
From Verif Require Import LinAlgModel PropLinAlg BasisModel ShapeModel QuadProof ShapeProof PropShape SolverModel SolverSpec SolverMesh SolverFlux PhysModel PhysSpec PhysProof PropPhys PropBasis PropSolver PropNormals StepModel PropIntegral PropStep PropQuad SetupModel SetupSpec SetupProof SetupFaces PropSetup PropMeshRun PropInit PropPost DGSpec DGProof PropDG PropHex PropFree PropHexFree PropTime PropWhole PropTotal PropEnd PropRenumber PropCorner PropCornerHex.
Import ListNotations.
Local Open Scope Z_scope.
Local Open Scope R_scope.
Open Scope res_scope.

(** The mass matrices of an untangled mesh can be inverted, and every function has
    a projection. *)
Lemma can_start s m bt p nq P W u : basis_for s bt -> supported bt p -> order_ok p -> untangled s 1 m ->
  volume_quadrature s (2 * p) zero2 zero1 = Ok (nq, P, W) ->
  let M := fun e i j => rsum nq (fun q => W q * jac_det s 1 (elem_nodes m e) (P q) * basis_fn bt p i (P q) * basis_fn bt p j (P q)) in
  exists iM c0, (forall e, (0 <= e < gm_num_elems m)%Z -> inverse_of (nfun bt p) (M e) (iM e)) /\ projects s m bt p M u c0.
Proof.
  intros BF Sup Op Un EQ M. assert (Hp : (0 <= p)%Z) by (unfold order_ok in Op; lia).
  destruct (volume_rule s (2 * p)) as (x & w & G & VR); [unfold order_ok in Op; split; lia|].
  destruct (VR zero2 zero1) as (P1 & W1 & E & T). rewrite EQ in E. injection E as -> -> ->.
  destruct (volume_rule s (2 * Z.max p 1)) as (x' & w' & _ & VR'); [unfold order_ok in Op; split; lia|].
  destruct (VR' zero2 zero1) as (P2 & W2 & EQ2 & _).
  set (iM := fun e => invA (nfun bt p) (M e) zero2).
  assert (HI : forall e, (0 <= e < gm_num_elems m)%Z -> inverse_of (nfun bt p) (M e) (iM e)).
  { intros e He.
    refine (mass_inverse s bt p ((2 * p + 2) ^ space_dim s) (2 * p + 2) x P1 W1 (fun q i => basis_fn bt p i (P1 q)) w (fun q => jac_det s 1 (elem_nodes m e) (P1 q)) (M e) zero2 _ _ _ Sup BF eq_refl G T _ _ _ _).
    - lia.
    - intros; reflexivity.
    - intros q Hq. apply Un; [exact He|]. apply (rule_inside s (2 * p + 2) x w P1 W1 _ _ G ltac:(lia) T q Hq).
    - intros; reflexivity.
    - intros; reflexivity. }
  set (b := fun e i k => rsum ((2 * Z.max p 1 + 2) ^ space_dim s) (fun q => W2 q * jac_det s 1 (elem_nodes m e) (P2 q) * basis_fn bt p i (P2 q) * u (place s 1 (elem_nodes m e) (P2 q)) k)).
  exists iM, (fun e j k => rsum (nfun bt p) (fun i => iM e j i * b e i k)). split; [exact HI|].
  do 3 eexists. split; [exact EQ2|]. intros e i k He Hi Hk.
  rewrite (rsum_ext (nfun bt p) _ (fun j => rsum (nfun bt p) (fun a => M e i j * iM e j a * b e a k))).
  2:{ intros j Hj. rewrite <- rsum_scal. apply rsum_ext. intros. ring. }
  rewrite rsum_swap. rewrite (rsum_ext (nfun bt p) _ (fun a => b e a k * (if (a =? i)%Z then 1 else 0))).
  - now rewrite rsum_delta_r.
  - intros a Ha. rewrite rsum_scal_r, (proj1 (HI e He i a Hi Ha)), (Z.eqb_sym i a). ring.
Qed.

(** Every good mesh has a solution, for every initial function, flux and sequence of
    steps; and only one. *)
Theorem C107_quads_exists : forall m bt p gamma ft u steps, good_quads m -> basis_for EQuad bt -> supported bt p -> order_ok p ->
  exists c, quad_solution m bt p gamma ft u steps c.
Proof.
  intros m bt p gamma ft u steps [FV FD SQ CF _ _] BF Sup Op. assert (X := Op). unfold order_ok in X.
  destruct (volume_rule EQuad p) as (x & w & _ & VR); [split; lia|]. destruct (VR zero2 zero1) as (P & W & E & _).
  destruct (face_rule EQuad p) as (x' & w' & fp & fw & _ & _ & F); [lia|lia|lia|].
  replace (face_rule_points EQuad p ^ (space_dim EQuad - 1))%Z with (p + 1)%Z in F by (change (space_dim EQuad - 1)%Z with 1%Z; rewrite Z.pow_1_r; reflexivity).
  destruct (volume_rule EQuad (2 * p)) as (x2 & w2 & _ & VR2); [split; lia|]. destruct (VR2 zero2 zero1) as (P2 & W2 & E2 & _).
  destruct (can_start EQuad m bt p _ P2 W2 u BF Sup Op (convex_untangled m SQ) E2) as (iM & c0 & HI & PJ).
  exists (dg_march (quad_scheme bt p m gamma ft ((p + 2) ^ 2) P W (p + 1) fp fw) m iM steps c0).
  exists ((p + 2) ^ 2)%Z, P, W, fp, fw, ((2 * p + 2) ^ 2)%Z, P2, W2. split; [exact E|]. split; [exact F|]. split; [exact E2|]. exists iM, c0. split; [exact HI|]. split; [exact PJ|]. intros; reflexivity.
Qed.
Print Assumptions C107_quads_exists.

Theorem C107_hexahedra_exist : forall m bt p gamma ft u steps, good_hexes m -> basis_for EHex bt -> supported bt p -> order_ok p ->
  exists c, hex_solution m bt p gamma ft u steps c.
Proof.
  intros m bt p gamma ft u steps [FV FD FH CF _ _] BF Sup Op. assert (X := Op). unfold order_ok in X.
  destruct (volume_rule EHex p) as (x & w & _ & VR); [split; lia|]. destruct (VR zero2 zero1) as (P & W & E & _).
  destruct (face_rule EHex p) as (x' & w' & fp & fw & _ & _ & F); [lia|lia|lia|].
  replace (face_rule_points EHex p ^ (space_dim EHex - 1))%Z with ((p + 2) * (p + 2))%Z in F by (change (space_dim EHex - 1)%Z with 2%Z; rewrite Z.pow_2_r; reflexivity).
  destruct (volume_rule EHex (2 * p)) as (x2 & w2 & _ & VR2); [split; lia|]. destruct (VR2 zero2 zero1) as (P2 & W2 & E2 & _).
  destruct (can_start EHex m bt p _ P2 W2 u BF Sup Op (proj1 (proj2 FH)) E2) as (iM & c0 & HI & PJ).
  exists (dg_march (hex_scheme bt p m gamma ft ((p + 2) ^ 3) P W ((p + 2) * (p + 2)) fp fw) m iM steps c0).
  exists ((p + 2) ^ 3)%Z, P, W, fp, fw, ((2 * p + 2) ^ 3)%Z, P2, W2. split; [exact E|]. split; [exact F|]. split; [exact E2|]. exists iM, c0. split; [exact HI|]. split; [exact PJ|]. intros; reflexivity.
Qed.
Print Assumptions C107_hexahedra_exist.

Lemma itself s m : renumbered s m m (fun e => e) (fun f => f) (fun _ => false).
Proof.
  constructor; auto.
  - now rewrite map_id.
  - now rewrite map_id.
  - intros f sd e k o H. now rewrite xorb_false_r.
Qed.

Theorem C107_quads_unique : forall m bt p gamma ft u steps c c', mesh_wf m -> good_quads m -> 1 < gamma ->
  quad_solution m bt p gamma ft u steps c -> quad_solution m bt p gamma ft u steps c' ->
  forall e j k, (0 <= e < gm_num_elems m)%Z -> (0 <= j < nfun bt p)%Z -> (0 <= k < 4)%Z -> c' e j k = c e j k.
Proof.
  intros m bt p gamma ft u steps c c' W GQ Gm Q Q'. destruct GQ as [FV FD SQ CF Hne Hall] eqn:EG.
  apply (C93_solution_quads m m (fun e => e) (fun f => f) (fun _ => false) bt p gamma ft u steps c c' W W GQ (proj1 SQ) Hall Gm (itself EQuad m)); auto.
  right. left. now intros f _.
Qed.
Theorem C107_hexahedra_unique : forall m bt p gamma ft u steps c c', mesh_wf m -> good_hexes m -> 1 < gamma ->
  hex_solution m bt p gamma ft u steps c -> hex_solution m bt p gamma ft u steps c' ->
  forall e j k, (0 <= e < gm_num_elems m)%Z -> (0 <= j < nfun bt p)%Z -> (0 <= k < 5)%Z -> c' e j k = c e j k.
Proof.
  intros m bt p gamma ft u steps c c' W GQ Gm Q Q'. destruct GQ as [FV FD FH CF Hne Hall] eqn:EG.
  apply (C93_solution_hexahedra m m (fun e => e) (fun f => f) (fun _ => false) bt p gamma ft u steps c c' W W GQ (proj1 FH) Hall Gm (itself EHex m)); auto.
  right. left. now intros f _.
Qed.

(** * However the mesh is listed *)

(** [m'] is the mesh [m] written down again: element [e] has the number [pe e], its
    corner (and edge) [k], counter-clockwise, the number [k + r (pe e)]; face [f] has
    the number [pf f] and its sides are exchanged where [turn f]. *)
Record written_again (m m' : gmesh R) (pe pf : Z -> Z) (turn : Z -> bool) (r : Z -> nat) : Prop := {
  wa_ne : gm_num_elems m' = gm_num_elems m;
  wa_nf : gm_nIF m' = gm_nIF m;
  wa_pe : Permutation (map pe (zseq (gm_num_elems m))) (zseq (gm_num_elems m));
  wa_pf : Permutation (map pf (zseq (gm_nIF m))) (zseq (gm_nIF m));
  wa_nodes : forall e k d, (0 <= e < gm_num_elems m)%Z -> (0 <= d < 2)%Z ->
    elem_nodes m' (pe e) (ccw (k + Z.of_nat (r (pe e)))) d = elem_nodes m e (ccw k) d;
  wa_sides : forall f sd e k o, has_side m f sd e k o -> has_side m' (pf f) (xorb sd (turn f)) (pe e) ((k + Z.of_nat (r (pe e))) mod 4) o }.

Section Unturn.
Context (m' : gmesh R) (r : Z -> nat) (W : mesh_wf m') (N4 : gm_npe m' = 4%Z).
Definition from_corner (t : Z) : Z := (4 * (t / 4) + ccw (ccw (t mod 4) + Z.of_nat (r (t / 4))))%Z.
Definition row_back (row : list Z) : list Z :=
  match row with [eL; fL; oL; eR; fR; oR] => [eL; ((fL - Z.of_nat (r eL)) mod 4)%Z; oL; eR; ((fR - Z.of_nat (r eR)) mod 4)%Z; oR] | _ => row end.
Definition unturn : gmesh R := mkGMesh (gm_dim m') (gm_num_elems m') (gm_num_nodes m') (gm_nIF m') (gm_npe m')
  (map (fun t => match rd (gm_eind m') (from_corner t) with Ok g => g | _ => 0%Z end) (zseq (gm_num_elems m' * 4)))
  (gm_coord m') (map row_back (gm_IF m')).

Lemma ccw_range k : (0 <= ccw k < 4)%Z.
Proof.
  rewrite <- ccw_mod. pose proof (Z.mod_pos_bound k 4 ltac:(lia)) as B. assert (C : (k mod 4 = 0 \/ k mod 4 = 1 \/ k mod 4 = 2 \/ k mod 4 = 3)%Z) by lia.
  destruct C as [-> | [-> | [-> | ->]]]; split; now vm_compute.
Qed.
Lemma ccw_ccw k : ccw (ccw k) = (k mod 4)%Z.
Proof.
  rewrite <- (ccw_mod k). pose proof (Z.mod_pos_bound k 4 ltac:(lia)) as B. assert (C : (k mod 4 = 0 \/ k mod 4 = 1 \/ k mod 4 = 2 \/ k mod 4 = 3)%Z) by lia.
  destruct C as [-> | [-> | [-> | ->]]]; reflexivity.
Qed.
Lemma from_corner_at e j : (0 <= j < 4)%Z -> from_corner (e * 4 + j) = (e * 4 + ccw (ccw j + Z.of_nat (r e)))%Z.
Proof.
  intros Hj. unfold from_corner. replace ((e * 4 + j) / 4)%Z with e by (symmetry; rewrite Z.add_comm, Z.div_add, Z.div_small by lia; lia).
  replace ((e * 4 + j) mod 4)%Z with j by (symmetry; rewrite Z.add_comm, Z.mod_add, Z.mod_small by lia; lia). lia.
Qed.
Lemma unturn_eind e j : (0 <= e < gm_num_elems m')%Z -> (0 <= j < 4)%Z -> rd (gm_eind unturn) (e * 4 + j) = rd (gm_eind m') (e * 4 + ccw (ccw j + Z.of_nat (r e))).
Proof.
  intros He Hj. cbn [unturn gm_eind]. rewrite (rd_map _ _ _ (e * 4 + j)%Z) by (apply rd_zseq; lia). rewrite from_corner_at by exact Hj.
  pose proof (ccw_range (ccw j + Z.of_nat (r e))) as B.
  destruct (rd_total (gm_eind m') (e * 4 + ccw (ccw j + Z.of_nat (r e)))) as (g & ->); [|reflexivity]. rewrite (wf_eind_len m' W), N4. lia.
Qed.
Lemma unturn_nodes e j d : (0 <= e < gm_num_elems m')%Z -> (0 <= j < 4)%Z -> elem_nodes unturn e j d = elem_nodes m' e (ccw (ccw j + Z.of_nat (r e))) d.
Proof.
  intros He Hj. unfold elem_nodes. change (gm_npe unturn) with (gm_npe m'). rewrite N4, unturn_eind by assumption. reflexivity.
Qed.
Lemma unturn_wf : mesh_wf unturn.
Proof.
  destruct W. constructor; auto; cbn [unturn gm_eind gm_num_elems gm_npe gm_num_nodes gm_nIF gm_IF].
  - rewrite zlen_map, zlen_zseq by lia. now rewrite N4.
  - apply Forall_forall. intros g Hg. apply in_map_iff in Hg. destruct Hg as (t & <- & Ht). apply In_zseq in Ht.
    pose proof (ccw_range (ccw (t mod 4) + Z.of_nat (r (t / 4)))) as B. pose proof (Z.div_mod t 4 ltac:(lia)) as D. pose proof (Z.mod_pos_bound t 4 ltac:(lia)) as D'.
    destruct (rd_total (gm_eind m') (from_corner t)) as (g & E). { rewrite wf_eind_len, N4. unfold from_corner. lia. }
    rewrite E. rewrite Forall_forall in wf_eind. apply wf_eind. eapply rd_In; exact E.
  - now rewrite zlen_map.
  - apply Forall_forall. intros row Hr. apply in_map_iff in Hr. destruct Hr as (row' & <- & Hr). rewrite Forall_forall in wf_if.
    destruct (wf_if _ Hr) as (eL & fL & oL & eR & fR & oR & -> & A1 & A2 & A3 & A4 & A5 & A6). cbn [row_back].
    do 6 eexists. split; [reflexivity|]. repeat split; try lia; apply Z.mod_pos_bound; lia.
Qed.
(** The rows of the faces. *)
Lemma unturn_side f sd e k o : has_side unturn f sd e k o <-> exists k', has_side m' f sd e k' o /\ k = ((k' - Z.of_nat (r e)) mod 4)%Z.
Proof.
  unfold has_side, rd2. cbv zeta. cbn [unturn gm_IF]. split.
  - intros (H0 & H1 & H2). destruct (rd (map row_back (gm_IF m')) f) as [row|] eqn:E; cbn [bind] in *; [|discriminate].
    destruct (rd_map_inv _ _ _ _ E) as (row' & E' & ->). rewrite E'. cbn [bind].
    pose proof (wf_if m' W) as F. rewrite Forall_forall in F. destruct (F row' (rd_In _ _ _ E')) as (eL & fL & oL & eR & fR & oR & -> & _).
    cbn [row_back] in *. destruct sd; cbn in H0, H1, H2 |- *; injection H0 as <-; injection H1 as <-; injection H2 as <-; (eexists; split; [split; [|split]; reflexivity|reflexivity]).
  - intros (k' & (H0 & H1 & H2) & ->). destruct (rd (gm_IF m') f) as [row|] eqn:E; cbn [bind] in *; [|discriminate].
    rewrite (rd_map _ _ _ _ E). cbn [bind]. pose proof (wf_if m' W) as F. rewrite Forall_forall in F.
    destruct (F row (rd_In _ _ _ E)) as (eL & fL & oL & eR & fR & oR & -> & _). cbn [row_back].
    destruct sd; cbn in H0, H1, H2 |- *; injection H0 as <-; injection H1 as <-; injection H2 as <-; (split; [|split]; reflexivity).
Qed.
End Unturn.

Section Split.
Context (m m' : gmesh R) (pe pf : Z -> Z) (turn : Z -> bool) (r : Z -> nat) (W : mesh_wf m) (W' : mesh_wf m') (N4 : gm_npe m' = 4%Z) (FV : faces_valid EQuad m)
  (WA : written_again m m' pe pf turn r).

Lemma pe_in e : (0 <= e < gm_num_elems m)%Z -> (0 <= pe e < gm_num_elems m')%Z.
Proof.
  intros He. rewrite (wa_ne _ _ _ _ _ _ WA). apply In_zseq. apply (Permutation_in _ (wa_pe _ _ _ _ _ _ WA)). apply in_map. now apply In_zseq.
Qed.
Lemma side_range (g : gmesh R) f sd e k o : mesh_wf g -> has_side g f sd e k o -> (0 <= f < gm_nIF g)%Z /\ (0 <= k)%Z.
Proof.
  intros Wg (H0 & H1 & _). unfold rd2 in *. destruct (rd (gm_IF g) f) as [row|] eqn:E; cbn [bind] in *; [|discriminate].
  split; [rewrite <- (wf_if_len g Wg); eapply rd_in_range; exact E|].
  pose proof (wf_if g Wg) as F. rewrite Forall_forall in F. destruct (F row (rd_In _ _ _ E)) as (eL & fL & oL & eR & fR & oR & -> & _ & _ & A & _ & B & _).
  destruct sd; cbn in H1; injection H1 as <-; assumption.
Qed.
Lemma side_at (g : gmesh R) f sd : mesh_wf g -> (0 <= f < gm_nIF g)%Z -> exists e k o, has_side g f sd e k o.
Proof.
  intros Wg Hf. destruct (rd_total (gm_IF g) f) as (row & E); [now rewrite (wf_if_len g Wg)|].
  pose proof (wf_if g Wg) as F. rewrite Forall_forall in F. destruct (F row (rd_In _ _ _ E)) as (eL & fL & oL & eR & fR & oR & -> & _).
  unfold has_side, rd2. rewrite E. destruct sd; do 3 eexists; (split; [|split]; reflexivity).
Qed.

Lemma first_numbers : renumbered EQuad m (unturn m' r) pe pf turn.
Proof.
  destruct WA as [A1 A2 A3 A4 A5 A6]. constructor; auto.
  - intros e k d He Hk Hd. cbn [corners] in Hk. rewrite unturn_nodes by (auto; now apply pe_in).
    rewrite A5 by assumption. now rewrite ccw_ccw, Z.mod_small.
  - intros f sd e k o H. apply (unturn_side m' r W'). eexists. split; [apply A6; exact H|].
    destruct (side_range m f sd e k o W H) as (_ & K0). destruct (FV _ _ _ _ _ H) as (K1 & _). cbn [faces_per_elem] in K1.
    rewrite Zminus_mod_idemp_l. replace (k + Z.of_nat (r (pe e)) - Z.of_nat (r (pe e)))%Z with k by lia. now rewrite Z.mod_small.
Qed.
(** Edges of [m'] are numbered 0 to 3. *)
Lemma valid_again f sd e k o : has_side m' f sd e k o -> (0 <= k < 4)%Z.
Proof.
  intros H. destruct (side_range m' f sd e k o W' H) as (Hf & _). rewrite (wa_nf _ _ _ _ _ _ WA) in Hf. apply In_zseq in Hf.
  apply (Permutation_in _ (Permutation_sym (wa_pf _ _ _ _ _ _ WA))) in Hf. apply in_map_iff in Hf. destruct Hf as (f0 & E & Hf). apply In_zseq in Hf. subst f.
  destruct (side_at m f0 (xorb sd (turn f0)) W Hf) as (e0 & k0 & o0 & H0). apply (wa_sides _ _ _ _ _ _ WA) in H0.
  rewrite xorb_assoc, xorb_nilpotent, xorb_false_r in H0. destruct H as (_ & H & _), H0 as (_ & H0 & _). rewrite H in H0. injection H0 as ->. apply Z.mod_pos_bound. lia.
Qed.
Lemma then_corners : relisted (unturn m' r) m' r.
Proof.
  constructor; try reflexivity.
  - intros e k d He Hd. rewrite unturn_nodes by (auto using ccw_range). rewrite ccw_ccw. rewrite <- (ccw_mod (k mod 4 + _)), Z.add_mod_idemp_l, ccw_mod by lia. reflexivity.
  - intros f sd e k o H. apply (unturn_side m' r W') in H. destruct H as (k' & H & ->). rewrite Z.add_mod_idemp_l by lia.
    replace (k' - Z.of_nat (r e) + Z.of_nat (r e))%Z with k' by lia. rewrite Z.mod_small by (eapply valid_again; exact H). exact H.
Qed.
Lemma unturn_used : (forall x, (0 <= x < gm_num_nodes m')%Z -> in_some_element m' x) -> forall x, (0 <= x < gm_num_nodes (unturn m' r))%Z -> in_some_element (unturn m' r) x.
Proof.
  intros H x Hx. destruct (H x Hx) as (e & j & He & Hj & E). rewrite N4 in Hj, E.
  exists e, (ccw (ccw j - Z.of_nat (r e))). split; [exact He|]. change (gm_npe (unturn m' r)) with (gm_npe m'). rewrite N4. split; [apply ccw_range|].
  rewrite unturn_eind by (auto using ccw_range). rewrite ccw_ccw. rewrite <- (ccw_mod (_ mod 4 + _)), Z.add_mod_idemp_l, ccw_mod by lia.
  replace (ccw j - Z.of_nat (r e) + Z.of_nat (r e))%Z with (ccw j) by lia. rewrite ccw_ccw, Z.mod_small by lia. exact E.
Qed.
End Split.

Theorem C107_solution_quads : forall m m' pe pf turn r bt p gamma ft u steps c c',
  mesh_wf m -> mesh_wf m' -> good_quads m -> mesh_fits EQuad 1 m' -> (forall x, (0 <= x < gm_num_nodes m')%Z -> in_some_element m' x) ->
  basis_for EQuad bt -> supported bt p -> order_ok p -> 1 < gamma -> written_again m m' pe pf turn r ->
  (ft = LaxFriedrichs \/ unturned m turn \/ quad_calm turn m bt p gamma ft u steps) ->
  quad_solution m bt p gamma ft u steps c -> quad_solution m' bt p gamma ft u steps c' ->
  forall e y, (0 <= e < gm_num_elems m)%Z ->
    (forall d, (0 <= d < 2)%Z -> place EQuad 1 (elem_nodes m' (pe e)) (quarters (r (pe e)) y) d = place EQuad 1 (elem_nodes m e) y d) /\
    forall k, (0 <= k < 4)%Z -> value bt p c' (pe e) (quarters (r (pe e)) y) k = value bt p c e y k.
Proof.
  intros m m' pe pf turn r bt p gamma ft u steps c c' W W' GQ MF' ND' BF Sup Op Gm WA FC Q Q' e y He.
  assert (N4 : gm_npe m' = 4%Z) by exact (proj2 MF').
  assert (FV : faces_valid EQuad m) by apply GQ.
  pose proof (first_numbers m m' pe pf turn r W W' N4 FV WA) as RN. pose proof (then_corners m m' pe pf turn r W W' N4 WA) as RL.
  pose proof (unturn_wf m' r W' N4) as WM. pose proof (unturn_used m' r W' N4 ND') as NM.
  assert (MFM : mesh_fits EQuad 1 (unturn m' r)) by exact MF'.
  pose proof (C93_good_quads m _ pe pf turn W WM RN GQ MFM NM) as GM.
  destruct (C107_quads_exists _ bt p gamma ft u steps GM BF Sup Op) as (cm & QM).
  assert (HE : (0 <= pe e < gm_num_elems (unturn m' r))%Z) by (exact (pe_in m m' pe pf turn r WA e He)).
  split.
  - intros d Hd. rewrite (proj1 (C106_solution_quads _ m' r bt p gamma ft u steps cm c' WM W' GM (proj1 MF') BF Sup Op RL QM Q' (pe e) y 0%Z HE ltac:(lia))).
    apply place_nodes. intros i Hi. now apply (rn_nodes _ _ _ _ _ _ RN).
  - intros k Hk. rewrite (proj2 (C106_solution_quads _ m' r bt p gamma ft u steps cm c' WM W' GM (proj1 MF') BF Sup Op RL QM Q' (pe e) y k HE Hk)).
    unfold value. apply rsum_ext. intros j Hj. f_equal. exact (C93_solution_quads m _ pe pf turn bt p gamma ft u steps c cm W WM GQ MFM NM Gm RN FC Q QM e j k He Hj Hk).
Qed.
Print Assumptions C107_solution_quads.

Theorem C107_good_quads : forall m m' pe pf turn r, mesh_wf m -> mesh_wf m' -> good_quads m -> mesh_fits EQuad 1 m' ->
  (forall x, (0 <= x < gm_num_nodes m')%Z -> in_some_element m' x) -> written_again m m' pe pf turn r -> good_quads m'.
Proof.
  intros m m' pe pf turn r W W' GQ MF' ND' WA. assert (N4 : gm_npe m' = 4%Z) by exact (proj2 MF').
  assert (FV : faces_valid EQuad m) by apply GQ.
  pose proof (first_numbers m m' pe pf turn r W W' N4 FV WA) as RN. pose proof (then_corners m m' pe pf turn r W W' N4 WA) as RL.
  pose proof (unturn_wf m' r W' N4) as WM.
  pose proof (C93_good_quads m _ pe pf turn W WM RN GQ MF' (unturn_used m' r W' N4 ND')) as GM.
  exact (C106_good_quads _ m' r WM W' RL GM MF' ND').
Qed.
Print Assumptions C107_good_quads.

Theorem C107_program_quads : forall inputs meshes argv metis n inp m inputs' meshes' argv' metis' n' inp' m' cfg N u pe pf turn r g g',
  (1 <= n)%Z -> reads inputs meshes argv inp m -> asks_for inp cfg -> enough_data inp cfg -> parts_asked inp n -> metis_valid metis m n ->
  (1 <= n')%Z -> reads inputs' meshes' argv' inp' m' -> asks_for inp' cfg -> enough_data inp' cfg -> parts_asked inp' n' -> metis_valid metis' m' n' ->
  cf_dim cfg = 2%Z -> cf_physics cfg = Euler -> num_iterations (cf_end cfg) (cf_dt cfg) = Ok N ->
  let bt := cf_basis cfg in let p := cf_order cfg in let gamma := ph_gamma (cf_phys cfg) in let dt := B2R (cf_dt cfg) in
  let steps := repeat (cf_stepper cfg, dt) (Z.to_nat N) in
  good_quads m -> mesh_fits EQuad 1 m' -> (forall x, (0 <= x < gm_num_nodes m')%Z -> in_some_element m' x) -> basis_for EQuad bt -> supported bt p -> order_ok p -> 1 < gamma ->
  starts_as 2 (cf_ic cfg) (cf_phys cfg) 0 u -> small m (nfun bt p) 4 -> small m' (nfun bt p) 4 ->
  written_again m m' pe pf turn r ->
  (cf_flux cfg = LaxFriedrichs \/ unturned m turn \/ quad_calm turn m bt p gamma (cf_flux cfg) u steps) ->
  program inputs meshes argv metis n g -> program inputs' meshes' argv' metis' n' g' ->
  exists c c', g = Ok (solution_file m (nfun bt p) 4 (INR (Z.to_nat N) * dt) c) /\
    g' = Ok (solution_file m' (nfun bt p) 4 (INR (Z.to_nat N) * dt) c') /\
    forall e y, (0 <= e < gm_num_elems m)%Z ->
      (forall d, (0 <= d < 2)%Z -> place EQuad 1 (elem_nodes m' (pe e)) (quarters (r (pe e)) y) d = place EQuad 1 (elem_nodes m e) y d) /\
      forall k, (0 <= k < 4)%Z -> value bt p c' (pe e) (quarters (r (pe e)) y) k = value bt p c e y k.
Proof.
  intros inputs meshes argv metis n inp m inputs' meshes' argv' metis' n' inp' m' cfg N u pe pf turn r g g' Hn RE AF ED PA MV Hn' RE' AF' ED' PA' MV' D2 EU EN
    bt p gamma dt steps GQ MF' ND' BF Sup Op Gm SA SM SM' WA FC PR PR'.
  destruct (C84_solution_quads inputs meshes argv metis n inp m cfg N u g Hn RE AF ED D2 EU PA MV EN GQ BF Sup Op Gm SA SM PR) as (c & Q & ->).
  pose proof (C107_good_quads m m' pe pf turn r (reads_wf _ _ _ _ _ RE) (reads_wf _ _ _ _ _ RE') GQ MF' ND' WA) as GQ'.
  destruct (C84_solution_quads inputs' meshes' argv' metis' n' inp' m' cfg N u g' Hn' RE' AF' ED' D2 EU PA' MV' EN GQ' BF Sup Op Gm SA SM' PR') as (c' & Q' & ->).
  exists c, c'. split; [reflexivity|]. split; [reflexivity|].
  exact (C107_solution_quads m m' pe pf turn r bt p gamma (cf_flux cfg) u steps c c' (reads_wf _ _ _ _ _ RE) (reads_wf _ _ _ _ _ RE') GQ MF' ND' BF Sup Op Gm WA FC Q Q').
Qed.
Print Assumptions C107_program_quads.
