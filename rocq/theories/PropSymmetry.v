(** PropSymmetry.v -- C103: flows that repeat.  If a mesh consists of translated
    copies of a part and the initial state is the same in all copies, the solution
    is the same in all copies at the end of the run. *)
From Coq Require Import ZArith List Lia Reals Lra String Bool Permutation.
From Flocq Require Import BinarySingleNaN.
From Verif Require Import Base RBase MeshModel MeshSpec MeshProof PropMesh IOModel PropIO PropOutput.
From Verif Require Import ReadModel PropRead PropCtor UtilModel TimeModel ProgramModel PropProgram.
From Verif Require Import LinAlgModel PropLinAlg BasisModel ShapeModel PropShape SolverModel SolverSpec SolverMesh SolverFlux PhysModel PhysSpec PhysProof PropPhys PropBasis PropSolver PropNormals StepModel PropIntegral PropStep SetupModel SetupSpec SetupProof PropSetup PropMeshRun PropInit PropPost DGSpec DGProof PropDG PropHex PropFree PropHexFree PropTime PropWhole PropTotal PropVortex PropRenumber.
Import ListNotations.
Local Open Scope Z_scope.
Local Open Scope R_scope.
Open Scope res_scope.

(** * Specification *)

(** The mesh repeats: element [pe e] is element [e] moved by the vector [v e]
    (which may differ between elements: on a periodic mesh the last copies are
    followed by the first), and the faces of [e] and of [pe e] have the same
    position in their elements and lead to corresponding neighbours.  Faces whose
    two sides the file names in the other order: [turn]. *)
Record repeats (s : eshape) (m : gmesh R) (pe pf : Z -> Z) (turn : Z -> bool) (v : arr2) : Prop := {
  rp_pe : Permutation (map pe (zseq (gm_num_elems m))) (zseq (gm_num_elems m));
  rp_pf : Permutation (map pf (zseq (gm_nIF m))) (zseq (gm_nIF m));
  rp_nodes : forall e k d, (0 <= e < gm_num_elems m)%Z -> (0 <= k < corners s)%Z -> (0 <= d < space_dim s)%Z ->
    elem_nodes m (pe e) k d = elem_nodes m e k d + v e d;
  rp_sides : forall f sd e k o, has_side m f sd e k o -> has_side m (pf f) (xorb sd (turn f)) (pe e) k o }.

(** The field [u] repeats: it has the same values at corresponding points of
    corresponding elements. *)
Definition field_repeats (s : eshape) (m : gmesh R) (pe : Z -> Z) (u : (Z -> R) -> Z -> R) : Prop :=
  forall e y k, (0 <= e < gm_num_elems m)%Z -> (forall d, (0 <= d < space_dim s)%Z -> -1 <= y d <= 1) -> (0 <= k < space_dim s + 2)%Z ->
    u (place s 1 (elem_nodes m (pe e)) y) k = u (place s 1 (elem_nodes m e) y) k.

(** * Geometry of moved elements *)
Lemma repeats_rewired s m pe pf turn v : repeats s m pe pf turn v -> rewired m m pe pf turn.
Proof. intros [A B _ D]. now constructor. Qed.

Lemma place_moved s X X' a y d : (forall k, (0 <= k < corners s)%Z -> X' k d = X k d + a) -> place s 1 X' y d = place s 1 X y d + a.
Proof.
  intros H. unfold place, elem_map.
  rewrite (rsum_ext _ _ (fun i => basis_fn (geom_basis s) 1 i y * X i d + (1 * basis_fn (geom_basis s) 1 i y) * a)).
  - rewrite rsum_plus, rsum_scal_r. f_equal. transitivity (1 * a); [f_equal|ring].
    etransitivity; [|apply (ones_sum (geom_basis s) 1 y); [lia|destruct s; now left]]. apply rsum_ext. intros i _. destruct s; reflexivity.
  - intros i Hi. rewrite corners_nfun in Hi. rewrite H by exact Hi. ring.
Qed.

Lemma jacobian_moved s X X' a y j d : (forall k, (0 <= k < corners s)%Z -> X' k j = X k j + a) -> jacobian s 1 X' y j d = jacobian s 1 X y j d.
Proof.
  intros H. unfold jacobian.
  transitivity (Coquelicot.Derive.Derive (fun t => place s 1 X (with_coord y d t) j + a) (y d)).
  - apply Coquelicot.Derive.Derive_ext. intros t. now apply place_moved.
  - unfold Coquelicot.Derive.Derive. f_equal. apply Coquelicot.Continuity.Lim_ext. intros h. f_equal. ring.
Qed.

Lemma jac_det_moved s X X' (a : arr1) y : (forall k d, (0 <= k < corners s)%Z -> (0 <= d < space_dim s)%Z -> X' k d = X k d + a d) -> jac_det s 1 X' y = jac_det s 1 X y.
Proof.
  intros H. unfold jac_det. apply small_det_ext; [destruct s; cbn; lia|]. intros i j Hi Hj. apply (jacobian_moved s X X' (a i)). intros k Hk. now apply H.
Qed.

(** The march keeps the correspondence of the projections. *)
Lemma solution_repeats s m pe pf turn v bt p S M u steps c : mesh_wf m -> repeats s m pe pf turn v -> field_repeats s m pe u -> order_ok (Z.max p 1) ->
  sc_shape S = s -> sc_nb S = nfun bt p -> 1 < sc_gamma S ->
  (forall e q, (0 <= e < gm_num_elems m)%Z -> (0 <= q < sc_nq S)%Z -> sc_det S (pe e) q = sc_det S e q) ->
  (forall e q d j, (0 <= e < gm_num_elems m)%Z -> (0 <= q < sc_nq S)%Z -> (0 <= d < space_dim s)%Z -> (0 <= j < space_dim s)%Z -> sc_inv S (pe e) q d j = sc_inv S e q d j) ->
  (forall f q d, (0 <= f < gm_nIF m)%Z -> (0 <= q < sc_nqf S)%Z -> (0 <= d < space_dim s)%Z ->
     sc_normal S (pf f) q d = (if turn f then opposite (sc_normal S f q) else sc_normal S f q) d) ->
  (forall e i j, (0 <= e < gm_num_elems m)%Z -> (0 <= i < nfun bt p)%Z -> (0 <= j < nfun bt p)%Z -> M (pe e) i j = M e i j) ->
  (sc_flux S = LaxFriedrichs \/ unturned m turn \/ dg_calm turn s m bt p S M u steps) ->
  dg_solution s m bt p S M u steps c ->
  forall e j k, (0 <= e < gm_num_elems m)%Z -> (0 <= j < nfun bt p)%Z -> (0 <= k < space_dim s + 2)%Z -> c (pe e) j k = c e j k.
Proof.
  intros MW RP FR Op Es Eb Hg HD HI HN HMM FC (iM & c0 & I1 & (nq & P & W & EQ & PJ) & HC) e j k He Hj Hk.
  assert (PR : forall e, (0 <= e < gm_num_elems m)%Z -> (0 <= pe e < gm_num_elems m)%Z) by (intros x Hx; apply (perm_range _ pe); [apply RP|exact Hx]).
  rewrite !HC by auto. subst s. rewrite <- Eb in *.
  assert (HI' : forall e, (0 <= e < gm_num_elems m)%Z -> inverse_of (sc_nb S) (M e) (iM (pe e))).
  { intros x Hx a b Ha Hb. destruct (I1 (pe x) (PR x Hx) a b Ha Hb) as (J1 & J2). split.
    - rewrite <- J1. apply rsum_ext. intros l Hl. now rewrite HMM.
    - rewrite <- J2. apply rsum_ext. intros l Hl. now rewrite HMM. }
  pose proof (march_corresponds (fun _ l => l) 1 m _ (one_rank m MW) m pe pf turn S (repeats_rewired _ _ _ _ _ _ RP) (sc_det S) (sc_inv S) (sc_normal S) HD HI HN iM iM) as MC.
  destruct S as [S1 S2 S3 S4 S5 S6 S7 S8 S9 S10 S11 S12 S13 S14]. cbn [sc_shape sc_nb sc_gamma sc_flux sc_nq sc_val sc_grad sc_wts sc_nqf sc_fval sc_fwts sc_det sc_inv sc_normal] in *.
  set (S := mkScheme S1 S2 S3 S4 S5 S6 S7 S8 S9 S10 S11 S12 S13 S14) in *.
  apply MC; auto.
  - intros x i b Hx Hi Hb. apply (inverse_unique S2 (M x)); auto.
  - intros x i y Hx Hi Hy. revert i Hi. apply (solves_unique S2 (M x) (iM x) (fun i => c0 (pe x) i y) (fun i => c0 x i y)); [now apply I1|].
    intros i Hi. change (sc_nb S) with S2 in *. change (sc_shape S) with S1 in *.
    rewrite (PJ x i y Hx Hi Hy). rewrite (rsum_ext S2 _ (fun b => M (pe x) i b * c0 (pe x) b y)) by (intros b Hb; now rewrite HMM).
    rewrite (PJ (pe x) i y (PR x Hx) Hi Hy). apply rsum_ext. intros q Hq.
    rewrite (jac_det_moved _ (elem_nodes m x) _ (v x)) by (intros k' d Hk' Hd; now apply RP). f_equal.
    apply FR; [exact Hx| |exact Hy]. intros d Hd.
    destruct (volume_rule S1 (2 * Z.max p 1) ltac:(unfold order_ok in Op; split; lia)) as (x1 & w1 & G & A). destruct (A zero2 zero1) as (P1 & W1 & EQ1 & TR).
    rewrite EQ in EQ1. injection EQ1 as EN <- <-. rewrite EN in Hq.
    destruct (rule_inside S1 _ x1 w1 P W _ _ G ltac:(lia) TR q Hq) as (IN & _). specialize (IN d Hd). lra.
  - assert (G : forall c, (sc_flux S = LaxFriedrichs \/ unturned m turn \/ calm S m turn c) -> fair m turn S c).
    { intros d [L|[U|C]] f q Hf Hq T; [rewrite L; apply lax_exchanges|rewrite (U f Hf) in T; discriminate|].
      destruct (C f q Hf Hq T) as (A1 & A2 & A3 & A4). apply calm_exchanges; auto. destruct (sc_shape S); [now left|now right]. }
    assert (X : sc_flux S = LaxFriedrichs \/ unturned m turn \/ all_stages (calm S m turn) S m iM steps c0).
    { destruct FC as [L|[U|C]]; auto. right. right. apply C; [rewrite <- Eb; exact I1|]. exists nq, P, W. rewrite <- Eb. split; [exact EQ|exact PJ]. }
    assert (F : forall l, (sc_flux S = LaxFriedrichs \/ unturned m turn \/ List.Forall (calm S m turn) l) -> List.Forall (fair m turn S) l).
    { intros l H. induction l as [|a l IH]; constructor.
      - apply G. destruct H as [H|[H|H]]; auto. inversion H; auto.
      - apply IH. destruct H as [H|[H|H]]; auto. inversion H; auto. }
    clear - X F. revert c0 X. induction steps as [|[st dt] steps IH]; intros c0 X; [exact I|]. cbn [all_stages] in *. split.
    + apply F. destruct X as [X|[X|X]]; auto. right. right. apply X.
    + apply IH. destruct X as [X|[X|X]]; auto. right. right. apply X.
Qed.

Lemma edge_moved m pe pf turn v f d : mesh_wf m -> conforming m -> gm_dim m = 2%Z -> repeats EQuad m pe pf turn v ->
  (0 <= f < gm_nIF m)%Z -> (0 <= d < 2)%Z -> edge_normal m (pf f) d = (if turn f then opposite (edge_normal m f) else edge_normal m f) d.
Proof.
  intros W CF D RP Hf Hd. set (s0 := quad_scheme LagrangeQuad 1 m 2 HLLC 0 zero2 zero1 0 zero2 zero1).
  destruct (sides' (fun _ l => l) 1 m _ (one_rank m W) m pe pf turn s0 (repeats_rewired _ _ _ _ _ _ RP) zero2 (fun _ _ _ _ => 0) zero3 f false Hf) as (E1 & E2 & _). rewrite xorb_false_l in E1; rewrite xorb_false_l in E2.
  assert (Hf' : (0 <= pf f < gm_nIF m)%Z) by (apply (perm_range _ pf); [apply RP|exact Hf]).
  rewrite (edge_normal_side _ _ m _ (one_rank m W) CF (pf f) (turn f) d Hf' Hd). rewrite E1, E2.
  assert (ER : (0 <= side_elem m f false < gm_num_elems m)%Z) by (apply (side_range' (fun _ l => l) 1 m _ (one_rank m W)); exact Hf).
  assert (EO : outward m (pe (side_elem m f false)) (side_face m f false) d = outward m (side_elem m f false) (side_face m f false) d).
  { unfold outward. cbv zeta. destruct (d =? 0)%Z; rewrite !(rp_nodes _ _ _ _ _ _ RP) by (auto; try apply ccw_range; cbn; lia); lra. }
  rewrite EO. destruct (turn f); [unfold opposite|]; rewrite (edge_normal_side _ _ m _ (one_rank m W) CF f false d Hf Hd); cbn [side_sign]; ring.
Qed.

Lemma flat_moved m pe pf turn v f d : mesh_wf m -> flat_hexes m -> conforming_hexes m -> repeats EHex m pe pf turn v ->
  (0 <= f < gm_nIF m)%Z -> (0 <= d < 3)%Z -> flat_normal m (pf f) d = (if turn f then opposite (flat_normal m f) else flat_normal m f) d.
Proof.
  intros W FH CF RP Hf Hd. set (s0 := hex_scheme LagrangeHex 1 m 2 HLLC 0 zero2 zero1 0 zero2 zero1).
  destruct (sides' (fun _ l => l) 1 m _ (one_rank m W) m pe pf turn s0 (repeats_rewired _ _ _ _ _ _ RP) zero2 (fun _ _ _ _ => 0) zero3 f false Hf) as (E1 & E2 & _). rewrite xorb_false_l in E1; rewrite xorb_false_l in E2.
  assert (Hf' : (0 <= pf f < gm_nIF m)%Z) by (apply (perm_range _ pf); [apply RP|exact Hf]).
  rewrite (flat_normal_side _ _ m _ (one_rank m W) FH CF (pf f) (turn f) d Hf' Hd). rewrite E1, E2.
  assert (ER : (0 <= side_elem m f false < gm_num_elems m)%Z) by (apply (side_range' (fun _ l => l) 1 m _ (one_rank m W)); exact Hf).
  assert (EO : face_vector m (pe (side_elem m f false)) (side_face m f false) d = face_vector m (side_elem m f false) (side_face m f false) d).
  { unfold face_vector, face_surface. apply vprod_ext. intros d' Hd'.
    assert (EP : forall y, place EHex 1 (elem_nodes m (pe (side_elem m f false))) y d' = place EHex 1 (elem_nodes m (side_elem m f false)) y d' + v (side_elem m f false) d').
    { intros y. apply place_moved. intros k Hk. now apply RP. }
    rewrite !EP. split; ring. }
  rewrite EO. destruct (turn f); [unfold opposite|]; rewrite (flat_normal_side _ _ m _ (one_rank m W) FH CF f false d Hf Hd); cbn [side_sign]; ring.
Qed.

(** * C103 *)

(** The numerical solution repeats. *)
Theorem C103_solution_quads : forall m pe pf turn v bt p gamma ft u steps c,
  mesh_wf m -> good_quads m -> 1 < gamma -> order_ok p -> repeats EQuad m pe pf turn v -> field_repeats EQuad m pe u ->
  (ft = LaxFriedrichs \/ unturned m turn \/ quad_calm turn m bt p gamma ft u steps) ->
  quad_solution m bt p gamma ft u steps c ->
  forall e j k, (0 <= e < gm_num_elems m)%Z -> (0 <= j < nfun bt p)%Z -> (0 <= k < 4)%Z -> c (pe e) j k = c e j k.
Proof.
  intros m pe pf turn v bt p gamma ft u steps c W GQ Gm Op RP FR FC (nq & P & V & fp & fw & nq2 & P2 & V2 & EQ & EF & EQ2 & DS).
  destruct GQ as [FV FD SQ CF _ _]. destruct SQ as ((D1 & D2) & _). cbn [space_dim] in D1.
  assert (EN : forall e, (0 <= e < gm_num_elems m)%Z -> forall k d, (0 <= k < corners EQuad)%Z -> (0 <= d < space_dim EQuad)%Z -> elem_nodes m (pe e) k d = elem_nodes m e k d + v e d) by (intros; now apply RP).
  apply (solution_repeats EQuad m pe pf turn v bt p (quad_scheme bt p m gamma ft nq P V (p + 1) fp fw) (PropDG.mass_matrix bt p m nq2 P2 V2) u steps c W RP FR); auto;
    cbn [quad_scheme sc_det sc_inv sc_normal sc_nq sc_nqf sc_flux].
  - unfold order_ok in *. lia.
  - intros x q Hx Hq. apply (jac_det_moved _ _ _ (v x)). now apply EN.
  - intros x q d i Hx Hq Hd Hi. apply inverse2_ext; [|exact Hd|exact Hi]. intros a b Ha Hb. apply (jacobian_moved _ _ _ (v x a)). intros y Hy. now apply EN.
  - intros f q d Hf Hq Hd. now apply (edge_moved m pe pf turn v).
  - intros x i b Hx Hi Hb. unfold PropDG.mass_matrix. apply rsum_ext. intros q Hq. rewrite (jac_det_moved EQuad (elem_nodes m x) _ (v x)) by (now apply EN). reflexivity.
  - destruct FC as [FC|[FC|FC]]; auto. right. right. destruct FC as (q1 & P1 & V1 & fp1 & fw1 & q3 & P3 & V3 & X1 & X2 & X3 & C).
    rewrite EQ in X1. injection X1 as <- <- <-. rewrite EF in X2. injection X2 as <- <-. rewrite EQ2 in X3. injection X3 as <- <- <-. exact C.
Qed.
Print Assumptions C103_solution_quads.

Theorem C103_solution_hexahedra : forall m pe pf turn v bt p gamma ft u steps c,
  mesh_wf m -> good_hexes m -> 1 < gamma -> order_ok p -> repeats EHex m pe pf turn v -> field_repeats EHex m pe u ->
  (ft = LaxFriedrichs \/ unturned m turn \/ hex_calm turn m bt p gamma ft u steps) ->
  hex_solution m bt p gamma ft u steps c ->
  forall e j k, (0 <= e < gm_num_elems m)%Z -> (0 <= j < nfun bt p)%Z -> (0 <= k < 5)%Z -> c (pe e) j k = c e j k.
Proof.
  intros m pe pf turn v bt p gamma ft u steps c W GQ Gm Op RP FR FC (nq & P & V & fp & fw & nq2 & P2 & V2 & EQ & EF & EQ2 & DS).
  destruct GQ as [FV FD FH CF _ _].
  assert (EN : forall e, (0 <= e < gm_num_elems m)%Z -> forall k d, (0 <= k < corners EHex)%Z -> (0 <= d < space_dim EHex)%Z -> elem_nodes m (pe e) k d = elem_nodes m e k d + v e d) by (intros; now apply RP).
  apply (solution_repeats EHex m pe pf turn v bt p (hex_scheme bt p m gamma ft nq P V ((p + 2) * (p + 2)) fp fw) (mass_matrix3 bt p m nq2 P2 V2) u steps c W RP FR); auto;
    cbn [hex_scheme sc_det sc_inv sc_normal sc_nq sc_nqf sc_flux].
  - unfold order_ok in *. lia.
  - intros x q Hx Hq. apply (jac_det_moved _ _ _ (v x)). now apply EN.
  - intros x q d i Hx Hq Hd Hi. apply inverse3_ext. intros a b Ha Hb. apply (jacobian_moved _ _ _ (v x a)). intros y Hy. now apply EN.
  - intros f q d Hf Hq Hd. now apply (flat_moved m pe pf turn v).
  - intros x i b Hx Hi Hb. unfold mass_matrix3. apply rsum_ext. intros q Hq. rewrite (jac_det_moved EHex (elem_nodes m x) _ (v x)) by (now apply EN). reflexivity.
  - destruct FC as [FC|[FC|FC]]; auto. right. right. destruct FC as (q1 & P1 & V1 & fp1 & fw1 & q3 & P3 & V3 & X1 & X2 & X3 & C).
    rewrite EQ in X1. injection X1 as <- <- <-. rewrite EF in X2. injection X2 as <- <-. rewrite EQ2 in X3. injection X3 as <- <- <-. exact C.
Qed.
Print Assumptions C103_solution_hexahedra.

(** A run of the program, on any number of ranks: the solution file holds the same
    coefficients for corresponding elements. *)
Theorem C103_program_quads : forall inputs meshes argv metis n inp m cfg N u pe pf turn v g,
  (1 <= n)%Z -> reads inputs meshes argv inp m -> asks_for inp cfg -> enough_data inp cfg -> parts_asked inp n -> metis_valid metis m n ->
  cf_dim cfg = 2%Z -> cf_physics cfg = Euler -> num_iterations (cf_end cfg) (cf_dt cfg) = Ok N ->
  let bt := cf_basis cfg in let p := cf_order cfg in let gamma := ph_gamma (cf_phys cfg) in let dt := B2R (cf_dt cfg) in
  let steps := repeat (cf_stepper cfg, dt) (Z.to_nat N) in
  good_quads m -> basis_for EQuad bt -> supported bt p -> order_ok p -> 1 < gamma ->
  starts_as 2 (cf_ic cfg) (cf_phys cfg) 0 u -> small m (nfun bt p) 4 ->
  repeats EQuad m pe pf turn v -> field_repeats EQuad m pe u ->
  (cf_flux cfg = LaxFriedrichs \/ unturned m turn \/ quad_calm turn m bt p gamma (cf_flux cfg) u steps) ->
  program inputs meshes argv metis n g ->
  exists c, g = Ok (solution_file m (nfun bt p) 4 (INR (Z.to_nat N) * dt) c) /\
    forall e j k, (0 <= e < gm_num_elems m)%Z -> (0 <= j < nfun bt p)%Z -> (0 <= k < 4)%Z -> c (pe e) j k = c e j k.
Proof.
  intros inputs meshes argv metis n inp m cfg N u pe pf turn v g Hn RE AF ED PA MV D2 EU EN bt p gamma dt steps GQ BF Sup Op Gm SA SM RP FR FC PR.
  destruct (C84_solution_quads inputs meshes argv metis n inp m cfg N u g Hn RE AF ED D2 EU PA MV EN GQ BF Sup Op Gm SA SM PR) as (c & Q & ->).
  exists c. split; [reflexivity|].
  exact (C103_solution_quads m pe pf turn v bt p gamma (cf_flux cfg) u steps c (reads_wf _ _ _ _ _ RE) GQ Gm Op RP FR FC Q).
Qed.
Print Assumptions C103_program_quads.

Theorem C103_program_hexahedra : forall inputs meshes argv metis n inp m cfg N u pe pf turn v g,
  (1 <= n)%Z -> reads inputs meshes argv inp m -> asks_for inp cfg -> enough_data inp cfg -> parts_asked inp n -> metis_valid metis m n ->
  cf_dim cfg = 3%Z -> cf_physics cfg = Euler -> num_iterations (cf_end cfg) (cf_dt cfg) = Ok N ->
  let bt := cf_basis cfg in let p := cf_order cfg in let gamma := ph_gamma (cf_phys cfg) in let dt := B2R (cf_dt cfg) in
  let steps := repeat (cf_stepper cfg, dt) (Z.to_nat N) in
  good_hexes m -> basis_for EHex bt -> supported bt p -> order_ok p -> 1 < gamma ->
  starts_as 3 (cf_ic cfg) (cf_phys cfg) 0 u -> small m (nfun bt p) 5 ->
  repeats EHex m pe pf turn v -> field_repeats EHex m pe u ->
  (cf_flux cfg = LaxFriedrichs \/ unturned m turn \/ hex_calm turn m bt p gamma (cf_flux cfg) u steps) ->
  program inputs meshes argv metis n g ->
  exists c, g = Ok (solution_file m (nfun bt p) 5 (INR (Z.to_nat N) * dt) c) /\
    forall e j k, (0 <= e < gm_num_elems m)%Z -> (0 <= j < nfun bt p)%Z -> (0 <= k < 5)%Z -> c (pe e) j k = c e j k.
Proof.
  intros inputs meshes argv metis n inp m cfg N u pe pf turn v g Hn RE AF ED PA MV D2 EU EN bt p gamma dt steps GQ BF Sup Op Gm SA SM RP FR FC PR.
  destruct (C84_solution_hexahedra inputs meshes argv metis n inp m cfg N u g Hn RE AF ED D2 EU PA MV EN GQ BF Sup Op Gm SA SM PR) as (c & Q & ->).
  exists c. split; [reflexivity|].
  exact (C103_solution_hexahedra m pe pf turn v bt p gamma (cf_flux cfg) u steps c (reads_wf _ _ _ _ _ RE) GQ Gm Op RP FR FC Q).
Qed.
Print Assumptions C103_program_hexahedra.

(** The three-dimensional vortex does not depend on y, so it repeats on every mesh
    that repeats in the direction of y. *)
Theorem C103_vortex3 : forall m pe pf turn v ph t u,
  1 < ph_gamma ph -> starts_as 3 IsentropicVortex ph t u -> repeats EHex m pe pf turn v ->
  (forall e, (0 <= e < gm_num_elems m)%Z -> v e 0%Z = 0 /\ v e 2%Z = 0) -> field_repeats EHex m pe u.
Proof.
  intros m pe pf turn v ph t u Gm (ST & _) RP V e y k He _ Hk. cbn [space_dim] in Hk.
  assert (PM : forall d, (0 <= d < 3)%Z -> place EHex 1 (elem_nodes m (pe e)) y d = place EHex 1 (elem_nodes m e) y d + v e d).
  { intros d Hd. apply place_moved. intros i Hi. now apply RP. }
  destruct (V e He) as (V0 & V2). set (x := place EHex 1 (elem_nodes m e) y) in *. set (x' := place EHex 1 (elem_nodes m (pe e)) y) in *.
  assert (E0 : x' 0%Z = x 0%Z) by (rewrite PM, V0 by lia; ring). assert (E2 : x' 2%Z = x 2%Z) by (rewrite PM, V2 by lia; ring).
  destruct (ST x (fun _ => 0)) as (U & EU & HU). destruct (ST x' (fun _ => 0)) as (U' & EU' & HU').
  rewrite <- (HU k Hk), <- (HU' k Hk). cbn [call_IC Z.eqb Pos.eqb] in EU, EU'.
  assert (EE : vortex3 ph x' t (fun _ => 0) = vortex3 ph x t (fun _ => 0)) by (unfold vortex3; now rewrite E0, E2).
  rewrite EE, EU in EU'. injection EU' as <-. reflexivity.
Qed.
Print Assumptions C103_vortex3.
