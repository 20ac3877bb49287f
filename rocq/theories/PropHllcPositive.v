(** PropHllcPositive.v -- C101: the same for the HLLC flux.  A run of order zero with
    forward Euler keeps densities and pressures positive under a CFL condition made of
    the speeds of the waves HLLC assumes, conserves, and is bounded for all times. *)
From Coq Require Import ZArith List Lia Reals Lra String Bool Permutation.
From Coquelicot Require Import Coquelicot.
From Flocq Require Import BinarySingleNaN.
From Verif Require Import Base RBase QuadModel QuadProof PropQuad MeshModel MeshSpec MeshProof PropMesh IOModel PropIO PropOutput.
From Verif Require Import ReadModel PropRead PropCtor UtilModel TimeModel ProgramModel PropProgram.
From Verif Require Import LinAlgModel PropLinAlg BasisModel ShapeModel PropShape SolverModel SolverSpec SolverMesh SolverFlux PhysModel PhysSpec PhysProof PropPhys PropBasis MassProof PropSolver PropNormals StepModel PropIntegral PropStep SetupModel SetupSpec SetupProof SetupFaces PropSetup PropMeshRun PropInit PropPost PropResidual DGSpec DGProof PropDG PropHex PropFree PropHexFree PropTime PropWhole PropTotal PropRenumber PropPositive HllcPositive PropPositiveG.
Import ListNotations.
Open Scope string_scope.
Open Scope Z_scope.
Open Scope R_scope.

(** * Specification *)

(** Largest speed at a face with normal [N f]: that of sound waves on its two sides,
    and that of the two outer waves of HLLC (PhysSpec: [wave_L], [wave_R]). *)
Definition hllc_speed (dim : Z) (gamma : R) (m : gmesh R) (N : Z -> arr1) (c : arr3) (f : Z) : R :=
  let U := c (side_elem m f false) 0%Z in let V := c (side_elem m f true) 0%Z in let n := fun i => N f i / vlen dim (N f) in
  face_speed dim gamma m c f + Rmax (Rabs (wave_L dim gamma U V n)) (Rabs (wave_R dim gamma U V n)).

(** * Proof *)

Lemma hllc_gain dim gamma m N c f : (dim = 2 \/ dim = 3)%Z -> 1 < gamma -> vdot dim (N f) (N f) <> 0 ->
  admissible dim gamma (c (side_elem m f false) 0%Z) -> admissible dim gamma (c (side_elem m f true) 0%Z) ->
  cone dim gamma (fun k => - numflux HLLC dim gamma (c (side_elem m f false) 0%Z) (c (side_elem m f true) 0%Z) (N f) k + vlen dim (N f) * hllc_speed dim gamma m N c f * c (side_elem m f false) 0%Z k).
Proof.
  intros D G HN AU AV. pose proof (vlen_pos dim (N f) HN) as L. right. unfold hllc_speed. cbv zeta. set (U := c (side_elem m f false) 0%Z) in *. set (V := c (side_elem m f true) 0%Z) in *.
  set (n := fun i => N f i / vlen dim (N f)). set (lam := face_speed dim gamma m c f + _).
  apply (admissible_ext dim gamma (vscale (vlen dim (N f)) (fun k => - toro_hllc dim gamma U V n k + lam * U k))); [exact D|intros k Hk; unfold vscale; cbn [numflux]; fold n; ring|].
  apply admissible_scale; [exact G|exact L|]. apply hllc_left; auto; [now apply unit_normal|]. unfold lam, face_speed. fold U V. apply Rplus_le_compat; [apply Rmax_l|].
  apply Rmax_lub; [apply Rle_trans with (Rabs (wave_L dim gamma U V n)); [apply Rabs_pos|apply Rmax_l]|].
  apply Rle_trans with (Rabs (wave_L dim gamma U V n)); [|apply Rmax_l]. rewrite <- Rabs_Ropp. apply Rle_abs.
Qed.

Lemma hllc_gain_R dim gamma m N c f : (dim = 2 \/ dim = 3)%Z -> 1 < gamma -> vdot dim (N f) (N f) <> 0 ->
  admissible dim gamma (c (side_elem m f false) 0%Z) -> admissible dim gamma (c (side_elem m f true) 0%Z) ->
  cone dim gamma (fun k => numflux HLLC dim gamma (c (side_elem m f false) 0%Z) (c (side_elem m f true) 0%Z) (N f) k + vlen dim (N f) * hllc_speed dim gamma m N c f * c (side_elem m f true) 0%Z k).
Proof.
  intros D G HN AU AV. pose proof (vlen_pos dim (N f) HN) as L. right. unfold hllc_speed. cbv zeta. set (U := c (side_elem m f false) 0%Z) in *. set (V := c (side_elem m f true) 0%Z) in *.
  set (n := fun i => N f i / vlen dim (N f)). set (lam := face_speed dim gamma m c f + _).
  apply (admissible_ext dim gamma (vscale (vlen dim (N f)) (fun k => toro_hllc dim gamma U V n k + lam * V k))); [exact D|intros k Hk; unfold vscale; cbn [numflux]; fold n; ring|].
  apply admissible_scale; [exact G|exact L|]. apply hllc_right; auto; [now apply unit_normal|]. unfold lam, face_speed. fold U V. apply Rplus_le_compat; [apply Rmax_r|].
  apply Rmax_lub; [apply Rle_trans with (Rabs (wave_L dim gamma U V n)); [apply Rabs_pos|apply Rmax_l]|].
  apply Rle_trans with (Rabs (wave_R dim gamma U V n)); [|apply Rmax_r]. apply Rle_abs.
Qed.

(** ** C101, quadrilaterals.  Order zero, HLLC fluxes, forward Euler: while
    the time step respects the CFL condition, the run stays physical, conserves, and
    is bounded by the totals of the initial state. *)
Theorem C101_positive_quads : forall m bt gamma u dt n,
  mesh_wf m -> good_quads m -> basis_for EQuad bt -> 1 < gamma -> 0 <= dt -> physical_start EQuad gamma m u ->
  (forall k c, (k < n)%nat -> quad_solution m bt 0 gamma HLLC u (repeat (ForwardEuler, dt) k) c -> cfl_by (hllc_speed 2 gamma m (edge_normal m) c) m (quad_area m) (edge_length m) dt) ->
  quad_physical m bt 0 gamma HLLC u (repeat (ForwardEuler, dt) n) /\
  exists c0, quad_solution m bt 0 gamma HLLC u [] c0 /\
  forall c, quad_solution m bt 0 gamma HLLC u (repeat (ForwardEuler, dt) n) c -> sound_result 2 gamma m (quad_area m) c0 c.
Proof.
  intros m bt gamma u dt n MW [FV FD SQ CF Hne Hall] BF Gm Hdt AD CFL.
  assert (RD : ready EQuad bt 0 1 m) by (constructor; auto; [lia|apply SQ|now apply convex_untangled|unfold order_ok; lia|right; lia]).
  destruct (volume_rule EQuad 0 ltac:(split; lia)) as (x & xw & _ & A). destruct (A zero2 zero1) as (P & W & EQ & _). set (nq := ((0 + 2) ^ space_dim EQuad)%Z) in *.
  destruct edge_rule0 as (fp & fw & EF & F2).
  assert (SOL : forall steps c, dg_solution EQuad m bt 0 (quad_scheme bt 0 m gamma HLLC nq P W (0 + 1) fp fw) (PropDG.mass_matrix bt 0 m nq P W) u steps c <->
    quad_solution m bt 0 gamma HLLC u steps c).
  { intros steps c. split.
    - intros H. exists nq, P, W, fp, fw, nq, P, W. split; [exact EQ|]. split; [exact EF|]. split; [exact EQ|exact H].
    - intros (nq' & P' & W' & fp' & fw' & nq2 & P2 & W2 & EQ' & EF' & EQ2 & H). rewrite EQ in EQ'. injection EQ' as <- <- <-.
      change (2 * 0)%Z with 0%Z in EQ2. rewrite EQ in EQ2. injection EQ2 as <- <- <-. change (0 + 1)%Z with 1%Z in *. rewrite EF in EF'. injection EF' as <- <-. exact H. }
  assert (RG : forall f sd, (0 <= f < gm_nIF m)%Z -> (0 <= side_elem m f sd < gm_num_elems m)%Z).
  { intros f sd Hf. pose proof (sides_of _ _ m _ (one_rank m MW) f sd Hf) as HS. exact (proj2 (proj2 (side_nonneg _ _ m _ (one_rank m MW) _ _ _ _ _ HS))). }
  destruct (positive_run EQuad m bt (quad_scheme bt 0 m gamma HLLC nq P W (0 + 1) fp fw) nq P W P fp (quad_area m) (edge_length m) u dt n RD
    eq_refl eq_refl eq_refl eq_refl eq_refl) with (lam := fun c => hllc_speed 2 gamma m (edge_normal m) c) as (R1 & c0 & R2 & R3).
  - intros q Hq. cbn [sc_nqf sc_fwts quad_scheme] in *. replace q with 0%Z by lia. rewrite F2. lra.
  - intros c f q Hf _ AA. apply (hllc_gain 2 gamma m (edge_normal m) c f); [now left|exact Gm|exact (edge_normal_nonzero _ _ m _ (one_rank m MW) FV SQ f Hf)|apply AA; now apply RG|apply AA; now apply RG].
  - intros c f q Hf _ AA. apply (hllc_gain_R 2 gamma m (edge_normal m) c f); [now left|exact Gm|exact (edge_normal_nonzero _ _ m _ (one_rank m MW) FV SQ f Hf)|apply AA; now apply RG|apply AA; now apply RG].
  - exact RG.
  - exact Gm.
  - exact Hdt.
  - exact EQ.
  - intros e He. now apply shoelace.
  - intros f Hf. unfold area. cbn [sc_nqf sc_fwts sc_normal sc_shape quad_scheme space_dim]. change (0 + 1)%Z with 1%Z. rewrite rsum_1, F2. apply edge_area.
  - exact AD.
  - intros k c Hk H. apply (CFL k c Hk). now apply SOL.
  - split.
    + exists nq, P, W, fp, fw, nq, P, W. split; [exact EQ|]. split; [exact EF|]. split; [exact EQ|exact R1].
    + exists c0. split; [now apply SOL|]. intros c Hc. apply R3. now apply SOL.
Qed.
Print Assumptions C101_positive_quads.

(** ** C101, hexahedra. *)
Theorem C101_positive_hexahedra : forall m bt gamma u dt n,
  mesh_wf m -> good_hexes m -> basis_for EHex bt -> 1 < gamma -> 0 <= dt -> physical_start EHex gamma m u ->
  (forall k c, (k < n)%nat -> hex_solution m bt 0 gamma HLLC u (repeat (ForwardEuler, dt) k) c -> cfl_by (hllc_speed 3 gamma m (flat_normal m) c) m (gauss_volume m) (parallelogram_area m) dt) ->
  hex_physical m bt 0 gamma HLLC u (repeat (ForwardEuler, dt) n) /\
  exists c0, hex_solution m bt 0 gamma HLLC u [] c0 /\
  forall c, hex_solution m bt 0 gamma HLLC u (repeat (ForwardEuler, dt) n) c -> sound_result 3 gamma m (gauss_volume m) c0 c.
Proof.
  intros m bt gamma u dt n MW [FV FD FH CF Hne Hall] BF Gm Hdt AD CFL.
  assert (RD : ready EHex bt 0 1 m) by (constructor; auto; [lia|apply FH|apply FH|unfold order_ok; lia|right; lia]).
  destruct (volume_rule EHex 0 ltac:(split; lia)) as (x & xw & _ & A). destruct (A zero2 zero1) as (P & W & EQ & _). set (nq := ((0 + 2) ^ space_dim EHex)%Z) in *.
  destruct square_rule0 as (fp & fw & EF & F1).
  assert (SOL : forall steps c, dg_solution EHex m bt 0 (hex_scheme bt 0 m gamma HLLC nq P W ((0 + 2) * (0 + 2)) fp fw) (mass_matrix3 bt 0 m nq P W) u steps c <->
    hex_solution m bt 0 gamma HLLC u steps c).
  { intros steps c. split.
    - intros H. exists nq, P, W, fp, fw, nq, P, W. split; [exact EQ|]. split; [exact EF|]. split; [exact EQ|exact H].
    - intros (nq' & P' & W' & fp' & fw' & nq2 & P2 & W2 & EQ' & EF' & EQ2 & H). rewrite EQ in EQ'. injection EQ' as <- <- <-.
      change (2 * 0)%Z with 0%Z in EQ2. rewrite EQ in EQ2. injection EQ2 as <- <- <-. change ((0 + 2) * (0 + 2))%Z with 4%Z in *. rewrite EF in EF'. injection EF' as <- <-. exact H. }
  assert (RG : forall f sd, (0 <= f < gm_nIF m)%Z -> (0 <= side_elem m f sd < gm_num_elems m)%Z).
  { intros f sd Hf. pose proof (sides_of _ _ m _ (one_rank m MW) f sd Hf) as HS. exact (proj2 (proj2 (side_nonneg _ _ m _ (one_rank m MW) _ _ _ _ _ HS))). }
  destruct (positive_run EHex m bt (hex_scheme bt 0 m gamma HLLC nq P W ((0 + 2) * (0 + 2)) fp fw) nq P W P fp (gauss_volume m) (parallelogram_area m) u dt n RD
    eq_refl eq_refl eq_refl eq_refl eq_refl) with (lam := fun c => hllc_speed 3 gamma m (flat_normal m) c) as (R1 & c0 & R2 & R3).
  - intros q Hq. cbn [sc_nqf sc_fwts hex_scheme] in *. rewrite F1 by lia. lra.
  - intros c f q Hf _ AA. pose proof (sides_of _ _ m _ (one_rank m MW) f false Hf) as HS. apply (hllc_gain 3 gamma m (flat_normal m) c f); [now right|exact Gm|exact (flat_nonzero m FH f _ _ _ HS)|apply AA; now apply RG|apply AA; now apply RG].
  - intros c f q Hf _ AA. pose proof (sides_of _ _ m _ (one_rank m MW) f false Hf) as HS. apply (hllc_gain_R 3 gamma m (flat_normal m) c f); [now right|exact Gm|exact (flat_nonzero m FH f _ _ _ HS)|apply AA; now apply RG|apply AA; now apply RG].
  - exact RG.
  - exact Gm.
  - exact Hdt.
  - exact EQ.
  - intros e He. now apply eight.
  - intros f Hf. unfold area. cbn [sc_nqf sc_fwts sc_normal sc_shape hex_scheme space_dim]. change ((0 + 2) * (0 + 2))%Z with 4%Z. rewrite rsum_4, !F1 by lia.
    pose proof (sides_of _ _ m _ (one_rank m MW) f false Hf) as HS. rewrite <- (flat_area m f FH); [ring|]. eexists _, _. split; [exact HS|reflexivity].
  - exact AD.
  - intros k c Hk H. apply (CFL k c Hk). now apply SOL.
  - split.
    + exists nq, P, W, fp, fw, nq, P, W. split; [exact EQ|]. split; [exact EF|]. split; [exact EQ|exact R1].
    + exists c0. split; [now apply SOL|]. intros c Hc. apply R3. now apply SOL.
Qed.
Print Assumptions C101_positive_hexahedra.

(** ** The program: under the same conditions, for input files asking for order
    zero, HLLC and forward Euler, it runs to the end on any number of ranks,
    and the file it writes holds such a state. *)
Theorem C101_program_quads : forall inputs meshes argv metis n inp m cfg N u ep,
  (1 <= n)%Z -> reads inputs meshes argv inp m -> asks_for inp cfg -> enough_data inp cfg -> cf_dim cfg = 2%Z -> cf_physics cfg = Euler -> quadrature_known inp ->
  parts_asked inp n -> metis_valid metis m n -> intended metis n m ep -> enough_faces m ep n -> num_iterations (cf_end cfg) (cf_dt cfg) = Ok N ->
  let bt := cf_basis cfg in let gamma := ph_gamma (cf_phys cfg) in let dt := B2R (cf_dt cfg) in
  cf_order cfg = 0%Z -> cf_flux cfg = HLLC -> cf_stepper cfg = ForwardEuler ->
  good_quads m -> basis_for EQuad bt -> 1 < gamma -> 0 <= dt ->
  starts_as 2 (cf_ic cfg) (cf_phys cfg) 0 u -> small m 1 4 -> physical_start EQuad gamma m u ->
  (forall k c, (k < Z.to_nat N)%nat -> quad_solution m bt 0 gamma HLLC u (repeat (ForwardEuler, dt) k) c -> cfl_by (hllc_speed 2 gamma m (edge_normal m) c) m (quad_area m) (edge_length m) dt) ->
  exists g, program inputs meshes argv metis n g /\
  exists c0, quad_solution m bt 0 gamma HLLC u [] c0 /\
  forall g, program inputs meshes argv metis n g ->
  exists c, g = Ok (solution_file m 1 4 (INR (Z.to_nat N) * dt) c) /\ sound_result 2 gamma m (quad_area m) c0 c.
Proof.
  intros inputs meshes argv metis n inp m cfg N u ep Hn RE AF ED D2 EU QK PA MV IN EF EN bt gamma dt O0 FL FE GQ BF Gm Hdt SA SM AD CFL.
  destruct (C101_positive_quads m bt gamma u dt (Z.to_nat N) (reads_wf _ _ _ _ _ RE) GQ BF Gm Hdt AD CFL) as (QP & c0 & S0 & SR).
  assert (SP : supported bt 0) by (right; lia). assert (OP : order_ok 0) by (unfold order_ok; lia).
  pose proof (C86_completes inputs meshes argv metis n inp m cfg N u ep Hn RE AF ED EU QK PA IN EF EN) as C. cbv zeta in C. rewrite O0, FL, FE, D2 in C.
  destruct C as (g0 & P0); [left; split; [reflexivity|]; split; [exact GQ|]; split; [exact BF|exact QP]|exact SP|exact OP|exact Gm|exact SA|rewrite nfun0; exact SM|].
  exists g0. split; [exact P0|]. exists c0. split; [exact S0|]. intros g PG.
  pose proof (C84_solution_quads inputs meshes argv metis n inp m cfg N u g Hn RE AF ED D2 EU PA MV EN) as K. cbv zeta in K. rewrite O0, FL, FE in K.
  destruct (K GQ BF SP OP Gm SA ltac:(rewrite nfun0; exact SM) PG) as (c & Hc & ->). rewrite nfun0. exists c. split; [reflexivity|now apply SR].
Qed.
Print Assumptions C101_program_quads.

Theorem C101_program_hexahedra : forall inputs meshes argv metis n inp m cfg N u ep,
  (1 <= n)%Z -> reads inputs meshes argv inp m -> asks_for inp cfg -> enough_data inp cfg -> cf_dim cfg = 3%Z -> cf_physics cfg = Euler -> quadrature_known inp ->
  parts_asked inp n -> metis_valid metis m n -> intended metis n m ep -> enough_faces m ep n -> num_iterations (cf_end cfg) (cf_dt cfg) = Ok N ->
  let bt := cf_basis cfg in let gamma := ph_gamma (cf_phys cfg) in let dt := B2R (cf_dt cfg) in
  cf_order cfg = 0%Z -> cf_flux cfg = HLLC -> cf_stepper cfg = ForwardEuler ->
  good_hexes m -> basis_for EHex bt -> 1 < gamma -> 0 <= dt ->
  starts_as 3 (cf_ic cfg) (cf_phys cfg) 0 u -> small m 1 5 -> physical_start EHex gamma m u ->
  (forall k c, (k < Z.to_nat N)%nat -> hex_solution m bt 0 gamma HLLC u (repeat (ForwardEuler, dt) k) c -> cfl_by (hllc_speed 3 gamma m (flat_normal m) c) m (gauss_volume m) (parallelogram_area m) dt) ->
  exists g, program inputs meshes argv metis n g /\
  exists c0, hex_solution m bt 0 gamma HLLC u [] c0 /\
  forall g, program inputs meshes argv metis n g ->
  exists c, g = Ok (solution_file m 1 5 (INR (Z.to_nat N) * dt) c) /\ sound_result 3 gamma m (gauss_volume m) c0 c.
Proof.
  intros inputs meshes argv metis n inp m cfg N u ep Hn RE AF ED D2 EU QK PA MV IN EF EN bt gamma dt O0 FL FE GQ BF Gm Hdt SA SM AD CFL.
  destruct (C101_positive_hexahedra m bt gamma u dt (Z.to_nat N) (reads_wf _ _ _ _ _ RE) GQ BF Gm Hdt AD CFL) as (QP & c0 & S0 & SR).
  assert (SP : supported bt 0) by (right; lia). assert (OP : order_ok 0) by (unfold order_ok; lia).
  pose proof (C86_completes inputs meshes argv metis n inp m cfg N u ep Hn RE AF ED EU QK PA IN EF EN) as C. cbv zeta in C. rewrite O0, FL, FE, D2 in C.
  destruct C as (g0 & P0); [right; split; [reflexivity|]; split; [exact GQ|]; split; [exact BF|exact QP]|exact SP|exact OP|exact Gm|exact SA|rewrite nfun0; exact SM|].
  exists g0. split; [exact P0|]. exists c0. split; [exact S0|]. intros g PG.
  pose proof (C84_solution_hexahedra inputs meshes argv metis n inp m cfg N u g Hn RE AF ED D2 EU PA MV EN) as K. cbv zeta in K. rewrite O0, FL, FE in K.
  destruct (K GQ BF SP OP Gm SA ltac:(rewrite nfun0; exact SM) PG) as (c & Hc & ->). rewrite nfun0. exists c. split; [reflexivity|now apply SR].
Qed.
Print Assumptions C101_program_hexahedra.
