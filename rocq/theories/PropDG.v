(** PropDG.v -- C77, C78: a partitioned run computes the discontinuous Galerkin
    solution on the whole mesh (DGSpec.v); it does not depend on the partition. *)
From Coq Require Import ZArith List Lia Reals Lra Bool Permutation FunctionalExtensionality.
From Coquelicot Require Import Coquelicot.
From Verif Require Import Base RBase LinAlgModel LinAlgProof PropLinAlg QuadModel QuadProof PropQuad BasisModel BasisProof PropBasis PropSolver PropNormals.
From Verif Require Import ShapeModel ShapeProof PropShape MeshModel MeshSpec MeshProof PropMesh PhysModel PhysSpec SolverModel SolverSpec SolverProof SolverMesh.
From Verif Require Import StepModel StepProof PropStep PropConserve PropResidual PropIntegral.
From Verif Require CommProof.
From Verif Require Import SetupModel SetupSpec MassProof SetupProof SetupPass SetupFaces PropSetup PropVortex PropMeshRun PropInit PropPost DGSpec DGProof.
Import ListNotations.
Local Open Scope R_scope.
Open Scope res_scope.

(** ** The scheme on a mesh of straight-sided quadrilaterals *)

(** Inverse of a 2 x 2 matrix. *)
Definition inverse2 (A : arr2) : arr2 := fun i j => (if (i =? j)%Z then A (1 - i)%Z (1 - j)%Z else - A i j) / det2 A.

(** Normal of an interior face: half the edge vector of its left element, turned
    clockwise by a right angle. *)
Definition edge_normal (m : gmesh R) (f : Z) : arr1 :=
  let X := elem_nodes m (side_elem m f false) in
  let k := side_face m f false in
  fun d => if (d =? 0)%Z then (X (ccw (k + 1)) 1%Z - X (ccw k) 1%Z) / 2 else - (X (ccw (k + 1)) 0%Z - X (ccw k) 0%Z) / 2.

Definition quad_scheme (bt : basis_type) (p : Z) (m : gmesh R) (gamma : R) (ft : flux_type)
  (nq : Z) (P : arr2) (W : arr1) (nqf : Z) (fp : arr2) (fw : arr1) : scheme := {|
  sc_shape := EQuad; sc_nb := nfun bt p; sc_gamma := gamma; sc_flux := ft;
  sc_nq := nq;
  sc_val := fun q i => basis_fn bt p i (P q);
  sc_grad := fun q i d => Derive (fun t => basis_fn bt p i (with_coord (P q) d t)) (P q d);
  sc_wts := W;
  sc_nqf := nqf;
  sc_fval := fun k q i => basis_fn bt p i (face_at EQuad k (fp q));
  sc_fwts := fw;
  sc_det := fun e q => jac_det EQuad 1 (elem_nodes m e) (P q);
  sc_inv := fun e q => inverse2 (jacobian EQuad 1 (elem_nodes m e) (P q));
  sc_normal := fun f _ => edge_normal m f |}.

Lemma inverse2_unique A X : det2 A <> 0 -> inverse_of 2 A X -> forall i j, (0 <= i < 2)%Z -> (0 <= j < 2)%Z -> X i j = inverse2 A i j.
Proof.
  intros D I.
  destruct (I 0%Z 0%Z ltac:(lia) ltac:(lia)) as (a & a'). destruct (I 0%Z 1%Z ltac:(lia) ltac:(lia)) as (b & b').
  destruct (I 1%Z 0%Z ltac:(lia) ltac:(lia)) as (c & c'). destruct (I 1%Z 1%Z ltac:(lia) ltac:(lia)) as (d & d').
  rewrite rsum_2 in *. cbn [Z.eqb Pos.eqb] in *. unfold det2, minor2 in D.
  intros i j Hi Hj. assert (Ci : (i = 0 \/ i = 1)%Z) by lia. assert (Cj : (j = 0 \/ j = 1)%Z) by lia. unfold inverse2, det2, minor2.
  assert (Q : forall x y, x * (A 0%Z 0%Z * A 1%Z 1%Z - A 0%Z 1%Z * A 1%Z 0%Z) = y -> x = y / (A 0%Z 0%Z * A 1%Z 1%Z - A 0%Z 1%Z * A 1%Z 0%Z)).
  { intros x y <-. field. exact D. }
  destruct Ci as [-> | ->], Cj as [-> | ->]; change (1 - 0)%Z with 1%Z; change (1 - 1)%Z with 0%Z; cbn [Z.eqb Pos.eqb]; apply Q.
  - transitivity (A 1%Z 1%Z * (A 0%Z 0%Z * X 0%Z 0%Z + A 0%Z 1%Z * X 1%Z 0%Z) - A 0%Z 1%Z * (A 1%Z 0%Z * X 0%Z 0%Z + A 1%Z 1%Z * X 1%Z 0%Z)); [ring|]. rewrite a, c. ring.
  - transitivity (A 1%Z 1%Z * (A 0%Z 0%Z * X 0%Z 1%Z + A 0%Z 1%Z * X 1%Z 1%Z) - A 0%Z 1%Z * (A 1%Z 0%Z * X 0%Z 1%Z + A 1%Z 1%Z * X 1%Z 1%Z)); [ring|]. rewrite b, d. ring.
  - transitivity (A 0%Z 0%Z * (A 1%Z 0%Z * X 0%Z 0%Z + A 1%Z 1%Z * X 1%Z 0%Z) - A 1%Z 0%Z * (A 0%Z 0%Z * X 0%Z 0%Z + A 0%Z 1%Z * X 1%Z 0%Z)); [ring|]. rewrite a, c. ring.
  - transitivity (A 0%Z 0%Z * (A 1%Z 0%Z * X 0%Z 1%Z + A 1%Z 1%Z * X 1%Z 1%Z) - A 1%Z 0%Z * (A 0%Z 0%Z * X 0%Z 1%Z + A 0%Z 1%Z * X 1%Z 1%Z)); [ring|]. rewrite b, d. ring.
Qed.

Lemma jacobian_point s g X y y' j d : (0 <= d < space_dim s)%Z -> (forall d, (0 <= d < space_dim s)%Z -> y d = y' d) ->
  jacobian s g X y j d = jacobian s g X y' j d.
Proof.
  intros Hd H. unfold jacobian. rewrite (H d Hd). apply Derive_ext.
  intros t. unfold place, elem_map. apply rsum_ext. intros k Hk. f_equal. apply basis_fn_ext. intros d' Hd'.
  destruct (geom_facts s g) as (Ed & _). rewrite Ed in Hd'. unfold with_coord. destruct (Z.eqb_spec d' d); auto.
Qed.

Lemma inverse2_ext A B i j : (forall i j, (0 <= i < 2)%Z -> (0 <= j < 2)%Z -> A i j = B i j) -> (0 <= i < 2)%Z -> (0 <= j < 2)%Z -> inverse2 A i j = inverse2 B i j.
Proof.
  intros H Hi Hj. unfold inverse2, det2, minor2. rewrite !(H 0%Z), !(H 1%Z), (H i j), (H (1 - i)%Z (1 - j)%Z) by lia. reflexivity.
Qed.

(** The rule of the volume helpers on a rank is the rule of the order. *)
Lemma rank_rule zero iter n m ep pm s bt p g r junk eo1 eo2 fo h f nq P W :
  run_wf iter n m ep -> partitioned zero iter n m ep pm -> ready s bt p g m -> (0 <= r < n)%Z -> loops_ok (pm r) eo1 eo2 fo ->
  precompute_matrix_helpers s bt p g (pm r) r (gm_npe m) junk eo1 eo2 fo = Ok (h, f) ->
  volume_quadrature s p zero2 zero1 = Ok (nq, P, W) ->
  vh_nq h = nq /\ forall q, (0 <= q < nq)%Z -> vh_wts h q = W q /\ forall d, (0 <= d < space_dim s)%Z -> vh_pts h q d = P q d.
Proof.
  intros WF PT RD Hr LO E0 EQ0.
  destruct (setup_master zero iter n m ep pm WF PT s bt p g RD r junk eo1 eo2 fo Hr LO) as (h1 & h2 & f2 & E & _ & E2 & _).
  rewrite E in E0. injection E0 as -> ->. pose proof (volume_points _ _ _ _ _ _ _ _ _ _ E2) as VQ.
  destruct RD as [Hg Fit Un BF Op Sup]. unfold order_ok in Op.
  destruct (volume_rule s p ltac:(split; lia)) as (x & w & G & A).
  destruct (A zero2 zero1) as (P0 & W0 & EQ & TR). rewrite EQ0 in EQ. injection EQ as -> -> ->.
  destruct (A (vh_pts h1) (vh_wts h1)) as (P1 & W1 & EQ1 & TR1). rewrite VQ in EQ1. injection EQ1 as EN <- <-. split; [exact EN|].
  intros q Hq. destruct (TR q Hq) as (T1 & T2), (TR1 q Hq) as (T3 & T4). split; [congruence|]. intros d Hd. rewrite T1, T3; auto.
Qed.

Lemma quad_runs zero iter n m ep pm bt p h f gamma ft ord pord junk :
  run_wf iter n m ep -> partitioned zero iter n m ep pm -> faces_valid EQuad m -> straight_quads m -> conforming m ->
  ready EQuad bt p 1 m -> all_set_up EQuad bt p 1 m pm n h f -> inner_loops_ok pm n ord pord ->
  exists nq P W fp fw, volume_quadrature EQuad p zero2 zero1 = Ok (nq, P, W) /\ face_quadrature EQuad p = Ok ((p + 1)%Z, fp, fw) /\
    face_points EQuad (p + 1) /\
    runs_scheme (quad_scheme bt p m gamma ft nq P W (p + 1) fp fw) m pm n (tables EQuad bt p pm gamma ft h f ord pord junk).
Proof.
  intros WF PT FV SQ CF RD AS IL. pose proof RD as [Hg Fit Un BF Op Sup]. pose proof Op as Op'. unfold order_ok in Op'.
  destruct (C70_setup_consistent zero iter n m ep pm EQuad bt p 1 h f gamma ft ord pord junk WF PT RD AS IL) as (fp & fw & EF & FP & SS & _).
  pose proof (straight_normals_agree zero iter n m ep pm WF PT FV SQ CF bt p h f gamma ft ord pord junk RD AS) as (NZ & _).
  assert (E1 : (face_rule_points EQuad p ^ (space_dim EQuad - 1))%Z = (p + 1)%Z) by (cbn [face_rule_points space_dim]; change (2 - 1)%Z with 1%Z; apply Z.pow_1_r).
  rewrite E1 in *.
  destruct (volume_rule EQuad p ltac:(split; lia)) as (x & w & G & A). destruct (A zero2 zero1) as (P & W & EQ & TR).
  set (nq := ((p + 2) ^ space_dim EQuad)%Z) in *.
  exists nq, P, W, fp, fw. split; [exact EQ|]. split; [exact EF|]. split; [exact FP|].
  assert (BD := basis_for_dim EQuad bt BF).
  constructor; cbn [quad_scheme sc_shape sc_nb sc_gamma sc_flux sc_nq sc_val sc_grad sc_wts sc_nqf sc_fval sc_fwts sc_det sc_inv sc_normal].
  - exact SS.
  - intros r Hr. destruct (AS r Hr) as (jk & eo1 & eo2 & fo & LO & E0).
    destruct (rank_rule zero iter n m ep pm EQuad bt p 1 r jk eo1 eo2 fo (h r) (f r) nq P W WF PT RD Hr LO E0 EQ) as (N0 & R0).
    destruct (C68_setup_geometry zero iter n m ep pm EQuad bt p 1 r jk eo1 eo2 fo WF PT RD Hr LO) as (h' & f' & x' & w' & E & _ & _ & _ & _ & V & _).
    rewrite E in E0. injection E0 as -> ->.
    unfold tables, residual_data. cbn [d_nq d_wts d_basis_val d_basis_ref_grad]. split; [exact N0|]. rewrite N0 in V.
    intros q Hq. destruct (R0 q Hq) as (R1 & R2). split; [exact R1|]. intros i Hi. destruct (V q i Hq Hi) as (V1 & V2). split.
    + rewrite V1. apply basis_fn_ext. rewrite BD. exact R2.
    + intros d Hd. specialize (V2 d Hd). apply is_derive_unique in V2. rewrite <- V2, (R2 d Hd). apply Derive_ext. intros t. apply basis_fn_ext. rewrite BD. 
      intros d' Hd'. unfold with_coord. destruct (Z.eqb_spec d' d); auto.
  - intros r le e q Hr He Hq. destruct (AS r Hr) as (jk & eo1 & eo2 & fo & LO & E0).
    destruct (rank_rule zero iter n m ep pm EQuad bt p 1 r jk eo1 eo2 fo (h r) (f r) nq P W WF PT RD Hr LO E0 EQ) as (N0 & R0).
    destruct (C68_setup_geometry zero iter n m ep pm EQuad bt p 1 r jk eo1 eo2 fo WF PT RD Hr LO) as (h' & f' & x' & w' & E & _ & _ & _ & _ & _ & Rows).
    rewrite E in E0. injection E0 as -> ->. destruct (Rows le e He) as (Rq & _). rewrite N0 in Rq. destruct (Rq q Hq) as (_ & _ & Dj & Dp & Inv).
    destruct (R0 q Hq) as (_ & R2). unfold tables, residual_data. cbn [d_djac d_ijac]. split.
    + rewrite Dj. apply jac_det_point. exact R2.
    + cbn [space_dim] in *. intros d j Hd Hj. rewrite Dj in Dp.
      rewrite (inverse2_unique _ _ ltac:(apply Rgt_not_eq; exact Dp) Inv d j Hd Hj).
      apply inverse2_ext; [|exact Hd|exact Hj]. intros a b Ha Hb. now apply jacobian_point.
  - intros r lf fc iq Hr Ef Hq.
    assert (NN : forall j, (0 <= j < space_dim EQuad)%Z -> fh_normals (f r) lf iq j = edge_normal m fc j).
    { destruct (AS r Hr) as (jk & eo1 & eo2 & fo & LO & E0).
      destruct (setup_master zero iter n m ep pm WF PT EQuad bt p 1 RD r jk eo1 eo2 fo Hr LO) as (h1 & h' & f' & E & _ & _ & E3).
      rewrite E in E0. injection E0 as -> ->. destruct LO as (P1 & P2 & P3).
      destruct (faces_pass zero iter n m ep pm WF PT EQuad bt p 1 ltac:(lia) Sup BF Fit r jk fo Hr Op P3) as (f' & x' & w' & fp' & E3' & _ & Nq & _ & EQ' & Pts & LK & NR).
      rewrite E3 in E3'. injection E3' as <-. rewrite E1 in Nq. rewrite Nq in *.
      destruct (Pts 0%Z ltac:(cbn; lia)) as (PF & _). unfold points_on_face in PF.
      destruct (points_on_face_quad 0 0 (p + 1) fp' zero2) as [PP|] eqn:EP; [|discriminate]. injection PF as PF. rewrite PF in EP.
      destruct (straight_row_normal zero iter n m ep pm WF PT FV CF r (p + 1) fp' zero2 (fh_pts (f r) 0%Z) lf fc (fh_normals (f r) lf) Hr EP (NR lf) Ef) as (eL & kL & oL & HL & V).
      destruct (face_of_side iter n m ep WF (quad_scheme bt p m gamma ft nq P W (p + 1) fp fw) fc false eL kL oL HL) as (_ & Ee & Ek & _).
      destruct (V iq Hq) as (V0 & V1). intros j Hj. cbn [space_dim] in Hj. unfold edge_normal. rewrite Ee, Ek.
      assert (C : (j = 0 \/ j = 1)%Z) by lia. destruct C as [-> | ->]; cbn [Z.eqb]; assumption. }
    assert (Hlf : (0 <= lf < pm_num_ifaces_part (pm r))%Z).
    { destruct (C04_interior_faces R zero iter n m ep pm WF PT) as [_ H4]. destruct (H4 r Hr) as (_ & <- & _). now apply rd_in_range in Ef. }
    split; [|exact NN].
    specialize (NZ r lf iq Hr Hlf Hq). intros C. apply NZ. rewrite <- C. unfold tables, residual_data. cbn [d_normals]. unfold vdot. apply rsum_ext. intros j Hj. now rewrite NN.
Qed.

(** ** C77: the residual *)

(** For any discretisation data the ranks agree on (see [runs_scheme]), on
    quadrilaterals or hexahedra: if the ranks hold the coefficients of one
    solution on the mesh, what the residual evaluation returns on a rank for a
    local element is the residual of that element of the mesh. *)
Theorem C77_residual_of_scheme : forall zero iter n m ep pm S D c U w rs w1,
  run_wf iter n m ep -> partitioned zero iter n m ep pm -> runs_scheme S m pm n D ->
  faces_valid (sc_shape S) m -> faces_distinct m -> face_points (sc_shape S) (sc_nqf S) -> 1 < sc_gamma S ->
  let ns := (space_dim (sc_shape S) + 2)%Z in
  holds_solution pm n (sc_nb S) ns c U -> boundary_zero (sc_shape S) m pm n (sc_nqf S) (fst w) ->
  evaluation (sc_shape S) m ep pm n (sc_nqf S) (sc_gamma S) D U w rs w1 ->
  forall r le e i k, (0 <= r < n)%Z -> rd (pm_l2g_elem (pm r)) le = Ok e -> (0 <= i < sc_nb S)%Z -> (0 <= k < ns)%Z ->
    rs r le i k = dg_residual S m c e i k.
Proof.
  intros zero iter n m ep pm S D c U w rs w1 WF PT RS HV HD HP Hg ns HU BZ (UL & UR & E & _ & AD) r le e i k Hr He Hi Hk.
  exact (residual_formula zero iter n m ep pm WF PT S D RS HV HD HP Hg c U (snd w) (fst w) UL UR (fst w1) rs HU BZ E AD r le e i k Hr He Hi Hk).
Qed.
Print Assumptions C77_residual_of_scheme.

(** On a mesh of straight-sided quadrilaterals, with the tables the solver's own
    set-up computes: the scheme is the one of the mesh file, with the exact
    basis functions, Jacobians and edge normals, and the tabulated rules. *)
Theorem C77_residual_is_dg : forall zero iter n m ep pm bt p h f gamma ft ord pord junk c U w rs w1,
  run_wf iter n m ep -> partitioned zero iter n m ep pm -> faces_valid EQuad m -> faces_distinct m ->
  straight_quads m -> conforming m -> basis_for EQuad bt -> supported bt p -> order_ok p -> 1 < gamma ->
  all_set_up EQuad bt p 1 m pm n h f -> inner_loops_ok pm n ord pord ->
  holds_solution pm n (nfun bt p) 4 c U -> boundary_zero EQuad m pm n (p + 1) (fst w) ->
  evaluation EQuad m ep pm n (p + 1) gamma (tables EQuad bt p pm gamma ft h f ord pord junk) U w rs w1 ->
  exists nq P W fp fw, volume_quadrature EQuad p zero2 zero1 = Ok (nq, P, W) /\ face_quadrature EQuad p = Ok ((p + 1)%Z, fp, fw) /\
  forall r le e i k, (0 <= r < n)%Z -> rd (pm_l2g_elem (pm r)) le = Ok e -> (0 <= i < nfun bt p)%Z -> (0 <= k < 4)%Z ->
    rs r le i k = dg_residual (quad_scheme bt p m gamma ft nq P W (p + 1) fp fw) m c e i k.
Proof.
  intros zero iter n m ep pm bt p h f gamma ft ord pord junk c U w rs w1 WF PT FV FD SQ CF BF Sup Op Gm AS IL HU BZ EV.
  assert (RD : ready EQuad bt p 1 m) by (constructor; auto; [lia|apply SQ|now apply convex_untangled]).
  destruct (quad_runs zero iter n m ep pm bt p h f gamma ft ord pord junk WF PT FV SQ CF RD AS IL) as (nq & P & W & fp & fw & EQ & EF & FP & RS).
  exists nq, P, W, fp, fw. split; [exact EQ|]. split; [exact EF|]. intros r le e i k Hr He Hi Hk.
  exact (C77_residual_of_scheme zero iter n m ep pm _ _ c U w rs w1 WF PT RS FV FD FP Gm HU BZ EV r le e i k Hr He Hi Hk).
Qed.
Print Assumptions C77_residual_is_dg.

(** ** C78: whole runs *)

Lemma inverse_unique n A X Y : inverse_of n A X -> inverse_of n A Y -> forall i j, (0 <= i < n)%Z -> (0 <= j < n)%Z -> X i j = Y i j.
Proof.
  intros HX HY i j Hi Hj.
  transitivity (rsum n (fun k => X i k * rsum n (fun l => A k l * Y l j))).
  - rewrite (rsum_ext n _ (fun k => X i k * (if (k =? j)%Z then 1 else 0))).
    + now rewrite rsum_delta_r.
    + intros k Hk. f_equal. now apply HY.
  - rewrite (rsum_ext n _ (fun k => rsum n (fun l => X i k * A k l * Y l j))).
    + rewrite rsum_swap. rewrite (rsum_ext n _ (fun l => Y l j * (if (l =? i)%Z then 1 else 0))).
      * now rewrite rsum_delta_r.
      * intros l Hl. rewrite rsum_scal_r, (proj2 (HX i l Hi Hl)), (Z.eqb_sym i l). ring.
    + intros k Hk. rewrite <- rsum_scal. apply rsum_ext. intros. ring.
Qed.

(** Mass matrix of element [e] of the mesh. *)
Definition mass_matrix (bt : basis_type) (p : Z) (m : gmesh R) (nq : Z) (P : arr2) (W : arr1) (e : Z) : arr2 := fun i j =>
  rsum nq (fun q => W q * jac_det EQuad 1 (elem_nodes m e) (P q) * basis_fn bt p i (P q) * basis_fn bt p j (P q)).

(** Any number of forward Euler and RK4 steps, on any number of ranks: the ranks
    hold the coefficients the scheme computes on the whole mesh with exact
    inverses of its mass matrices. *)
Theorem C78_run_is_dg : forall zero iter n m ep pm bt p h f gamma ft ord pord junk steps c U w U' w',
  run_wf iter n m ep -> partitioned zero iter n m ep pm -> faces_valid EQuad m -> faces_distinct m ->
  straight_quads m -> conforming m -> basis_for EQuad bt -> supported bt p -> order_ok p -> 1 < gamma ->
  all_set_up EQuad bt p 1 m pm n h f -> inner_loops_ok pm n ord pord ->
  (forall r, (0 <= r < n)%Z -> fits (shape_of EQuad pm (nfun bt p) r)) ->
  holds_solution pm n (nfun bt p) 4 c U -> boundary_zero EQuad m pm n (p + 1) (fst w) ->
  marching EQuad m ep pm n (p + 1) (nfun bt p) gamma (tables EQuad bt p pm gamma ft h f ord pord junk) (fun r => vh_iMM (h r))
    steps U w U' w' ->
  exists nq P W fp fw nq2 P2 W2, volume_quadrature EQuad p zero2 zero1 = Ok (nq, P, W) /\ face_quadrature EQuad p = Ok ((p + 1)%Z, fp, fw) /\
    volume_quadrature EQuad (2 * p) zero2 zero1 = Ok (nq2, P2, W2) /\
  forall iM, (forall e, (0 <= e < gm_num_elems m)%Z -> inverse_of (nfun bt p) (mass_matrix bt p m nq2 P2 W2 e) (iM e)) ->
    holds_solution pm n (nfun bt p) 4 (dg_march (quad_scheme bt p m gamma ft nq P W (p + 1) fp fw) m iM steps c) U'.
Proof.
  intros zero iter n m ep pm bt p h f gamma ft ord pord junk steps c U w U' w' WF PT FV FD SQ CF BF Sup Op Gm AS IL FT HU BZ MA.
  assert (RD : ready EQuad bt p 1 m) by (constructor; auto; [lia|apply SQ|now apply convex_untangled]).
  pose proof Op as Op'. unfold order_ok in Op'.
  destruct (quad_runs zero iter n m ep pm bt p h f gamma ft ord pord junk WF PT FV SQ CF RD AS IL) as (nq & P & W & fp & fw & EQ & EF & FP & RS).
  destruct (volume_rule EQuad (2 * p) ltac:(split; lia)) as (x & xw & _ & A). destruct (A zero2 zero1) as (P2 & W2 & EQ2 & _).
  set (nq2 := ((2 * p + 2) ^ space_dim EQuad)%Z) in *.
  exists nq, P, W, fp, fw, nq2, P2, W2. split; [exact EQ|]. split; [exact EF|]. split; [exact EQ2|]. intros iM HI.
  apply (marches zero iter n m ep pm WF PT (quad_scheme bt p m gamma ft nq P W (p + 1) fp fw) _ RS FV FD FP Gm (fun r => vh_iMM (h r)) iM) with (U := U) (w := w) (w' := w'); try assumption.
  intros r le e i b Hr He Hi Hb. destruct (AS r Hr) as (jk & eo1 & eo2 & fo & LO & E0).
  destruct (C69_inverse_mass_matrices zero iter n m ep pm EQuad bt p 1 r jk eo1 eo2 fo (h r) (f r) WF PT RD Hr LO E0) as (nq' & P' & W' & EQ' & Inv).
  rewrite EQ2 in EQ'. injection EQ' as <- <- <-.
  apply (inverse_unique (nfun bt p) (mass_matrix bt p m nq2 P2 W2 e)); [exact (Inv le e He)|apply HI; eapply owned_elem; eassumption|exact Hi|exact Hb].
Qed.
Print Assumptions C78_run_is_dg.

(** Where element [e] lives. *)
Lemma owner_of zero iter n m ep (pm : Z -> pmesh R) e : run_wf iter n m ep -> partitioned zero iter n m ep pm -> (0 <= e < gm_num_elems m)%Z ->
  exists r le, (0 <= r < n)%Z /\ rd (pm_l2g_elem (pm r)) le = Ok e.
Proof.
  intros WF PT He. destruct (C01_element_ownership R zero iter n m ep pm WF PT) as (HU & _).
  destruct (HU e He) as (r & (Hr & IN) & _). exists r.
  destruct (C02_id_lookups_inverse R zero iter n m ep pm WF PT r Hr (pm_l2g_elem (pm r))) as (_ & L2 & _); auto. specialize (L2 e IN). eauto.
Qed.

Lemma gather zero iter n m ep (pm : Z -> pmesh R) (U : Z -> arr3) : run_wf iter n m ep -> partitioned zero iter n m ep pm ->
  exists c : arr3, forall r le e j k, (0 <= r < n)%Z -> rd (pm_l2g_elem (pm r)) le = Ok e -> U r le j k = c e j k.
Proof.
  intros WF PT. exists (fun e j k => match rd ep e with Ok r => U r (search_for_local_ID e (pm_l2g_elem (pm r))) j k | Fail _ => 0 end).
  intros r le e j k Hr He. destruct (C01_element_ownership R zero iter n m ep pm WF PT) as (_ & HO & HN & _).
  assert (OW : owned_by ep e r) by (apply HO; [exact Hr|now apply rd_In in He]). unfold owned_by in OW. rewrite OW.
  destruct (C02_id_lookups_inverse R zero iter n m ep pm WF PT r Hr (pm_l2g_elem (pm r))) as (_ & L2 & _); auto.
  specialize (L2 e (rd_In _ _ _ He)). destruct (HN r Hr) as (ND & _). rewrite (rd_NoDup_inj _ _ _ _ ND He L2). reflexivity.
Qed.


(** A run on [n] ranks that hold the parts [pm] of the mesh: its set-up, then the
    listed steps from state [U] to state [U'] -- with any partition, any parallel
    schedules, any memory layout and any previous content of memory. *)
Definition run_from (m : gmesh R) (bt : basis_type) (p : Z) (gamma : R) (ft : flux_type) (steps : list (stepper * R))
  (n : Z) (pm : Z -> pmesh R) (h : Z -> vhelpers) (U U' : Z -> arr3) : Prop :=
  exists iter ep f ord pord junk w w',
    run_wf iter n m ep /\ partitioned 0 iter n m ep pm /\ all_set_up EQuad bt p 1 m pm n h f /\ inner_loops_ok pm n ord pord /\
    (forall r, (0 <= r < n)%Z -> fits (shape_of EQuad pm (nfun bt p) r)) /\
    boundary_zero EQuad m pm n (p + 1) (fst w) /\
    marching EQuad m ep pm n (p + 1) (nfun bt p) gamma (tables EQuad bt p pm gamma ft h f ord pord junk) (fun r => vh_iMM (h r)) steps U w U' w'.

(** States of two runs hold the same numbers for the same elements of the mesh. *)
Definition same_solution (nb ns n : Z) (pm : Z -> pmesh R) (U : Z -> arr3) (n' : Z) (pm' : Z -> pmesh R) (U' : Z -> arr3) : Prop :=
  forall r le r' le' e j k, (0 <= r < n)%Z -> (0 <= r' < n')%Z -> rd (pm_l2g_elem (pm r)) le = Ok e -> rd (pm_l2g_elem (pm' r')) le' = Ok e ->
    (0 <= j < nb)%Z -> (0 <= k < ns)%Z -> U r le j k = U' r' le' j k.

(** Two runs of the same steps on the same mesh, from the same solution, end with
    the same solution, however the mesh is partitioned. *)
Theorem C78_partition_independent : forall m bt p gamma ft steps n pm h U U' n2 pm2 h2 V V',
  faces_valid EQuad m -> faces_distinct m -> straight_quads m -> conforming m ->
  basis_for EQuad bt -> supported bt p -> order_ok p -> 1 < gamma ->
  run_from m bt p gamma ft steps n pm h U U' -> run_from m bt p gamma ft steps n2 pm2 h2 V V' ->
  same_solution (nfun bt p) 4 n pm U n2 pm2 V ->
  same_solution (nfun bt p) 4 n pm U' n2 pm2 V'.
Proof.
  intros m bt p gamma ft steps n pm h U U' n2 pm2 h2 V V' FV FD SQ CF BF Sup Op Gm
    (iter & ep & f & ord & pord & junk & w & w' & WF & PT & AS & IL & FT & BZ & MA)
    (iter2 & ep2 & f2 & ord2 & pord2 & junk2 & w2 & w2' & WF2 & PT2 & AS2 & IL2 & FT2 & BZ2 & MA2) SAME.
  set (zero := 0) in *. set (zero2' := 0) in *.
  assert (RD : ready EQuad bt p 1 m) by (constructor; auto; [lia|apply SQ|now apply convex_untangled]).
  destruct (gather zero iter n m ep pm U WF PT) as (c & Hc).
  destruct (gather zero iter n m ep pm (fun r => vh_iMM (h r)) WF PT) as (iM & HiM).
  assert (HU : holds_solution pm n (nfun bt p) 4 c U) by (intros r le e j k Hr He _ _; now apply Hc).
  assert (HV : holds_solution pm2 n2 (nfun bt p) 4 c V).
  { intros r le e j k Hr He Hj Hk.
    assert (RE : (0 <= e < gm_num_elems m)%Z) by (apply (owned_elem zero2' iter2 n2 m ep2 pm2 WF2 PT2 r le e Hr He)).
    destruct (owner_of zero iter n m ep pm e WF PT RE) as (r1 & le1 & Hr1 & He1).
    rewrite <- (SAME r1 le1 r le e j k) by assumption. now apply Hc. }
  destruct (C78_run_is_dg zero iter n m ep pm bt p h f gamma ft ord pord junk steps c U w U' w' WF PT FV FD SQ CF BF Sup Op Gm AS IL FT HU BZ MA)
    as (nq & P & W & fp & fw & nq2 & P2 & W2 & EQ & EF & EQ2 & R1).
  destruct (C78_run_is_dg zero2' iter2 n2 m ep2 pm2 bt p h2 f2 gamma ft ord2 pord2 junk2 steps c V w2 V' w2' WF2 PT2 FV FD SQ CF BF Sup Op Gm AS2 IL2 FT2 HV BZ2 MA2)
    as (nq' & P' & W' & fp' & fw' & nq2' & P2' & W2' & EQ' & EF' & EQ2' & R2).
  rewrite EQ in EQ'. injection EQ' as <- <- <-. rewrite EF in EF'. injection EF' as <- <-. rewrite EQ2 in EQ2'. injection EQ2' as <- <- <-.
  assert (HI : forall e, (0 <= e < gm_num_elems m)%Z -> inverse_of (nfun bt p) (mass_matrix bt p m nq2 P2 W2 e) (iM e)).
  { intros e He. destruct (owner_of zero iter n m ep pm e WF PT He) as (r & le & Hr & Hle).
    destruct (AS r Hr) as (jk & eo1 & eo2 & fo & LO & E0).
    destruct (C69_inverse_mass_matrices zero iter n m ep pm EQuad bt p 1 r jk eo1 eo2 fo (h r) (f r) WF PT RD Hr LO E0) as (nq' & P' & W' & EQ' & Inv).
    rewrite EQ2 in EQ'. injection EQ' as <- <- <-. specialize (Inv le e Hle).
    intros i j Hi Hj. destruct (Inv i j Hi Hj) as (I1 & I2). split.
    - rewrite <- I1. apply rsum_ext. intros a Ha. f_equal. symmetry. now apply HiM.
    - rewrite <- I2. apply rsum_ext. intros a Ha. f_equal. symmetry. now apply HiM. }
  specialize (R1 iM HI). specialize (R2 iM HI).
  intros r le r' le' e j k Hr Hr' He He' Hj Hk. rewrite (R1 r le e j k), (R2 r' le' e j k) by assumption. reflexivity.
Qed.
Print Assumptions C78_partition_independent.

(** The state of every rank after initialising from an initial condition. *)
Definition initialised (m : gmesh R) (bt : basis_type) (p : Z) (ic : ic_type) (ph : phys) (t : R)
  (n : Z) (pm : Z -> pmesh R) (h : Z -> vhelpers) (U : Z -> arr3) : Prop :=
  forall r, (0 <= r < n)%Z -> exists junk2 junk3 junk1 eo po Uc0,
    Permutation eo (zseq (pm_num_elems_part (pm r))) /\ Permutation po (zseq ((2 * Z.max p 1 + 2) ^ 2)) /\
    init_state_from_fcn EQuad bt p 1 (pm r) (gm_npe m) 4 ic ph t (vh_iMM (h r)) junk2 junk3 junk1 eo po Uc0 = Ok (U r).

Lemma initialised_projection zero iter n m ep pm bt p h f ic ph t u U :
  run_wf iter n m ep -> partitioned zero iter n m ep pm -> ready EQuad bt p 1 m -> all_set_up EQuad bt p 1 m pm n h f ->
  starts_as 2 ic ph t u -> initialised m bt p ic ph t n pm h U ->
  exists nq P W nq' P' W', volume_quadrature EQuad (2 * p) zero2 zero1 = Ok (nq, P, W) /\ volume_quadrature EQuad (2 * Z.max p 1) zero2 zero1 = Ok (nq', P', W') /\
  forall r le e k, (0 <= r < n)%Z -> rd (pm_l2g_elem (pm r)) le = Ok e -> (0 <= k < 4)%Z ->
    forall i, (0 <= i < nfun bt p)%Z -> rsum (nfun bt p) (fun j => mass_matrix bt p m nq P W e i j * U r le j k) =
      rsum nq' (fun q => W' q * jac_det EQuad 1 (elem_nodes m e) (P' q) * basis_fn bt p i (P' q) * u (place EQuad 1 (elem_nodes m e) (P' q)) k).
Proof.
  intros WF PT RD AS SA IN. pose proof RD as [Hg Fit Un BF Op Sup]. unfold order_ok in Op.
  destruct (volume_rule EQuad (2 * p) ltac:(split; lia)) as (x & xw & _ & A). destruct (A zero2 zero1) as (P & W & EQ & _).
  destruct (volume_rule EQuad (2 * Z.max p 1) ltac:(split; lia)) as (x' & xw' & _ & A'). destruct (A' zero2 zero1) as (P' & W' & EQ' & _).
  set (nq := ((2 * p + 2) ^ space_dim EQuad)%Z) in *. set (nq' := ((2 * Z.max p 1 + 2) ^ space_dim EQuad)%Z) in *.
  exists nq, P, W, nq', P', W'. split; [exact EQ|]. split; [exact EQ'|]. intros r le e k Hr He Hk i Hi.
  destruct (AS r Hr) as (jk & eo1 & eo2 & fo & LO & E0). destruct (IN r Hr) as (junk2 & junk3 & junk1 & eo & po & Uc0 & Pe & Po & EI).
  destruct (C73_initial_state zero iter n m ep pm EQuad bt p 1 r jk eo1 eo2 fo (h r) (f r) ic ph t u junk2 junk3 junk1 eo po Uc0 WF PT RD Hr LO E0 SA Pe)
    as (q1 & P1 & W1 & q2 & P2 & W2 & EQ1 & EQ2 & HH).
  rewrite EQ in EQ1. injection EQ1 as <- <- <-. rewrite EQ' in EQ2. injection EQ2 as <- <- <-.
  destruct (HH Po) as (Uc & EI' & OG). cbn [space_dim] in EI'. change (2 + 2)%Z with 4%Z in EI'. rewrite EI in EI'. injection EI' as <-.
  rewrite <- (OG le e He i k Hi Hk). unfold mass_matrix.
  rewrite (rsum_ext (nfun bt p) _ (fun j => rsum nq (fun q => W q * jac_det EQuad 1 (elem_nodes m e) (P q) * basis_fn bt p i (P q) * basis_fn bt p j (P q) * U r le j k))) by (intros; now rewrite rsum_scal_r).
  rewrite rsum_swap. apply rsum_ext. intros q Hq. rewrite <- rsum_scal. apply rsum_ext. intros. ring.
Qed.

(** Two whole runs -- set-up, initial condition, steps -- with the same inputs but
    different partitions end with the same solution. *)
Theorem C78_whole_run_partition_independent : forall m bt p gamma ft ic ph t u steps n pm h U U' n2 pm2 h2 V V',
  faces_valid EQuad m -> faces_distinct m -> straight_quads m -> conforming m ->
  basis_for EQuad bt -> supported bt p -> order_ok p -> 1 < gamma ->
  starts_as 2 ic ph t u ->
  initialised m bt p ic ph t n pm h U -> initialised m bt p ic ph t n2 pm2 h2 V ->
  run_from m bt p gamma ft steps n pm h U U' -> run_from m bt p gamma ft steps n2 pm2 h2 V V' ->
  same_solution (nfun bt p) 4 n pm U' n2 pm2 V'.
Proof.
  intros m bt p gamma ft ic ph t u steps n pm h U U' n2 pm2 h2 V V' FV FD SQ CF BF Sup Op Gm SA IN IN2 RN RN2.
  apply (C78_partition_independent m bt p gamma ft steps n pm h U U' n2 pm2 h2 V V' FV FD SQ CF BF Sup Op Gm RN RN2).
  set (zero := 0). set (zero' := 0). destruct RN as (iter & ep & f & ord & pord & junk & w & w' & WF & PT & AS & _).
  destruct RN2 as (iter2 & ep2 & f2 & ord2 & pord2 & junk2 & w2 & w2' & WF2 & PT2 & AS2 & _).
  assert (RD : ready EQuad bt p 1 m) by (constructor; auto; [lia|apply SQ|now apply convex_untangled]).
  destruct (initialised_projection zero iter n m ep pm bt p h f ic ph t u U WF PT RD AS SA IN) as (nq & P & W & nq' & P' & W' & EQ & EQ' & R1).
  destruct (initialised_projection zero' iter2 n2 m ep2 pm2 bt p h2 f2 ic ph t u V WF2 PT2 RD AS2 SA IN2) as (q1 & P1 & W1 & q2 & P2 & W2 & EQ1 & EQ2 & R2).
  rewrite EQ in EQ1. injection EQ1 as <- <- <-. rewrite EQ' in EQ2. injection EQ2 as <- <- <-.
  intros r le r' le' e j k Hr Hr' He He' Hj Hk.
  destruct (AS r Hr) as (jk & eo1 & eo2 & fo & LO & E0).
  destruct (C69_inverse_mass_matrices zero iter n m ep pm EQuad bt p 1 r jk eo1 eo2 fo (h r) (f r) WF PT RD Hr LO E0) as (q1 & P1 & W1 & EQ1 & Inv).
  rewrite EQ in EQ1. injection EQ1 as <- <- <-. specialize (Inv le e He).
  change (inverse_of (nfun bt p) (mass_matrix bt p m nq P W e) (vh_iMM (h r) le)) in Inv.
  assert (REC : forall X : Z -> R, X j = rsum (nfun bt p) (fun i => vh_iMM (h r) le j i * rsum (nfun bt p) (fun a => mass_matrix bt p m nq P W e i a * X a))).
  { intros X. rewrite (rsum_ext (nfun bt p) _ (fun i => rsum (nfun bt p) (fun a => vh_iMM (h r) le j i * mass_matrix bt p m nq P W e i a * X a))).
    2:{ intros i Hi. rewrite <- rsum_scal. apply rsum_ext. intros. ring. }
    rewrite rsum_swap. rewrite (rsum_ext (nfun bt p) _ (fun a => X a * (if (a =? j)%Z then 1 else 0))).
    - now rewrite rsum_delta_r.
    - intros a Ha. rewrite rsum_scal_r, (proj2 (Inv j a Hj Ha)), (Z.eqb_sym j a). ring. }
  rewrite (REC (fun a => U r le a k)). symmetry. rewrite (REC (fun a => V r' le' a k)). symmetry. apply rsum_ext. intros i Hi. f_equal.
  transitivity (rsum nq' (fun q => W' q * jac_det EQuad 1 (elem_nodes m e) (P' q) * basis_fn bt p i (P' q) * u (place EQuad 1 (elem_nodes m e) (P' q)) k)); [exact (R1 r le e k Hr He Hk i Hi)|symmetry; exact (R2 r' le' e k Hr' He' Hk i Hi)].
Qed.
Print Assumptions C78_whole_run_partition_independent.

(** ** Concrete runs *)

(** The four-element mesh of C71 on any number of ranks, with any partition: set
    up, initialised as gas at rest, and one forward Euler step of the second order
    scheme. *)
Definition demo_phys : phys := Build_phys 2 1 (fun k => demo_U 0%Z 0%Z k).

Lemma demo_runs_zero iter n ep pm dt : run_wf iter n demo_rmesh ep -> partitioned 0 iter n demo_rmesh ep pm ->
  exists h U U', initialised demo_rmesh LagrangeQuad 2 Uniform demo_phys 0 n pm h U /\
  exists f ord pord junk w w', run_wf iter n demo_rmesh ep /\ partitioned 0 iter n demo_rmesh ep pm /\
    all_set_up EQuad LagrangeQuad 2 1 demo_rmesh pm n h f /\ inner_loops_ok pm n ord pord /\
    (forall r, (0 <= r < n)%Z -> fits (shape_of EQuad pm (nfun LagrangeQuad 2) r)) /\
    (forall r e q i, v_Fe (fst w r) e q i = 0) /\
    boundary_zero EQuad demo_rmesh pm n 3 (fst w) /\
    marching EQuad demo_rmesh ep pm n 3 (nfun LagrangeQuad 2) 2 (tables EQuad LagrangeQuad 2 pm 2 HLLC h f ord pord junk) (fun r => vh_iMM (h r)) [(ForwardEuler, dt)] U w U' w'.
Proof.
  intros WF PT. destruct demo_straight as (SQ & CF & FV & FD).
  assert (RD : ready EQuad LagrangeQuad 2 1 demo_rmesh).
  { constructor; [lia|apply SQ|now apply convex_untangled|now left|unfold order_ok; lia|now left]. }
  assert (SE : forall r, (0 <= r < n)%Z -> exists hf, precompute_matrix_helpers EQuad LagrangeQuad 2 1 (pm r) r (gm_npe demo_rmesh) zero2
     (zseq (pm_num_elems_part (pm r))) (zseq (pm_num_elems_part (pm r))) (zseq (pm_num_ifaces_part (pm r))) = Ok hf).
  { intros r Hr. destruct (C68_setup_geometry 0 iter n demo_rmesh ep pm EQuad LagrangeQuad 2 1 r zero2
      (zseq (pm_num_elems_part (pm r))) (zseq (pm_num_elems_part (pm r))) (zseq (pm_num_ifaces_part (pm r))) WF PT RD Hr) as (h & f & x & w & E & _).
    - repeat split; apply Permutation_refl.
    - eauto. }
  set (G r := match precompute_matrix_helpers EQuad LagrangeQuad 2 1 (pm r) r (gm_npe demo_rmesh) zero2
     (zseq (pm_num_elems_part (pm r))) (zseq (pm_num_elems_part (pm r))) (zseq (pm_num_ifaces_part (pm r))) with Ok hf => hf | _ => (vh_empty, mkFH 0 zero3 zero1 zero3 (fun _ _ => 0%Z) (fun _ _ => 0%Z) zero3) end).
  assert (AS : all_set_up EQuad LagrangeQuad 2 1 demo_rmesh pm n (fun r => fst (G r)) (fun r => snd (G r))).
  { intros r Hr. exists zero2, (zseq (pm_num_elems_part (pm r))), (zseq (pm_num_elems_part (pm r))), (zseq (pm_num_ifaces_part (pm r))).
    split; [repeat split; apply Permutation_refl|]. destruct (SE r Hr) as ([h f] & E). unfold G. rewrite E. reflexivity. }
  exists (fun r => fst (G r)).
  assert (IE : forall r, (0 <= r < n)%Z -> exists Uc, init_state_from_fcn EQuad LagrangeQuad 2 1 (pm r) (gm_npe demo_rmesh) 4 Uniform demo_phys 0 (vh_iMM (fst (G r)))
      zero2 zero3 zero1 (zseq (pm_num_elems_part (pm r))) (zseq 36) zero3 = Ok Uc /\
    forall le k y, (0 <= le < pm_num_elems_part (pm r))%Z -> (0 <= k < 4)%Z -> rsum (nfun LagrangeQuad 2) (fun j => basis_fn LagrangeQuad 2 j y * Uc le j k) = demo_U 0%Z 0%Z k).
  { intros r Hr. destruct (SE r Hr) as ([h f] & E).
    assert (LO : loops_ok (pm r) (zseq (pm_num_elems_part (pm r))) (zseq (pm_num_elems_part (pm r))) (zseq (pm_num_ifaces_part (pm r)))) by (repeat split; apply Permutation_refl).
    destruct (C73_best_approximation 0 iter n demo_rmesh ep pm EQuad LagrangeQuad 2 1 r zero2 _ _ _ h f Uniform demo_phys 0 _
       zero2 zero3 zero1 (zseq (pm_num_elems_part (pm r))) zero3 WF PT RD ltac:(lia) Hr LO E (uniform_starts 2 _ 0 ltac:(lia)) (Permutation_refl _))
      as (nq & P & W & EQ & _ & HH).
    assert (nq = 36)%Z as ->.
    { destruct (volume_rule EQuad (2 * 2) ltac:(split; lia)) as (x & xw & _ & A). destruct (A zero2 zero1) as (P1 & W1 & EQ1 & _). rewrite EQ in EQ1. now injection EQ1. }
    destruct (HH (zseq 36) (Permutation_refl _)) as (Uc & EU & _).
    exists Uc. unfold G. rewrite E. split; [exact EU|]. intros le k y Hle Hk.
    exact (C73_uniform_state 0 iter n demo_rmesh ep pm EQuad LagrangeQuad 2 1 r zero2 _ _ _ h f demo_phys 0 zero2 zero3 zero1 _ (zseq 36) zero3 36 P W Uc
      WF PT RD ltac:(lia) Hr LO E (Permutation_refl _) EQ (Permutation_refl _) EU le k y Hle Hk). }
  set (U r := match init_state_from_fcn EQuad LagrangeQuad 2 1 (pm r) (gm_npe demo_rmesh) 4 Uniform demo_phys 0 (vh_iMM (fst (G r)))
      zero2 zero3 zero1 (zseq (pm_num_elems_part (pm r))) (zseq 36) zero3 with Ok Uc => Uc | _ => zero3 end).
  assert (US : forall r le k y, (0 <= r < n)%Z -> (0 <= le < pm_num_elems_part (pm r))%Z -> (0 <= k < 4)%Z ->
    rsum (nfun LagrangeQuad 2) (fun j => basis_fn LagrangeQuad 2 j y * U r le j k) = demo_U 0%Z 0%Z k).
  { intros r le k y Hr Hle Hk. destruct (IE r Hr) as (Uc & EU & V). unfold U. rewrite EU. now apply V. }
  assert (IN : initialised demo_rmesh LagrangeQuad 2 Uniform demo_phys 0 n pm (fun r => fst (G r)) U).
  { intros r Hr. exists zero2, zero3, zero1, (zseq (pm_num_elems_part (pm r))), (zseq 36), zero3.
    split; [apply Permutation_refl|]. split; [apply Permutation_refl|]. destruct (IE r Hr) as (Uc & EU & _). unfold U. now rewrite EU. }
  set (ord := fun (r : Z) (_ : nat) => zseq (pm_num_elems_part (pm r))).
  set (pord := fun (_ : Z) (_ : nat) a b => list_prod (zseq a) (zseq b)).
  set (v0 := fun _ : Z => mkRV zero3 zero3 zero3 zero3 zero3).
  assert (IL : inner_loops_ok pm n ord pord).
  { intros r Hr. split; intros; [apply Permutation_refl|]. unfold each_once, pord. apply Permutation_refl. }
  set (D := tables EQuad LagrangeQuad 2 pm 2 HLLC (fun r => fst (G r)) (fun r => snd (G r)) ord pord (fun _ => zero1)).
  destruct (C70_setup_consistent 0 iter n demo_rmesh ep pm EQuad LagrangeQuad 2 1 (fun r => fst (G r)) (fun r => snd (G r)) 2 HLLC ord pord (fun _ => zero1)
    WF PT RD AS IL) as (fp & fw & _ & FP & SS & CO).
  pose proof (straight_normals_agree 0 iter n demo_rmesh ep pm WF PT FV SQ CF LagrangeQuad 2 _ _ 2 HLLC ord pord (fun _ => zero1) RD AS) as NA.
  fold D in SS, CO, NA. change (face_rule_points EQuad 2 ^ (space_dim EQuad - 1))%Z with 3%Z in *.
  destruct (C64_residual_well_defined R 0 iter n demo_rmesh ep pm EQuad 3 (nfun LagrangeQuad 2) 2 HLLC _ fw D U (fun _ => zero3)
      v0 WF PT FV FD FP ltac:(lra) SS NA) as (UL & UR & v2 & rs2 & E & _ & AD).
  - intros r e q Hr He Hq. unfold density, vol_state. destruct (ss_sizes _ _ _ _ _ _ _ _ _ _ _ SS r Hr) as (_ & _ & _ & -> & _).
    destruct (AS r Hr) as (jk & eo1 & eo2 & fo & LO & E0).
    destruct (C68_setup_geometry 0 iter n demo_rmesh ep pm EQuad LagrangeQuad 2 1 r jk eo1 eo2 fo WF PT RD Hr LO) as (h' & f' & x' & w' & E & _ & _ & _ & _ & V & _).
    rewrite E in E0. injection E0 as -> ->.
    rewrite (rsum_ext _ _ (fun j => basis_fn LagrangeQuad 2 j (vh_pts (fst (G r)) q) * U r e j 0%Z)).
    + rewrite US by (assumption || lia). cbn; lra.
    + intros i Hi. f_equal. apply (V q i); assumption.
  - intros r e k q Hr He Hk Hq.
    assert (ET : forall j, (0 <= j < 4)%Z -> face_trace (nfun LagrangeQuad 2) (fun k q i => basis_fn LagrangeQuad 2 i (face_at EQuad k (fp q))) (U r) e k q j = demo_U 0%Z 0%Z j).
    { intros j Hj. unfold face_trace. now apply US. }
    unfold admissible, pressure, density, energy, vdot, velocity, momentum. cbn [space_dim Z.add].
    rewrite rsum_2. unfold density. change (Pos.succ 2) with 3%positive. change (1 + 0)%Z with 1%Z. change (1 + 1)%Z with 2%Z. change (2 + 1)%Z with 3%Z. rewrite !ET by lia. unfold demo_U. cbn. lra.
  - exists U. eexists. split; [exact IN|]. exists (fun r => snd (G r)), ord, pord, (fun _ => zero1), (v0, fun _ => zero3), (v2, rs2).
    split; [exact WF|]. split; [exact PT|]. split; [exact AS|]. split; [exact IL|]. split; [|split; [|split]].
    + intros r Hr. destruct (C01_element_ownership R 0 iter n demo_rmesh ep pm WF PT) as (_ & _ & CN & _).
      destruct (CN r Hr) as (ND & EL).
      assert (L4 : (zlen (pm_l2g_elem (pm r)) <= 4)%Z).
      { unfold zlen. change 4%Z with (Z.of_nat (length (zseq 4))). apply Nat2Z.inj_le. apply NoDup_incl_length; [exact ND|].
        intros e He. apply In_zseq. destruct (CommProof.In_rd e (pm_l2g_elem (pm r)) He) as (le & Hle). exact (owned_elem 0 iter n demo_rmesh ep pm WF PT r le e Hr Hle). }
      pose proof (zlen_nonneg (pm_l2g_elem (pm r))).
      unfold fits, shape_of, extents_ok, entries. cbn [space_dim]. change (nfun LagrangeQuad 2) with 9%Z. rewrite EL. repeat split; lia.
    + reflexivity.
    + intros r le pos k Hr _. reflexivity.
    + eapply marching_S with (w1 := (v2, rs2)) (l := LRight) (order := fun r _ => zseq (pm_num_elems_part (pm r))) (t := 0) (wk := fun _ => mkRW zero3 zero3 zero3 zero3 zero3); [| |apply marching_0].
      * intros r Hr st. apply Permutation_refl.
      * eapply ra_ask with (w1 := (v2, rs2)) (rs := rs2).
        -- intros r Hr. unfold step_program, FE_step. reflexivity.
        -- exists UL, UR. split; [exact E|]. split; [reflexivity|exact AD].
        -- apply ra_done with (tm := fun _ => 0 + dt). intros r Hr. reflexivity.
Qed.

Lemma demo_runs_at iter n ep pm dt : run_wf iter n demo_rmesh ep -> partitioned 0 iter n demo_rmesh ep pm ->
  exists h U U', initialised demo_rmesh LagrangeQuad 2 Uniform demo_phys 0 n pm h U /\
  exists f ord pord junk w w', run_wf iter n demo_rmesh ep /\ partitioned 0 iter n demo_rmesh ep pm /\
    all_set_up EQuad LagrangeQuad 2 1 demo_rmesh pm n h f /\ inner_loops_ok pm n ord pord /\
    (forall r, (0 <= r < n)%Z -> fits (shape_of EQuad pm (nfun LagrangeQuad 2) r)) /\
    boundary_zero EQuad demo_rmesh pm n 3 (fst w) /\
    marching EQuad demo_rmesh ep pm n 3 (nfun LagrangeQuad 2) 2 (tables EQuad LagrangeQuad 2 pm 2 HLLC h f ord pord junk) (fun r => vh_iMM (h r)) [(ForwardEuler, dt)] U w U' w'.
Proof.
  intros WF PT. destruct (demo_runs_zero iter n ep pm dt WF PT) as (h & U & U' & IT & f & ord & pord & jk & w & w' & A1 & A2 & A3 & A4 & A5 & _ & A6 & A7).
  exists h, U, U'. split; [exact IT|]. exists f, ord, pord, jk, w, w'. auto 10.
Qed.

Lemma demo_runs iter n ep : run_wf iter n demo_rmesh ep ->
  exists pm h U U', partitioned 0 iter n demo_rmesh ep pm /\
    initialised demo_rmesh LagrangeQuad 2 Uniform demo_phys 0 n pm h U /\
    run_from demo_rmesh LagrangeQuad 2 2 HLLC [(ForwardEuler, 1 / 10)] n pm h U U'.
Proof.
  intros WF. destruct (C05_partitioned_exists R 0 iter n demo_rmesh ep WF) as (pm & PT).
  destruct (demo_runs_at iter n ep pm (1 / 10) WF PT) as (h & U & U' & IN & RF). exists pm, h, U, U'. split; [exact PT|]. split; [exact IN|]. exists iter, ep. exact RF.
Qed.

(** The hypotheses of C78 are met by a run on three ranks and one on two. *)
Example C78_demo : exists pm h U U' pm2 h2 V V',
  starts_as 2 Uniform demo_phys 0 (fun _ k => demo_U 0%Z 0%Z k) /\
  initialised demo_rmesh LagrangeQuad 2 Uniform demo_phys 0 3 pm h U /\
  run_from demo_rmesh LagrangeQuad 2 2 HLLC [(ForwardEuler, 1 / 10)] 3 pm h U U' /\
  initialised demo_rmesh LagrangeQuad 2 Uniform demo_phys 0 2 pm2 h2 V /\
  run_from demo_rmesh LagrangeQuad 2 2 HLLC [(ForwardEuler, 1 / 10)] 2 pm2 h2 V V'.
Proof.
  destruct (demo_runs _ 3 demo_ep demo_rrun) as (pm & h & U & U' & _ & I1 & R1).
  destruct (demo_runs (fun _ l => l) 2 [1; 0; 0; 1]%Z) as (pm2 & h2 & V & V' & _ & I2 & R2).
  { constructor; [apply (run_mesh _ _ _ _ demo_rrun)| |intros ? ?; apply Permutation_refl].
    split; [reflexivity|]. repeat constructor; lia. }
  exists pm, h, U, U', pm2, h2, V, V'. split; [apply (uniform_starts 2 demo_phys 0); lia|]. auto.
Qed.
