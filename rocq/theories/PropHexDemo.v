(** PropHexDemo.v -- concrete runs on hexahedra: the hypotheses of C71, C77, C78
    in three dimensions are met. *)
From Coq Require Import ZArith List Lia Reals Lra Bool Permutation FunctionalExtensionality.
From Coquelicot Require Import Coquelicot.
From Verif Require Import Base RBase LinAlgModel LinAlgProof PropLinAlg QuadModel QuadProof PropQuad BasisModel BasisProof PropBasis PropSolver PropNormals.
From Verif Require Import ShapeModel ShapeProof PropShape MeshModel MeshSpec MeshProof PropMesh PhysModel PhysSpec SolverModel SolverSpec SolverProof SolverMesh.
From Verif Require Import StepModel StepProof PropStep PropConserve PropResidual PropIntegral.
From Verif Require CommProof.
From Verif Require Import SetupModel SetupSpec MassProof SetupProof SetupPass SetupFaces PropSetup PropVortex PropMeshRun PropInit PropPost DGSpec DGProof PropDG PropHex.
Import ListNotations.
Local Open Scope R_scope.
Open Scope res_scope.

(** A cube and the frustum of a pyramid on its face x = 1; one node of the common
    face moved by [b]. *)
Definition two_hexes (b : R) : gmesh R :=
  mkGMesh 3 2 12 1 8 [0;1;3;4;6;7;9;10; 1;2;4;5;7;8;10;11]%Z
    [[0;0;0];[1;0;0];[2;0;0]; [0;1;0];[1;1;0];[2;2;0]; [0;0;1];[1;0;1];[2;0;2]; [0;1;1];[1+b;1;1];[2;2;2]]
    [[0;2;0;1;4;5]]%Z.

(** The maps of the two elements. *)
Definition hex_map (b : R) (e : Z) (u v w : R) : arr1 :=
  let q := (1 + v) * (1 + w) / 4 in
  if (e =? 0)%Z then vec3 ((1 + u) / 2 * (1 + b * q)) ((1 + v) / 2) ((1 + w) / 2)
  else vec3 ((1 - u) / 2 * (1 + b * q) + (1 + u)) ((1 + v) / 2 * ((3 + u) / 2)) ((1 + w) / 2 * ((3 + u) / 2)).

Lemma two_place b e y d : (0 <= e < 2)%Z -> (0 <= d < 3)%Z ->
  place EHex 1 (elem_nodes (two_hexes b) e) y d = hex_map b e (y 0%Z) (y 1%Z) (y 2%Z) d.
Proof.
  intros He Hd. unfold place, geom_basis. rewrite map_hex by lia. change (1 + 1)%Z with 2%Z. rewrite !rsum_2. rewrite !LL1 by lia.
  assert (Ce : (e = 0 \/ e = 1)%Z) by lia. assert (Cd : (d = 0 \/ d = 1 \/ d = 2)%Z) by lia.
  generalize (y 0%Z) (y 1%Z) (y 2%Z). intros u v w.
  destruct Ce as [-> | ->], Cd as [-> | [-> | ->]]; cbv [hex_map vec3 elem_nodes two_hexes gm_eind gm_npe gm_coord rd2 rd bind Z.add Z.mul Z.eqb Pos.eqb Pos.add Pos.mul Pos.succ
     nth_error Z.ltb Z.leb Z.compare Pos.compare Pos.compare_cont Z.to_nat Pos.to_nat Pos.iter_op Nat.add]; field.
Qed.

Lemma two_jacobian b e y j d : (0 <= e < 2)%Z -> (0 <= j < 3)%Z -> (0 <= d < 3)%Z ->
  jacobian EHex 1 (elem_nodes (two_hexes b) e) y j d =
  Derive (fun t => hex_map b e (with_coord y d t 0%Z) (with_coord y d t 1%Z) (with_coord y d t 2%Z) j) (y d).
Proof. intros He Hj Hd. unfold jacobian. apply Derive_ext. intros t. now rewrite two_place. Qed.

Lemma two_untangled b : 0 <= b <= 1 / 4 -> untangled EHex 1 (two_hexes b).
Proof.
  intros Hb e y He Hy. change (gm_num_elems (two_hexes b)) with 2%Z in He.
  pose proof (Hy 0%Z ltac:(cbn; lia)) as U. pose proof (Hy 1%Z ltac:(cbn; lia)) as V. pose proof (Hy 2%Z ltac:(cbn; lia)) as W.
  unfold jac_det, small_det. cbn [space_dim Z.eqb Pos.eqb]. unfold det3, minor2. rewrite !two_jacobian by lia. unfold with_coord. cbn [Z.eqb Pos.eqb].
  revert U V W. generalize (y 0%Z) (y 1%Z) (y 2%Z). intros u v w U V W.
  set (q := (1 + v) * (1 + w) / 4).
  assert (Q0 : 0 < q) by (unfold q; apply Rdiv_lt_0_compat; [apply Rmult_lt_0_compat; lra|lra]).
  assert (Q1 : q < 1) by (unfold q; nra).
  assert (Ce : (e = 0 \/ e = 1)%Z) by lia. destruct Ce as [-> | ->]; unfold hex_map, vec3; cbn [Z.eqb Pos.eqb].
  - replace (Derive (fun t => (1 + t) / 2 * (1 + b * ((1 + v) * (1 + w) / 4))) u) with ((1 + b * q) / 2) by (symmetry; apply is_derive_unique; unfold q; auto_derive; [exact Logic.I|field]).
    rewrite !Derive_const.
    replace (Derive (fun t => (1 + t) / 2) v) with (/ 2) by (symmetry; apply is_derive_unique; auto_derive; [exact Logic.I|field]).
    replace (Derive (fun t => (1 + t) / 2) w) with (/ 2) by (symmetry; apply is_derive_unique; auto_derive; [exact Logic.I|field]).
    nra.
  - replace (Derive (fun t => (1 - t) / 2 * (1 + b * ((1 + v) * (1 + w) / 4)) + (1 + t)) u) with ((1 - b * q) / 2) by (symmetry; apply is_derive_unique; unfold q; auto_derive; [exact Logic.I|field]).
    replace (Derive (fun t => (1 - u) / 2 * (1 + b * ((1 + t) * (1 + w) / 4)) + (1 + u)) v) with ((1 - u) * b * (1 + w) / 8) by (symmetry; apply is_derive_unique; auto_derive; [exact Logic.I|field]).
    replace (Derive (fun t => (1 - u) / 2 * (1 + b * ((1 + v) * (1 + t) / 4)) + (1 + u)) w) with ((1 - u) * b * (1 + v) / 8) by (symmetry; apply is_derive_unique; auto_derive; [exact Logic.I|field]).
    replace (Derive (fun t => (1 + v) / 2 * ((3 + t) / 2)) u) with ((1 + v) / 4) by (symmetry; apply is_derive_unique; auto_derive; [exact Logic.I|field]).
    replace (Derive (fun t => (1 + t) / 2 * ((3 + u) / 2)) v) with ((3 + u) / 4) by (symmetry; apply is_derive_unique; auto_derive; [exact Logic.I|field]).
    replace (Derive (fun t => (1 + w) / 2 * ((3 + t) / 2)) u) with ((1 + w) / 4) by (symmetry; apply is_derive_unique; auto_derive; [exact Logic.I|field]).
    replace (Derive (fun t => (1 + t) / 2 * ((3 + u) / 2)) w) with ((3 + u) / 4) by (symmetry; apply is_derive_unique; auto_derive; [exact Logic.I|field]).
    rewrite !Derive_const.
    replace (_ - _ + _) with ((3 + u) / 4 * (((3 + u) - b * q * (5 - u)) / 8)) by (unfold q; field).
    apply Rmult_lt_0_compat; [lra|]. apply Rdiv_lt_0_compat; [|lra].
    assert (b * q <= 1 / 4) by nra. assert (0 <= b * q) by nra. nra.
Qed.

Lemma two_sides b f sd e k o : has_side (two_hexes b) f sd e k o -> f = 0%Z /\ [e; k; o] = (if sd then [1; 4; 5] else [0; 2; 0])%Z.
Proof.
  intros (H1 & H2 & H3). unfold rd2 in *. destruct (rd (gm_IF (two_hexes b)) f) as [row|] eqn:E; [|discriminate].
  pose proof (rd_in_range _ _ _ E) as Rg. change (zlen (gm_IF (two_hexes b))) with 1%Z in Rg. assert (f = 0)%Z as -> by lia. split; [reflexivity|].
  injection E as <-. destruct sd; injection H1 as <-; injection H2 as <-; injection H3 as <-; reflexivity.
Qed.

(** The common face, from both sides. *)
Lemma two_face b s t d : (0 <= d < 3)%Z -> face_surface (two_hexes b) 0 2 s t d = vec3 (1 + b * ((1 + s) * (1 + t) / 4)) ((1 + s) / 2) ((1 + t) / 2) d /\
  face_surface (two_hexes b) 1 4 s t d = vec3 (1 + b * ((1 - s) * (1 + t) / 4)) ((1 - s) / 2) ((1 + t) / 2) d.
Proof.
  intros Hd. unfold face_surface. rewrite !two_place by lia. unfold hex_map, hex_face, vec3. cbn [Z.eqb Pos.eqb].
  assert (Cd : (d = 0 \/ d = 1 \/ d = 2)%Z) by lia. destruct Cd as [-> | [-> | ->]]; cbn [Z.eqb Pos.eqb]; split; field.
Qed.

Lemma two_conforming b : conforming_hexes (two_hexes b).
Proof.
  intros f eL kL oL eR kR oR HL HR. apply two_sides in HL, HR. destruct HL as (-> & HL), HR as (_ & HR).
  injection HL as -> -> ->. injection HR as -> -> ->. exists 5%Z, (fun _ => 0). split; [lia|]. intros s t d Hd.
  destruct (hex_turn_table s t) as (_ & _ & _ & _ & _ & -> & _). destruct (two_face b s t d Hd) as (-> & _). destruct (two_face b (- s) t d Hd) as (_ & ->).
  replace (1 - - s) with (1 + s) by ring. ring.
Qed.

Lemma two_faces b : faces_valid EHex (two_hexes b) /\ faces_distinct (two_hexes b).
Proof.
  split.
  - intros f sd e k o H. apply two_sides in H. destruct H as (-> & H). destruct sd; injection H as -> -> ->; cbn; lia.
  - intros f sd e k o f' sd' o' H H'. apply two_sides in H, H'. destruct H as (-> & H), H' as (-> & H').
    destruct sd, sd'; injection H as -> -> ->; injection H'; intros; try discriminate; auto.
Qed.

Lemma two_flat : flat_hexes (two_hexes 0).
Proof.
  split; [split; reflexivity|]. split; [apply two_untangled; lra|]. intros f sd e k o H. apply two_sides in H. destruct H as (-> & H).
  destruct sd; injection H as -> -> ->.
  - exists (vec3 1 (1/2) (1/2)), (vec3 0 (-1/2) 0), (vec3 0 0 (1/2)). split.
    + intros s t d Hd. destruct (two_face 0 s t d Hd) as (_ & ->). unfold vec3. destruct (d =? 0)%Z, (d =? 1)%Z; field.
    + exists 0%Z. split; [lia|]. cbn -[IZR]. lra.
  - exists (vec3 1 (1/2) (1/2)), (vec3 0 (1/2) 0), (vec3 0 0 (1/2)). split.
    + intros s t d Hd. destruct (two_face 0 s t d Hd) as (-> & _). unfold vec3. destruct (d =? 0)%Z, (d =? 1)%Z; field.
    + exists 0%Z. split; [lia|]. cbn -[IZR]. lra.
Qed.

Lemma two_wf b : mesh_wf (two_hexes b).
Proof.
  constructor; try (cbn -[IZR]; unfold UINT_MAX; lia); try reflexivity.
  - repeat constructor; cbn; lia.
  - repeat (apply Forall_cons; [reflexivity|]). apply Forall_nil.
  - repeat (apply Forall_cons; [do 6 eexists; split; [reflexivity|]; cbn; lia|]). apply Forall_nil.
Qed.

(** ** Runs *)

Definition gas_at_rest (k : Z) : R := if (k =? 0)%Z then 1 else if (k =? 4)%Z then 5 else 0.
Definition hex_phys : phys := Build_phys 2 1 gas_at_rest.

(** The two elements on any number of ranks, with any partition: set up,
    initialised as gas at rest, and one forward Euler step. *)
Lemma hex_runs_demo iter n ep : run_wf iter n (two_hexes 0) ep ->
  exists pm h U U', partitioned 0 iter n (two_hexes 0) ep pm /\
    hexes_initialised (two_hexes 0) LagrangeHex 1 Uniform hex_phys 0 n pm h U /\
    hex_run (two_hexes 0) LagrangeHex 1 2 HLLC [(ForwardEuler, 1 / 10)] n pm h U U'.
Proof.
  intros WF. destruct (two_faces 0) as (FV & FD). pose proof two_flat as FH. pose proof (two_conforming 0) as CF.
  assert (RD : ready EHex LagrangeHex 1 1 (two_hexes 0)).
  { constructor; [lia|apply FH|apply FH|now left|unfold order_ok; lia|now left]. }
  destruct (C05_partitioned_exists R 0 iter n (two_hexes 0) ep WF) as (pm & PT).
  exists pm.
  assert (SE : forall r, (0 <= r < n)%Z -> exists hf, precompute_matrix_helpers EHex LagrangeHex 1 1 (pm r) r (gm_npe (two_hexes 0)) zero2
     (zseq (pm_num_elems_part (pm r))) (zseq (pm_num_elems_part (pm r))) (zseq (pm_num_ifaces_part (pm r))) = Ok hf).
  { intros r Hr. destruct (C68_setup_geometry 0 iter n (two_hexes 0) ep pm EHex LagrangeHex 1 1 r zero2
      (zseq (pm_num_elems_part (pm r))) (zseq (pm_num_elems_part (pm r))) (zseq (pm_num_ifaces_part (pm r))) WF PT RD Hr) as (h & f & x & w & E & _).
    - repeat split; apply Permutation_refl.
    - eauto. }
  set (G r := match precompute_matrix_helpers EHex LagrangeHex 1 1 (pm r) r (gm_npe (two_hexes 0)) zero2
     (zseq (pm_num_elems_part (pm r))) (zseq (pm_num_elems_part (pm r))) (zseq (pm_num_ifaces_part (pm r))) with Ok hf => hf | _ => (vh_empty, mkFH 0 zero3 zero1 zero3 (fun _ _ => 0%Z) (fun _ _ => 0%Z) zero3) end).
  assert (AS : all_set_up EHex LagrangeHex 1 1 (two_hexes 0) pm n (fun r => fst (G r)) (fun r => snd (G r))).
  { intros r Hr. exists zero2, (zseq (pm_num_elems_part (pm r))), (zseq (pm_num_elems_part (pm r))), (zseq (pm_num_ifaces_part (pm r))).
    split; [repeat split; apply Permutation_refl|]. destruct (SE r Hr) as ([h f] & E). unfold G. rewrite E. reflexivity. }
  exists (fun r => fst (G r)).
  assert (IE : forall r, (0 <= r < n)%Z -> exists Uc, init_state_from_fcn EHex LagrangeHex 1 1 (pm r) (gm_npe (two_hexes 0)) 5 Uniform hex_phys 0 (vh_iMM (fst (G r)))
      zero2 zero3 zero1 (zseq (pm_num_elems_part (pm r))) (zseq 64) zero3 = Ok Uc /\
    forall le k y, (0 <= le < pm_num_elems_part (pm r))%Z -> (0 <= k < 5)%Z -> rsum (nfun LagrangeHex 1) (fun j => basis_fn LagrangeHex 1 j y * Uc le j k) = gas_at_rest k).
  { intros r Hr. destruct (SE r Hr) as ([h f] & E).
    assert (LO : loops_ok (pm r) (zseq (pm_num_elems_part (pm r))) (zseq (pm_num_elems_part (pm r))) (zseq (pm_num_ifaces_part (pm r)))) by (repeat split; apply Permutation_refl).
    destruct (C73_best_approximation 0 iter n (two_hexes 0) ep pm EHex LagrangeHex 1 1 r zero2 _ _ _ h f Uniform hex_phys 0 _
       zero2 zero3 zero1 (zseq (pm_num_elems_part (pm r))) zero3 WF PT RD ltac:(lia) Hr LO E (uniform_starts 3 _ 0 ltac:(lia)) (Permutation_refl _))
      as (nq & P & W & EQ & _ & HH).
    assert (nq = 64)%Z as ->.
    { destruct (volume_rule EHex (2 * 1) ltac:(split; lia)) as (x & xw & _ & A). destruct (A zero2 zero1) as (P1 & W1 & EQ1 & _). rewrite EQ in EQ1. now injection EQ1. }
    destruct (HH (zseq 64) (Permutation_refl _)) as (Uc & EU & _).
    exists Uc. unfold G. rewrite E. split; [exact EU|]. intros le k y Hle Hk.
    exact (C73_uniform_state 0 iter n (two_hexes 0) ep pm EHex LagrangeHex 1 1 r zero2 _ _ _ h f hex_phys 0 zero2 zero3 zero1 _ (zseq 64) zero3 64 P W Uc
      WF PT RD ltac:(lia) Hr LO E (Permutation_refl _) EQ (Permutation_refl _) EU le k y Hle Hk). }
  set (U r := match init_state_from_fcn EHex LagrangeHex 1 1 (pm r) (gm_npe (two_hexes 0)) 5 Uniform hex_phys 0 (vh_iMM (fst (G r)))
      zero2 zero3 zero1 (zseq (pm_num_elems_part (pm r))) (zseq 64) zero3 with Ok Uc => Uc | _ => zero3 end).
  assert (US : forall r le k y, (0 <= r < n)%Z -> (0 <= le < pm_num_elems_part (pm r))%Z -> (0 <= k < 5)%Z ->
    rsum (nfun LagrangeHex 1) (fun j => basis_fn LagrangeHex 1 j y * U r le j k) = gas_at_rest k).
  { intros r le k y Hr Hle Hk. destruct (IE r Hr) as (Uc & EU & V). unfold U. rewrite EU. now apply V. }
  assert (IN : hexes_initialised (two_hexes 0) LagrangeHex 1 Uniform hex_phys 0 n pm (fun r => fst (G r)) U).
  { intros r Hr. exists zero2, zero3, zero1, (zseq (pm_num_elems_part (pm r))), (zseq 64), zero3.
    split; [apply Permutation_refl|]. split; [apply Permutation_refl|]. destruct (IE r Hr) as (Uc & EU & _). unfold U. now rewrite EU. }
  set (ord := fun (r : Z) (_ : nat) => zseq (pm_num_elems_part (pm r))).
  set (pord := fun (_ : Z) (_ : nat) a b => list_prod (zseq a) (zseq b)).
  set (v0 := fun _ : Z => mkRV zero3 zero3 zero3 zero3 zero3).
  assert (IL : inner_loops_ok pm n ord pord).
  { intros r Hr. split; intros; [apply Permutation_refl|]. unfold each_once, pord. apply Permutation_refl. }
  set (D := tables EHex LagrangeHex 1 pm 2 HLLC (fun r => fst (G r)) (fun r => snd (G r)) ord pord (fun _ => zero1)).
  destruct (C70_setup_consistent 0 iter n (two_hexes 0) ep pm EHex LagrangeHex 1 1 (fun r => fst (G r)) (fun r => snd (G r)) 2 HLLC ord pord (fun _ => zero1)
    WF PT RD AS IL) as (fp & fw & _ & FP & SS & CO).
  pose proof (flat_normals_agree 0 iter n (two_hexes 0) ep pm WF PT FV FH CF LagrangeHex 1 _ _ 2 HLLC ord pord (fun _ => zero1) RD AS) as NA.
  fold D in SS, CO, NA. change (face_rule_points EHex 1 ^ (space_dim EHex - 1))%Z with 9%Z in *. change ((1 + 2) * (1 + 2))%Z with 9%Z in NA.
  destruct (C64_residual_well_defined R 0 iter n (two_hexes 0) ep pm EHex 9 (nfun LagrangeHex 1) 2 HLLC _ fw D U (fun _ => zero3)
      v0 WF PT FV FD FP ltac:(lra) SS NA) as (UL & UR & v2 & rs2 & E & _ & AD).
  - intros r e q Hr He Hq. unfold density, vol_state. destruct (ss_sizes _ _ _ _ _ _ _ _ _ _ _ SS r Hr) as (_ & _ & _ & -> & _).
    destruct (AS r Hr) as (jk & eo1 & eo2 & fo & LO & E0).
    destruct (C68_setup_geometry 0 iter n (two_hexes 0) ep pm EHex LagrangeHex 1 1 r jk eo1 eo2 fo WF PT RD Hr LO) as (h' & f' & x' & w' & E & _ & _ & _ & _ & V & _).
    rewrite E in E0. injection E0 as -> ->.
    rewrite (rsum_ext _ _ (fun j => basis_fn LagrangeHex 1 j (vh_pts (fst (G r)) q) * U r e j 0%Z)).
    + rewrite US by (assumption || lia). cbn; lra.
    + intros i Hi. f_equal. apply (V q i); assumption.
  - intros r e k q Hr He Hk Hq.
    assert (ET : forall j, (0 <= j < 5)%Z -> face_trace (nfun LagrangeHex 1) (fun k q i => basis_fn LagrangeHex 1 i (face_at EHex k (fp q))) (U r) e k q j = gas_at_rest j).
    { intros j Hj. unfold face_trace. now apply US. }
    unfold admissible, pressure, density, energy, vdot, velocity, momentum. cbn [space_dim Z.add].
    rewrite rsum_3. unfold density. change (Pos.succ 3) with 4%positive. change (1 + 0)%Z with 1%Z. change (1 + 1)%Z with 2%Z. change (1 + 2)%Z with 3%Z. change (3 + 1)%Z with 4%Z. rewrite !ET by lia. unfold gas_at_rest. cbn. lra.
  - exists U. eexists. split; [exact PT|]. split; [exact IN|]. exists iter, ep, (fun r => snd (G r)), ord, pord, (fun _ => zero1), (v0, fun _ => zero3), (v2, rs2).
    split; [exact WF|]. split; [exact PT|]. split; [exact AS|]. split; [exact IL|]. split; [|split].
    + intros r Hr. destruct (C01_element_ownership R 0 iter n (two_hexes 0) ep pm WF PT) as (_ & _ & CN & _).
      destruct (CN r Hr) as (ND & EL).
      assert (L4 : (zlen (pm_l2g_elem (pm r)) <= 2)%Z).
      { unfold zlen. change 2%Z with (Z.of_nat (length (zseq 2))). apply Nat2Z.inj_le. apply NoDup_incl_length; [exact ND|].
        intros e He. apply In_zseq. destruct (CommProof.In_rd e (pm_l2g_elem (pm r)) He) as (le & Hle). exact (owned_elem 0 iter n (two_hexes 0) ep pm WF PT r le e Hr Hle). }
      pose proof (zlen_nonneg (pm_l2g_elem (pm r))).
      unfold fits, shape_of, extents_ok, entries. cbn [space_dim]. change (nfun LagrangeHex 1) with 8%Z. rewrite EL. repeat split; lia.
    + intros r le pos k Hr _. reflexivity.
    + eapply marching_S with (w1 := (v2, rs2)) (l := LRight) (order := fun r _ => zseq (pm_num_elems_part (pm r))) (t := 0) (wk := fun _ => mkRW zero3 zero3 zero3 zero3 zero3); [| |apply marching_0].
      * intros r Hr st. apply Permutation_refl.
      * eapply ra_ask with (w1 := (v2, rs2)) (rs := rs2).
        -- intros r Hr. unfold step_program, FE_step. reflexivity.
        -- exists UL, UR. split; [exact E|]. split; [reflexivity|exact AD].
        -- apply ra_done with (tm := fun _ => 0 + 1 / 10). intros r Hr. reflexivity.
Qed.


(** The hypotheses of C78 are met by a run on two ranks and one on a single rank. *)
Example C78_hexahedra_demo : exists pm h U U' pm2 h2 V V',
  faces_valid EHex (two_hexes 0) /\ faces_distinct (two_hexes 0) /\ flat_hexes (two_hexes 0) /\ conforming_hexes (two_hexes 0) /\
  starts_as 3 Uniform hex_phys 0 (fun _ k => gas_at_rest k) /\
  hexes_initialised (two_hexes 0) LagrangeHex 1 Uniform hex_phys 0 2 pm h U /\
  hex_run (two_hexes 0) LagrangeHex 1 2 HLLC [(ForwardEuler, 1 / 10)] 2 pm h U U' /\
  hexes_initialised (two_hexes 0) LagrangeHex 1 Uniform hex_phys 0 1 pm2 h2 V /\
  hex_run (two_hexes 0) LagrangeHex 1 2 HLLC [(ForwardEuler, 1 / 10)] 1 pm2 h2 V V'.
Proof.
  destruct (hex_runs_demo (fun _ l => rev l) 2 [1; 0]%Z) as (pm & h & U & U' & _ & I1 & R1).
  { constructor; [apply two_wf| |intros r l; symmetry; apply Permutation_rev]. split; [reflexivity|]. repeat constructor; lia. }
  destruct (hex_runs_demo (fun _ l => l) 1 [0; 0]%Z) as (pm2 & h2 & V & V' & _ & I2 & R2).
  { constructor; [apply two_wf| |intros ? ?; apply Permutation_refl]. split; [reflexivity|]. repeat constructor; lia. }
  exists pm, h, U, U', pm2, h2, V, V'. split; [apply two_faces|]. split; [apply two_faces|]. split; [apply two_flat|]. split; [apply two_conforming|].
  split; [apply (uniform_starts 3 hex_phys 0); lia|]. auto.
Qed.

(** A march is a sequence of steps in the sense of C65, C71. *)
Lemma march_steps {A} s m ep (pm : Z -> pmesh A) n nqf nb gamma D iMM steps U w U' w' :
  marching s m ep pm n nqf nb gamma D iMM steps U w U' w' -> stepping s m ep pm n nqf nb gamma D iMM (length steps) U w U' w'.
Proof.
  induction 1 as [|st dt steps l order t wk U w U1 w1 U2 w2 H1 H2 H3 IH]; cbn [length]; [apply stepping_0|].
  eapply stepping_S; [|exact H2|exact IH]. destruct st; [now apply step_fe|now apply step_rk].
Qed.

(** The hypotheses of C71 (and C77) are met. *)
Example C71_hexahedra_demo : exists iter ep pm h f ord pord junk U w U' w',
  run_wf iter 2 (two_hexes 0) ep /\ partitioned 0 iter 2 (two_hexes 0) ep pm /\
  all_set_up EHex LagrangeHex 1 1 (two_hexes 0) pm 2 h f /\ inner_loops_ok pm 2 ord pord /\
  (forall r, (0 <= r < 2)%Z -> fits (shape_of EHex pm (nfun LagrangeHex 1) r)) /\
  boundary_zero EHex (two_hexes 0) pm 2 ((1 + 2) * (1 + 2)) (fst w) /\
  stepping EHex (two_hexes 0) ep pm 2 ((1 + 2) * (1 + 2)) (nfun LagrangeHex 1) 2 (tables EHex LagrangeHex 1 pm 2 HLLC h f ord pord junk) (fun r => vh_iMM (h r)) 1 U w U' w'.
Proof.
  destruct C78_hexahedra_demo as (pm & h & U & U' & _ & _ & _ & _ & _ & _ & _ & _ & _ & _ & R1 & _).
  destruct R1 as (iter & ep & f & ord & pord & junk & w & w' & WF & PT & AS & IL & FT & BZ & MA).
  exists iter, ep, pm, h, f, ord, pord, junk, U, w, U', w'. repeat (split; [assumption|]). exact (march_steps _ _ _ _ _ _ _ _ _ _ _ _ _ _ _ MA).
Qed.
