(** PropPositiveDemo.v -- C96 on concrete cases: a wind across the four
    quadrilaterals of C71, and across four cubes. *)
From Coq Require Import ZArith List Lia Reals Lra String Bool Permutation.
From Coquelicot Require Import Coquelicot.
From Flocq Require Import BinarySingleNaN.
From Verif Require Import Base RBase MeshModel MeshSpec MeshProof PropMesh IOModel PropIO PropOutput.
From Verif Require Import ReadModel PropRead PropCtor UtilModel TimeModel ProgramModel PropProgram.
From Verif Require Import LinAlgModel PropLinAlg BasisModel ShapeModel PropShape SolverModel SolverSpec SolverMesh SolverFlux PhysModel PhysSpec PhysProof PropPhys PropBasis PropSolver PropNormals StepModel PropIntegral PropStep SetupModel SetupSpec SetupProof SetupFaces PropSetup PropMeshRun PropInit PropPost PropResidual DGSpec DGProof PropDG PropHex PropFree PropHexFree PropTime PropWhole PropTotal PropHexCase PropEnd PropRenumber PropSimilar PropSimilarG PropSimilarDemo PropPositive PropPositiveG.
Import ListNotations.
Local Open Scope string_scope.
Local Open Scope Z_scope.
Local Open Scope R_scope.
Open Scope res_scope.

Lemma fraction : B2R (ddiv (dint 1) (dint 2)) = 1 / 2 /\ B2R (ddiv (dint 1) (dint 16)) = 1 / 16.
Proof.
  rewrite <- !SF2R_B2SF.
  replace (B2SF (ddiv (dint 1) (dint 2))) with (SpecFloat.S754_finite false 4503599627370496 (-53)) by (vm_compute; reflexivity).
  replace (B2SF (ddiv (dint 1) (dint 16))) with (SpecFloat.S754_finite false 4503599627370496 (-56)) by (vm_compute; reflexivity).
  unfold SF2R, Defs.F2R. cbn. split; lra.
Qed.

Lemma sqrt_below a b : 0 < b -> a < b * b -> sqrt a < b.
Proof.
  intros Hb H. destruct (Rle_or_lt 0 a) as [A|A].
  - rewrite <- (sqrt_square b) by lra. apply sqrt_lt_1; [exact A|nra|exact H].
  - rewrite sqrt_neg_0 by lra. exact Hb.
Qed.

(** Wave speeds do not depend on the scale of the state. *)
Lemma speed_scale dim g r U V : (dim = 2 \/ dim = 3)%Z -> 0 < r -> density U <> 0 -> (forall k, (0 <= k < dim + 2)%Z -> V k = r * U k) -> max_speed dim g V = max_speed dim g U.
Proof.
  intros D Hr Hd H.
  assert (ED : density V = r * density U) by (unfold density; apply H; lia).
  assert (EV : forall i, (0 <= i < dim)%Z -> velocity V i = velocity U i).
  { intros i Hi. unfold velocity. rewrite ED. unfold momentum. rewrite H by lia. field. split; [exact Hd|lra]. }
  assert (EE : vdot dim (velocity V) (velocity V) = vdot dim (velocity U) (velocity U)) by (apply vdot_ext; exact EV || (intros; now rewrite EV)).
  unfold max_speed, vlen, sound, pressure. rewrite EE, ED. f_equal. f_equal. unfold energy. rewrite H by lia. field. split; [exact Hd|lra].
Qed.

(** The projection of a uniform state is uniform up to a factor. *)
Lemma uniform_states s m bt S M vol u c : (forall e, (0 <= e < gm_num_elems m)%Z -> M e 0%Z 0%Z = vol e /\ 0 < vol e) -> untangled s 1 m ->
  dg_solution s m bt 0 S M (fun _ k => u k) [] c ->
  forall e, (0 <= e < gm_num_elems m)%Z -> exists r, 0 < r /\ forall k, (0 <= k < space_dim s + 2)%Z -> c e 0%Z k = r * u k.
Proof.
  intros HM Un (iM & c0 & _ & (nq & P & W & EQ & H) & Hc) e He. change (2 * Z.max 0 1)%Z with 2%Z in EQ. destruct (HM e He) as (ME & V).
  destruct (volume_rule s 2 ltac:(split; lia)) as (x & w & G & A). destruct (A zero2 zero1) as (P' & W' & EQ' & TR). change (2 + 2)%Z with 4%Z in *.
  set (np := (4 ^ space_dim s)%Z) in *. rewrite EQ in EQ'. injection EQ' as -> -> ->.
  exists (rsum np (fun q => W' q * jac_det s 1 (elem_nodes m e) (P' q)) / vol e). split.
  - apply Rdiv_lt_0_compat; [|exact V]. apply rsum_pos; [unfold np; destruct s; reflexivity|]. intros q Hq.
    destruct (rule_inside s 4 x w P' W' _ _ G ltac:(lia) TR q Hq) as (I1 & I2). apply Rmult_lt_0_compat; [exact I2|now apply Un].
  - intros k Hk. rewrite nfun0 in *. rewrite Hc by (auto; lia). cbn [dg_march fold_left]. specialize (H e 0%Z k He ltac:(lia) Hk). rewrite rsum_1, ME in H.
    apply (Rmult_eq_reg_l (vol e)); [|lra]. change (dg_march S m iM [] c0) with c0. rewrite H.
    rewrite (rsum_ext np _ (fun q => (W' q * jac_det s 1 (elem_nodes m e) (P' q)) * u k)) by (intros; rewrite basis0; ring). rewrite rsum_scal_r. field. lra.
Qed.

(** ** Quadrilaterals *)

Definition draft_input : input :=
  mkInput (Some 2%Z) (Some 0%Z) (Some "LagrangeQuad") None (Some "mesh.h5") false None None (Some "Uniform") (Some [1;5;0;20])
    (Some "Euler") None (Some 2) (Some 1) None (Some (ddiv (dint 1) (dint 2))) (Some (ddiv (dint 1) (dint 2))).
Definition draft_config : config :=
  mkConfig 2 LagrangeQuad 0 Uniform Euler LaxFriedrichs (Build_phys 2 1 (of_list [1;5;0;20])) ForwardEuler (ddiv (dint 1) (dint 2)) (ddiv (dint 1) (dint 2)).
Definition draft_inputs (name : string) : option input := if String.eqb name "case.toml" then Some draft_input else None.

Lemma draft_asks : asks_for draft_input draft_config.
Proof. constructor; try reflexivity; try (now left); try (now right). - exists [1;5;0;20]. auto. - intros _. split; now left. Qed.
Lemma draft_data : enough_data draft_input draft_config.
Proof. intros data E. injection E as <-. cbn [cf_ic draft_config cf_dim]. unfold zlen. cbn [List.length]. lia. Qed.
Lemma draft_admissible : admissible 2 2 (ph_IC (cf_phys draft_config)).
Proof. unfold admissible, pressure, density, energy, vdot, velocity, momentum, density. rewrite rsum_2. unfold density. cbv -[IZR Rplus Rmult Rminus Rdiv Rlt]. split; lra. Qed.

Lemma draft_reads : reads draft_inputs case_meshes ["solver"; "-input"; "case.toml"] draft_input demo_rmesh.
Proof.
  exists "case.toml", "mesh.h5", case_file. eexists. split; [reflexivity|]. split; [reflexivity|]. split; [reflexivity|]. split; [reflexivity|]. split; [exact case_wf|].
  split; [cbv -[IZR]; reflexivity|reflexivity].
Qed.

Lemma draft_speed : max_speed 2 2 (ph_IC (cf_phys draft_config)) < 89 / 10.
Proof.
  unfold max_speed, vlen, sound, pressure, density, energy, vdot, velocity, momentum, density. rewrite rsum_2. unfold density.
  cbv -[IZR Rplus Rmult Rminus Rdiv Rlt sqrt]. 
  apply Rlt_le_trans with (501 / 100 + 388 / 100); [|lra]. apply Rplus_lt_compat; apply sqrt_below; lra.
Qed.

Lemma draft_lengths : edge_length demo_rmesh 0 < 906 / 100 /\ edge_length demo_rmesh 1 < 1105 / 100 /\ edge_length demo_rmesh 2 < 1105 / 100 /\ edge_length demo_rmesh 3 < 906 / 100.
Proof. repeat split; unfold edge_length; cbv -[IZR Rplus Rmult Rminus Rdiv Rlt sqrt pow]; (apply sqrt_below; [lra|]; cbn [pow]; lra). Qed.
Lemma draft_lengths_pos f : 0 <= edge_length demo_rmesh f.
Proof. apply sqrt_pos. Qed.
Lemma draft_areas : quad_area demo_rmesh 0 = 100 /\ quad_area demo_rmesh 1 = 90 /\ quad_area demo_rmesh 2 = 110 /\ quad_area demo_rmesh 3 = 100.
Proof. repeat split; unfold quad_area, cross2; cbv -[IZR Rplus Rmult Rminus Rdiv Rlt]; lra. Qed.

Lemma draft_cfl k c : (k < 1)%nat -> quad_solution demo_rmesh LagrangeQuad 0 2 LaxFriedrichs (fun _ k => ph_IC (cf_phys draft_config) k) (repeat (ForwardEuler, B2R (ddiv (dint 1) (dint 2))) k) c ->
  cfl 2 2 demo_rmesh (quad_area demo_rmesh) (edge_length demo_rmesh) (B2R (ddiv (dint 1) (dint 2))) c.
Proof.
  intros Hk (nq & P & W & fp & fw & nq2 & P2 & W2 & EQ & EF & EQ2 & H). replace k with O in H by lia. cbn [repeat] in H.
  destruct draft_areas as (A0 & A1 & A2 & A3). destruct draft_lengths as (L0 & L1 & L2 & L3). pose proof draft_lengths_pos as LP. pose proof draft_speed as SP.
  assert (AR : forall e, (0 <= e < gm_num_elems demo_rmesh)%Z -> PropDG.mass_matrix LagrangeQuad 0 demo_rmesh nq2 P2 W2 e 0%Z 0%Z = quad_area demo_rmesh e /\ 0 < quad_area demo_rmesh e).
  { intros e He. split.
    - rewrite <- (shoelace demo_rmesh e nq2 P2 W2 EQ2). unfold PropDG.mass_matrix. apply rsum_ext. intros q Hq. rewrite !basis0. ring.
    - change (gm_num_elems demo_rmesh) with 4%Z in He. four e; lra. }
  destruct demo_straight as (SQ & _).
  pose proof (uniform_states EQuad demo_rmesh LagrangeQuad _ _ (quad_area demo_rmesh) (ph_IC (cf_phys draft_config)) c AR (convex_untangled _ SQ) H) as U. clear AR H EQ EF EQ2.
  assert (FS : forall f, (0 <= f < 4)%Z -> face_speed 2 2 demo_rmesh c f = max_speed 2 2 (ph_IC (cf_phys draft_config))).
  { intros f Hf. assert (E : forall sd, max_speed 2 2 (c (side_elem demo_rmesh f sd) 0%Z) = max_speed 2 2 (ph_IC (cf_phys draft_config))).
    { intros sd. destruct (U (side_elem demo_rmesh f sd)) as (r & Hr & R); [four f; destruct sd; vm_compute; split; congruence|]. cbn [space_dim] in R.
      apply (speed_scale 2 2 r); [now left|exact Hr| |exact R]. cbv -[IZR]. lra. }
    unfold face_speed. rewrite !E. apply Rmax_left. lra. }
  set (lam := max_speed 2 2 (ph_IC (cf_phys draft_config))) in *. clearbody lam. intros e He. change (gm_num_elems demo_rmesh) with 4%Z in He.
  rewrite (proj1 fraction). unfold around. change (gm_nIF demo_rmesh) with 4%Z. rewrite rsum_4, !FS by lia. pose proof (LP 0%Z). pose proof (LP 1%Z). pose proof (LP 2%Z). pose proof (LP 3%Z).
  assert (B : forall l b, 0 <= l -> l < b -> l * lam <= b * (89 / 10)).
  { intros l b H3 H4. destruct (Rle_or_lt 0 lam); [apply Rmult_le_compat; lra|]. apply Rle_trans with 0; nra. }
  pose proof (B _ _ (LP 0%Z) L0). pose proof (B _ _ (LP 1%Z) L1). pose proof (B _ _ (LP 2%Z) L2). pose proof (B _ _ (LP 3%Z) L3).
  four e; [rewrite A0|rewrite A1|rewrite A2|rewrite A3];
  repeat match goal with |- context [side_elem demo_rmesh ?f ?sd] => let v := eval vm_compute in (side_elem demo_rmesh f sd) in change (side_elem demo_rmesh f sd) with v end; cbn [Z.eqb Pos.eqb]; lra.
Qed.

(** The program on one or two ranks: it completes, and the states it writes are
    physical and have the totals of the initial state. *)
Example C96_demo : forall n, (n = 1 \/ n = 2)%Z -> exists c0 c,
  quad_solution demo_rmesh LagrangeQuad 0 2 LaxFriedrichs (fun _ k => ph_IC (cf_phys draft_config) k) [] c0 /\
  program draft_inputs case_meshes ["solver"; "-input"; "case.toml"] case_metis n (Ok (solution_file demo_rmesh 1 4 (INR 1 * B2R (ddiv (dint 1) (dint 2))) c)) /\
  sound_result 2 2 demo_rmesh (quad_area demo_rmesh) c0 c.
Proof.
  intros n Hn. pose proof (proj1 (proj2 (proj2 (proj2 (proj2 (proj2 (proj2 (proj2 (proj2 (proj2 (proj2 C84_demo))))))))))) as GQ.
  assert (MV : metis_valid case_metis demo_rmesh n).
  { intros ep N2 E. destruct Hn as [-> | ->]; [lia|]. injection E as <-. split; [reflexivity|]. repeat constructor; lia. }
  destruct (C96_program_quads draft_inputs case_meshes ["solver"; "-input"; "case.toml"] case_metis n draft_input demo_rmesh draft_config 1 (fun _ k => ph_IC (cf_phys draft_config) k)
      (if (n =? 2)%Z then [0; 1; 0; 1]%Z else [0; 0; 0; 0]%Z) ltac:(lia) draft_reads draft_asks draft_data eq_refl eq_refl ltac:(intros q Q; discriminate Q) ltac:(now left) MV
      (case_intended n Hn) (case_enough n Hn) ltac:(reflexivity) eq_refl eq_refl eq_refl GQ ltac:(now left) ltac:(cbn; lra) ltac:(cbn [cf_dt draft_config]; rewrite (proj1 fraction); lra)
      ltac:(apply uniform_starts; cbn; lia) ltac:(split; reflexivity) ltac:(intros e y _ _; exact draft_admissible) draft_cfl) as (g & PG & c0 & S0 & R).
  destruct (R g PG) as (c & -> & SR). exists c0, c. split; [exact S0|]. split; [exact PG|exact SR].
Qed.
Print Assumptions C96_demo.

(** ** Hexahedra *)

Definition current_input : input :=
  mkInput (Some 3%Z) (Some 0%Z) (Some "LagrangeHex") None (Some "mesh.h5") false None None (Some "Uniform") (Some [1;3;0;0;10])
    (Some "Euler") None (Some 2) (Some 1) None (Some (ddiv (dint 1) (dint 16))) (Some (ddiv (dint 1) (dint 16))).
Definition current_config : config :=
  mkConfig 3 LagrangeHex 0 Uniform Euler LaxFriedrichs (Build_phys 2 1 (of_list [1;3;0;0;10])) ForwardEuler (ddiv (dint 1) (dint 16)) (ddiv (dint 1) (dint 16)).
Definition current_inputs (name : string) : option input := if String.eqb name "case.toml" then Some current_input else None.

Lemma current_asks : asks_for current_input current_config.
Proof. constructor; try reflexivity; try (now left); try (now right). - exists [1;3;0;0;10]. auto. - intros _. split; now left. Qed.
Lemma current_data : enough_data current_input current_config.
Proof. intros data E. injection E as <-. cbn [cf_ic current_config cf_dim]. unfold zlen. cbn [List.length]. lia. Qed.
Lemma current_admissible : admissible 3 2 (ph_IC (cf_phys current_config)).
Proof. unfold admissible, pressure, density, energy, vdot, velocity, momentum, density. rewrite rsum_3. unfold density. cbv -[IZR Rplus Rmult Rminus Rdiv Rlt]. split; lra. Qed.

Lemma current_reads : reads current_inputs cube_meshes ["solver"; "-input"; "case.toml"] current_input four_cubes.
Proof.
  exists "case.toml", "mesh.h5", cube_file. eexists. split; [reflexivity|]. split; [reflexivity|]. split; [reflexivity|]. split; [reflexivity|]. split; [exact cube_wf|].
  split; [cbv -[IZR]; reflexivity|reflexivity].
Qed.

Lemma current_speed : max_speed 3 2 (ph_IC (cf_phys current_config)) < 64 / 10.
Proof.
  unfold max_speed, vlen, sound, pressure, density, energy, vdot, velocity, momentum, density. rewrite rsum_3. unfold density.
  cbv -[IZR Rplus Rmult Rminus Rdiv Rlt sqrt].
  apply Rlt_le_trans with (301 / 100 + 332 / 100); [|lra]. apply Rplus_lt_compat; apply sqrt_below; lra.
Qed.

Lemma current_volume e : (0 <= e < 4)%Z -> gauss_volume four_cubes e = 1.
Proof.
  intros He. rewrite (gauss_volume_exact four_cubes e (/ 8)); [lra|]. intros y Hy.
  assert (J : forall j d, (0 <= j < 3)%Z -> (0 <= d < 3)%Z -> jacobian EHex 1 (elem_nodes four_cubes e) y j d = if (j =? d)%Z then / 2 else 0).
  { intros j d Hj Hd. unfold jacobian. rewrite (Derive_ext _ (fun t => cube_map e (with_coord y d t 0) (with_coord y d t 1) (with_coord y d t 2) j)) by (intros t; now apply cube_place).
    unfold cube_map, with_coord. apply is_derive_unique.
    assert (Cj : (j = 0 \/ j = 1 \/ j = 2)%Z) by lia. assert (Cd : (d = 0 \/ d = 1 \/ d = 2)%Z) by lia.
    destruct Cj as [-> | [-> | ->]], Cd as [-> | [-> | ->]]; unfold PropShape.vec3; cbn [Z.eqb Pos.eqb]; auto_derive; auto; field. }
  unfold jac_det, small_det. cbn [space_dim Z.eqb Pos.eqb]. unfold det3, minor2. rewrite !J by lia. cbn [Z.eqb Pos.eqb]. lra.
Qed.

Lemma current_areas f : (0 <= f < 4)%Z -> parallelogram_area four_cubes f = 1.
Proof.
  intros Hf. unfold parallelogram_area. set (e := side_elem four_cubes f false). set (k := side_face four_cubes f false).
  assert (K : (0 <= e < 4)%Z /\ (k = 2 \/ k = 3)%Z) by (unfold e, k; four f; vm_compute; intuition congruence). destruct K as (He & K). clearbody e k. cbv zeta.
  unfold vlen, vdot. rewrite rsum_3. unfold vprod. cbn [Z.eqb Pos.eqb]. rewrite !cube_face by (assumption || lia).
  destruct K as [-> | ->]; unfold cube_map, hex_face, PropShape.vec3; cbn [Z.eqb Pos.eqb]; (match goal with |- sqrt ?x = _ => replace x with 1 by lra end; apply sqrt_1).
Qed.

Lemma current_cfl k c : (k < 1)%nat -> hex_solution four_cubes LagrangeHex 0 2 LaxFriedrichs (fun _ k => ph_IC (cf_phys current_config) k) (repeat (ForwardEuler, B2R (ddiv (dint 1) (dint 16))) k) c ->
  cfl 3 2 four_cubes (gauss_volume four_cubes) (parallelogram_area four_cubes) (B2R (ddiv (dint 1) (dint 16))) c.
Proof.
  intros Hk (nq & P & W & fp & fw & nq2 & P2 & W2 & EQ & EF & EQ2 & H). replace k with O in H by lia. cbn [repeat] in H. pose proof current_speed as SP.
  assert (AR : forall e, (0 <= e < gm_num_elems four_cubes)%Z -> mass_matrix3 LagrangeHex 0 four_cubes nq2 P2 W2 e 0%Z 0%Z = gauss_volume four_cubes e /\ 0 < gauss_volume four_cubes e).
  { intros e He. split.
    - rewrite <- (eight four_cubes e nq2 P2 W2 EQ2). unfold mass_matrix3. apply rsum_ext. intros q Hq. rewrite !basis0. ring.
    - rewrite current_volume by exact He. lra. }
  pose proof (uniform_states EHex four_cubes LagrangeHex _ _ (gauss_volume four_cubes) (ph_IC (cf_phys current_config)) c AR cube_untangled H) as U. clear AR H EQ EF EQ2.
  assert (FS : forall f, (0 <= f < 4)%Z -> face_speed 3 2 four_cubes c f = max_speed 3 2 (ph_IC (cf_phys current_config))).
  { intros f Hf. assert (E : forall sd, max_speed 3 2 (c (side_elem four_cubes f sd) 0%Z) = max_speed 3 2 (ph_IC (cf_phys current_config))).
    { intros sd. destruct (U (side_elem four_cubes f sd)) as (r & Hr & R); [four f; destruct sd; vm_compute; split; congruence|]. cbn [space_dim] in R.
      apply (speed_scale 3 2 r); [now right|exact Hr| |exact R]. cbv -[IZR]. lra. }
    unfold face_speed. rewrite !E. apply Rmax_left. lra. }
  set (lam := max_speed 3 2 (ph_IC (cf_phys current_config))) in *. clearbody lam. intros e He. change (gm_num_elems four_cubes) with 4%Z in He.
  rewrite (proj2 fraction), current_volume by exact He. unfold around. change (gm_nIF four_cubes) with 4%Z. rewrite rsum_4, !FS, !current_areas by lia.
  four e;
  repeat match goal with |- context [side_elem four_cubes ?f ?sd] => let v := eval vm_compute in (side_elem four_cubes f sd) in change (side_elem four_cubes f sd) with v end; cbn [Z.eqb Pos.eqb]; lra.
Qed.

Example C96_hexahedra_demo : forall n, (n = 1 \/ n = 2)%Z -> exists c0 c,
  hex_solution four_cubes LagrangeHex 0 2 LaxFriedrichs (fun _ k => ph_IC (cf_phys current_config) k) [] c0 /\
  program current_inputs cube_meshes ["solver"; "-input"; "case.toml"] case_metis n (Ok (solution_file four_cubes 1 5 (INR 1 * B2R (ddiv (dint 1) (dint 16))) c)) /\
  sound_result 3 2 four_cubes (gauss_volume four_cubes) c0 c.
Proof.
  intros n Hn. pose proof cube_good as GQ.
  assert (MV : metis_valid case_metis four_cubes n).
  { intros ep N2 E. destruct Hn as [-> | ->]; [lia|]. injection E as <-. split; [reflexivity|]. repeat constructor; lia. }
  destruct (C96_program_hexahedra current_inputs cube_meshes ["solver"; "-input"; "case.toml"] case_metis n current_input four_cubes current_config 1 (fun _ k => ph_IC (cf_phys current_config) k)
      (if (n =? 2)%Z then [0; 1; 0; 1]%Z else [0; 0; 0; 0]%Z) ltac:(lia) current_reads current_asks current_data eq_refl eq_refl ltac:(intros q Q; discriminate Q) ltac:(now left) MV
      (cube_intended n Hn) (cube_enough n Hn) ltac:(reflexivity) eq_refl eq_refl eq_refl GQ ltac:(now left) ltac:(cbn; lra) ltac:(cbn [cf_dt current_config]; rewrite (proj2 fraction); lra)
      ltac:(apply uniform_starts; cbn; lia) ltac:(split; reflexivity) ltac:(intros e y _ _; exact current_admissible) current_cfl) as (g & PG & c0 & S0 & R).
  destruct (R g PG) as (c & -> & SR). exists c0, c. split; [exact S0|]. split; [exact PG|exact SR].
Qed.
Print Assumptions C96_hexahedra_demo.
