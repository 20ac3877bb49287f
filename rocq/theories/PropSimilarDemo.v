(** PropSimilarDemo.v -- C95 on concrete cases: the four quadrilaterals of C71 turned,
    moved and ten times as large, and four cubes turned about the diagonal, moved
    and twice as large; a gas in uniform motion. *)
From Coq Require Import ZArith List Lia Reals Lra String Bool Permutation.
From Flocq Require Import BinarySingleNaN.
From Verif Require Import Base RBase MeshModel MeshSpec MeshProof PropMesh IOModel PropIO PropOutput.
From Verif Require Import ReadModel PropRead PropCtor UtilModel TimeModel ProgramModel PropProgram.
From Verif Require Import LinAlgModel PropLinAlg BasisModel ShapeModel PropShape SolverModel SolverSpec SolverMesh SolverFlux PhysModel PhysSpec PhysProof PropPhys PropBasis PropSolver PropNormals StepModel PropIntegral PropStep SetupModel SetupSpec SetupProof SetupFaces PropSetup PropMeshRun PropInit PropPost PropResidual DGSpec DGProof PropDG PropHex PropFree PropHexFree PropTime PropWhole PropTotal PropHexCase PropEnd PropRenumber PropSimilar PropSimilarG.
Import ListNotations.
Local Open Scope string_scope.
Local Open Scope Z_scope.
Local Open Scope R_scope.
Open Scope res_scope.

(** Uniform states that are one state in two systems of units and axes. *)
Lemma uniform_similar dim a b Q l x0 v v' : (forall k, (0 <= k < dim + 2)%Z -> v' k = restated dim a b Q v k) ->
  initial_similar dim a b Q l x0 (fun _ k => v k) (fun _ k => v' k).
Proof. intros H x x' k _ Hk. now apply H. Qed.

Lemma half_one : B2R (dint 1) = 2 * B2R (ddiv (dint 1) (dint 2)).
Proof.
  rewrite <- !SF2R_B2SF.
  replace (B2SF (dint 1)) with (SpecFloat.S754_finite false 4503599627370496 (-52)) by (vm_compute; reflexivity).
  replace (B2SF (ddiv (dint 1) (dint 2))) with (SpecFloat.S754_finite false 4503599627370496 (-53)) by (vm_compute; reflexivity).
  unfold SF2R, Defs.F2R. cbn. lra.
Qed.

Definition of_list (l : list R) (k : Z) : R := match rd l k with Ok v => v | Fail _ => 0 end.

(** ** Quadrilaterals *)

Definition wind_input : input :=
  mkInput (Some 2%Z) (Some 2%Z) (Some "LagrangeQuad") None (Some "mesh.h5") false None None (Some "Uniform") (Some [1;5;0;20])
    (Some "Euler") (Some "HLLC") (Some 2) (Some 1) None (Some (ddiv (dint 1) (dint 2))) (Some (ddiv (dint 1) (dint 2))).
Definition wind_config : config :=
  mkConfig 2 LagrangeQuad 2 Uniform Euler HLLC (Build_phys 2 1 (of_list [1;5;0;20])) ForwardEuler (ddiv (dint 1) (dint 2)) (ddiv (dint 1) (dint 2)).
Definition wind_inputs (name : string) : option input := if String.eqb name "case.toml" then Some wind_input else None.

Lemma wind_asks : asks_for wind_input wind_config.
Proof. constructor; try reflexivity; try (now left); try (now right). - exists [1;5;0;20]. auto. - intros _. split; now left. Qed.
Lemma wind_data : enough_data wind_input wind_config.
Proof. intros data E. injection E as <-. cbn [cf_ic wind_config cf_dim]. unfold zlen. cbn [List.length]. lia. Qed.
Lemma wind_admissible : admissible 2 2 (ph_IC (cf_phys wind_config)).
Proof. unfold admissible, pressure, density, energy, vdot, velocity, momentum, density. rewrite rsum_2. unfold density. cbv -[IZR Rplus Rmult Rminus Rdiv Rlt]. split; lra. Qed.

Lemma wind_reads : reads wind_inputs case_meshes ["solver"; "-input"; "case.toml"] wind_input demo_rmesh.
Proof.
  exists "case.toml", "mesh.h5", case_file. eexists. split; [reflexivity|]. split; [reflexivity|]. split; [reflexivity|]. split; [reflexivity|]. split; [exact case_wf|].
  split; [cbv -[IZR]; reflexivity|reflexivity].
Qed.

Definition gale_input : input :=
  mkInput (Some 2%Z) (Some 2%Z) (Some "LagrangeQuad") None (Some "mesh.h5") false None None (Some "Uniform") (Some [2;30;40;1000])
    (Some "Euler") (Some "HLLC") (Some 2) (Some 1) None (Some (dint 1)) (Some (dint 1)).
Definition gale_config : config :=
  mkConfig 2 LagrangeQuad 2 Uniform Euler HLLC (Build_phys 2 1 (of_list [2;30;40;1000])) ForwardEuler (dint 1) (dint 1).
Definition gale_inputs (name : string) : option input := if String.eqb name "case.toml" then Some gale_input else None.

Lemma gale_asks : asks_for gale_input gale_config.
Proof. constructor; try reflexivity; try (now left); try (now right). - exists [2;30;40;1000]. auto. - intros _. split; now left. Qed.
Lemma gale_data : enough_data gale_input gale_config.
Proof. intros data E. injection E as <-. cbn [cf_ic gale_config cf_dim]. unfold zlen. cbn [List.length]. lia. Qed.
Lemma gale_admissible : admissible 2 2 (ph_IC (cf_phys gale_config)).
Proof. unfold admissible, pressure, density, energy, vdot, velocity, momentum, density. rewrite rsum_2. unfold density. cbv -[IZR Rplus Rmult Rminus Rdiv Rlt]. split; lra. Qed.

Definition tilted : gmesh R :=
  mkGMesh 2 4 9 4 4 (gm_eind demo_rmesh)
    [[100;0];[160;80];[220;160];[20;60];[94;142];[140;220];[(-60);120];[0;200];[60;280]] (gm_IF demo_rmesh).
Definition tilted_file : mesh_file R :=
  mkMeshFile 2 1 4 9 4 4 (Some 2%Z)
    [100;0;160;80;220;160;20;60;94;142;140;220;(-60);120;0;200;60;280]
    (gm_eind demo_rmesh) (List.concat (gm_IF demo_rmesh)) (fun _ => None).
Definition tilted_meshes (name : string) : option (mesh_file R) := if String.eqb name "mesh.h5" then Some tilted_file else None.

Lemma tilted_wf : mesh_file_wf [] tilted_file.
Proof.
  assert (RN : forall l k v (P : Z -> Prop), List.Forall P l -> rd l k = Ok v -> P v).
  { intros l k v P F E. rewrite Forall_forall in F. apply F. eapply rd_In; eassumption. }
  constructor; try (cbn -[IZR]; lia); try reflexivity.
  - change UINT_MAX with 4294967295%Z. cbn. lia.
  - change UINT_MAX with 4294967295%Z. cbn. lia.
  - change UINT_MAX with 4294967295%Z. cbn. lia.
  - change UINT_MAX with 4294967295%Z. cbn. lia.
  - intros k v. apply (RN _ k v (fun v => (0 <= v < 9)%Z)). cbn. repeat constructor; lia.
  - intros k v. apply (RN _ k v (fun v => (0 <= v)%Z)). cbn. repeat constructor; lia.
  - intros f s v Hf Hs. change (mf_niface tilted_file) with 4%Z in Hf.
    four f; destruct Hs as [-> | ->]; intros E; vm_compute in E; injection E as <-; reflexivity.
  - intros e He. change (mf_nelem tilted_file) with 4%Z in He. four e; vm_compute; discriminate.
  - intros e rows He F. inversion F; subst. cbn. lia.
Qed.

Lemma tilted_nodes x : (0 <= x < gm_num_nodes tilted)%Z -> in_some_element tilted x.
Proof. exact (case_nodes x). Qed.
Lemma tilted_sides f sd e k o : has_side tilted f sd e k o <-> has_side demo_rmesh f sd e k o.
Proof. reflexivity. Qed.
Lemma tilted_intended n : (n = 1 \/ n = 2)%Z -> intended case_metis n tilted (if (n =? 2)%Z then [0; 1; 0; 1]%Z else [0; 0; 0; 0]%Z).
Proof.
  intros [-> | ->]; [left|right].
  - split; [reflexivity|]. split; [reflexivity|]. intros e He. change (gm_num_elems tilted) with 4%Z in He. four e; reflexivity.
  - split; [lia|]. split; [reflexivity|]. split; [reflexivity|]. repeat constructor; lia.
Qed.

Lemma gale_reads : reads gale_inputs tilted_meshes ["solver"; "-input"; "case.toml"] gale_input tilted.
Proof.
  exists "case.toml", "mesh.h5", tilted_file. eexists. split; [reflexivity|]. split; [reflexivity|]. split; [reflexivity|]. split; [reflexivity|]. split; [exact tilted_wf|].
  split; [cbv -[IZR]; reflexivity|reflexivity].
Qed.

Definition tilted_turn : arr2 := fun i j => of_list (match i with 0%Z => [3/5; -4/5] | 1%Z => [4/5; 3/5] | _ => [0; 0] end) j.

Lemma tilted_rotation : rotation 2 tilted_turn.
Proof. split; [intros i j Hi Hj; rewrite rsum_2; assert (Ci : (i = 0 \/ i = 1)%Z) by lia; assert (Cj : (j = 0 \/ j = 1)%Z) by lia; destruct Ci as [-> | ->], Cj as [-> | ->]; cbv -[IZR Rplus Rmult Rdiv]; lra|]. cbv -[IZR Rplus Rmult Rminus Rdiv Ropp]. lra. Qed.

Lemma tilted_similar : similar EQuad demo_rmesh tilted tilted_turn 10 (of_list [100; 0]).
Proof.
  constructor; [reflexivity|reflexivity|intros; reflexivity|].
  intros e k d He Hk Hd. change (gm_num_elems demo_rmesh) with 4%Z in He. cbn [corners space_dim] in Hk, Hd. unfold turned. cbn [space_dim]. rewrite rsum_2.
    assert (Cd : (d = 0 \/ d = 1)%Z) by lia. four e; four k; destruct Cd as [-> | ->]; cbv -[IZR Rplus Rmult Rdiv]; lra.
Qed.

Lemma tilted_initial : initial_similar 2 2 5 tilted_turn 10 (of_list [100; 0]) (fun _ k => ph_IC (cf_phys wind_config) k) (fun _ k => ph_IC (cf_phys gale_config) k).
Proof.
  apply uniform_similar. intros k Hk. assert (C : (k = 0 \/ k = 1 \/ k = 2 \/ k = 3)%Z) by lia; destruct C as [-> | [-> | [-> | ->]]]; unfold restated, turned; rewrite ?rsum_2; cbv -[IZR Rplus Rmult Rdiv]; lra.
Qed.

(** The whole program on both input files, on one or two ranks each: it runs to
    completion, and the second file is the first in the other units and axes. *)
Example C95_demo : forall n n', (n = 1 \/ n = 2)%Z -> (n' = 1 \/ n' = 2)%Z -> exists c c',
  program wind_inputs case_meshes ["solver"; "-input"; "case.toml"] case_metis n (Ok (solution_file demo_rmesh 9 4 (INR 1 * B2R (ddiv (dint 1) (dint 2))) c)) /\
  program gale_inputs tilted_meshes ["solver"; "-input"; "case.toml"] case_metis n' (Ok (solution_file tilted 9 4 (10 / 5 * (INR 1 * B2R (ddiv (dint 1) (dint 2)))) c')) /\
  forall e j k, (0 <= e < 4)%Z -> (0 <= j < 9)%Z -> (0 <= k < 4)%Z -> c' e j k = restated 2 2 5 tilted_turn (c e j) k.
Proof.
  intros n n' Hn Hn'. pose proof (proj1 (proj2 (proj2 (proj2 (proj2 (proj2 (proj2 (proj2 (proj2 (proj2 (proj2 C84_demo))))))))))) as GQ.
  pose proof (C95_good_quads _ _ _ _ _ (reads_wf _ _ _ _ _ wind_reads) tilted_similar tilted_rotation ltac:(lra) GQ ltac:(split; reflexivity) tilted_nodes) as GT.
  assert (BF : basis_for EQuad LagrangeQuad) by now left. assert (SP : supported LagrangeQuad 2) by now left. assert (OP : order_ok 2) by (unfold order_ok; lia).
  assert (P1 : exists g, program wind_inputs case_meshes ["solver"; "-input"; "case.toml"] case_metis n g).
  { refine (C86_completes wind_inputs case_meshes ["solver"; "-input"; "case.toml"] case_metis n wind_input demo_rmesh wind_config 1 (fun _ k => ph_IC (cf_phys wind_config) k)
      (if (n =? 2)%Z then [0; 1; 0; 1]%Z else [0; 0; 0; 0]%Z) ltac:(lia) wind_reads wind_asks wind_data eq_refl ltac:(intros q Q; discriminate Q) ltac:(now left)
      (case_intended n Hn) (case_enough n Hn) ltac:(reflexivity) _ SP OP ltac:(cbn; lra) ltac:(apply uniform_starts; cbn; lia) ltac:(split; reflexivity)).
    left. split; [reflexivity|]. split; [exact GQ|]. split; [exact BF|]. apply uniform_quads; auto; [cbn; lia|exact wind_admissible]. }
  assert (P2 : exists g, program gale_inputs tilted_meshes ["solver"; "-input"; "case.toml"] case_metis n' g).
  { refine (C86_completes gale_inputs tilted_meshes ["solver"; "-input"; "case.toml"] case_metis n' gale_input tilted gale_config 1 (fun _ k => ph_IC (cf_phys gale_config) k)
      (if (n' =? 2)%Z then [0; 1; 0; 1]%Z else [0; 0; 0; 0]%Z) ltac:(lia) gale_reads gale_asks gale_data eq_refl ltac:(intros q Q; discriminate Q) ltac:(now left)
      (tilted_intended n' Hn') (case_enough n' Hn') ltac:(reflexivity) _ SP OP ltac:(cbn; lra) ltac:(apply uniform_starts; cbn; lia) ltac:(split; reflexivity)).
    left. split; [reflexivity|]. split; [exact GT|]. split; [exact BF|]. apply uniform_quads; auto; [cbn; lia|exact gale_admissible]. }
  destruct P1 as (g & P1), P2 as (g' & P2).
  assert (MV : forall m k, gm_num_elems m = 4%Z -> (k = 1 \/ k = 2)%Z -> metis_valid case_metis m k).
  { intros mm k NE Hk ep N2 E. destruct Hk as [-> | ->]; [lia|]. injection E as <-. split; [rewrite NE; reflexivity|]. repeat constructor; lia. }
  destruct (C95_program_quads wind_inputs case_meshes ["solver"; "-input"; "case.toml"] case_metis n wind_input demo_rmesh wind_config
      gale_inputs tilted_meshes ["solver"; "-input"; "case.toml"] case_metis n' gale_input tilted gale_config 1
      (fun _ k => ph_IC (cf_phys wind_config) k) (fun _ k => ph_IC (cf_phys gale_config) k) tilted_turn 10 (of_list [100; 0]) 2 5 g g'
      ltac:(lia) wind_reads wind_asks wind_data ltac:(now left) (MV demo_rmesh n eq_refl Hn)
      ltac:(lia) gale_reads gale_asks gale_data ltac:(now left) (MV tilted n' eq_refl Hn')
      eq_refl eq_refl ltac:(constructor; reflexivity) ltac:(reflexivity) ltac:(reflexivity) ltac:(cbn [cf_dt wind_config gale_config]; rewrite half_one; lra)
      GQ ltac:(split; reflexivity) tilted_nodes BF SP OP ltac:(cbn; lra) ltac:(apply uniform_starts; lia) ltac:(apply uniform_starts; lia) ltac:(split; reflexivity) ltac:(split; reflexivity)
      tilted_rotation ltac:(lra) ltac:(lra) ltac:(lra) tilted_similar tilted_initial P1 P2) as (c & c' & -> & -> & EC).
  exists c, c'. split; [exact P1|]. split; [exact P2|]. exact EC.
Qed.
Print Assumptions C95_demo.

(** ** Hexahedra *)

Definition breeze_input : input :=
  mkInput (Some 3%Z) (Some 1%Z) (Some "LagrangeHex") None (Some "mesh.h5") false None None (Some "Uniform") (Some [1;3;0;0;10])
    (Some "Euler") (Some "HLLC") (Some 2) (Some 1) None (Some (ddiv (dint 1) (dint 2))) (Some (ddiv (dint 1) (dint 2))).
Definition breeze_config : config :=
  mkConfig 3 LagrangeHex 1 Uniform Euler HLLC (Build_phys 2 1 (of_list [1;3;0;0;10])) ForwardEuler (ddiv (dint 1) (dint 2)) (ddiv (dint 1) (dint 2)).
Definition breeze_inputs (name : string) : option input := if String.eqb name "case.toml" then Some breeze_input else None.

Lemma breeze_asks : asks_for breeze_input breeze_config.
Proof. constructor; try reflexivity; try (now left); try (now right). - exists [1;3;0;0;10]. auto. - intros _. split; now left. Qed.
Lemma breeze_data : enough_data breeze_input breeze_config.
Proof. intros data E. injection E as <-. cbn [cf_ic breeze_config cf_dim]. unfold zlen. cbn [List.length]. lia. Qed.
Lemma breeze_admissible : admissible 3 2 (ph_IC (cf_phys breeze_config)).
Proof. unfold admissible, pressure, density, energy, vdot, velocity, momentum, density. rewrite rsum_3. unfold density. cbv -[IZR Rplus Rmult Rminus Rdiv Rlt]. split; lra. Qed.

Lemma breeze_reads : reads breeze_inputs cube_meshes ["solver"; "-input"; "case.toml"] breeze_input four_cubes.
Proof.
  exists "case.toml", "mesh.h5", cube_file. eexists. split; [reflexivity|]. split; [reflexivity|]. split; [reflexivity|]. split; [reflexivity|]. split; [exact cube_wf|].
  split; [cbv -[IZR]; reflexivity|reflexivity].
Qed.

Definition storm_input : input :=
  mkInput (Some 3%Z) (Some 1%Z) (Some "LagrangeHex") None (Some "mesh.h5") false None None (Some "Uniform") (Some [3;0;9;0;30])
    (Some "Euler") (Some "HLLC") (Some 2) (Some 1) None (Some (dint 1)) (Some (dint 1)).
Definition storm_config : config :=
  mkConfig 3 LagrangeHex 1 Uniform Euler HLLC (Build_phys 2 1 (of_list [3;0;9;0;30])) ForwardEuler (dint 1) (dint 1).
Definition storm_inputs (name : string) : option input := if String.eqb name "case.toml" then Some storm_input else None.

Lemma storm_asks : asks_for storm_input storm_config.
Proof. constructor; try reflexivity; try (now left); try (now right). - exists [3;0;9;0;30]. auto. - intros _. split; now left. Qed.
Lemma storm_data : enough_data storm_input storm_config.
Proof. intros data E. injection E as <-. cbn [cf_ic storm_config cf_dim]. unfold zlen. cbn [List.length]. lia. Qed.
Lemma storm_admissible : admissible 3 2 (ph_IC (cf_phys storm_config)).
Proof. unfold admissible, pressure, density, energy, vdot, velocity, momentum, density. rewrite rsum_3. unfold density. cbv -[IZR Rplus Rmult Rminus Rdiv Rlt]. split; lra. Qed.

Definition spun : gmesh R :=
  mkGMesh 3 4 18 4 8 (gm_eind four_cubes)
    [[1;2;3];[1;4;3];[1;6;3];[1;2;5];[1;4;5];[1;6;5];[1;2;7];[1;4;7];[1;6;7];[3;2;3];[3;4;3];[3;6;3];[3;2;5];[3;4;5];[3;6;5];[3;2;7];[3;4;7];[3;6;7]] (gm_IF four_cubes).
Definition spun_file : mesh_file R :=
  mkMeshFile 3 1 4 18 4 8 (Some 4%Z)
    [1;2;3;1;4;3;1;6;3;1;2;5;1;4;5;1;6;5;1;2;7;1;4;7;1;6;7;3;2;3;3;4;3;3;6;3;3;2;5;3;4;5;3;6;5;3;2;7;3;4;7;3;6;7]
    (gm_eind four_cubes) (List.concat (gm_IF four_cubes)) (fun _ => None).
Definition spun_meshes (name : string) : option (mesh_file R) := if String.eqb name "mesh.h5" then Some spun_file else None.

Lemma spun_wf : mesh_file_wf [] spun_file.
Proof.
  assert (RN : forall l k v (P : Z -> Prop), List.Forall P l -> rd l k = Ok v -> P v).
  { intros l k v P F E. rewrite Forall_forall in F. apply F. eapply rd_In; eassumption. }
  constructor; try (cbn -[IZR]; lia); try reflexivity.
  - change UINT_MAX with 4294967295%Z. cbn. lia.
  - change UINT_MAX with 4294967295%Z. cbn. lia.
  - change UINT_MAX with 4294967295%Z. cbn. lia.
  - change UINT_MAX with 4294967295%Z. cbn. lia.
  - intros k v. apply (RN _ k v (fun v => (0 <= v < 18)%Z)). cbn. repeat constructor; lia.
  - intros k v. apply (RN _ k v (fun v => (0 <= v)%Z)). cbn. repeat constructor; lia.
  - intros f s v Hf Hs. change (mf_niface spun_file) with 4%Z in Hf.
    four f; destruct Hs as [-> | ->]; intros E; vm_compute in E; injection E as <-; reflexivity.
  - intros e He. change (mf_nelem spun_file) with 4%Z in He. four e; vm_compute; discriminate.
  - intros e rows He F. inversion F; subst. cbn. lia.
Qed.

Lemma spun_nodes x : (0 <= x < gm_num_nodes spun)%Z -> in_some_element spun x.
Proof. exact (cube_nodes x). Qed.
Lemma spun_sides f sd e k o : has_side spun f sd e k o <-> has_side four_cubes f sd e k o.
Proof. reflexivity. Qed.
Lemma spun_intended n : (n = 1 \/ n = 2)%Z -> intended case_metis n spun (if (n =? 2)%Z then [0; 1; 0; 1]%Z else [0; 0; 0; 0]%Z).
Proof.
  intros [-> | ->]; [left|right].
  - split; [reflexivity|]. split; [reflexivity|]. intros e He. change (gm_num_elems spun) with 4%Z in He. four e; reflexivity.
  - split; [lia|]. split; [reflexivity|]. split; [reflexivity|]. repeat constructor; lia.
Qed.

Lemma storm_reads : reads storm_inputs spun_meshes ["solver"; "-input"; "case.toml"] storm_input spun.
Proof.
  exists "case.toml", "mesh.h5", spun_file. eexists. split; [reflexivity|]. split; [reflexivity|]. split; [reflexivity|]. split; [reflexivity|]. split; [exact spun_wf|].
  split; [cbv -[IZR]; reflexivity|reflexivity].
Qed.

Definition spun_turn : arr2 := fun i j => of_list (match i with 0%Z => [0; 0; 1] | 1%Z => [1; 0; 0] | _ => [0; 1; 0] end) j.

Lemma spun_rotation : rotation 3 spun_turn.
Proof. split; [intros i j Hi Hj; rewrite rsum_3; assert (Ci : (i = 0 \/ i = 1 \/ i = 2)%Z) by lia; assert (Cj : (j = 0 \/ j = 1 \/ j = 2)%Z) by lia; destruct Ci as [-> | [-> | ->]], Cj as [-> | [-> | ->]]; cbv -[IZR Rplus Rmult Rdiv]; lra|]. cbv -[IZR Rplus Rmult Rminus Rdiv Ropp]. lra. Qed.

Lemma spun_similar : similar EHex four_cubes spun spun_turn 2 (of_list [1; 2; 3]).
Proof.
  constructor; [reflexivity|reflexivity|intros; reflexivity|].
  intros e k d He Hk Hd. change (gm_num_elems four_cubes) with 4%Z in He. cbn [corners space_dim] in Hk, Hd. unfold turned. cbn [space_dim]. rewrite rsum_3.
    assert (Cd : (d = 0 \/ d = 1 \/ d = 2)%Z) by lia.
    assert (Ck : ((0 <= k < 4) \/ (0 <= k - 4 < 4))%Z) by lia. four e; (destruct Ck as [Ck|Ck]; [four k|remember (k - 4)%Z as k' eqn:Ek; assert (k = k' + 4)%Z as -> by lia; four k']); destruct Cd as [-> | [-> | ->]]; cbv -[IZR Rplus Rmult Rdiv]; lra.
Qed.

Lemma spun_initial : initial_similar 3 3 1 spun_turn 2 (of_list [1; 2; 3]) (fun _ k => ph_IC (cf_phys breeze_config) k) (fun _ k => ph_IC (cf_phys storm_config) k).
Proof.
  apply uniform_similar. intros k Hk. assert (C : (k = 0 \/ k = 1 \/ k = 2 \/ k = 3 \/ k = 4)%Z) by lia; destruct C as [-> | [-> | [-> | [-> | ->]]]]; unfold restated, turned; rewrite ?rsum_3; cbv -[IZR Rplus Rmult Rdiv]; lra.
Qed.

(** The whole program on both input files, on one or two ranks each: it runs to
    completion, and the second file is the first in the other units and axes. *)
Example C95_hexahedra_demo : forall n n', (n = 1 \/ n = 2)%Z -> (n' = 1 \/ n' = 2)%Z -> exists c c',
  program breeze_inputs cube_meshes ["solver"; "-input"; "case.toml"] case_metis n (Ok (solution_file four_cubes 8 5 (INR 1 * B2R (ddiv (dint 1) (dint 2))) c)) /\
  program storm_inputs spun_meshes ["solver"; "-input"; "case.toml"] case_metis n' (Ok (solution_file spun 8 5 (2 / 1 * (INR 1 * B2R (ddiv (dint 1) (dint 2)))) c')) /\
  forall e j k, (0 <= e < 4)%Z -> (0 <= j < 8)%Z -> (0 <= k < 5)%Z -> c' e j k = restated 3 3 1 spun_turn (c e j) k.
Proof.
  intros n n' Hn Hn'. pose proof cube_good as GQ.
  pose proof (C95_good_hexahedra _ _ _ _ _ (reads_wf _ _ _ _ _ breeze_reads) spun_similar spun_rotation ltac:(lra) GQ ltac:(split; reflexivity) spun_nodes) as GT.
  assert (BF : basis_for EHex LagrangeHex) by now left. assert (SP : supported LagrangeHex 1) by now left. assert (OP : order_ok 1) by (unfold order_ok; lia).
  assert (P1 : exists g, program breeze_inputs cube_meshes ["solver"; "-input"; "case.toml"] case_metis n g).
  { refine (C86_completes breeze_inputs cube_meshes ["solver"; "-input"; "case.toml"] case_metis n breeze_input four_cubes breeze_config 1 (fun _ k => ph_IC (cf_phys breeze_config) k)
      (if (n =? 2)%Z then [0; 1; 0; 1]%Z else [0; 0; 0; 0]%Z) ltac:(lia) breeze_reads breeze_asks breeze_data eq_refl ltac:(intros q Q; discriminate Q) ltac:(now left)
      (cube_intended n Hn) (cube_enough n Hn) ltac:(reflexivity) _ SP OP ltac:(cbn; lra) ltac:(apply uniform_starts; cbn; lia) ltac:(split; reflexivity)).
    right. split; [reflexivity|]. split; [exact GQ|]. split; [exact BF|]. apply uniform_hexes; auto; [cbn; lia|exact breeze_admissible]. }
  assert (P2 : exists g, program storm_inputs spun_meshes ["solver"; "-input"; "case.toml"] case_metis n' g).
  { refine (C86_completes storm_inputs spun_meshes ["solver"; "-input"; "case.toml"] case_metis n' storm_input spun storm_config 1 (fun _ k => ph_IC (cf_phys storm_config) k)
      (if (n' =? 2)%Z then [0; 1; 0; 1]%Z else [0; 0; 0; 0]%Z) ltac:(lia) storm_reads storm_asks storm_data eq_refl ltac:(intros q Q; discriminate Q) ltac:(now left)
      (spun_intended n' Hn') (cube_enough n' Hn') ltac:(reflexivity) _ SP OP ltac:(cbn; lra) ltac:(apply uniform_starts; cbn; lia) ltac:(split; reflexivity)).
    right. split; [reflexivity|]. split; [exact GT|]. split; [exact BF|]. apply uniform_hexes; auto; [cbn; lia|exact storm_admissible]. }
  destruct P1 as (g & P1), P2 as (g' & P2).
  assert (MV : forall m k, gm_num_elems m = 4%Z -> (k = 1 \/ k = 2)%Z -> metis_valid case_metis m k).
  { intros mm k NE Hk ep N2 E. destruct Hk as [-> | ->]; [lia|]. injection E as <-. split; [rewrite NE; reflexivity|]. repeat constructor; lia. }
  destruct (C95_program_hexahedra breeze_inputs cube_meshes ["solver"; "-input"; "case.toml"] case_metis n breeze_input four_cubes breeze_config
      storm_inputs spun_meshes ["solver"; "-input"; "case.toml"] case_metis n' storm_input spun storm_config 1
      (fun _ k => ph_IC (cf_phys breeze_config) k) (fun _ k => ph_IC (cf_phys storm_config) k) spun_turn 2 (of_list [1; 2; 3]) 3 1 g g'
      ltac:(lia) breeze_reads breeze_asks breeze_data ltac:(now left) (MV four_cubes n eq_refl Hn)
      ltac:(lia) storm_reads storm_asks storm_data ltac:(now left) (MV spun n' eq_refl Hn')
      eq_refl eq_refl ltac:(constructor; reflexivity) ltac:(reflexivity) ltac:(reflexivity) ltac:(cbn [cf_dt breeze_config storm_config]; rewrite half_one; lra)
      GQ ltac:(split; reflexivity) spun_nodes BF SP OP ltac:(cbn; lra) ltac:(apply uniform_starts; lia) ltac:(apply uniform_starts; lia) ltac:(split; reflexivity) ltac:(split; reflexivity)
      spun_rotation ltac:(lra) ltac:(lra) ltac:(lra) spun_similar spun_initial P1 P2) as (c & c' & -> & -> & EC).
  exists c, c'. split; [exact P1|]. split; [exact P2|]. exact EC.
Qed.
Print Assumptions C95_hexahedra_demo.
