(** PropListingHexDemo.v -- C107 on the four cubes: counted backwards, with all sides of
    faces exchanged and three of the cubes listed after turns. *)
From Coq Require Import ZArith List Lia Reals Lra String Bool Permutation.
From Flocq Require Import BinarySingleNaN.
From Verif Require Import Base RBase MeshModel MeshSpec MeshProof PropMesh IOModel PropIO PropOutput.
From Verif Require Import ReadModel PropRead PropCtor UtilModel TimeModel ProgramModel PropProgram.
From Verif Require Import LinAlgModel PropLinAlg BasisModel ShapeModel PropShape SolverModel SolverSpec SolverMesh SolverFlux PhysModel PhysSpec PhysProof PropPhys PropBasis PropSolver PropNormals StepModel PropIntegral PropStep SetupModel SetupSpec SetupProof SetupFaces PropSetup PropMeshRun PropInit PropPost PropResidual DGSpec DGProof PropDG PropHex PropFree PropHexFree PropTime PropWhole PropTotal PropHexCase PropRenumber PropRenumberDemo PropCorner PropCornerHex PropCornerHexDemo PropListing PropListingHex.
Import ListNotations.
Local Open Scope string_scope.
Local Open Scope Z_scope.
Local Open Scope R_scope.
Open Scope res_scope.

Definition listed_cubes : gmesh R :=
  mkGMesh 3 4 18 4 8
    [10;13;9;12;1;4;0;3; 14;5;13;4;11;2;10;1; 16;15;13;12;7;6;4;3; 8;5;7;4;17;14;16;13]%Z
    [[2;2;1];[1;2;1];[0;2;1];[2;1;1];[1;1;1];[0;1;1];[2;0;1];[1;0;1];[0;0;1];[2;2;0];[1;2;0];[0;2;0];[2;1;0];[1;1;0];[0;1;0];[2;0;0];[1;0;0];[0;0;0]]
    [[0;2;5;2;3;0]; [1;0;5;3;2;2]; [0;1;5;1;3;1]; [2;4;5;3;3;2]]%Z.
Definition listed_cubes_file : mesh_file R :=
  mkMeshFile 3 1 4 18 4 8 (Some 4%Z)
    [2;2;1; 1;2;1; 0;2;1; 2;1;1; 1;1;1; 0;1;1; 2;0;1; 1;0;1; 0;0;1; 2;2;0; 1;2;0; 0;2;0; 2;1;0; 1;1;0; 0;1;0; 2;0;0; 1;0;0; 0;0;0]
    (gm_eind listed_cubes) (List.concat (gm_IF listed_cubes)) (fun _ => None).
Definition listed_cubes_meshes (name : string) : option (mesh_file R) := if String.eqb name "mesh.h5" then Some listed_cubes_file else None.

Lemma listed_cubes_wf : mesh_file_wf [] listed_cubes_file.
Proof.
  assert (RN : forall l k v (P : Z -> Prop), List.Forall P l -> rd l k = Ok v -> P v).
  { intros l k v P F E. rewrite Forall_forall in F. apply F. eapply rd_In; eassumption. }
  constructor; try (cbn -[IZR]; lia); try reflexivity.
  - change UINT_MAX with 4294967295%Z. cbn. lia.
  - change UINT_MAX with 4294967295%Z. cbn. lia.
  - change UINT_MAX with 4294967295%Z. cbn. lia.
  - change UINT_MAX with 4294967295%Z. cbn. lia.
  - intros k v. apply (RN _ k v (fun v => (0 <= v < 18)%Z)). cbn. repeat constructor; lia.
  - intros k v. apply (RN _ k v (fun v => (0 <= v)%Z)). cbn. repeat constructor; lia.
  - intros f s v Hf Hs. change (mf_niface listed_cubes_file) with 4%Z in Hf.
    four f; destruct Hs as [-> | ->]; intros E; vm_compute in E; injection E as <-; reflexivity.
  - intros e He. change (mf_nelem listed_cubes_file) with 4%Z in He. four e; vm_compute; discriminate.
  - intros e rows He F. inversion F; subst. cbn. lia.
Qed.

Lemma listed_cubes_reads : reads cube_inputs listed_cubes_meshes ["solver"; "-input"; "case.toml"] cube_input listed_cubes.
Proof.
  exists "case.toml", "mesh.h5", listed_cubes_file. eexists. split; [reflexivity|]. split; [reflexivity|]. split; [reflexivity|]. split; [reflexivity|]. split; [exact listed_cubes_wf|].
  split; [cbv -[IZR]; reflexivity|reflexivity].
Qed.

Lemma listed_cubes_nodes x : (0 <= x < gm_num_nodes listed_cubes)%Z -> in_some_element listed_cubes x.
Proof.
  intros Hx. change (gm_num_nodes listed_cubes) with 18%Z in Hx.
  assert (K : forall e j, (0 <= e < 4)%Z -> (0 <= j < 8)%Z -> rd (gm_eind listed_cubes) (e * 8 + j) = Ok x -> in_some_element listed_cubes x) by (intros e j He Hj E; exists e, j; auto).
  assert (C : (x = 0 \/ x = 1 \/ x = 2 \/ x = 3 \/ x = 4 \/ x = 5 \/ x = 6 \/ x = 7 \/ x = 8 \/ x = 9 \/ x = 10 \/ x = 11 \/ x = 12 \/ x = 13 \/ x = 14 \/ x = 15 \/ x = 16 \/ x = 17)%Z) by lia.
  destruct C as [->|[->|[->|[->|[->|[->|[->|[->|[->|[->|[->|[->|[->|[->|[->|[->|[->| ->]]]]]]]]]]]]]]]]];
  [apply (K 0 6)%Z|apply (K 0 4)%Z|apply (K 1 5)%Z|apply (K 0 7)%Z|apply (K 0 5)%Z|apply (K 1 1)%Z|apply (K 2 5)%Z|apply (K 2 4)%Z|apply (K 3 0)%Z|apply (K 0 2)%Z|apply (K 0 0)%Z|apply (K 1 4)%Z|apply (K 0 3)%Z|apply (K 0 1)%Z|apply (K 1 0)%Z|apply (K 2 1)%Z|apply (K 2 0)%Z|apply (K 3 4)%Z]; reflexivity || lia.
Qed.

Lemma cubes_written : written_again3 four_cubes listed_cubes backward backward (fun _ => true) cube_turns.
Proof.
  constructor; [reflexivity|reflexivity|exact backward_perm|exact backward_perm| |].
  - intros e i i' d He Hi Hi' Hd H. change (gm_num_elems four_cubes) with 4%Z in He.
    assert (E : fn_spins LagrangeHex 1 (cube_turns (backward e)) i' = i).
    { apply corner_inj; [apply (spins_range LagrangeHex 1 ltac:(lia)); exact Hi'|exact Hi|]. apply (spins_inj (cube_turns (backward e))). intros d' Hd'. rewrite corner_spins by assumption. now apply H. }
    rewrite <- E. clear E H Hi i. assert (Cd : (d = 0 \/ d = 1 \/ d = 2)%Z) by lia.
    assert (C : (i' = 0 \/ i' = 1 \/ i' = 2 \/ i' = 3 \/ i' = 4 \/ i' = 5 \/ i' = 6 \/ i' = 7)%Z) by lia.
    four e; destruct C as [-> | [-> | [-> | [-> | [-> | [-> | [-> | ->]]]]]]], Cd as [-> | [-> | ->]]; reflexivity.
  - intros f sd e k o H. apply cube_sides in H. destruct H as (Hf & _ & H).
    assert (T0 : cube_turns (backward 0) = [true; true; false]) by reflexivity. assert (T1 : cube_turns (backward 1) = []) by reflexivity.
    assert (T2 : cube_turns (backward 2) = [true; false]) by reflexivity. assert (T3 : cube_turns (backward 3) = [false]) by reflexivity.
    four f; destruct sd; injection H as -> -> ->;
    [exists 4%Z, 5%Z, 0%Z|exists 3%Z, 2%Z, 2%Z|exists 1%Z, 5%Z, 0%Z|exists 3%Z, 1%Z, 1%Z|exists 0%Z, 5%Z, 0%Z|exists 2%Z, 2%Z, 2%Z|exists 2%Z, 5%Z, 0%Z|exists 3%Z, 0%Z, 0%Z];
    (split; [repeat split; reflexivity|]); (split; [lia|]); (split; [lia|]); (split; [lia|]); split; intros s t;
    try (turned_pairs; f_equal; ring);
    intros d Hd; assert (Cd : (d = 0 \/ d = 1 \/ d = 2)%Z) by lia; rewrite ?T0, ?T1, ?T2, ?T3; turned_pairs; destruct Cd as [-> | [-> | ->]]; unfold hex_face, vec3; cbn [Z.eqb Pos.eqb spins]; unfold spin; cbn [Z.eqb Pos.eqb]; ring.
Qed.

(** The whole program, on the two mesh files, on two ranks and on one: it runs to
    completion, and at the same point of space the two files hold the same solution. *)
Example C107_hexahedra_demo : exists c c',
  program cube_inputs cube_meshes ["solver"; "-input"; "case.toml"] case_metis 2 (Ok (solution_file four_cubes 8 5 (INR 1 * B2R (cf_dt cube_config)) c)) /\
  program cube_inputs listed_cubes_meshes ["solver"; "-input"; "case.toml"] case_metis 1 (Ok (solution_file listed_cubes 8 5 (INR 1 * B2R (cf_dt cube_config)) c')) /\
  forall e y, (0 <= e < 4)%Z ->
    (forall d, (0 <= d < 3)%Z -> place EHex 1 (elem_nodes listed_cubes (3 - e)) (spins (cube_turns (3 - e)) y) d = place EHex 1 (elem_nodes four_cubes e) y d) /\
    forall k, (0 <= k < 5)%Z -> value (cf_basis cube_config) (cf_order cube_config) c' (3 - e) (spins (cube_turns (3 - e)) y) k = value (cf_basis cube_config) (cf_order cube_config) c e y k.
Proof.
  destruct (C86_demo 2 (or_intror eq_refl)) as (_ & H2 & H3 & H4 & H5 & H6 & H7 & _ & _ & H10 & H11 & H12 & H13 & _ & H15 & H16 & H17 & H18 & H19).
  pose proof (C107_good_hexahedra _ _ _ _ _ _ (reads_wf _ _ _ _ _ H2) (reads_wf _ _ _ _ _ listed_cubes_reads) H12 ltac:(split; reflexivity) listed_cubes_nodes cubes_written) as GB.
  destruct (cube_program 2 (or_intror eq_refl)) as (g & PG).
  assert (IN : intended case_metis 1 listed_cubes [0; 0; 0; 0]%Z).
  { left. split; [reflexivity|]. split; [reflexivity|]. intros e He. change (gm_num_elems listed_cubes) with 4%Z in He. four e; reflexivity. }
  assert (EF : enough_faces listed_cubes [0; 0; 0; 0]%Z 1).
  { intros r Hr. assert (r = 0)%Z as -> by lia. exists [0; 1; 2]%Z. split; [repeat constructor; cbn; intuition congruence|]. split; [cbn; lia|].
    intros f [<-|[<-|[<-|[]]]]; eexists; (split; [left; reflexivity|reflexivity]). }
  assert (PB : exists g', program cube_inputs listed_cubes_meshes ["solver"; "-input"; "case.toml"] case_metis 1 g').
  { apply (C86_completes cube_inputs listed_cubes_meshes ["solver"; "-input"; "case.toml"] case_metis 1 cube_input listed_cubes cube_config 1 (fun _ k => ph_IC (cf_phys cube_config) k)
      [0; 0; 0; 0]%Z); auto; try lia.
    - exact listed_cubes_reads.
    - now left.
    - right. split; [reflexivity|]. split; [exact GB|]. split; [exact H13|]. apply uniform_hexes; auto; [cbn; lia|exact cube_admissible]. }
  destruct PB as (g' & PB).
  assert (MV : metis_valid case_metis four_cubes 2).
  { intros ep N2 E. injection E as <-. split; [reflexivity|]. repeat constructor; lia. }
  assert (MB : metis_valid case_metis listed_cubes 1) by (intros ep N2 E; lia).
  destruct (C107_program_hexahedra cube_inputs cube_meshes ["solver"; "-input"; "case.toml"] case_metis 2 cube_input four_cubes
      cube_inputs listed_cubes_meshes ["solver"; "-input"; "case.toml"] case_metis 1 cube_input listed_cubes cube_config 1 _ backward backward (fun _ => true) cube_turns g g'
      ltac:(lia) H2 H3 H4 H7 MV ltac:(lia) listed_cubes_reads H3 H4 ltac:(now left) MB H11 H5 H10 H12 ltac:(split; reflexivity) listed_cubes_nodes H13 H15 H16 H17 H18 H19 ltac:(split; reflexivity) cubes_written)
    as (c & c' & -> & -> & EC); auto.
  { right; right. apply uniform_hex_calm; auto; [exact (reads_wf _ _ _ _ _ H2)|cbn; lia|exact cube_admissible]. }
  exists c, c'. split; [exact PG|]. split; [exact PB|]. exact EC.
Qed.
Print Assumptions C107_hexahedra_demo.
