(** PropListingDemo.v -- C107 on the four quadrilaterals of C71: elements, faces and
    nodes counted backwards, the sides of every face exchanged, and three elements
    listed from another corner on. *)
From Coq Require Import ZArith List Lia Reals Lra String Bool Permutation.
From Flocq Require Import BinarySingleNaN.
From Verif Require Import Base RBase MeshModel MeshSpec MeshProof PropMesh IOModel PropIO PropOutput.
From Verif Require Import ReadModel PropRead PropCtor UtilModel TimeModel ProgramModel PropProgram.
From Verif Require Import LinAlgModel PropLinAlg BasisModel ShapeModel PropShape SolverModel SolverSpec SolverMesh SolverFlux PhysModel PhysSpec PhysProof PropPhys PropBasis PropSolver PropNormals StepModel PropIntegral PropStep SetupModel SetupSpec SetupProof SetupFaces PropSetup PropMeshRun PropInit PropPost PropResidual DGSpec DGProof PropDG PropHex PropFree PropHexFree PropTime PropWhole PropTotal PropHexCase PropRenumber PropRenumberDemo PropCorner PropCornerDemo PropListing.
Import ListNotations.
Local Open Scope string_scope.
Local Open Scope Z_scope.
Local Open Scope R_scope.
Open Scope res_scope.


Definition demo_listed : gmesh R :=
  mkGMesh 2 4 9 4 4 [1;4;0;3; 5;4;2;1; 6;3;7;4; 4;5;7;8]%Z
    [[20;20];[10;20];[0;20];[20;10];[11;9];[0;10];[20;0];[10;0];[0;0]]
    [[0;1;1;2;1;0]; [1;0;1;3;0;0]; [0;0;1;1;1;0]; [2;2;1;3;3;0]]%Z.
Definition listed_file : mesh_file R :=
  mkMeshFile 2 1 4 9 4 4 (Some 2%Z) [20;20; 10;20; 0;20; 20;10; 11;9; 0;10; 20;0; 10;0; 0;0]
    [1;4;0;3; 5;4;2;1; 6;3;7;4; 4;5;7;8]%Z [0;1;1;2;1;0; 1;0;1;3;0;0; 0;0;1;1;1;0; 2;2;1;3;3;0]%Z (fun _ => None).
Definition listed_meshes (name : string) : option (mesh_file R) := if String.eqb name "mesh.h5" then Some listed_file else None.

Lemma listed_wf : mesh_file_wf [] listed_file.
Proof.
  assert (RN : forall l k v (P : Z -> Prop), List.Forall P l -> rd l k = Ok v -> P v).
  { intros l k v P F E. rewrite Forall_forall in F. apply F. eapply rd_In; eassumption. }
  constructor; try (cbn -[IZR]; lia); try reflexivity.
  - change UINT_MAX with 4294967295%Z. cbn. lia.
  - change UINT_MAX with 4294967295%Z. cbn. lia.
  - change UINT_MAX with 4294967295%Z. cbn. lia.
  - change UINT_MAX with 4294967295%Z. cbn. lia.
  - intros k v. apply (RN _ k v (fun v => (0 <= v < 9)%Z)). cbn. repeat constructor; lia.
  - intros k v. apply (RN _ k v (fun v => (0 <= v)%Z)). cbn. repeat constructor; lia.
  - intros f s v Hf Hs. change (mf_niface listed_file) with 4%Z in Hf.
    four f; destruct Hs as [-> | ->]; intros E; vm_compute in E; injection E as <-; reflexivity.
  - intros e He. change (mf_nelem listed_file) with 4%Z in He. four e; vm_compute; discriminate.
  - intros e rows He F. inversion F; subst. cbn. lia.
Qed.

Lemma listed_reads : reads case_inputs listed_meshes ["solver"; "-input"; "case.toml"] case_input demo_listed.
Proof.
  exists "case.toml", "mesh.h5", listed_file. eexists. split; [reflexivity|]. split; [reflexivity|]. split; [reflexivity|]. split; [reflexivity|]. split; [exact listed_wf|].
  split; [cbv -[IZR]; reflexivity|reflexivity].
Qed.

Lemma listed_nodes x : (0 <= x < gm_num_nodes demo_listed)%Z -> in_some_element demo_listed x.
Proof.
  intros Hx. change (gm_num_nodes demo_listed) with 9%Z in Hx.
  assert (C : (x = 0 \/ x = 1 \/ x = 2 \/ x = 3 \/ x = 4 \/ x = 5 \/ x = 6 \/ x = 7 \/ x = 8)%Z) by lia.
  assert (K : forall e j, (0 <= e < 4)%Z -> (0 <= j < 4)%Z -> rd (gm_eind demo_listed) (e * 4 + j) = Ok x -> in_some_element demo_listed x) by (intros e j He Hj E; exists e, j; auto).
  destruct C as [->|[->|[->|[->|[->|[->|[->|[->| ->]]]]]]]];
    [apply (K 0 2)%Z|apply (K 0 0)%Z|apply (K 1 2)%Z|apply (K 0 3)%Z|apply (K 0 1)%Z|apply (K 1 0)%Z|apply (K 2 0)%Z|apply (K 2 2)%Z|apply (K 3 3)%Z]; reflexivity || lia.
Qed.

Lemma listed_fits : mesh_fits EQuad 1 demo_listed.
Proof. split; reflexivity. Qed.

Lemma demo_written : written_again demo_rmesh demo_listed backward backward (fun _ => true) corner_turns.
Proof.
  constructor; [reflexivity|reflexivity|exact backward_perm|exact backward_perm| |].
  - intros e k d He Hd. change (gm_num_elems demo_rmesh) with 4%Z in He. assert (Cd : (d = 0 \/ d = 1)%Z) by lia.
    rewrite <- (ccw_mod (k + _)), <- Z.add_mod_idemp_l, ccw_mod, <- (ccw_mod k) by lia. pose proof (Z.mod_pos_bound k 4 ltac:(lia)) as Hk. set (k0 := (k mod 4)%Z) in *. clearbody k0.
    four e; four k0; destruct Cd as [-> | ->]; reflexivity.
  - intros f sd e k o H. apply demo_sides in H. destruct H as (Hf & H). four f; destruct sd; injection H as -> -> ->; repeat split; reflexivity.
Qed.

Lemma listed_intended n : (n = 1 \/ n = 2)%Z -> intended case_metis n demo_listed (if (n =? 2)%Z then [0; 1; 0; 1]%Z else [0; 0; 0; 0]%Z).
Proof.
  intros [-> | ->]; [left|right].
  - split; [reflexivity|]. split; [reflexivity|]. intros e He. change (gm_num_elems demo_listed) with 4%Z in He. four e; reflexivity.
  - split; [lia|]. split; [reflexivity|]. split; [reflexivity|]. repeat constructor; lia.
Qed.
Lemma listed_enough n : (n = 1 \/ n = 2)%Z -> enough_faces demo_listed (if (n =? 2)%Z then [0; 1; 0; 1]%Z else [0; 0; 0; 0]%Z) n.
Proof.
  assert (K : forall ep f e r, (rd2 (gm_IF demo_listed) f 0 = Ok e \/ rd2 (gm_IF demo_listed) f 3 = Ok e) -> rd ep e = Ok r -> face_touches demo_listed ep f r) by (intros ep f e r H O; exists e; split; [exact H|exact O]).
  assert (T : forall a b c : Z, a <> b -> a <> c -> b <> c -> NoDup [a; b; c]).
  { intros a b c H1 H2 H3. constructor; [cbn; intuition congruence|]. constructor; [cbn; intuition congruence|]. constructor; [cbn; tauto|constructor]. }
  intros [-> | ->] r Hr.
  - exists [0; 1; 2]%Z. split; [apply T; lia|]. split; [cbn; lia|]. assert (r = 0)%Z as -> by lia. intros f [<-|[<-|[<-|[]]]]; eapply K; try (now left); reflexivity.
  - assert (C : (r = 0 \/ r = 1)%Z) by lia. destruct C as [-> | ->].
    + exists [0; 2; 3]%Z. split; [apply T; lia|]. split; [cbn; lia|]. intros f [<-|[<-|[<-|[]]]]; eapply K; try (now left); reflexivity.
    + exists [1; 2; 3]%Z. split; [apply T; lia|]. split; [cbn; lia|]. intros f [<-|[<-|[<-|[]]]]; [apply (K _ _ 1%Z)|apply (K _ _ 1%Z)|apply (K _ _ 3%Z)]; try reflexivity; (now left) || (now right).
Qed.

(** The whole program, on the two mesh files, on one rank and on two: it runs to
    completion, and at the same point of space the two files hold the same solution. *)
Example C107_demo : forall n n', (n = 1 \/ n = 2)%Z -> (n' = 1 \/ n' = 2)%Z -> exists c c',
  program case_inputs case_meshes ["solver"; "-input"; "case.toml"] case_metis n (Ok (solution_file demo_rmesh 9 4 (INR 1 * B2R (cf_dt case_config)) c)) /\
  program case_inputs listed_meshes ["solver"; "-input"; "case.toml"] case_metis n' (Ok (solution_file demo_listed 9 4 (INR 1 * B2R (cf_dt case_config)) c')) /\
  forall e y, (0 <= e < 4)%Z -> let x := quarters (corner_turns (3 - e)) y in
    (forall d, (0 <= d < 2)%Z -> place EQuad 1 (elem_nodes demo_listed (3 - e)) x d = place EQuad 1 (elem_nodes demo_rmesh e) y d) /\
    forall k, (0 <= k < 4)%Z -> value (cf_basis case_config) (cf_order case_config) c' (3 - e) x k = value (cf_basis case_config) (cf_order case_config) c e y k.
Proof.
  intros n n' Hn Hn'.
  destruct C84_demo as (H1 & H2 & H3 & H4 & H5 & H6 & H7 & H8 & H9 & H10 & H11 & H12 & H13 & H14 & H15 & H16 & H17 & _).
  pose proof (C107_good_quads _ _ _ _ _ _ (reads_wf _ _ _ _ _ H1) (reads_wf _ _ _ _ _ listed_reads) H11 listed_fits listed_nodes demo_written) as GB.
  assert (AD : admissible 2 2 (ph_IC (cf_phys case_config))).
  { rewrite case_phys. unfold admissible, pressure, density, energy, vdot, velocity, momentum. rewrite rsum_2. unfold density. cbn. lra. }
  destruct (case_program n Hn) as (g & PG).
  assert (PB : exists g', program case_inputs listed_meshes ["solver"; "-input"; "case.toml"] case_metis n' g').
  { apply (C86_completes case_inputs listed_meshes ["solver"; "-input"; "case.toml"] case_metis n' case_input demo_listed case_config 1 (fun _ k => ph_IC (cf_phys case_config) k)
      (if (n' =? 2)%Z then [0; 1; 0; 1]%Z else [0; 0; 0; 0]%Z)); auto; try lia.
    - exact listed_reads.
    - intros q Q; discriminate Q.
    - destruct Hn' as [-> | ->]; assumption.
    - now apply listed_intended.
    - now apply listed_enough.
    - left. split; [reflexivity|]. split; [exact GB|]. split; [exact H12|]. apply uniform_quads; auto. cbn; lia. }
  destruct PB as (g' & PB).
  assert (MB : metis_valid case_metis demo_listed n').
  { intros ep N2 E. destruct Hn' as [-> | ->]; [lia|]. injection E as <-. split; [reflexivity|]. repeat constructor; lia. }
  destruct (C107_program_quads case_inputs case_meshes ["solver"; "-input"; "case.toml"] case_metis n case_input demo_rmesh
      case_inputs listed_meshes ["solver"; "-input"; "case.toml"] case_metis n' case_input demo_listed case_config 1 _ backward backward (fun _ => true) corner_turns g g'
      ltac:(lia) H1 H2 H3 ltac:(destruct Hn as [-> | ->]; assumption) ltac:(destruct Hn as [-> | ->]; assumption)
      ltac:(lia) listed_reads H2 H3 ltac:(destruct Hn' as [-> | ->]; assumption) MB H4 H5 H10 H11 listed_fits listed_nodes H12 H13 H14 H15 H16 H17 ltac:(split; reflexivity) demo_written) as (c & c' & -> & -> & EC); auto.
  { right; right. apply uniform_quad_calm; auto; [exact (reads_wf _ _ _ _ _ H1)|cbn; lia]. }
  exists c, c'. split; [exact PG|]. split; [exact PB|]. exact EC.
Qed.
Print Assumptions C107_demo.
