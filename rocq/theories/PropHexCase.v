(** PropHexCase.v -- a concrete case for C84, C85 and C86 in three dimensions:
    four cubes on one rank and on two. *)
From Coq Require Import ZArith List Lia Reals Lra String Bool Permutation.
From Flocq Require Import BinarySingleNaN.
From Coquelicot Require Import Coquelicot.
From Verif Require Import Base RBase MeshModel MeshSpec MeshProof PropMesh PhysModel PhysSpec PhysProof SolverModel SolverSpec PropSolver PropConserve PropResidual.
From Verif Require Import StepModel PropIntegral DGSpec DGProof LinAlgModel PropLinAlg BasisModel BasisProof PropBasis PropNormals PropShape SetupModel SetupSpec SetupProof PropSetup PropMeshRun PropInit PropDG PropHex PropHexDemo.
From Verif Require Import IOModel PropIO PropOutput ReadModel PropRead PropCtor UtilModel TimeModel PropTime ProgramModel PropProgram PropWhole PropTotal.
Import ListNotations.
Local Open Scope string_scope.
Local Open Scope Z_scope.
Open Scope res_scope.

(** Cubes [i,i+1] x [j,j+1] x [0,1], i, j in {0,1}; node i + 3 j + 9 k at (i, j, k). *)
Definition four_cubes : gmesh R :=
  mkGMesh 3 4 18 4 8
    [0;1;3;4;9;10;12;13; 1;2;4;5;10;11;13;14; 3;4;6;7;12;13;15;16; 4;5;7;8;13;14;16;17]
    [[0;0;0];[1;0;0];[2;0;0]; [0;1;0];[1;1;0];[2;1;0]; [0;2;0];[1;2;0];[2;2;0];
     [0;0;1];[1;0;1];[2;0;1]; [0;1;1];[1;1;1];[2;1;1]; [0;2;1];[1;2;1];[2;2;1]]%R
    [[0;2;0;1;4;5]; [2;2;0;3;4;5]; [0;3;0;2;1;5]; [1;3;0;3;1;5]].

Definition cube_map (e : Z) (u v w : R) : arr1 := vec3 (IZR (e mod 2) + (1 + u) / 2) (IZR (e / 2) + (1 + v) / 2) ((1 + w) / 2).

Lemma cube_cases e : 0 <= e < 4 -> e = 0 \/ e = 1 \/ e = 2 \/ e = 3.
Proof. lia. Qed.

Lemma cube_place e y d : 0 <= e < 4 -> 0 <= d < 3 ->
  place EHex 1 (elem_nodes four_cubes e) y d = cube_map e (y 0) (y 1) (y 2) d.
Proof.
  intros He Hd. unfold place, geom_basis. rewrite map_hex by lia. change (1 + 1)%Z with 2%Z. rewrite !rsum_2. rewrite !LL1 by lia.
  assert (Cd : d = 0 \/ d = 1 \/ d = 2) by lia.
  generalize (y 0) (y 1) (y 2). intros u v w.
  destruct (cube_cases e He) as [-> | [-> | [-> | ->]]], Cd as [-> | [-> | ->]]; cbv [cube_map vec3 elem_nodes four_cubes gm_eind gm_npe gm_coord rd2 rd bind Z.add Z.mul Z.eqb Pos.eqb Pos.add Pos.mul Pos.succ
     nth_error Z.ltb Z.leb Z.compare Pos.compare Pos.compare_cont Z.to_nat Pos.to_nat Pos.iter_op Nat.add Z.modulo Z.div Z.div_eucl Z.pos_div_eucl Z.sub Z.opp Z.pos_sub Z.succ_double Z.pred_double Z.double Pos.pred_double]; field.
Qed.

Lemma cube_untangled : untangled EHex 1 four_cubes.
Proof.
  intros e y He Hy. change (gm_num_elems four_cubes) with 4 in He.
  assert (J : forall j d, 0 <= j < 3 -> 0 <= d < 3 -> jacobian EHex 1 (elem_nodes four_cubes e) y j d = if j =? d then (/ 2)%R else 0%R).
  { intros j d Hj Hd. unfold jacobian. rewrite (Derive_ext _ (fun t => cube_map e (with_coord y d t 0) (with_coord y d t 1) (with_coord y d t 2) j)) by (intros t; now apply cube_place).
    unfold cube_map, with_coord. apply is_derive_unique.
    assert (Cj : j = 0 \/ j = 1 \/ j = 2) by lia. assert (Cd : d = 0 \/ d = 1 \/ d = 2) by lia.
    destruct Cj as [-> | [-> | ->]], Cd as [-> | [-> | ->]]; unfold vec3; cbn [Z.eqb Pos.eqb]; auto_derive; auto; field. }
  unfold jac_det, small_det. cbn [space_dim Z.eqb Pos.eqb]. unfold det3, minor2. rewrite !J by lia. cbn [Z.eqb Pos.eqb]. lra.
Qed.

Lemma cube_sides f sd e k o : has_side four_cubes f sd e k o -> 0 <= f < 4 /\ 0 <= e < 4 /\
  [e; k; o] = (if sd then [match f with 0 => 1 | 1 => 3 | 2 => 2 | _ => 3 end; if f <? 2 then 4 else 1; 5]
               else [match f with 0 => 0 | 1 => 2 | 2 => 0 | _ => 1 end; if f <? 2 then 2 else 3; 0]).
Proof.
  intros (H1 & H2 & H3). unfold rd2 in *. destruct (rd (gm_IF four_cubes) f) as [row|] eqn:E; [|discriminate].
  pose proof (rd_in_range _ _ _ E) as Rg. change (zlen (gm_IF four_cubes)) with 4 in Rg. split; [exact Rg|].
  destruct (cube_cases f Rg) as [-> | [-> | [-> | ->]]]; injection E as <-; destruct sd; injection H1 as <-; injection H2 as <-; injection H3 as <-; (split; [lia|reflexivity]).
Qed.

Lemma cube_face e k s t d : 0 <= e < 4 -> 0 <= d < 3 ->
  face_surface four_cubes e k s t d = cube_map e (hex_face k s t 0) (hex_face k s t 1) (hex_face k s t 2) d.
Proof. intros He Hd. unfold face_surface. now apply cube_place. Qed.

Ltac all_faces f Rg := destruct (cube_cases f Rg) as [-> | [-> | [-> | ->]]].

Lemma cube_conforming : conforming_hexes four_cubes.
Proof.
  intros f eL kL oL eR kR oR HL HR. apply cube_sides in HL, HR. destruct HL as (Rg & HeL & HL), HR as (_ & HeR & HR).
  exists 5, (fun _ => 0%R). split; [lia|]. intros s t d Hd.
  destruct (hex_turn_table s t) as (_ & _ & _ & _ & _ & -> & _). rewrite !cube_face by assumption.
  assert (Cd : d = 0 \/ d = 1 \/ d = 2) by lia. cbv beta iota in HL, HR.
  all_faces f Rg; cbn [Z.ltb Z.compare Pos.compare Pos.compare_cont] in HL, HR; injection HL as -> -> ->; injection HR as -> -> ->;
    unfold cube_map, hex_face; destruct Cd as [-> | [-> | ->]]; unfold vec3; cbn -[IZR Rmult Rplus Rdiv]; lra.
Qed.

Lemma cube_flat : flat_hexes four_cubes.
Proof.
  split; [split; reflexivity|]. split; [exact cube_untangled|]. intros f sd e k o H. apply cube_sides in H. destruct H as (Rg & He & H).
  set (P := fun d => face_surface four_cubes e k 0 0 d). exists P, (fun d => face_surface four_cubes e k 1 0 d - P d)%R, (fun d => face_surface four_cubes e k 0 1 d - P d)%R.
  unfold P. clear P.
  assert (K : k = 1 \/ k = 2 \/ k = 3 \/ k = 4).
  { destruct sd; injection H as _ -> _; destruct (f <? 2); auto. }
  split.
  - intros s t d Hd. rewrite !cube_face by assumption. clear H.
    assert (Cd : d = 0 \/ d = 1 \/ d = 2) by lia. unfold cube_map, hex_face.
    destruct K as [-> | [-> | [-> | ->]]], Cd as [-> | [-> | ->]]; unfold vec3; cbn -[IZR Rmult Rplus Rdiv Rminus Z.modulo Z.div]; lra.
  - clear H. destruct K as [-> | [-> | [-> | ->]]].
    + exists 1. split; [lia|]. unfold vprod. cbn [Z.eqb Pos.eqb]. rewrite !cube_face by (assumption || lia). unfold cube_map, hex_face, vec3. cbn [Z.eqb Pos.eqb]. lra.
    + exists 0. split; [lia|]. unfold vprod. cbn [Z.eqb Pos.eqb]. rewrite !cube_face by (assumption || lia). unfold cube_map, hex_face, vec3. cbn [Z.eqb Pos.eqb]. lra.
    + exists 1. split; [lia|]. unfold vprod. cbn [Z.eqb Pos.eqb]. rewrite !cube_face by (assumption || lia). unfold cube_map, hex_face, vec3. cbn [Z.eqb Pos.eqb]. lra.
    + exists 0. split; [lia|]. unfold vprod. cbn [Z.eqb Pos.eqb]. rewrite !cube_face by (assumption || lia). unfold cube_map, hex_face, vec3. cbn [Z.eqb Pos.eqb]. lra.
Qed.

Lemma cube_nodes x : 0 <= x < 18 -> in_some_element four_cubes x.
Proof.
  intros Hx.
  assert (K : forall e j, 0 <= e < 4 -> 0 <= j < 8 -> rd (gm_eind four_cubes) (e * 8 + j) = Ok x -> in_some_element four_cubes x) by (intros e j He Hj E; exists e, j; auto).
  assert (C : x = 0 \/ x = 1 \/ x = 2 \/ x = 3 \/ x = 4 \/ x = 5 \/ x = 6 \/ x = 7 \/ x = 8 \/ x = 9 \/ x = 10 \/ x = 11 \/ x = 12 \/ x = 13 \/ x = 14 \/ x = 15 \/ x = 16 \/ x = 17) by lia.
  destruct C as [->|[->|[->|[->|[->|[->|[->|[->|[->|[->|[->|[->|[->|[->|[->|[->|[->| ->]]]]]]]]]]]]]]]]];
  [apply (K 0 0)|apply (K 0 1)|apply (K 1 1)|apply (K 0 2)|apply (K 0 3)|apply (K 1 3)|apply (K 2 2)|apply (K 2 3)|apply (K 3 3)|
   apply (K 0 4)|apply (K 0 5)|apply (K 1 5)|apply (K 0 6)|apply (K 0 7)|apply (K 1 7)|apply (K 2 6)|apply (K 2 7)|apply (K 3 7)]; reflexivity || lia.
Qed.

Lemma cube_good : good_hexes four_cubes.
Proof.
  constructor; [| |exact cube_flat|exact cube_conforming|reflexivity|exact cube_nodes].
  - intros f sd e k o H. apply cube_sides in H. destruct H as (Rg & _ & H). all_faces f Rg; destruct sd; injection H as -> -> ->; cbn; lia.
  - intros f sd e k o f' sd' o' H H'. apply cube_sides in H, H'. destruct H as (Rg & _ & H), H' as (Rg' & _ & H').
    all_faces f Rg; all_faces f' Rg'; destruct sd, sd'; injection H as -> -> ->; cbn in H'; injection H'; intros; try discriminate; auto.
Qed.

(** The mesh file, an input file, METIS results for two ranks. *)
Definition cube_file : mesh_file R :=
  mkMeshFile 3 1 4 18 4 8 (Some 4)
    [0;0;0; 1;0;0; 2;0;0; 0;1;0; 1;1;0; 2;1;0; 0;2;0; 1;2;0; 2;2;0; 0;0;1; 1;0;1; 2;0;1; 0;1;1; 1;1;1; 2;1;1; 0;2;1; 1;2;1; 2;2;1]%R
    (gm_eind four_cubes) (List.concat (gm_IF four_cubes)) (fun _ => None).
Definition cube_input : input :=
  mkInput (Some 3) (Some 1) (Some "LagrangeHex") None (Some "mesh.h5") false None None (Some "Uniform") (Some [1;0;0;0;5]%R)
    (Some "Euler") (Some "HLLC") (Some 2%R) (Some 1%R) None (Some (ddiv (dint 1) (dint 2))) (Some (ddiv (dint 1) (dint 2))).
Definition cube_config : config :=
  mkConfig 3 LagrangeHex 1 Uniform Euler HLLC (Build_phys 2 1 (fun k => match rd [1;0;0;0;5]%R k with Ok v => v | Fail _ => 0%R end)) ForwardEuler
    (ddiv (dint 1) (dint 2)) (ddiv (dint 1) (dint 2)).
Definition cube_inputs (name : string) : option input := if String.eqb name "case.toml" then Some cube_input else None.
Definition cube_meshes (name : string) : option (mesh_file R) := if String.eqb name "mesh.h5" then Some cube_file else None.

Lemma cube_asks : asks_for cube_input cube_config.
Proof. constructor; try reflexivity; try (now left); try (now right). - exists [1;0;0;0;5]%R. auto. - intros _. split; now left. Qed.

Lemma cube_wf : mesh_file_wf [] cube_file.
Proof.
  assert (RN : forall l k v (P : Z -> Prop), List.Forall P l -> rd l k = Ok v -> P v).
  { intros l k v P F E. rewrite Forall_forall in F. apply F. eapply rd_In; eassumption. }
  constructor; try (cbn -[IZR]; lia); try reflexivity.
  - change UINT_MAX with 4294967295. cbn. lia.
  - change UINT_MAX with 4294967295. cbn. lia.
  - change UINT_MAX with 4294967295. cbn. lia.
  - change UINT_MAX with 4294967295. cbn. lia.
  - intros k v. apply (RN _ k v (fun v => 0 <= v < 18)). cbn. repeat constructor; lia.
  - intros k v. apply (RN _ k v (fun v => 0 <= v)). cbn. repeat constructor; lia.
  - intros f s v Hf Hs. change (mf_niface cube_file) with 4 in Hf.
    destruct (cube_cases f Hf) as [-> | [-> | [-> | ->]]], Hs as [-> | ->]; intros E; vm_compute in E; injection E as <-; reflexivity.
  - intros e He. change (mf_nelem cube_file) with 4 in He. destruct (cube_cases e He) as [-> | [-> | [-> | ->]]]; vm_compute; discriminate.
  - intros e rows He F. inversion F; subst. cbn. lia.
Qed.

Lemma cube_reads : reads cube_inputs cube_meshes ["solver"; "-input"; "case.toml"] cube_input four_cubes.
Proof.
  exists "case.toml", "mesh.h5", cube_file. eexists. split; [reflexivity|]. split; [reflexivity|]. split; [reflexivity|]. split; [reflexivity|]. split; [exact cube_wf|].
  split; [cbv -[IZR]; reflexivity|reflexivity].
Qed.

Lemma cube_admissible : admissible 3 2 (ph_IC (cf_phys cube_config)).
Proof.
  unfold admissible, pressure, density, energy, vdot, velocity, momentum. rewrite rsum_3. unfold density.
  change (1 + 0) with 1. change (1 + 1) with 2. change (1 + 2) with 3. change (3 + 1) with 4.
  cbv [ph_IC cf_phys cube_config rd nth_error Z.ltb Z.compare Z.to_nat Pos.to_nat Pos.iter_op Nat.add]. lra.
Qed.

Definition cube_ep (n : Z) : list Z := if n =? 2 then [0; 1; 0; 1] else [0; 0; 0; 0].

Lemma cube_intended n : n = 1 \/ n = 2 -> intended case_metis n four_cubes (cube_ep n).
Proof.
  intros [-> | ->]; [left|right].
  - split; [reflexivity|]. split; [reflexivity|]. intros e He. destruct (cube_cases e He) as [->|[->|[->| ->]]]; reflexivity.
  - split; [lia|]. split; [reflexivity|]. split; [reflexivity|]. repeat constructor; lia.
Qed.

Lemma cube_enough n : n = 1 \/ n = 2 -> enough_faces four_cubes (cube_ep n) n.
Proof.
  assert (K : forall ep f e r, (rd2 (gm_IF four_cubes) f 0 = Ok e \/ rd2 (gm_IF four_cubes) f 3 = Ok e) -> rd ep e = Ok r -> face_touches four_cubes ep f r) by (intros ep f e r H O; exists e; split; [exact H|exact O]).
  assert (T : forall a b c : Z, a <> b -> a <> c -> b <> c -> NoDup [a; b; c]).
  { intros a b c H1 H2 H3. constructor; [cbn; intuition congruence|]. constructor; [cbn; intuition congruence|]. constructor; [cbn; tauto|constructor]. }
  intros [-> | ->] r Hr.
  - exists [0; 1; 2]. split; [apply T; lia|]. split; [cbn; lia|]. assert (r = 0) as -> by lia. intros f [<-|[<-|[<-|[]]]]; eapply K; try (now left); reflexivity.
  - assert (C : r = 0 \/ r = 1) by lia. destruct C as [-> | ->].
    + exists [0; 1; 2]. split; [apply T; lia|]. split; [cbn; lia|]. intros f [<-|[<-|[<-|[]]]]; eapply K; try (now left); reflexivity.
    + exists [0; 1; 3]. split; [apply T; lia|]. split; [cbn; lia|]. intros f [<-|[<-|[<-|[]]]]; eapply K; try (now right); reflexivity.
Qed.

(** All hypotheses of C86_completes hold, hence those of C84 too. *)
Example C86_demo : forall n, n = 1 \/ n = 2 ->
  1 <= n /\ reads cube_inputs cube_meshes ["solver"; "-input"; "case.toml"] cube_input four_cubes /\ asks_for cube_input cube_config /\ enough_data cube_input cube_config /\
  cf_physics cube_config = Euler /\ quadrature_known cube_input /\ parts_asked cube_input n /\ intended case_metis n four_cubes (cube_ep n) /\ enough_faces four_cubes (cube_ep n) n /\
  num_iterations (cf_end cube_config) (cf_dt cube_config) = Ok 1 /\
  cf_dim cube_config = 3 /\ good_hexes four_cubes /\ basis_for EHex LagrangeHex /\
  hex_physical four_cubes LagrangeHex 1 2 HLLC (fun _ k => ph_IC (cf_phys cube_config) k) (repeat (ForwardEuler, B2R (ddiv (dint 1) (dint 2))) 1) /\
  supported LagrangeHex 1 /\ order_ok 1 /\ (1 < 2)%R /\ starts_as 3 Uniform (cf_phys cube_config) 0 (fun _ k => ph_IC (cf_phys cube_config) k) /\
  small four_cubes (nfun LagrangeHex 1) 5.
Proof.
  intros n Hn. split; [lia|]. split; [exact cube_reads|]. split; [exact cube_asks|]. split. { intros data E. injection E as <-. cbn [cf_ic cube_config cf_dim]. unfold zlen. cbn [List.length]. lia. }
  split; [reflexivity|]. split; [intros q Q; discriminate Q|]. split; [now left|]. split; [now apply cube_intended|]. split; [now apply cube_enough|].
  split; [reflexivity|]. split; [reflexivity|]. split; [exact cube_good|]. split; [now left|].
  split. { apply uniform_hexes; [exact cube_good|now left|now left|unfold order_ok; lia|lia|exact cube_admissible]. }
  split; [now left|]. split; [unfold order_ok; lia|]. split; [lra|]. split; [apply uniform_starts; lia|]. split; reflexivity.
Qed.

Lemma cube_program n : n = 1 \/ n = 2 -> exists g, program cube_inputs cube_meshes ["solver"; "-input"; "case.toml"] case_metis n g.
Proof.
  intros Hn. destruct (C86_demo n Hn) as (H1 & H2 & H3 & H4 & H5 & H6 & H7 & H8 & H9 & H10 & H11 & H12 & H13 & H14 & H15 & H16 & H17 & H18 & H19).
  apply (C86_completes cube_inputs cube_meshes ["solver"; "-input"; "case.toml"] case_metis n cube_input four_cubes cube_config 1 (fun _ k => ph_IC (cf_phys cube_config) k) (cube_ep n)); auto.
Qed.

(** The hypotheses of C84_solution_hexahedra and, for hexahedra, of C84_same_file
    are met; and what the theorems then say. *)
Example C84_hexahedra_demo : forall n, n = 1 \/ n = 2 ->
  exists g c, program cube_inputs cube_meshes ["solver"; "-input"; "case.toml"] case_metis n g /\
    hex_solution four_cubes LagrangeHex 1 2 HLLC (fun _ k => ph_IC (cf_phys cube_config) k) [(ForwardEuler, B2R (ddiv (dint 1) (dint 2)))] c /\
    g = Ok (solution_file four_cubes 8 5 (1 * B2R (ddiv (dint 1) (dint 2)))%R c).
Proof.
  intros n Hn. destruct (cube_program n Hn) as (g & PR). exists g.
  destruct (C86_demo n Hn) as (H1 & H2 & H3 & H4 & H5 & H6 & H7 & H8 & H9 & H10 & H11 & H12 & H13 & H14 & H15 & H16 & H17 & H18 & H19).
  assert (MV : metis_valid case_metis four_cubes n).
  { intros ep N2 E. destruct Hn as [-> | ->]; [lia|]. injection E as <-. split; [reflexivity|]. repeat constructor; lia. }
  destruct (C84_solution_hexahedra cube_inputs cube_meshes ["solver"; "-input"; "case.toml"] case_metis n cube_input four_cubes cube_config 1 _ g
    H1 H2 H3 H4 H11 H5 H7 MV H10 H12 H13 H15 H16 H17 H18 H19 PR) as (c & S & E).
  exists c. split; [exact PR|]. split; [exact S|exact E].
Qed.
