(** PropSymmetryDemo.v -- a concrete case for C103: four cubes, closed in the
    direction of y, and the three-dimensional vortex, on one rank and on two. *)
From Coq Require Import ZArith List Lia Reals Lra String Bool Permutation.
From Flocq Require Import BinarySingleNaN.
From Coquelicot Require Import Coquelicot.
From Verif Require Import Base RBase MeshModel MeshSpec MeshProof PropMesh PhysModel PhysSpec PhysProof SolverModel SolverSpec PropSolver PropConserve PropResidual.
From Verif Require Import StepModel PropIntegral DGSpec DGProof LinAlgModel PropLinAlg BasisModel BasisProof PropBasis PropNormals PropShape SetupModel SetupSpec SetupProof PropSetup PropMeshRun PropInit PropDG PropHex PropHexDemo.
From Verif Require Import IOModel PropIO PropOutput ReadModel PropRead PropCtor UtilModel TimeModel PropTime ProgramModel PropProgram PropWhole PropTotal PropHexCase.
From Verif Require Import PropVortex PropVortex3 PropPositive PropPositiveG PropFree PropRenumber PropSymmetry.
Import ListNotations.
Local Open Scope string_scope.
Local Open Scope Z_scope.
Open Scope res_scope.

(** The cubes of [four_cubes]; the last row in the direction of y is followed by
    the first. *)
Definition closed_cubes : gmesh R :=
  mkGMesh 3 4 18 6 8 (gm_eind four_cubes) (gm_coord four_cubes)
    [[0;2;0;1;4;5]; [2;2;0;3;4;5]; [0;3;0;2;1;5]; [1;3;0;3;1;5]; [2;3;0;0;1;5]; [3;3;0;1;1;5]].

Lemma six f : 0 <= f < 6 -> f = 0 \/ f = 1 \/ f = 2 \/ f = 3 \/ f = 4 \/ f = 5.
Proof. lia. Qed.

Ltac six_faces f Rg := destruct (six f Rg) as [-> | [-> | [-> | [-> | [-> | ->]]]]].

Definition next_row (e : Z) : Z := (e + 2) mod 4.
Definition next_face (f : Z) : Z := match f with 0 => 1 | 1 => 0 | 2 => 4 | 3 => 5 | 4 => 2 | _ => 3 end.
Definition step_y (e d : Z) : R := if (d =? 1) then (if e <? 2 then 1 else -1)%R else 0%R.

Lemma closed_sides f sd e k o : has_side closed_cubes f sd e k o -> 0 <= f < 6 /\ 0 <= e < 4 /\
  [e; k; o] = (if sd then [match f with 0 => 1 | 1 => 3 | 2 => 2 | 3 => 3 | 4 => 0 | _ => 1 end; if f <? 2 then 4 else 1; 5]
               else [match f with 0 => 0 | 1 => 2 | 2 => 0 | 3 => 1 | 4 => 2 | _ => 3 end; if f <? 2 then 2 else 3; 0]).
Proof.
  intros (H1 & H2 & H3). unfold rd2 in *. destruct (rd (gm_IF closed_cubes) f) as [row|] eqn:E; [|discriminate].
  pose proof (rd_in_range _ _ _ E) as Rg. change (zlen (gm_IF closed_cubes)) with 6 in Rg. split; [exact Rg|].
  six_faces f Rg; injection E as <-; destruct sd; injection H1 as <-; injection H2 as <-; injection H3 as <-; (split; [lia|reflexivity]).
Qed.

Lemma closed_face e k s t d : 0 <= e < 4 -> 0 <= d < 3 ->
  face_surface closed_cubes e k s t d = cube_map e (hex_face k s t 0) (hex_face k s t 1) (hex_face k s t 2) d.
Proof. exact (cube_face e k s t d). Qed.

Lemma closed_conforming : conforming_hexes closed_cubes.
Proof.
  intros f eL kL oL eR kR oR HL HR. apply closed_sides in HL, HR. destruct HL as (Rg & HeL & HL), HR as (_ & HeR & HR).
  exists 5, (fun d => if (d =? 1) then (if f <? 4 then 0 else -2)%R else 0%R). split; [lia|]. intros s t d Hd.
  destruct (hex_turn_table s t) as (_ & _ & _ & _ & _ & -> & _). rewrite !closed_face by assumption.
  assert (Cd : d = 0 \/ d = 1 \/ d = 2) by lia. cbv beta iota in HL, HR.
  six_faces f Rg; cbn [Z.ltb Z.compare Pos.compare Pos.compare_cont] in HL, HR; injection HL as -> -> ->; injection HR as -> -> ->;
    unfold cube_map, hex_face; destruct Cd as [-> | [-> | ->]]; unfold vec3; cbn -[IZR Rmult Rplus Rdiv]; lra.
Qed.

Lemma closed_flat : flat_hexes closed_cubes.
Proof.
  split; [split; reflexivity|]. split; [exact cube_untangled|]. intros f sd e k o H. apply closed_sides in H. destruct H as (Rg & He & H).
  set (P := fun d => face_surface closed_cubes e k 0 0 d). exists P, (fun d => face_surface closed_cubes e k 1 0 d - P d)%R, (fun d => face_surface closed_cubes e k 0 1 d - P d)%R.
  unfold P. clear P.
  assert (K : k = 1 \/ k = 2 \/ k = 3 \/ k = 4).
  { destruct sd; injection H as _ -> _; destruct (f <? 2); auto. }
  split.
  - intros s t d Hd. rewrite !closed_face by assumption. clear H.
    assert (Cd : d = 0 \/ d = 1 \/ d = 2) by lia. unfold cube_map, hex_face.
    destruct K as [-> | [-> | [-> | ->]]], Cd as [-> | [-> | ->]]; unfold vec3; cbn -[IZR Rmult Rplus Rdiv Rminus Z.modulo Z.div]; lra.
  - clear H. destruct K as [-> | [-> | [-> | ->]]].
    + exists 1. split; [lia|]. unfold vprod. cbn [Z.eqb Pos.eqb]. rewrite !closed_face by (assumption || lia). unfold cube_map, hex_face, vec3. cbn [Z.eqb Pos.eqb]. lra.
    + exists 0. split; [lia|]. unfold vprod. cbn [Z.eqb Pos.eqb]. rewrite !closed_face by (assumption || lia). unfold cube_map, hex_face, vec3. cbn [Z.eqb Pos.eqb]. lra.
    + exists 1. split; [lia|]. unfold vprod. cbn [Z.eqb Pos.eqb]. rewrite !closed_face by (assumption || lia). unfold cube_map, hex_face, vec3. cbn [Z.eqb Pos.eqb]. lra.
    + exists 0. split; [lia|]. unfold vprod. cbn [Z.eqb Pos.eqb]. rewrite !closed_face by (assumption || lia). unfold cube_map, hex_face, vec3. cbn [Z.eqb Pos.eqb]. lra.
Qed.

Lemma closed_good : good_hexes closed_cubes.
Proof.
  constructor; [| |exact closed_flat|exact closed_conforming|reflexivity|exact cube_nodes].
  - intros f sd e k o H. apply closed_sides in H. destruct H as (Rg & _ & H). six_faces f Rg; destruct sd; injection H as -> -> ->; cbn; lia.
  - intros f sd e k o f' sd' o' H H'. apply closed_sides in H, H'. destruct H as (Rg & _ & H), H' as (Rg' & _ & H').
    six_faces f Rg; six_faces f' Rg'; destruct sd, sd'; injection H as -> -> ->; cbn in H'; injection H'; intros; try discriminate; auto.
Qed.

Lemma closed_repeats : repeats EHex closed_cubes next_row next_face (fun _ => false) step_y.
Proof.
  constructor.
  - change (Permutation [2; 3; 0; 1] [0; 1; 2; 3]). apply NoDup_Permutation.
    + repeat constructor; cbn; intuition discriminate.
    + repeat constructor; cbn; intuition discriminate.
    + cbn. intuition.
  - change (Permutation [1; 0; 4; 5; 2; 3] [0; 1; 2; 3; 4; 5]). apply NoDup_Permutation.
    + repeat constructor; cbn; intuition discriminate.
    + repeat constructor; cbn; intuition discriminate.
    + cbn. intuition.
  - intros e k d He Hk Hd. change (gm_num_elems closed_cubes) with 4 in He. change (corners EHex) with 8 in Hk. cbn [space_dim] in Hd.
    assert (Cd : d = 0 \/ d = 1 \/ d = 2) by lia.
    assert (Ck : k = 0 \/ k = 1 \/ k = 2 \/ k = 3 \/ k = 4 \/ k = 5 \/ k = 6 \/ k = 7) by lia.
    destruct (cube_cases e He) as [->|[->|[->| ->]]], Cd as [->|[->| ->]], Ck as [->|[->|[->|[->|[->|[->|[->| ->]]]]]]];
      cbv -[IZR Rplus]; lra.
  - intros f sd e k o H. apply closed_sides in H. destruct H as (Rg & He & H). rewrite xorb_false_r.
    six_faces f Rg; destruct sd; cbn [Z.ltb Z.compare Pos.compare Pos.compare_cont] in H; injection H as -> -> ->; repeat split; reflexivity.
Qed.

(** The mesh file and the input file. *)
Definition closed_file : mesh_file R :=
  mkMeshFile 3 1 4 18 6 8 (Some 6)
    [0;0;0; 1;0;0; 2;0;0; 0;1;0; 1;1;0; 2;1;0; 0;2;0; 1;2;0; 2;2;0; 0;0;1; 1;0;1; 2;0;1; 0;1;1; 1;1;1; 2;1;1; 0;2;1; 1;2;1; 2;2;1]%R
    (gm_eind closed_cubes) (List.concat (gm_IF closed_cubes)) (fun _ => None).
Definition vortex_input : input :=
  mkInput (Some 3) (Some 0) (Some "LagrangeHex") None (Some "mesh.h5") false None None (Some "IsentropicVortex") (Some [1;0;0;0;5]%R)
    (Some "Euler") None None None None (Some (ddiv (dint 1) (dint 2))) (Some (ddiv (dint 1) (dint 2))).
Definition vortex_config : config :=
  mkConfig 3 LagrangeHex 0 IsentropicVortex Euler LaxFriedrichs (Build_phys 1.4 287.05 (fun k => match rd [1;0;0;0;5]%R k with Ok v => v | Fail _ => 0%R end)) ForwardEuler
    (ddiv (dint 1) (dint 2)) (ddiv (dint 1) (dint 2)).
Definition vortex_inputs (name : string) : option input := if String.eqb name "case.toml" then Some vortex_input else None.
Definition vortex_meshes (name : string) : option (mesh_file R) := if String.eqb name "mesh.h5" then Some closed_file else None.

Lemma vortex_asks : asks_for vortex_input vortex_config.
Proof. constructor; try reflexivity; try (now left); try (now right). - exists [1;0;0;0;5]%R. auto. - intros _. split; now right. Qed.

Lemma closed_wf : mesh_file_wf [] closed_file.
Proof.
  assert (RN : forall l k v (P : Z -> Prop), List.Forall P l -> rd l k = Ok v -> P v).
  { intros l k v P F E. rewrite Forall_forall in F. apply F. eapply rd_In; eassumption. }
  constructor; try (cbn -[IZR]; lia); try reflexivity.
  - change UINT_MAX with 4294967295. cbn. lia.
  - change UINT_MAX with 4294967295. cbn. lia.
  - change UINT_MAX with 4294967295. cbn. lia.
  - change UINT_MAX with 4294967295. cbn. lia.
  - intros k v. apply (RN _ k v (fun v => 0 <= v < 18)). cbn. repeat constructor; lia.
  - intros k v. apply (RN _ k v (fun v => 0 <= v)). cbn. repeat constructor; lia.
  - intros f s v Hf Hs. change (mf_niface closed_file) with 6 in Hf.
    six_faces f Hf; destruct Hs as [-> | ->]; intros E; vm_compute in E; injection E as <-; reflexivity.
  - intros e He. change (mf_nelem closed_file) with 4 in He. destruct (cube_cases e He) as [-> | [-> | [-> | ->]]]; vm_compute; discriminate.
  - intros e rows He F. inversion F; subst. cbn. lia.
Qed.

Lemma vortex_reads : reads vortex_inputs vortex_meshes ["solver"; "-input"; "case.toml"] vortex_input closed_cubes.
Proof.
  exists "case.toml", "mesh.h5", closed_file. eexists. split; [reflexivity|]. split; [reflexivity|]. split; [reflexivity|]. split; [reflexivity|]. split; [exact closed_wf|].
  split; [cbv -[IZR]; reflexivity|reflexivity].
Qed.

Definition vortex_state (x : Z -> R) : arr1 := vy_state 1.4 (x 0 - 1 / 2) (x 2 - 1 / 2).

Lemma vortex_starts : starts_as 3 IsentropicVortex (cf_phys vortex_config) 0 vortex_state.
Proof.
  split.
  - intros x U0. destruct (vortex3_ok (cf_phys vortex_config) x U0) as (U & E & HU); [cbn; lra|]. exists U. split; [apply E|]. exact HU.
  - intros x y k H. unfold vortex_state. now rewrite !H by lia.
Qed.

Lemma vortex_start_physical : physical_start EHex 1.4 closed_cubes vortex_state.
Proof.
  intros e y _ _. cbn [space_dim]. set (x := place EHex 1 (elem_nodes closed_cubes e) y).
  destruct (C63_vortex3_partial (cf_phys vortex_config) x 0 (fun _ => 0%R)) as (U & E & _ & A & _); [cbn; lra|].
  destruct vortex_starts as (ST & _). destruct (ST x (fun _ => 0%R)) as (U' & E' & HU). rewrite E in E'. injection E' as <-.
  revert A. cbn [cf_phys vortex_config ph_gamma]. apply admissible_ext; [now right|]. intros k Hk. now apply HU.
Qed.

Lemma vortex_physical dt : hex_physical closed_cubes LagrangeHex 0 1.4 LaxFriedrichs vortex_state [(ForwardEuler, dt)].
Proof.
  pose proof closed_good as GH. pose proof (reads_wf _ _ _ _ _ vortex_reads) as MW.
  destruct (C96_positive_hexahedra closed_cubes LagrangeHex 1.4 vortex_state 0 1 MW GH) as ((nq & P & W & fp & fw & nq2 & P2 & W2 & EQ & EF & EQ2 & iM & c0 & I & PJ & SP) & _);
    [now left|lra|lra|exact vortex_start_physical| |].
  - intros k c _ _ e He. unfold gauss_volume. rewrite Rmult_0_l.
    assert (D : forall a b d, (0 < jac_det EHex 1 (elem_nodes closed_cubes e) (corner a b d))%R).
    { intros a b d. apply cube_untangled; [exact He|]. intros i Hi. assert (G : (-1 < gauss2 < 1 /\ -1 < - gauss2 < 1)%R) by (unfold gauss2; split; split; lra). unfold corner.
      destruct (i =? 0)%Z, (i =? 1)%Z, a, b, d; tauto. }
    pose proof (D false false false); pose proof (D true false false); pose proof (D false true false); pose proof (D true true false).
    pose proof (D false false true); pose proof (D true false true); pose proof (D false true true); pose proof (D true true true). cbv zeta. lra.
  - exists nq, P, W, fp, fw, nq2, P2, W2. split; [exact EQ|]. split; [exact EF|]. split; [exact EQ2|]. exists iM, c0. split; [exact I|]. split; [exact PJ|].
    cbn [repeat stays_physical stages] in *. split; [apply SP|exact Logic.I].
Qed.

Lemma closed_intended n : n = 1 \/ n = 2 -> intended case_metis n closed_cubes (cube_ep n).
Proof.
  intros [-> | ->]; [left|right].
  - split; [reflexivity|]. split; [reflexivity|]. intros e He. destruct (cube_cases e He) as [->|[->|[->| ->]]]; reflexivity.
  - split; [lia|]. split; [reflexivity|]. split; [reflexivity|]. repeat constructor; lia.
Qed.

Lemma closed_enough n : n = 1 \/ n = 2 -> enough_faces closed_cubes (cube_ep n) n.
Proof.
  assert (K : forall ep f e r, (rd2 (gm_IF closed_cubes) f 0 = Ok e \/ rd2 (gm_IF closed_cubes) f 3 = Ok e) -> rd ep e = Ok r -> face_touches closed_cubes ep f r) by (intros ep f e r H O; exists e; split; [exact H|exact O]).
  assert (T : forall a b c : Z, a <> b -> a <> c -> b <> c -> NoDup [a; b; c]).
  { intros a b c H1 H2 H3. constructor; [cbn; intuition congruence|]. constructor; [cbn; intuition congruence|]. constructor; [cbn; tauto|constructor]. }
  intros [-> | ->] r Hr.
  - exists [0; 1; 2]. split; [apply T; lia|]. split; [cbn; lia|]. assert (r = 0) as -> by lia. intros f [<-|[<-|[<-|[]]]]; eapply K; try (now left); reflexivity.
  - assert (C : r = 0 \/ r = 1) by lia. destruct C as [-> | ->].
    + exists [0; 1; 2]. split; [apply T; lia|]. split; [cbn; lia|]. intros f [<-|[<-|[<-|[]]]]; eapply K; try (now left); reflexivity.
    + exists [0; 1; 3]. split; [apply T; lia|]. split; [cbn; lia|]. intros f [<-|[<-|[<-|[]]]]; eapply K; try (now right); reflexivity.
Qed.

(** The program runs, and the file holds the same coefficients in both rows. *)
Example C103_demo : forall n, n = 1 \/ n = 2 ->
  field_repeats EHex closed_cubes next_row vortex_state /\
  exists g c, program vortex_inputs vortex_meshes ["solver"; "-input"; "case.toml"] case_metis n g /\
    g = Ok (solution_file closed_cubes 1 5 (1 * B2R (ddiv (dint 1) (dint 2)))%R c) /\
    forall e k, 0 <= e < 4 -> 0 <= k < 5 -> c ((e + 2) mod 4) 0 k = c e 0 k.
Proof.
  intros n Hn.
  assert (FR : field_repeats EHex closed_cubes next_row vortex_state).
  { apply (C103_vortex3 closed_cubes next_row next_face (fun _ => false) step_y (cf_phys vortex_config) 0); [cbn; lra|exact vortex_starts|exact closed_repeats|]. intros e He. split; reflexivity. }
  split; [exact FR|].
  assert (H1 : 1 <= n) by lia. pose proof vortex_reads as RE. pose proof vortex_asks as AF.
  assert (ED : enough_data vortex_input vortex_config). { intros data E. injection E as <-. cbn [cf_ic vortex_config]. unfold zlen. cbn [List.length]. lia. }
  assert (PA : parts_asked vortex_input n) by (now left).
  assert (MV : metis_valid case_metis closed_cubes n).
  { intros ep N2 E. destruct Hn as [-> | ->]; [lia|]. injection E as <-. split; [reflexivity|]. repeat constructor; lia. }
  assert (EN : num_iterations (cf_end vortex_config) (cf_dt vortex_config) = Ok 1) by reflexivity.
  assert (BF : basis_for EHex LagrangeHex) by (now left). assert (SU : supported LagrangeHex 0) by (now left). assert (OO : order_ok 0) by (unfold order_ok; lia).
  assert (GM : (1 < 1.4)%R) by lra. assert (SM : small closed_cubes (nfun LagrangeHex 0) 5) by (split; reflexivity).
  assert (HP : hex_physical closed_cubes LagrangeHex 0 1.4 LaxFriedrichs vortex_state (repeat (ForwardEuler, B2R (cf_dt vortex_config)) (Z.to_nat 1))) by exact (vortex_physical (B2R (cf_dt vortex_config))).
  assert (CASES : cf_dim vortex_config = 2 /\ good_quads closed_cubes /\ basis_for EQuad LagrangeHex /\ quad_physical closed_cubes LagrangeHex 0 1.4 LaxFriedrichs vortex_state (repeat (ForwardEuler, B2R (cf_dt vortex_config)) (Z.to_nat 1)) \/
    cf_dim vortex_config = 3 /\ good_hexes closed_cubes /\ basis_for EHex LagrangeHex /\ hex_physical closed_cubes LagrangeHex 0 1.4 LaxFriedrichs vortex_state (repeat (ForwardEuler, B2R (cf_dt vortex_config)) (Z.to_nat 1))).
  { right. split; [reflexivity|]. split; [exact closed_good|]. split; [exact BF|exact HP]. }
  destruct (C86_completes vortex_inputs vortex_meshes ["solver"; "-input"; "case.toml"] case_metis n vortex_input closed_cubes vortex_config 1 vortex_state (cube_ep n)
    H1 RE AF ED eq_refl ltac:(intros q Q; discriminate Q) PA (closed_intended n Hn) (closed_enough n Hn) EN CASES SU OO GM vortex_starts SM) as (g & PR).
  destruct (C103_program_hexahedra vortex_inputs vortex_meshes ["solver"; "-input"; "case.toml"] case_metis n vortex_input closed_cubes vortex_config 1 vortex_state
    next_row next_face (fun _ => false) step_y g H1 RE AF ED PA MV eq_refl eq_refl EN closed_good BF SU OO GM vortex_starts SM closed_repeats FR (or_introl eq_refl) PR) as (c & EG & HC).
  exists g, c. split; [exact PR|]. split; [exact EG|]. intros e k He Hk. apply (HC e 0 k He); [cbn; lia|exact Hk].
Qed.
Print Assumptions C103_demo.

(** ** Quadrilaterals: four squares, closed in both directions. *)
Definition squares : gmesh R :=
  mkGMesh 2 4 9 8 4 [0;1;3;4; 1;2;4;5; 3;4;6;7; 4;5;7;8]%Z
    [[0;0];[1;0];[2;0];[0;1];[1;1];[2;1];[0;2];[1;2];[2;2]]%R
    [[0;1;0;1;3;1]; [2;1;0;3;3;1]; [0;2;0;2;0;1]; [1;2;0;3;0;1]; [1;1;0;0;3;1]; [3;1;0;2;3;1]; [2;2;0;0;0;1]; [3;2;0;1;0;1]]%Z.

Lemma squares_sides f sd e k o : has_side squares f sd e k o ->
  (0 <= f < 8)%Z /\ [e; k; o] = (if sd then skipn 3 else firstn 3) (nth (Z.to_nat f) (gm_IF squares) []).
Proof.
  intros (H1 & H2 & H3). unfold rd2 in *. destruct (rd (gm_IF squares) f) as [row|] eqn:E; [|discriminate].
  pose proof (rd_in_range _ _ _ E) as Rg. change (zlen (gm_IF squares)) with 8%Z in Rg. split; [exact Rg|].
  cbn [bind] in *. eight f; injection E as <-; destruct sd; injection H1 as <-; injection H2 as <-; injection H3 as <-; reflexivity.
Qed.

Lemma squares_good : mesh_wf squares /\ good_quads squares.
Proof.
  split.
  - constructor; try (cbn -[IZR]; unfold UINT_MAX; lia); try reflexivity.
    + repeat constructor; cbn; lia.
    + repeat (apply Forall_cons; [reflexivity|]). apply Forall_nil.
    + repeat (apply Forall_cons; [do 6 eexists; split; [reflexivity|]; cbn; lia|]). apply Forall_nil.
  - constructor.
    + intros f sd e k o H. apply squares_sides in H. destruct H as (Hf & H). eight f; destruct sd; injection H as -> -> ->; cbn; lia.
    + intros f sd e k o f' sd' o' H H'. apply squares_sides in H, H'. destruct H as (Hf & H), H' as (Hf' & H').
      eight f; destruct sd; cbn in H; injection H as -> -> ->; eight f'; destruct sd'; cbn in H'; try discriminate; auto.
    + split; [split; reflexivity|]. intros e He k Hk. change (gm_num_elems squares) with 4%Z in He. four e; four k; cbv -[IZR Rminus Rmult Rlt]; lra.
    + intros f eL kL oL eR kR oR HL HR XL XR. apply squares_sides in HL, HR. destruct HL as (Hf & HL), HR as (_ & HR). subst XL XR.
      exists (fun d => elem_nodes squares eR (ccw kR) d - elem_nodes squares eL (ccw (kL + 1)) d)%R.
      eight f; injection HL as -> -> ->; injection HR as -> -> ->; intros d Hd;
        (assert (C : (d = 0 \/ d = 1)%Z) by lia); destruct C as [-> | ->]; cbv -[IZR Rplus Rminus]; lra.
    + reflexivity.
    + intros x Hx. change (gm_num_nodes squares) with 9 in Hx.
      assert (K : forall e j, 0 <= e < 4 -> 0 <= j < 4 -> rd (gm_eind squares) (e * 4 + j) = Ok x -> in_some_element squares x) by (intros e j He Hj E; exists e, j; auto).
      assert (C : x = 8 \/ 0 <= x < 8) by lia. destruct C as [-> | C]; [apply (K 3 3); [lia|lia|reflexivity]|].
      eight x; [apply (K 0 0)|apply (K 0 1)|apply (K 1 1)|apply (K 0 2)|apply (K 0 3)|apply (K 1 3)|apply (K 2 2)|apply (K 2 3)]; reflexivity || lia.
Qed.

Definition next_edge (f : Z) : Z := match f with 0 => 1 | 1 => 0 | 2 => 6 | 3 => 7 | 4 => 5 | 5 => 4 | 6 => 2 | _ => 3 end.

Example C103_quads_demo : mesh_wf squares /\ good_quads squares /\ repeats EQuad squares next_row next_edge (fun _ => false) step_y /\
  field_repeats EQuad squares next_row (fun x k => if k =? 0 then (1 + x 0%Z * (2 - x 0%Z))%R else if k =? 3 then 5%R else 0%R) /\ unturned squares (fun _ => false).
Proof.
  destruct squares_good as (MW & GQ). split; [exact MW|]. split; [exact GQ|].
  assert (RP : repeats EQuad squares next_row next_edge (fun _ => false) step_y).
  { constructor.
    - change (Permutation [2; 3; 0; 1] [0; 1; 2; 3]). apply NoDup_Permutation.
      + repeat constructor; cbn; intuition discriminate.
      + repeat constructor; cbn; intuition discriminate.
      + cbn. intuition.
    - change (Permutation [1; 0; 6; 7; 5; 4; 2; 3] [0; 1; 2; 3; 4; 5; 6; 7]). apply NoDup_Permutation.
      + repeat constructor; cbn; intuition discriminate.
      + repeat constructor; cbn; intuition discriminate.
      + cbn. intuition.
    - intros e k d He Hk Hd. change (gm_num_elems squares) with 4 in He. change (corners EQuad) with 4 in Hk. cbn [space_dim] in Hd.
      assert (Cd : d = 0 \/ d = 1) by lia. four e; four k; destruct Cd as [-> | ->]; cbv -[IZR Rplus]; lra.
    - intros f sd e k o H. apply squares_sides in H. destruct H as (Rg & H). rewrite xorb_false_r.
      eight f; destruct sd; cbn in H; injection H as -> -> ->; repeat split; reflexivity. }
  split; [exact RP|]. split; [|intros f _; reflexivity].
  intros e y k He _ Hk.
  assert (E : place EQuad 1 (elem_nodes squares (next_row e)) y 0 = place EQuad 1 (elem_nodes squares e) y 0).
  { rewrite (place_moved EQuad (elem_nodes squares e) _ 0%R); [ring|]. intros i Hi. rewrite (rp_nodes _ _ _ _ _ _ RP) by (auto; cbn; lia). reflexivity. }
  now rewrite E.
Qed.
