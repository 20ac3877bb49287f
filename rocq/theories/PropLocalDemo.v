(** PropLocalDemo.v -- a concrete case for C104: a strip of five squares and the
    same strip without its last square.  One forward Euler step: the first three
    squares cannot know whether the fifth is there. *)
From Coq Require Import ZArith List Lia Reals Lra String Bool Permutation.
From Flocq Require Import BinarySingleNaN.
From Verif Require Import Base RBase MeshModel MeshSpec MeshProof PropMesh IOModel PropIO PropOutput.
From Verif Require Import ReadModel PropRead PropCtor UtilModel TimeModel ProgramModel PropProgram.
From Verif Require Import LinAlgModel PropLinAlg BasisModel ShapeModel PropShape SolverModel SolverSpec SolverMesh SolverFlux PhysModel PhysSpec PhysProof PropPhys PropBasis PropSolver PropNormals StepModel PropIntegral PropStep SetupModel SetupSpec SetupProof SetupFaces PropSetup PropMeshRun PropInit PropPost PropResidual DGSpec DGProof PropDG PropHex PropFree PropHexFree PropTime PropWhole PropTotal PropHexCase PropEnd PropRenumber PropSimilar PropSimilarG PropSimilarDemo PropPositive PropPositiveG PropPositiveDemo PropSymmetry PropLocal.
Import ListNotations.
Local Open Scope string_scope.
Local Open Scope R_scope.
Local Open Scope Z_scope.
Open Scope res_scope.

(** Five squares, or the first four of them. *)
Definition strip (long : bool) : gmesh R :=
  if long then mkGMesh 2 5 12 4 4 [0;1;6;7; 1;2;7;8; 2;3;8;9; 3;4;9;10; 4;5;10;11]
    [[0;0];[1;0];[2;0];[3;0];[4;0];[5;0]; [0;1];[1;1];[2;1];[3;1];[4;1];[5;1]]%R [[0;1;0;1;3;1]; [1;1;0;2;3;1]; [2;1;0;3;3;1]; [3;1;0;4;3;1]]
  else mkGMesh 2 4 10 3 4 [0;1;5;6; 1;2;6;7; 2;3;7;8; 3;4;8;9]
    [[0;0];[1;0];[2;0];[3;0];[4;0]; [0;1];[1;1];[2;1];[3;1];[4;1]]%R [[0;1;0;1;3;1]; [1;1;0;2;3;1]; [2;1;0;3;3;1]].
Definition count (long : bool) : Z := if long then 5 else 4.

Definition strip_file (long : bool) : mesh_file R :=
  if long then mkMeshFile 2 1 5 12 4 4 (Some 4) [0;0;1;0;2;0;3;0;4;0;5;0; 0;1;1;1;2;1;3;1;4;1;5;1]%R (gm_eind (strip true)) (List.concat (gm_IF (strip true))) (fun _ => None)
  else mkMeshFile 2 1 4 10 3 4 (Some 3) [0;0;1;0;2;0;3;0;4;0; 0;1;1;1;2;1;3;1;4;1]%R (gm_eind (strip false)) (List.concat (gm_IF (strip false))) (fun _ => None).
Definition strip_meshes (long : bool) (name : string) : option (mesh_file R) := if String.eqb name "mesh.h5" then Some (strip_file long) else None.

Lemma strip_sides b f sd e k o : has_side (strip b) f sd e k o -> 0 <= f < count b - 1 /\ e = (if sd then f + 1 else f) /\ k = (if sd then 3 else 1) /\ o = (if sd then 1 else 0).
Proof.
  intros (H1 & H2 & H3). unfold rd2 in *. destruct (rd (gm_IF (strip b)) f) as [row|] eqn:E; [|discriminate].
  pose proof (rd_in_range _ _ _ E) as Rg. assert (L : zlen (gm_IF (strip b)) = count b - 1) by (destruct b; reflexivity). rewrite L in Rg. split; [exact Rg|].
  destruct b; cbn [count] in Rg.
  - assert (C : f = 0 \/ f = 1 \/ f = 2 \/ f = 3) by lia. destruct C as [->|[->|[->| ->]]]; injection E as <-; destruct sd; injection H1 as <-; injection H2 as <-; injection H3 as <-; auto.
  - assert (C : f = 0 \/ f = 1 \/ f = 2) by lia. destruct C as [->|[->| ->]]; injection E as <-; destruct sd; injection H1 as <-; injection H2 as <-; injection H3 as <-; auto.
Qed.

Lemma strip_faces b f sd : 0 <= f < count b - 1 -> has_side (strip b) f sd (if sd then f + 1 else f) (if sd then 3 else 1) (if sd then 1 else 0).
Proof.
  intros Hf. destruct b; cbn [count] in Hf.
  - assert (C : f = 0 \/ f = 1 \/ f = 2 \/ f = 3) by lia. destruct C as [->|[->|[->| ->]]], sd; repeat split.
  - assert (C : f = 0 \/ f = 1 \/ f = 2) by lia. destruct C as [->|[->| ->]], sd; repeat split.
Qed.

(** Corners of square [e]. *)
Lemma strip_nodes b e k d : 0 <= e < count b -> 0 <= k < 4 -> 0 <= d < 2 -> elem_nodes (strip b) e k d = (if d =? 0 then IZR (e + k mod 2) else IZR (k / 2))%R.
Proof.
  intros He Hk Hd. assert (Cd : d = 0 \/ d = 1) by lia. destruct b; cbn [count] in He.
  - assert (C : e = 4 \/ 0 <= e < 4) by lia. destruct C as [-> |C].
    + four k; destruct Cd as [-> | ->]; reflexivity.
    + four e; four k; destruct Cd as [-> | ->]; reflexivity.
  - four e; four k; destruct Cd as [-> | ->]; reflexivity.
Qed.

Lemma strip_wf b : mesh_file_wf [] (strip_file b).
Proof.
  assert (RN : forall l k v (P : Z -> Prop), List.Forall P l -> rd l k = Ok v -> P v).
  { intros l k v P F E. rewrite List.Forall_forall in F. apply F. eapply rd_In; eassumption. }
  destruct b.
  - constructor; try (cbn -[IZR]; lia); try reflexivity.
    + change UINT_MAX with 4294967295. cbn. lia.
    + change UINT_MAX with 4294967295. cbn. lia.
    + change UINT_MAX with 4294967295. cbn. lia.
    + change UINT_MAX with 4294967295. cbn. lia.
    + intros k v. apply (RN _ k v (fun v => 0 <= v < 12)). cbn. repeat constructor; lia.
    + intros k v. apply (RN _ k v (fun v => 0 <= v)). cbn. repeat constructor; lia.
    + intros f s v Hf Hs. change (mf_niface (strip_file true)) with 4 in Hf. assert (C : f = 0 \/ f = 1 \/ f = 2 \/ f = 3) by lia.
      destruct C as [-> | [-> | [-> | ->]]], Hs as [-> | ->]; intros E; vm_compute in E; injection E as <-; reflexivity.
    + intros e He. change (mf_nelem (strip_file true)) with 5 in He. assert (C : e = 0 \/ e = 1 \/ e = 2 \/ e = 3 \/ e = 4) by lia. destruct C as [-> | [-> | [-> | [-> | ->]]]]; vm_compute; discriminate.
    + intros e rows He F. inversion F; subst. cbn. lia.
  - constructor; try (cbn -[IZR]; lia); try reflexivity.
    + change UINT_MAX with 4294967295. cbn. lia.
    + change UINT_MAX with 4294967295. cbn. lia.
    + change UINT_MAX with 4294967295. cbn. lia.
    + change UINT_MAX with 4294967295. cbn. lia.
    + intros k v. apply (RN _ k v (fun v => 0 <= v < 10)). cbn. repeat constructor; lia.
    + intros k v. apply (RN _ k v (fun v => 0 <= v)). cbn. repeat constructor; lia.
    + intros f s v Hf Hs. change (mf_niface (strip_file false)) with 3 in Hf. assert (C : f = 0 \/ f = 1 \/ f = 2) by lia.
      destruct C as [-> | [-> | ->]], Hs as [-> | ->]; intros E; vm_compute in E; injection E as <-; reflexivity.
    + intros e He. change (mf_nelem (strip_file false)) with 4 in He. assert (C : e = 0 \/ e = 1 \/ e = 2 \/ e = 3) by lia. destruct C as [-> | [-> | [-> | ->]]]; vm_compute; discriminate.
    + intros e rows He F. inversion F; subst. cbn. lia.
Qed.

Lemma strip_reads b : reads draft_inputs (strip_meshes b) ["solver"; "-input"; "case.toml"] draft_input (strip b).
Proof.
  exists "case.toml", "mesh.h5", (strip_file b). destruct b; eexists; (split; [reflexivity|]); (split; [reflexivity|]); (split; [reflexivity|]); (split; [reflexivity|]);
    (split; [apply strip_wf|]); (split; [cbv -[IZR]; reflexivity|reflexivity]).
Qed.

Lemma strip_num b : gm_num_elems (strip b) = count b.
Proof. destruct b; reflexivity. Qed.

Ltac closed_terms := repeat match goal with |- context [ccw ?a] => let v := eval vm_compute in (ccw a) in change (ccw a) with v end;
  repeat match goal with |- context [?a mod 2] => let v := eval vm_compute in (a mod 2) in change (a mod 2) with v end;
  repeat match goal with |- context [?a / 2] => let v := eval vm_compute in (a / 2) in change (a / 2) with v end; cbn [Z.eqb]; rewrite ?Z.add_0_r, ?plus_IZR.

Lemma strip_good b : good_quads (strip b).
Proof.
  constructor.
  - intros f sd e k o H. apply strip_sides in H. destruct H as (Hf & -> & -> & ->). destruct sd; cbn; lia.
  - intros f sd e k o f' sd' o' H H'. apply strip_sides in H, H'. destruct H as (Hf & -> & -> & _), H' as (Hf' & E & K & _). destruct sd, sd'; try lia; split; auto; lia.
  - split; [destruct b; split; reflexivity|]. intros e He. rewrite strip_num in He. intros k Hk. unfold cross2. cbv beta. rewrite !strip_nodes by (try apply ccw_range; lia).
    four k; closed_terms; lra.
  - intros f eL kL oL eR kR oR HL HR XL XR. apply strip_sides in HL, HR. destruct HL as (Hf & -> & -> & ->), HR as (_ & -> & -> & ->). subst XL XR.
    exists (fun _ => 0%R). intros d Hd. rewrite !strip_nodes by (try apply ccw_range; destruct b; cbn [count] in *; lia).
    assert (C : d = 0 \/ d = 1) by lia. destruct C as [-> | ->]; closed_terms; lra.
  - destruct b; reflexivity.
  - intros x Hx.
    assert (K : forall e j, 0 <= e < gm_num_elems (strip b) -> 0 <= j < gm_npe (strip b) -> rd (gm_eind (strip b)) (e * gm_npe (strip b) + j) = Ok x -> in_some_element (strip b) x) by (intros e j He Hj E; exists e, j; auto).
    destruct b; [change (gm_num_nodes (strip true)) with 12 in Hx|change (gm_num_nodes (strip false)) with 10 in Hx].
    + assert (C : x = 8 \/ x = 9 \/ x = 10 \/ x = 11 \/ 0 <= x < 8) by lia.
      destruct C as [->|[->|[->|[->|C]]]]; [apply (K 1 3)|apply (K 2 3)|apply (K 3 3)|apply (K 4 3)|eight x; [apply (K 0 0)|apply (K 0 1)|apply (K 1 1)|apply (K 2 1)|apply (K 3 1)|apply (K 4 1)|apply (K 0 2)|apply (K 0 3)]]; reflexivity || (cbn; lia).
    + assert (C : x = 8 \/ x = 9 \/ 0 <= x < 8) by lia.
      destruct C as [->|[->|C]]; [apply (K 2 3)|apply (K 3 3)|eight x; [apply (K 0 0)|apply (K 0 1)|apply (K 1 1)|apply (K 2 1)|apply (K 3 1)|apply (K 0 2)|apply (K 0 3)|apply (K 1 3)]]; reflexivity || (cbn; lia).
Qed.

Lemma strip_wf' b : mesh_wf (strip b).
Proof. exact (reads_wf _ _ _ _ _ (strip_reads b)). Qed.

Definition gas : (Z -> R) -> Z -> R := fun _ k => ph_IC (cf_phys draft_config) k.

Lemma strip_physical b dt : quad_physical (strip b) LagrangeQuad 0 2 LaxFriedrichs gas [(ForwardEuler, dt)].
Proof.
  destruct (C96_positive_quads (strip b) LagrangeQuad 2 gas 0 1 (strip_wf' b) (strip_good b)) as ((nq & P & W & fp & fw & nq2 & P2 & W2 & EQ & EF & EQ2 & iM & c0 & I & PJ & SP) & _);
    [now left|lra|lra|intros e y _ _; exact draft_admissible| |].
  - intros k c _ _ e He. rewrite strip_num in He. rewrite Rmult_0_l. unfold quad_area, cross2. rewrite !strip_nodes by lia. closed_terms. lra.
  - exists nq, P, W, fp, fw, nq2, P2, W2. split; [exact EQ|]. split; [exact EF|]. split; [exact EQ2|]. exists iM, c0. split; [exact I|]. split; [exact PJ|].
    cbn [repeat stays_physical stages] in *. split; [apply SP|exact Logic.I].
Qed.

Definition strip_ep (b : bool) : list Z := if b then [0;0;0;0;0] else [0;0;0;0].

Lemma strip_program b : exists g, program draft_inputs (strip_meshes b) ["solver"; "-input"; "case.toml"] case_metis 1 g.
Proof.
  assert (EN : num_iterations (cf_end draft_config) (cf_dt draft_config) = Ok 1) by reflexivity.
  assert (IN : intended case_metis 1 (strip b) (strip_ep b)).
  { left. split; [reflexivity|]. split; [destruct b; reflexivity|]. intros e He. rewrite strip_num in He. destruct b; cbn [count] in He.
    - assert (C : e = 0 \/ e = 1 \/ e = 2 \/ e = 3 \/ e = 4) by lia. destruct C as [->|[->|[->|[->| ->]]]]; reflexivity.
    - assert (C : e = 0 \/ e = 1 \/ e = 2 \/ e = 3) by lia. destruct C as [->|[->|[->| ->]]]; reflexivity. }
  assert (EF : enough_faces (strip b) (strip_ep b) 1).
  { intros r Hr. exists [0; 1; 2]. split; [repeat constructor; cbn; intuition discriminate|]. split; [cbn; lia|]. assert (r = 0) as -> by lia.
    intros f Hf. exists f. destruct b; destruct Hf as [<-|[<-|[<-|[]]]]; (split; [now left|reflexivity]). }
  assert (BF : basis_for EQuad LagrangeQuad) by (now left). assert (SU : supported LagrangeQuad 0) by (now left). assert (OO : order_ok 0) by (unfold order_ok; lia).
  assert (GM : (1 < 2)%R) by lra. assert (SM : small (strip b) (nfun LagrangeQuad 0) 4) by (destruct b; split; reflexivity).
  assert (SA : starts_as 2 Uniform (cf_phys draft_config) 0 gas) by (apply uniform_starts; lia).
  assert (HP : quad_physical (strip b) LagrangeQuad 0 2 LaxFriedrichs gas (repeat (ForwardEuler, B2R (cf_dt draft_config)) (Z.to_nat 1))) by exact (strip_physical b (B2R (cf_dt draft_config))).
  refine (C86_completes draft_inputs (strip_meshes b) ["solver"; "-input"; "case.toml"] case_metis 1 draft_input (strip b) draft_config 1 gas (strip_ep b)
    ltac:(lia) (strip_reads b) draft_asks draft_data eq_refl _ _ IN EF EN _ SU OO GM SA SM).
  - intros q Q; discriminate Q.
  - now left.
  - left. split; [reflexivity|]. split; [apply strip_good|]. split; [exact BF|exact HP].
Qed.

Lemma strip_within e x : 0 <= e < 5 -> within (strip true) e 1 x -> e - 1 <= x <= e + 1.
Proof.
  intros He H. inversion H as [|n y f sd k o z sd' k' o' W1 A B]; subst; [lia|]. inversion W1; subst.
  apply strip_sides in A, B. destruct A as (_ & -> & _), B as (_ & -> & _). destruct sd, sd'; lia.
Qed.

Lemma strip_near e : 0 <= e < 3 -> same_near EQuad (strip true) (strip false) (fun x => x) (fun f => f) (fun _ _ => 0%R) e 1.
Proof.
  intros He.
  assert (RG : forall x, within (strip true) e 1 x -> 0 <= x < 4).
  { intros x H. pose proof (within_range _ e 1 x (strip_wf' true) ltac:(rewrite strip_num; cbn; lia) H). apply strip_within in H; lia. }
  constructor.
  - intros x H. rewrite strip_num. cbn [count]. now apply RG.
  - intros x k d H Hk Hd. apply RG in H. change (corners EQuad) with 4 in Hk. cbn [space_dim] in Hd. rewrite !strip_nodes by (cbn [count]; lia). ring.
  - auto.
  - intros i x f sd k o sd' y k' o' Hi Wx A B. assert (i = 0)%nat as -> by lia. inversion Wx; subst.
    apply strip_sides in A, B. destruct A as (_ & A & _), B as (F & -> & -> & ->). apply strip_faces. cbn [count] in *. destruct sd; lia.
  - intros i x f' sd k o Hi Wx A. assert (i = 0)%nat as -> by lia. inversion Wx; subst.
    apply strip_sides in A. destruct A as (F & -> & _). exists f', sd. do 2 eexists. split; [apply strip_faces; cbn [count] in *; lia|reflexivity].
Qed.

(** The two runs, and the coefficients of the first three squares. *)
Example C104_demo : exists g g' c c',
  program draft_inputs (strip_meshes true) ["solver"; "-input"; "case.toml"] case_metis 1 g /\
  program draft_inputs (strip_meshes false) ["solver"; "-input"; "case.toml"] case_metis 1 g' /\
  g = Ok (solution_file (strip true) 1 4 (1 * B2R (cf_dt draft_config))%R c) /\ g' = Ok (solution_file (strip false) 1 4 (1 * B2R (cf_dt draft_config))%R c') /\
  forall e k, 0 <= e < 3 -> 0 <= k < 4 -> c' e 0 k = c e 0 k.
Proof.
  destruct (strip_program true) as (g & PR). destruct (strip_program false) as (g' & PR').
  assert (EN : num_iterations (cf_end draft_config) (cf_dt draft_config) = Ok 1) by reflexivity.
  assert (BF : basis_for EQuad LagrangeQuad) by (now left). assert (SU : supported LagrangeQuad 0) by (now left). assert (OO : order_ok 0) by (unfold order_ok; lia).
  assert (GM : (1 < 2)%R) by lra. assert (SM : forall b, small (strip b) (nfun LagrangeQuad 0) 4) by (intros b; destruct b; split; reflexivity).
  assert (SA : starts_as 2 Uniform (cf_phys draft_config) 0 gas) by (apply uniform_starts; lia).
  assert (MV : forall m, metis_valid case_metis m 1) by (intros m ep N2 E; lia).
  assert (PA : parts_asked draft_input 1) by (now left). assert (H1 : 1 <= 1) by lia.
  assert (SMe : same_method draft_config draft_config) by (constructor; reflexivity).
  destruct (C104_program_quads draft_inputs (strip_meshes true) ["solver"; "-input"; "case.toml"] case_metis 1 draft_input (strip true) draft_config
    draft_inputs (strip_meshes false) ["solver"; "-input"; "case.toml"] case_metis 1 draft_input (strip false) draft_config 1 gas gas (fun x => x) (fun f => f) (fun _ _ => 0%R) g g'
    H1 (strip_reads true) draft_asks draft_data PA (MV _) H1 (strip_reads false) draft_asks draft_data PA (MV _) eq_refl eq_refl SMe eq_refl EN EN (strip_good true) (strip_good false)
    BF SU OO GM SA SA (SM true) (SM false) PR PR') as (c & c' & E & E' & H).
  exists g, g', c, c'. split; [exact PR|]. split; [exact PR'|]. split; [exact E|]. split; [exact E'|].
  intros e k He Hk. apply (H e); [rewrite strip_num; cbn [count]; lia|now apply strip_near|intros x y z _ _ _; reflexivity|cbn; lia|exact Hk].
Qed.
Print Assumptions C104_demo.

(** ** Hexahedra: the four cubes, and two initial states that differ in the last
    cube only, where the gas is denser. *)
Lemma same_mesh s m e n : mesh_wf m -> (0 <= e < gm_num_elems m)%Z -> same_near s m m (fun x => x) (fun f => f) (fun _ _ => 0%R) e n.
Proof.
  intros W He. constructor; auto.
  - intros x H. exact (within_range m e n x W He H).
  - intros x k d _ _ _. ring.
  - intros i x f sd k o _ _ H. exists f, sd, k, o. auto.
Qed.

Definition blob (dense : bool) : (Z -> R) -> Z -> R := fun x k =>
  if k =? 0 then (if dense then 1 + Rmax 0 (Rmin (x 0%Z - 1) (x 1%Z - 1)) else 1)%R else if k =? 4 then 5%R else 0%R.

Example C104_hexahedra_demo : mesh_wf four_cubes /\ good_hexes four_cubes /\
  same_near EHex four_cubes four_cubes (fun x => x) (fun f => f) (fun _ _ => 0%R) 0 (evaluations [(ForwardEuler, (1 / 16)%R)]) /\
  same_start EHex four_cubes four_cubes (fun x => x) 0 (evaluations [(ForwardEuler, (1 / 16)%R)]) (blob false) (blob true) /\
  blob true (place EHex 1 (elem_nodes four_cubes 3) (fun _ => 0%R)) 0 <> blob false (place EHex 1 (elem_nodes four_cubes 3) (fun _ => 0%R)) 0.
Proof.
  pose proof (reads_wf _ _ _ _ _ cube_reads) as W. split; [exact W|]. split; [exact cube_good|]. split; [apply same_mesh; [exact W|cbn; lia]|]. split.
  - intros x y k H Hy Hk. cbn [evaluations] in H.
    assert (C : x = 0 \/ x = 1 \/ x = 2).
    { inversion H as [|n z f sd a o z' sd' k' o' W1 A B]; subst; [now left|]. inversion W1; subst.
      apply cube_sides in A, B. destruct A as (F & _ & A), B as (_ & _ & B).
      destruct (cube_cases f F) as [-> | [-> | [-> | ->]]]; destruct sd, sd'; injection A; injection B; intros; subst; auto; discriminate. }
    unfold blob. destruct (k =? 0)%Z; [|reflexivity].
    rewrite Rmax_left; [ring|]. cbn [space_dim] in Hy. pose proof (Hy 0%Z ltac:(lia)) as Y0. pose proof (Hy 1%Z ltac:(lia)) as Y1.
    rewrite !cube_place by lia. unfold cube_map, vec3. cbn [Z.eqb Pos.eqb].
    destruct C as [-> | [-> | ->]];
      repeat match goal with |- context [?a mod 2] => let v := eval vm_compute in (a mod 2) in change (a mod 2) with v end;
      repeat match goal with |- context [?a / 2] => let v := eval vm_compute in (a / 2) in change (a / 2) with v end.
    + apply Rle_trans with (0 + (1 + y 0%Z) / 2 - 1)%R; [apply Rmin_l|lra].
    + eapply Rle_trans; [apply Rmin_r|lra].
    + eapply Rle_trans; [apply Rmin_l|lra].
  - unfold blob. cbn [Z.eqb]. rewrite !cube_place by lia. unfold cube_map, vec3. cbn [Z.eqb Pos.eqb]. change (3 mod 2) with 1. change (3 / 2) with 1.
    rewrite Rmin_left by lra. rewrite Rmax_right by lra. lra.
Qed.
