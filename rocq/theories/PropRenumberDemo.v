(** PropRenumberDemo.v -- C93 on concrete meshes: two numberings of the four
    quadrilaterals of C71, and of four cubes. *)
From Coq Require Import ZArith List Lia Reals Lra String Bool Permutation.
From Flocq Require Import BinarySingleNaN.
From Verif Require Import Base RBase MeshModel MeshSpec MeshProof PropMesh IOModel PropIO PropOutput.
From Verif Require Import ReadModel PropRead PropCtor UtilModel TimeModel ProgramModel PropProgram.
From Verif Require Import LinAlgModel PropLinAlg BasisModel ShapeModel PropShape SolverModel SolverSpec SolverMesh SolverFlux PhysModel PhysSpec PhysProof PropPhys PropBasis PropSolver PropNormals StepModel PropIntegral PropStep SetupModel SetupSpec SetupProof SetupFaces PropSetup PropMeshRun PropInit PropPost PropResidual DGSpec DGProof PropDG PropHex PropFree PropHexFree PropTime PropWhole PropTotal PropHexCase PropRenumber.
Import ListNotations.
Local Open Scope string_scope.
Local Open Scope Z_scope.
Local Open Scope R_scope.
Open Scope res_scope.

(** A uniform state is calm for one step of forward Euler. *)
Lemma same_not_head_on dim gamma u N : (dim = 2 \/ dim = 3)%Z -> 1 < gamma -> admissible dim gamma u -> ~ head_on dim gamma u u N.
Proof. intros D G A (H1 & H2). pose proof (sound_pos dim gamma u G A). lra. Qed.

Lemma head_on_ext dim gamma U V U' V' N : (dim = 2 \/ dim = 3)%Z -> (forall i, (0 <= i < dim + 2)%Z -> U i = U' i) -> (forall i, (0 <= i < dim + 2)%Z -> V i = V' i) ->
  head_on dim gamma U V N -> head_on dim gamma U' V' N.
Proof.
  intros D HU HV.
  assert (K : forall A B, (forall i, (0 <= i < dim + 2)%Z -> A i = B i) -> sound dim gamma A = sound dim gamma B /\ vdot dim (velocity A) (fun i => N i / vlen dim N) = vdot dim (velocity B) (fun i => N i / vlen dim N)).
  { intros A B E. assert (E0 : density A = density B) by (unfold density; apply E; lia).
    assert (EM : forall i, (0 <= i < dim)%Z -> momentum A i = momentum B i) by (intros i Hi; unfold momentum; apply E; lia).
    assert (EV : forall i, (0 <= i < dim)%Z -> velocity A i = velocity B i) by (intros i Hi; unfold velocity; rewrite E0, EM by lia; reflexivity).
    split.
    - unfold sound. f_equal. f_equal; [|now rewrite E0]. f_equal. unfold pressure, energy. rewrite E0, (E (dim + 1)%Z) by lia. f_equal. f_equal. f_equal. f_equal.
      unfold vdot. apply rsum_ext. intros i Hi. now rewrite EV.
    - unfold vdot. apply rsum_ext. intros i Hi. now rewrite EV. }
  intros (H1 & H2). destruct (K U U' HU) as (A1 & A2), (K V V' HV) as (B1 & B2). unfold head_on. rewrite <- A1, <- A2, <- B1, <- B2. split; assumption.
Qed.

Lemma uniform_calm s m bt p S nq2 P2 W2 fp turn u dt : ready s bt p 1 m -> (1 <= p)%Z -> 1 < sc_gamma S ->
  volume_quadrature s (2 * p) zero2 zero1 = Ok (nq2, P2, W2) ->
  sc_shape S = s -> sc_nb S = nfun bt p -> sc_fval S = (fun k q i => basis_fn bt p i (face_at s k (fp q))) ->
  (forall f sd, (0 <= f < gm_nIF m)%Z -> (0 <= side_elem m f sd < gm_num_elems m)%Z) ->
  (forall f q, (0 <= f < gm_nIF m)%Z -> vdot (space_dim s) (sc_normal S f q) (sc_normal S f q) <> 0) ->
  admissible (space_dim s) (sc_gamma S) u ->
  dg_calm turn s m bt p S (fun e i j => rsum nq2 (fun q => W2 q * jac_det s 1 (elem_nodes m e) (P2 q) * basis_fn bt p i (P2 q) * basis_fn bt p j (P2 q)))
    (fun _ k => u k) [(ForwardEuler, dt)].
Proof.
  intros RD Hp Gm EQ2 E1 E2 E4 RG NZ AD. pose proof RD as [Hg Fit Un BF Op Sup].
  assert (D23 : (space_dim s = 2 \/ space_dim s = 3)%Z) by (destruct s; cbn; lia).
  assert (ONE : forall y k, rsum (nfun bt p) (fun j => basis_fn bt p j y * (ones bt j * u k)) = u k).
  { intros y k. transitivity (rsum (nfun bt p) (fun j => (ones bt j * basis_fn bt p j y) * u k)); [apply rsum_ext; intros; ring|]. rewrite rsum_scal_r, ones_sum by (auto; lia). ring. }
  intros iM c0 HI (nq & P & W & EQ & PJ). replace (Z.max p 1) with p in EQ by lia. rewrite EQ2 in EQ. injection EQ as <- <- <-.
  split; [|exact Logic.I]. constructor; [|constructor].
  assert (C0 : forall e j k, (0 <= e < gm_num_elems m)%Z -> (0 <= j < nfun bt p)%Z -> (0 <= k < space_dim s + 2)%Z -> c0 e j k = ones bt j * u k).
  { intros e j k He Hj Hk. revert j Hj. apply (solves_unique (nfun bt p) _ (iM e) (fun j => c0 e j k) (fun j => ones bt j * u k) (HI e He)).
    intros i Hi. rewrite (PJ e i k He Hi Hk).
    rewrite (rsum_ext (nfun bt p) _ (fun j => rsum nq2 (fun q => W2 q * jac_det s 1 (elem_nodes m e) (P2 q) * basis_fn bt p i (P2 q) * (basis_fn bt p j (P2 q) * (ones bt j * u k)))))
      by (intros; rewrite <- rsum_scal_r; apply rsum_ext; intros; ring).
    rewrite rsum_swap. apply rsum_ext. intros q Hq. rewrite rsum_scal, ONE. reflexivity. }
  assert (TR : forall e k q i, (0 <= e < gm_num_elems m)%Z -> (0 <= i < space_dim s + 2)%Z -> dg_trace S c0 e k q i = u i).
  { intros e k q i He Hi. unfold dg_trace. rewrite E2, E4. rewrite (rsum_ext _ _ (fun j => basis_fn bt p j (face_at s k (fp q)) * (ones bt j * u i))); [apply ONE|].
    intros j Hj. now rewrite (C0 e j i He Hj Hi). }
  intros f q Hf Hq _. cbv zeta. rewrite E1.
  split; [|split; [|split]].
  - apply (admissible_ext _ _ u); [exact D23| |exact AD]. intros i Hi. symmetry. apply TR; auto.
  - apply (admissible_ext _ _ u); [exact D23| |exact AD]. intros i Hi. symmetry. apply TR; auto.
  - now apply NZ.
  - intros H. apply (same_not_head_on (space_dim s) (sc_gamma S) u (sc_normal S f q) D23 Gm AD).
    revert H. apply head_on_ext; auto.
Qed.

Lemma uniform_quad_calm m bt p gamma ft turn u dt : mesh_wf m -> good_quads m -> basis_for EQuad bt -> supported bt p -> order_ok p -> (1 <= p)%Z -> 1 < gamma -> admissible 2 gamma u ->
  quad_calm turn m bt p gamma ft (fun _ k => u k) [(ForwardEuler, dt)].
Proof.
  intros MW [FV FD SQ CF Hne Hall] BF Sup Op Hp Gm AD. assert (RD : ready EQuad bt p 1 m) by (constructor; auto; [lia|apply SQ|now apply convex_untangled]). unfold order_ok in Op.
  destruct (volume_rule EQuad p ltac:(split; lia)) as (x & xw & _ & A). destruct (A zero2 zero1) as (P & W & EQ & _).
  destruct (volume_rule EQuad (2 * p) ltac:(split; lia)) as (x2 & xw2 & _ & A2). destruct (A2 zero2 zero1) as (P2 & W2 & EQ2 & _).
  destruct (face_rule EQuad p ltac:(lia) ltac:(lia) ltac:(lia)) as (fx & fxw & fp & fw & _ & _ & EF).
  assert (E1 : (face_rule_points EQuad p ^ (space_dim EQuad - 1))%Z = (p + 1)%Z) by (cbn [face_rule_points space_dim]; change (2 - 1)%Z with 1%Z; apply Z.pow_1_r).
  rewrite E1 in EF.
  set (nq := ((p + 2) ^ space_dim EQuad)%Z) in *. set (nq2 := ((2 * p + 2) ^ space_dim EQuad)%Z) in *.
  exists nq, P, W, fp, fw, nq2, P2, W2. split; [exact EQ|]. split; [exact EF|]. split; [exact EQ2|].
  refine (uniform_calm EQuad m bt p (quad_scheme bt p m gamma ft nq P W (p + 1) fp fw) nq2 P2 W2 fp turn u dt RD Hp Gm EQ2 eq_refl eq_refl eq_refl _ _ AD).
  - intros f sd Hf. pose proof (sides_of _ _ m _ (one_rank m MW) f sd Hf) as HS. exact (proj2 (proj2 (side_nonneg _ _ m _ (one_rank m MW) _ _ _ _ _ HS))).
  - intros f q Hf. exact (edge_normal_nonzero _ _ m _ (one_rank m MW) FV SQ f Hf).
Qed.

Lemma uniform_hex_calm m bt p gamma ft turn u dt : mesh_wf m -> good_hexes m -> basis_for EHex bt -> supported bt p -> order_ok p -> (1 <= p)%Z -> 1 < gamma -> admissible 3 gamma u ->
  hex_calm turn m bt p gamma ft (fun _ k => u k) [(ForwardEuler, dt)].
Proof.
  intros MW [FV FD FH CF Hne Hall] BF Sup Op Hp Gm AD. assert (RD : ready EHex bt p 1 m) by (constructor; auto; [lia|apply FH|apply FH]). unfold order_ok in Op.
  destruct (volume_rule EHex p ltac:(split; lia)) as (x & xw & _ & A). destruct (A zero2 zero1) as (P & W & EQ & _).
  destruct (volume_rule EHex (2 * p) ltac:(split; lia)) as (x2 & xw2 & _ & A2). destruct (A2 zero2 zero1) as (P2 & W2 & EQ2 & _).
  destruct (face_rule EHex p ltac:(lia) ltac:(lia) ltac:(lia)) as (fx & fxw & fp & fw & _ & _ & EF). rewrite hex_points in EF.
  set (nq := ((p + 2) ^ space_dim EHex)%Z) in *. set (nq2 := ((2 * p + 2) ^ space_dim EHex)%Z) in *.
  exists nq, P, W, fp, fw, nq2, P2, W2. split; [exact EQ|]. split; [exact EF|]. split; [exact EQ2|].
  refine (uniform_calm EHex m bt p (hex_scheme bt p m gamma ft nq P W ((p + 2) * (p + 2)) fp fw) nq2 P2 W2 fp turn u dt RD Hp Gm EQ2 eq_refl eq_refl eq_refl _ _ AD).
  - intros f sd Hf. pose proof (sides_of _ _ m _ (one_rank m MW) f sd Hf) as HS. exact (proj2 (proj2 (side_nonneg _ _ m _ (one_rank m MW) _ _ _ _ _ HS))).
  - intros f q Hf. pose proof (sides_of _ _ m _ (one_rank m MW) f false Hf) as HS. exact (flat_nonzero m FH f _ _ _ HS).
Qed.

(** The four quadrilaterals of C71 with elements, faces and nodes numbered
    backwards, and the sides of all faces exchanged. *)
Definition demo_back : gmesh R :=
  mkGMesh 2 4 9 4 4 [4;3;1;0; 5;4;2;1; 7;6;4;3; 8;7;5;4]%Z
    [[20;20];[10;20];[0;20];[20;10];[11;9];[0;10];[20;0];[10;0];[0;0]]
    [[0;0;1;2;2;0]; [1;0;1;3;2;0]; [0;3;1;1;1;0]; [2;3;1;3;1;0]]%Z.
Definition back_file : mesh_file R :=
  mkMeshFile 2 1 4 9 4 4 (Some 2%Z) [20;20; 10;20; 0;20; 20;10; 11;9; 0;10; 20;0; 10;0; 0;0]
    [4;3;1;0; 5;4;2;1; 7;6;4;3; 8;7;5;4]%Z [0;0;1;2;2;0; 1;0;1;3;2;0; 0;3;1;1;1;0; 2;3;1;3;1;0]%Z (fun _ => None).
Definition back_meshes (name : string) : option (mesh_file R) := if String.eqb name "mesh.h5" then Some back_file else None.
Definition backward (x : Z) : Z := (3 - x)%Z.

Lemma back_wf : mesh_file_wf [] back_file.
Proof.
  assert (RN : forall l k v (P : Z -> Prop), List.Forall P l -> rd l k = Ok v -> P v).
  { intros l k v P F E. rewrite Forall_forall in F. apply F. eapply rd_In; eassumption. }
  constructor; try (cbn -[IZR]; lia); try reflexivity.
  - change UINT_MAX with 4294967295%Z. cbn. lia.
  - change UINT_MAX with 4294967295%Z. cbn. lia.
  - change UINT_MAX with 4294967295%Z. cbn. lia.
  - change UINT_MAX with 4294967295%Z. cbn. lia.
  - intros k v. apply (RN _ k v (fun v => (0 <= v < 9)%Z)). cbn. repeat constructor; lia.
  - intros k v. apply (RN _ k v (fun v => (0 <= v)%Z)). cbn. repeat constructor; lia.
  - intros f s v Hf Hs. change (mf_niface back_file) with 4%Z in Hf.
    four f; destruct Hs as [-> | ->]; intros E; vm_compute in E; injection E as <-; reflexivity.
  - intros e He. change (mf_nelem back_file) with 4%Z in He. four e; vm_compute; discriminate.
  - intros e rows He F. inversion F; subst. cbn. lia.
Qed.

Lemma back_reads : reads case_inputs back_meshes ["solver"; "-input"; "case.toml"] case_input demo_back.
Proof.
  exists "case.toml", "mesh.h5", back_file. eexists. split; [reflexivity|]. split; [reflexivity|]. split; [reflexivity|]. split; [reflexivity|]. split; [exact back_wf|].
  split; [cbv -[IZR]; reflexivity|reflexivity].
Qed.

Lemma back_nodes x : (0 <= x < gm_num_nodes demo_back)%Z -> in_some_element demo_back x.
Proof.
  intros Hx. change (gm_num_nodes demo_back) with 9%Z in Hx.
  assert (C : (x = 0 \/ x = 1 \/ x = 2 \/ x = 3 \/ x = 4 \/ x = 5 \/ x = 6 \/ x = 7 \/ x = 8)%Z) by lia.
  assert (K : forall e j, (0 <= e < 4)%Z -> (0 <= j < 4)%Z -> rd (gm_eind demo_back) (e * 4 + j) = Ok x -> in_some_element demo_back x) by (intros e j He Hj E; exists e, j; auto).
  destruct C as [->|[->|[->|[->|[->|[->|[->|[->| ->]]]]]]]];
    [apply (K 0 3)%Z|apply (K 0 2)%Z|apply (K 1 2)%Z|apply (K 0 1)%Z|apply (K 0 0)%Z|apply (K 1 0)%Z|apply (K 2 1)%Z|apply (K 2 0)%Z|apply (K 3 0)%Z]; reflexivity || lia.
Qed.

Lemma back_fits : mesh_fits EQuad 1 demo_back.
Proof. split; reflexivity. Qed.

Lemma backward_perm : Permutation (map backward (zseq 4)) (zseq 4).
Proof. change (Permutation [3; 2; 1; 0]%Z (rev [3; 2; 1; 0]%Z)). apply Permutation_rev. Qed.

Lemma demo_renumbered : renumbered EQuad demo_rmesh demo_back backward backward (fun _ => true).
Proof.
  constructor; [reflexivity|reflexivity|exact backward_perm|exact backward_perm| |].
  - intros e k d He Hk Hd. change (gm_num_elems demo_rmesh) with 4%Z in He. cbn [corners space_dim] in Hk, Hd. assert (Cd : (d = 0 \/ d = 1)%Z) by lia. four e; four k; destruct Cd as [-> | ->]; reflexivity.
  - intros f sd e k o H. apply demo_sides in H. destruct H as (Hf & H). four f; destruct sd; injection H as -> -> ->; repeat split; reflexivity.
Qed.

Lemma back_intended n : (n = 1 \/ n = 2)%Z -> intended case_metis n demo_back (if (n =? 2)%Z then [0; 1; 0; 1]%Z else [0; 0; 0; 0]%Z).
Proof.
  intros [-> | ->]; [left|right].
  - split; [reflexivity|]. split; [reflexivity|]. intros e He. change (gm_num_elems demo_back) with 4%Z in He. four e; reflexivity.
  - split; [lia|]. split; [reflexivity|]. split; [reflexivity|]. repeat constructor; lia.
Qed.
Lemma back_enough n : (n = 1 \/ n = 2)%Z -> enough_faces demo_back (if (n =? 2)%Z then [0; 1; 0; 1]%Z else [0; 0; 0; 0]%Z) n.
Proof.
  assert (K : forall ep f e r, (rd2 (gm_IF demo_back) f 0 = Ok e \/ rd2 (gm_IF demo_back) f 3 = Ok e) -> rd ep e = Ok r -> face_touches demo_back ep f r) by (intros ep f e r H O; exists e; split; [exact H|exact O]).
  assert (T : forall a b c : Z, a <> b -> a <> c -> b <> c -> NoDup [a; b; c]).
  { intros a b c H1 H2 H3. constructor; [cbn; intuition congruence|]. constructor; [cbn; intuition congruence|]. constructor; [cbn; tauto|constructor]. }
  intros [-> | ->] r Hr.
  - exists [0; 1; 2]%Z. split; [apply T; lia|]. split; [cbn; lia|]. assert (r = 0)%Z as -> by lia. intros f [<-|[<-|[<-|[]]]]; eapply K; try (now left); reflexivity.
  - assert (C : (r = 0 \/ r = 1)%Z) by lia. destruct C as [-> | ->].
    + exists [0; 2; 3]%Z. split; [apply T; lia|]. split; [cbn; lia|]. intros f [<-|[<-|[<-|[]]]]; eapply K; try (now left); reflexivity.
    + exists [1; 2; 3]%Z. split; [apply T; lia|]. split; [cbn; lia|]. intros f [<-|[<-|[<-|[]]]]; [apply (K _ _ 1%Z)|apply (K _ _ 1%Z)|apply (K _ _ 3%Z)]; try reflexivity; (now left) || (now right).
Qed.

(** The whole program, on the two mesh files, on one rank and on two: it runs to
    completion, and what it writes for an element of the one mesh it writes for the
    corresponding element of the other. *)
Example C93_demo : forall n n', (n = 1 \/ n = 2)%Z -> (n' = 1 \/ n' = 2)%Z -> exists c c',
  program case_inputs case_meshes ["solver"; "-input"; "case.toml"] case_metis n (Ok (solution_file demo_rmesh 9 4 (INR 1 * B2R (cf_dt case_config)) c)) /\
  program case_inputs back_meshes ["solver"; "-input"; "case.toml"] case_metis n' (Ok (solution_file demo_back 9 4 (INR 1 * B2R (cf_dt case_config)) c')) /\
  forall e j k, (0 <= e < 4)%Z -> (0 <= j < 9)%Z -> (0 <= k < 4)%Z -> c' (3 - e)%Z j k = c e j k.
Proof.
  intros n n' Hn Hn'.
  destruct C84_demo as (H1 & H2 & H3 & H4 & H5 & H6 & H7 & H8 & H9 & H10 & H11 & H12 & H13 & H14 & H15 & H16 & H17 & _).
  pose proof (C93_good_quads _ _ _ _ _ (reads_wf _ _ _ _ _ H1) (reads_wf _ _ _ _ _ back_reads) demo_renumbered H11 back_fits back_nodes) as GB.
  assert (AD : admissible 2 2 (ph_IC (cf_phys case_config))).
  { rewrite case_phys. unfold admissible, pressure, density, energy, vdot, velocity, momentum. rewrite rsum_2. unfold density. cbn. lra. }
  destruct (case_program n Hn) as (g & PG).
  assert (PB : exists g', program case_inputs back_meshes ["solver"; "-input"; "case.toml"] case_metis n' g').
  { apply (C86_completes case_inputs back_meshes ["solver"; "-input"; "case.toml"] case_metis n' case_input demo_back case_config 1 (fun _ k => ph_IC (cf_phys case_config) k)
      (if (n' =? 2)%Z then [0; 1; 0; 1]%Z else [0; 0; 0; 0]%Z)); auto; try lia.
    - exact back_reads.
    - intros q Q; discriminate Q.
    - destruct Hn' as [-> | ->]; assumption.
    - now apply back_intended.
    - now apply back_enough.
    - left. split; [reflexivity|]. split; [exact GB|]. split; [exact H12|]. apply uniform_quads; auto. cbn; lia. }
  destruct PB as (g' & PB).
  assert (MB : metis_valid case_metis demo_back n').
  { intros ep N2 E. destruct Hn' as [-> | ->]; [lia|]. injection E as <-. split; [reflexivity|]. repeat constructor; lia. }
  destruct (C93_program_quads case_inputs case_meshes ["solver"; "-input"; "case.toml"] case_metis n case_input demo_rmesh
      case_inputs back_meshes ["solver"; "-input"; "case.toml"] case_metis n' case_input demo_back case_config 1 _ backward backward (fun _ => true) g g'
      ltac:(lia) H1 H2 H3 ltac:(destruct Hn as [-> | ->]; assumption) ltac:(destruct Hn as [-> | ->]; assumption)
      ltac:(lia) back_reads H2 H3 ltac:(destruct Hn' as [-> | ->]; assumption) MB H4 H5 H10 H11 back_fits back_nodes H12 H13 H14 H15 H16 H17 ltac:(split; reflexivity) demo_renumbered) as (c & c' & -> & -> & EC); auto.
  { right; right. apply uniform_quad_calm; auto; [exact (reads_wf _ _ _ _ _ H1)|cbn; lia]. }
  exists c, c'. split; [exact PG|]. split; [exact PB|]. exact EC.
Qed.
Print Assumptions C93_demo.

(** The four cubes likewise. *)
Definition cubes_back : gmesh R :=
  mkGMesh 3 4 18 4 8
    [13;12;10;9;4;3;1;0; 14;13;11;10;5;4;2;1; 16;15;13;12;7;6;4;3; 17;16;14;13;8;7;5;4]%Z
    [[2;2;1];[1;2;1];[0;2;1];[2;1;1];[1;1;1];[0;1;1];[2;0;1];[1;0;1];[0;0;1];[2;2;0];[1;2;0];[0;2;0];[2;1;0];[1;1;0];[0;1;0];[2;0;0];[1;0;0];[0;0;0]]
    [[0;1;5;2;3;0]; [1;1;5;3;3;0]; [0;4;5;1;2;0]; [2;4;5;3;2;0]]%Z.
Definition cubes_back_file : mesh_file R :=
  mkMeshFile 3 1 4 18 4 8 (Some 4%Z)
    [2;2;1; 1;2;1; 0;2;1; 2;1;1; 1;1;1; 0;1;1; 2;0;1; 1;0;1; 0;0;1; 2;2;0; 1;2;0; 0;2;0; 2;1;0; 1;1;0; 0;1;0; 2;0;0; 1;0;0; 0;0;0]
    (gm_eind cubes_back) (List.concat (gm_IF cubes_back)) (fun _ => None).
Definition cubes_back_meshes (name : string) : option (mesh_file R) := if String.eqb name "mesh.h5" then Some cubes_back_file else None.

Lemma cubes_back_wf : mesh_file_wf [] cubes_back_file.
Proof.
  assert (RN : forall l k v (P : Z -> Prop), List.Forall P l -> rd l k = Ok v -> P v).
  { intros l k v P F E. rewrite Forall_forall in F. apply F. eapply rd_In; eassumption. }
  constructor; try (cbn -[IZR]; lia); try reflexivity.
  - change UINT_MAX with 4294967295%Z. cbn. lia.
  - change UINT_MAX with 4294967295%Z. cbn. lia.
  - change UINT_MAX with 4294967295%Z. cbn. lia.
  - change UINT_MAX with 4294967295%Z. cbn. lia.
  - intros k v. apply (RN _ k v (fun v => (0 <= v < 18)%Z)). cbn. repeat constructor; lia.
  - intros k v. apply (RN _ k v (fun v => (0 <= v)%Z)). cbn. repeat constructor; lia.
  - intros f s v Hf Hs. change (mf_niface cubes_back_file) with 4%Z in Hf.
    four f; destruct Hs as [-> | ->]; intros E; vm_compute in E; injection E as <-; reflexivity.
  - intros e He. change (mf_nelem cubes_back_file) with 4%Z in He. four e; vm_compute; discriminate.
  - intros e rows He F. inversion F; subst. cbn. lia.
Qed.

Lemma cubes_back_reads : reads cube_inputs cubes_back_meshes ["solver"; "-input"; "case.toml"] cube_input cubes_back.
Proof.
  exists "case.toml", "mesh.h5", cubes_back_file. eexists. split; [reflexivity|]. split; [reflexivity|]. split; [reflexivity|]. split; [reflexivity|]. split; [exact cubes_back_wf|].
  split; [cbv -[IZR]; reflexivity|reflexivity].
Qed.

Lemma cubes_renumbered : renumbered EHex four_cubes cubes_back backward backward (fun _ => true).
Proof.
  constructor; [reflexivity|reflexivity|exact backward_perm|exact backward_perm| |].
  - intros e k d He Hk Hd. change (gm_num_elems four_cubes) with 4%Z in He. cbn [corners space_dim] in Hk, Hd. assert (Cd : (d = 0 \/ d = 1 \/ d = 2)%Z) by lia.
    assert (Ck : ((0 <= k < 4) \/ (0 <= k - 4 < 4))%Z) by lia. four e; (destruct Ck as [Ck|Ck]; [four k|remember (k - 4)%Z as k' eqn:Ek; assert (k = k' + 4)%Z as -> by lia; four k']); destruct Cd as [-> | [-> | ->]]; reflexivity.
  - intros f sd e k o H. apply cube_sides in H. destruct H as (Hf & _ & H). four f; destruct sd; injection H as -> -> ->; repeat split; reflexivity.
Qed.

Lemma cubes_back_nodes x : (0 <= x < gm_num_nodes cubes_back)%Z -> in_some_element cubes_back x.
Proof.
  intros Hx. change (gm_num_nodes cubes_back) with 18%Z in Hx.
  assert (K : forall y, (0 <= y < 18)%Z -> in_some_element four_cubes y -> in_some_element cubes_back (17 - y)%Z).
  { intros y Hy (e & j & He & Hj & E). exists (3 - e)%Z, j. change (gm_num_elems four_cubes) with 4%Z in He. change (gm_npe four_cubes) with 8%Z in Hj, E.
    split; [change (gm_num_elems cubes_back) with 4%Z; lia|]. split; [exact Hj|]. change (gm_npe cubes_back) with 8%Z.
    assert (Cj : ((0 <= j < 4) \/ (0 <= j - 4 < 4))%Z) by lia.
    four e; (destruct Cj as [Cj|Cj]; [four j|remember (j - 4)%Z as k' eqn:Ek; assert (j = k' + 4)%Z as -> by lia; four k']); injection E as <-; reflexivity. }
  pose proof (K (17 - x)%Z ltac:(lia) (cube_nodes (17 - x) ltac:(lia))) as H. now replace (17 - (17 - x))%Z with x in H by lia.
Qed.

Example C93_hexahedra_demo : exists c c',
  program cube_inputs cube_meshes ["solver"; "-input"; "case.toml"] case_metis 2 (Ok (solution_file four_cubes 8 5 (INR 1 * B2R (cf_dt cube_config)) c)) /\
  program cube_inputs cubes_back_meshes ["solver"; "-input"; "case.toml"] case_metis 1 (Ok (solution_file cubes_back 8 5 (INR 1 * B2R (cf_dt cube_config)) c')) /\
  forall e j k, (0 <= e < 4)%Z -> (0 <= j < 8)%Z -> (0 <= k < 5)%Z -> c' (3 - e)%Z j k = c e j k.
Proof.
  destruct (C86_demo 2 (or_intror eq_refl)) as (_ & H2 & H3 & H4 & H5 & H6 & H7 & _ & _ & H10 & H11 & H12 & H13 & _ & H15 & H16 & H17 & H18 & H19).
  pose proof (C93_good_hexahedra _ _ _ _ _ (reads_wf _ _ _ _ _ H2) (reads_wf _ _ _ _ _ cubes_back_reads) cubes_renumbered H12 ltac:(split; reflexivity) cubes_back_nodes) as GB.
  destruct (cube_program 2 (or_intror eq_refl)) as (g & PG).
  assert (IN : intended case_metis 1 cubes_back [0; 0; 0; 0]%Z).
  { left. split; [reflexivity|]. split; [reflexivity|]. intros e He. change (gm_num_elems cubes_back) with 4%Z in He. four e; reflexivity. }
  assert (EF : enough_faces cubes_back [0; 0; 0; 0]%Z 1).
  { intros r Hr. assert (r = 0)%Z as -> by lia. exists [0; 1; 2]%Z. split; [repeat constructor; cbn; intuition congruence|]. split; [cbn; lia|].
    intros f [<-|[<-|[<-|[]]]]; eexists; (split; [left; reflexivity|reflexivity]). }
  assert (PB : exists g', program cube_inputs cubes_back_meshes ["solver"; "-input"; "case.toml"] case_metis 1 g').
  { apply (C86_completes cube_inputs cubes_back_meshes ["solver"; "-input"; "case.toml"] case_metis 1 cube_input cubes_back cube_config 1 (fun _ k => ph_IC (cf_phys cube_config) k)
      [0; 0; 0; 0]%Z); auto; try lia.
    - exact cubes_back_reads.
    - now left.
    - right. split; [reflexivity|]. split; [exact GB|]. split; [exact H13|]. apply uniform_hexes; auto; [cbn; lia|exact cube_admissible]. }
  destruct PB as (g' & PB).
  assert (MV : metis_valid case_metis four_cubes 2).
  { intros ep N2 E. injection E as <-. split; [reflexivity|]. repeat constructor; lia. }
  assert (MB : metis_valid case_metis cubes_back 1) by (intros ep N2 E; lia).
  destruct (C93_program_hexahedra cube_inputs cube_meshes ["solver"; "-input"; "case.toml"] case_metis 2 cube_input four_cubes
      cube_inputs cubes_back_meshes ["solver"; "-input"; "case.toml"] case_metis 1 cube_input cubes_back cube_config 1 _ backward backward (fun _ => true) g g'
      ltac:(lia) H2 H3 H4 H7 MV ltac:(lia) cubes_back_reads H3 H4 ltac:(now left) MB H11 H5 H10 H12 ltac:(split; reflexivity) cubes_back_nodes H13 H15 H16 H17 H18 H19 ltac:(split; reflexivity) cubes_renumbered)
    as (c & c' & -> & -> & EC); auto.
  { right; right. apply uniform_hex_calm; auto; [exact (reads_wf _ _ _ _ _ H2)|cbn; lia|exact cube_admissible]. }
  exists c, c'. split; [exact PG|]. split; [exact PB|]. exact EC.
Qed.
Print Assumptions C93_hexahedra_demo.
