(** PropHllcDemo.v -- C101 on the cases of C96: a wind across the four quadrilaterals
    of C71, and across four cubes, with the HLLC flux. *)
From Coq Require Import ZArith List Lia Reals Lra String Bool Permutation.
From Coquelicot Require Import Coquelicot.
From Flocq Require Import BinarySingleNaN.
From Verif Require Import Base RBase MeshModel MeshSpec MeshProof PropMesh IOModel PropIO PropOutput.
From Verif Require Import ReadModel PropRead PropCtor UtilModel TimeModel ProgramModel PropProgram.
From Verif Require Import LinAlgModel PropLinAlg BasisModel ShapeModel PropShape SolverModel SolverSpec SolverMesh SolverFlux PhysModel PhysSpec PhysProof PropPhys PropBasis PropSolver PropNormals StepModel PropIntegral PropStep SetupModel SetupSpec SetupProof SetupFaces PropSetup PropMeshRun PropInit PropPost PropResidual DGSpec DGProof PropDG PropHex PropFree PropHexFree PropTime PropWhole PropTotal PropHexCase PropEnd PropRenumber PropSimilar PropSimilarG PropSimilarDemo PropPositive PropPositiveG.
From Verif Require Import PropPositiveDemo HllcPositive PropHllcPositive.
Import ListNotations.
Local Open Scope string_scope.
Local Open Scope Z_scope.
Local Open Scope R_scope.
Open Scope res_scope.


Lemma eighth : B2R (ddiv (dint 1) (dint 8)) = 1 / 8 /\ B2R (ddiv (dint 1) (dint 32)) = 1 / 32.
Proof.
  rewrite <- !SF2R_B2SF.
  replace (B2SF (ddiv (dint 1) (dint 8))) with (SpecFloat.S754_finite false 4503599627370496 (-55)) by (vm_compute; reflexivity).
  replace (B2SF (ddiv (dint 1) (dint 32))) with (SpecFloat.S754_finite false 4503599627370496 (-57)) by (vm_compute; reflexivity).
  unfold SF2R, Defs.F2R. cbn. split; lra.
Qed.

(** The projection of a uniform state is uniform up to factors near the same number. *)
Lemma uniform_sized s m bt S M vol lo hi u c :
  (forall e, (0 <= e < gm_num_elems m)%Z -> M e 0%Z 0%Z = vol e /\ 0 < vol e /\ 0 < lo e /\ forall y, inside s y -> lo e <= jac_det s 1 (elem_nodes m e) y <= hi e) ->
  dg_solution s m bt 0 S M (fun _ k => u k) [] c ->
  exists t, 0 < t /\ forall e, (0 <= e < gm_num_elems m)%Z -> exists r, lo e * t <= r * vol e <= hi e * t /\ forall k, (0 <= k < space_dim s + 2)%Z -> c e 0%Z k = r * u k.
Proof.
  intros HM (iM & c0 & _ & (nq & P & W & EQ & H) & Hc). change (2 * Z.max 0 1)%Z with 2%Z in EQ.
  destruct (volume_rule s 2 ltac:(split; lia)) as (x & w & G & A). destruct (A zero2 zero1) as (P' & W' & EQ' & TR). change (2 + 2)%Z with 4%Z in *.
  set (np := (4 ^ space_dim s)%Z) in *. rewrite EQ in EQ'. injection EQ' as -> -> ->.
  assert (PI : forall q, (0 <= q < np)%Z -> inside s (P' q) /\ 0 < W' q) by (intros q Hq; exact (rule_inside s 4 x w P' W' _ _ G ltac:(lia) TR q Hq)).
  exists (rsum np W'). split; [apply rsum_pos; [unfold np; destruct s; reflexivity|]; intros q Hq; now apply PI|].
  intros e He. destruct (HM e He) as (ME & V & L0 & J).
  exists (rsum np (fun q => W' q * jac_det s 1 (elem_nodes m e) (P' q)) / vol e). split.
  - replace (rsum np (fun q => W' q * jac_det s 1 (elem_nodes m e) (P' q)) / vol e * vol e) with (rsum np (fun q => W' q * jac_det s 1 (elem_nodes m e) (P' q))) by (field; lra).
    rewrite <- !rsum_scal. split; apply rsum_le; intros q Hq; destruct (PI q Hq) as (I1 & I2); destruct (J _ I1); nra.
  - intros k Hk. rewrite nfun0 in *. rewrite Hc by (auto; lia). cbn [dg_march fold_left]. specialize (H e 0%Z k He ltac:(lia) Hk). rewrite rsum_1, ME in H.
    apply (Rmult_eq_reg_l (vol e)); [|lra]. change (dg_march S m iM [] c0) with c0. rewrite H.
    rewrite (rsum_ext np _ (fun q => (W' q * jac_det s 1 (elem_nodes m e) (P' q)) * u k)) by (intros; rewrite basis0; ring). rewrite rsum_scal_r. field. lra.
Qed.

(** Waves between multiples of the same state. *)
Lemma scaled_waves dim g u r r' K U V n : (dim = 2 \/ dim = 3)%Z -> 1 < g -> admissible dim g u -> vdot dim n n = 1 -> 0 < r -> 0 < r' -> 1 <= K -> r' <= K * r -> r <= K * r' ->
  (forall k, (0 <= k < dim + 2)%Z -> U k = r * u k) -> (forall k, (0 <= k < dim + 2)%Z -> V k = r' * u k) ->
  Rmax (Rabs (wave_L dim g U V n)) (Rabs (wave_R dim g U V n)) <= K * max_speed dim g u.
Proof.
  intros D G A N1 Hr Hr' HK K1 K2 HU HV. pose proof A as (R0 & P0). pose proof (sound_pos dim g u G A) as S0.
  assert (SC : forall r W, 0 < r -> (forall k, (0 <= k < dim + 2)%Z -> W k = r * u k) -> un dim W n = un dim u n /\ sound dim g W = sound dim g u /\ pressure dim g W = r * pressure dim g u).
  { intros a W Ha H. assert (ED : density W = a * density u) by (unfold density; apply H; lia).
    assert (EV : forall i, (0 <= i < dim)%Z -> velocity W i = velocity u i).
    { intros i Hi. unfold velocity. rewrite ED. unfold momentum. rewrite H by lia. field. split; lra. }
    assert (EE : vdot dim (velocity W) (velocity W) = vdot dim (velocity u) (velocity u)) by (apply vdot_ext; intros; now rewrite EV).
    assert (EP : pressure dim g W = a * pressure dim g u) by (unfold pressure; rewrite EE, ED; unfold energy; rewrite H by lia; field).
    split; [unfold un; apply vdot_ext; intros; now rewrite ?EV|]. split; [|exact EP]. unfold sound. rewrite EP, ED. f_equal. field. split; lra. }
  destruct (SC r U Hr HU) as (U1 & U2 & U3), (SC r' V Hr' HV) as (V1 & V2 & V3).
  assert (PS : p_star dim g U V n = (r + r') / 2 * pressure dim g u).
  { unfold p_star. rewrite U1, V1, U3, V3. rewrite Rmax_right; [field|]. replace (un dim u n - un dim u n) with 0 by ring. nra. }
  assert (Q : forall a b, 0 < a -> b <= K * a -> q_factor g ((a + b) / 2 * pressure dim g u) (a * pressure dim g u) <= K).
  { intros a b Ha Hb. unfold q_factor. destruct (Rle_dec _ _); [exact HK|]. rewrite <- (sqrt_square K) by lra. apply sqrt_le_1_alt.
    assert (E : (a + b) / 2 * pressure dim g u / (a * pressure dim g u) - 1 = (b / a - 1) / 2) by (field; split; lra). rewrite E.
    assert (B : b / a <= K) by (apply (Rmult_le_reg_r a); [exact Ha|]; replace (b / a * a) with b by (field; lra); exact Hb).
    assert (C : 0 < (g + 1) / (2 * g) <= 1).
    { split; [apply Rdiv_lt_0_compat; lra|]. apply (Rmult_le_reg_r (2 * g)); [lra|]. replace ((g + 1) / (2 * g) * (2 * g)) with (g + 1) by (field; lra). lra. }
    apply Rle_trans with (1 + (K - 1) / 2); [|nra]. apply Rplus_le_compat_l. apply Rle_trans with ((g + 1) / (2 * g) * ((K - 1) / 2)); [apply Rmult_le_compat_l; lra|].
    rewrite <- (Rmult_1_l ((K - 1) / 2)) at 2. apply Rmult_le_compat_r; lra. }
  pose proof (Q r r' Hr K1) as Q1. pose proof (Q r' r Hr' K2) as Q2. rewrite (Rplus_comm r' r) in Q2.
  pose proof (q_factor_ge1 g ((r + r') / 2 * pressure dim g u) (r * pressure dim g u) G ltac:(nra)) as Q3.
  pose proof (q_factor_ge1 g ((r + r') / 2 * pressure dim g u) (r' * pressure dim g u) G ltac:(nra)) as Q4.
  pose proof (cauchy dim (velocity u) n D) as CS. unfold vlen in CS at 2. rewrite N1, sqrt_1, Rmult_1_r in CS. fold (un dim u n) in CS. apply Rabs_le_between in CS.
  unfold wave_L, wave_R. rewrite PS, U1, U2, U3, V1, V2, V3. set (qa := q_factor _ _ _) in *. set (qb := q_factor _ _ (r' * _)) in *.
  unfold max_speed. assert (V0 : 0 <= vlen dim (velocity u)) by apply sqrt_pos. set (s := sound dim g u) in *.
  assert (s * qa <= s * K) by nra. assert (s * qb <= s * K) by nra.
  apply Rmax_lub; apply Rabs_le_between; split; nra.
Qed.

(** ** Quadrilaterals *)

Definition gust_input : input :=
  mkInput (Some 2%Z) (Some 0%Z) (Some "LagrangeQuad") None (Some "mesh.h5") false None None (Some "Uniform") (Some [1;5;0;20])
    (Some "Euler") (Some "HLLC") (Some 2) (Some 1) None (Some (ddiv (dint 1) (dint 8))) (Some (ddiv (dint 1) (dint 8))).
Definition gust_config : config :=
  mkConfig 2 LagrangeQuad 0 Uniform Euler HLLC (Build_phys 2 1 (of_list [1;5;0;20])) ForwardEuler (ddiv (dint 1) (dint 8)) (ddiv (dint 1) (dint 8)).
Definition gust_inputs (name : string) : option input := if String.eqb name "case.toml" then Some gust_input else None.

Lemma gust_asks : asks_for gust_input gust_config.
Proof. constructor; try reflexivity; try (now left); try (now right). - exists [1;5;0;20]. auto. - intros _. split; now left. Qed.
Lemma gust_data : enough_data gust_input gust_config.
Proof. intros data E. injection E as <-. cbn [cf_ic gust_config cf_dim]. unfold zlen. cbn [List.length]. lia. Qed.
Lemma gust_admissible : admissible 2 2 (ph_IC (cf_phys gust_config)).
Proof. unfold admissible, pressure, density, energy, vdot, velocity, momentum, density. rewrite rsum_2. unfold density. cbv -[IZR Rplus Rmult Rminus Rdiv Rlt]. split; lra. Qed.

Lemma gust_reads : reads gust_inputs case_meshes ["solver"; "-input"; "case.toml"] gust_input demo_rmesh.
Proof.
  exists "case.toml", "mesh.h5", case_file. eexists. split; [reflexivity|]. split; [reflexivity|]. split; [reflexivity|]. split; [reflexivity|]. split; [exact case_wf|].
  split; [cbv -[IZR]; reflexivity|reflexivity].
Qed.

Lemma gust_speed : max_speed 2 2 (ph_IC (cf_phys gust_config)) < 89 / 10.
Proof.
  unfold max_speed, vlen, sound, pressure, density, energy, vdot, velocity, momentum, density. rewrite rsum_2. unfold density.
  cbv -[IZR Rplus Rmult Rminus Rdiv Rlt sqrt]. 
  apply Rlt_le_trans with (501 / 100 + 388 / 100); [|lra]. apply Rplus_lt_compat; apply sqrt_below; lra.
Qed.

(** Sizes of the area element. *)
Definition gust_lo (e : Z) : R := if (e =? 1)%Z then 90 / 4 - 4 else if (e =? 2)%Z then 110 / 4 - 4 else 25 - 4.
Definition gust_hi (e : Z) : R := if (e =? 1)%Z then 90 / 4 + 4 else if (e =? 2)%Z then 110 / 4 + 4 else 25 + 4.
Lemma gust_jac e y : (0 <= e < 4)%Z -> inside EQuad y -> gust_lo e <= jac_det EQuad 1 (elem_nodes demo_rmesh e) y <= gust_hi e.
Proof.
  intros He Hy. pose proof (Hy 0%Z ltac:(cbn; lia)) as Y0. pose proof (Hy 1%Z ltac:(cbn; lia)) as Y1. set (a := y 0%Z) in *. set (b := y 1%Z) in *.
  unfold jac_det, small_det. cbn [space_dim Z.eqb Pos.eqb]. unfold det2, minor2.
  rewrite !(proj1 (jacobian_bilinear _ _ _)), !(proj2 (jacobian_bilinear _ _ _)). fold a b. unfold gust_lo, gust_hi.
  four e; cbv -[IZR Rplus Rmult Rminus Rdiv Rlt Rle a b]; split; nra.
Qed.

Lemma gust_cfl k c : (k < 1)%nat -> quad_solution demo_rmesh LagrangeQuad 0 2 HLLC (fun _ k => ph_IC (cf_phys gust_config) k) (repeat (ForwardEuler, B2R (ddiv (dint 1) (dint 8))) k) c ->
  cfl_by (hllc_speed 2 2 demo_rmesh (edge_normal demo_rmesh) c) demo_rmesh (quad_area demo_rmesh) (edge_length demo_rmesh) (B2R (ddiv (dint 1) (dint 8))).
Proof.
  intros Hk (nq & P & W & fp & fw & nq2 & P2 & W2 & EQ & EF & EQ2 & H). replace k with O in H by lia. cbn [repeat] in H.
  destruct draft_areas as (A0 & A1 & A2 & A3). destruct draft_lengths as (L0 & L1 & L2 & L3). pose proof draft_lengths_pos as LP. pose proof gust_speed as SP.
  assert (AR : forall e, (0 <= e < gm_num_elems demo_rmesh)%Z -> PropDG.mass_matrix LagrangeQuad 0 demo_rmesh nq2 P2 W2 e 0%Z 0%Z = quad_area demo_rmesh e /\ 0 < quad_area demo_rmesh e /\
    0 < gust_lo e /\ forall y, inside EQuad y -> gust_lo e <= jac_det EQuad 1 (elem_nodes demo_rmesh e) y <= gust_hi e).
  { intros e He. split; [|split; [|split; [|intros y Hy; now apply gust_jac]]].
    - rewrite <- (shoelace demo_rmesh e nq2 P2 W2 EQ2). unfold PropDG.mass_matrix. apply rsum_ext. intros q Hq. rewrite !basis0. ring.
    - change (gm_num_elems demo_rmesh) with 4%Z in He. four e; lra.
    - unfold gust_lo. destruct (e =? 1)%Z; [lra|]. destruct (e =? 2)%Z; lra. }
  destruct demo_straight as (SQ & CF & FV & FD).
  destruct (uniform_sized EQuad demo_rmesh LagrangeQuad _ _ (quad_area demo_rmesh) gust_lo gust_hi (ph_IC (cf_phys gust_config)) c AR H) as (t & Ht & U). clear AR H EQ EF EQ2.
  assert (UU : forall e, (0 <= e < 4)%Z -> exists r, 3 / 4 * t <= 4 * r <= 5 / 4 * t /\ forall k, (0 <= k < 4)%Z -> c e 0%Z k = r * ph_IC (cf_phys gust_config) k).
  { intros e He. destruct (U e He) as (r & B & R). exists r. split; [|exact R]. unfold gust_lo, gust_hi in B. four e; cbn [Z.eqb Pos.eqb] in B; rewrite ?A0, ?A1, ?A2, ?A3 in B; lra. }
  set (u := ph_IC (cf_phys gust_config)) in *.
  assert (FS : forall f, (0 <= f < 4)%Z -> hllc_speed 2 2 demo_rmesh (edge_normal demo_rmesh) c f <= 3 * max_speed 2 2 u).
  { intros f Hf. assert (RG : forall sd, (0 <= side_elem demo_rmesh f sd < 4)%Z) by (intros sd; four f; destruct sd; vm_compute; split; congruence).
    destruct (UU _ (RG false)) as (r & Br & HU), (UU _ (RG true)) as (r' & Br' & HV).
    assert (D0 : density u <> 0) by (cbv -[IZR]; lra).
    assert (X1 : max_speed 2 2 (c (side_elem demo_rmesh f false) 0%Z) = max_speed 2 2 u) by (apply (speed_scale 2 2 r); [now left|lra|exact D0|exact HU]).
    assert (X2 : max_speed 2 2 (c (side_elem demo_rmesh f true) 0%Z) = max_speed 2 2 u) by (apply (speed_scale 2 2 r'); [now left|lra|exact D0|exact HV]).
    assert (HN : vdot 2 (edge_normal demo_rmesh f) (edge_normal demo_rmesh f) <> 0) by exact (edge_normal_nonzero _ _ demo_rmesh _ (one_rank demo_rmesh (reads_wf _ _ _ _ _ gust_reads)) FV SQ f Hf).
    unfold hllc_speed, face_speed. cbv zeta. rewrite X1, X2, Rmax_left by lra.
    replace (3 * max_speed 2 2 u) with (max_speed 2 2 u + 2 * max_speed 2 2 u) by ring. apply Rplus_le_compat_l.
    apply (scaled_waves 2 2 u r r' 2 _ _ _); [now left|lra|exact gust_admissible|now apply unit_normal|lra|lra|lra|lra|lra|exact HU|exact HV]. }
  set (lam := max_speed 2 2 u) in *. set (sp := hllc_speed 2 2 demo_rmesh (edge_normal demo_rmesh) c) in *. clearbody lam sp. intros e He. change (gm_num_elems demo_rmesh) with 4%Z in He.
  rewrite (proj1 eighth). unfold around. change (gm_nIF demo_rmesh) with 4%Z. rewrite rsum_4. pose proof (LP 0%Z). pose proof (LP 1%Z). pose proof (LP 2%Z). pose proof (LP 3%Z).
  assert (B : forall f b, (0 <= f < 4)%Z -> 0 <= edge_length demo_rmesh f -> edge_length demo_rmesh f < b -> edge_length demo_rmesh f * sp f <= b * (267 / 10)).
  { intros f b Hf H3 H4. pose proof (FS f Hf). destruct (Rle_or_lt 0 (sp f)); [apply Rmult_le_compat; lra|]. apply Rle_trans with 0; nra. }
  pose proof (B 0%Z _ ltac:(lia) (LP 0%Z) L0). pose proof (B 1%Z _ ltac:(lia) (LP 1%Z) L1). pose proof (B 2%Z _ ltac:(lia) (LP 2%Z) L2). pose proof (B 3%Z _ ltac:(lia) (LP 3%Z) L3).
  four e; [rewrite A0|rewrite A1|rewrite A2|rewrite A3];
  repeat match goal with |- context [side_elem demo_rmesh ?f ?sd] => let v := eval vm_compute in (side_elem demo_rmesh f sd) in change (side_elem demo_rmesh f sd) with v end; cbn [Z.eqb Pos.eqb]; lra.
Qed.

(** The program on one or two ranks: it completes, and the states it writes are
    physical and have the totals of the initial state. *)
Example C101_demo : forall n, (n = 1 \/ n = 2)%Z -> exists c0 c,
  quad_solution demo_rmesh LagrangeQuad 0 2 HLLC (fun _ k => ph_IC (cf_phys gust_config) k) [] c0 /\
  program gust_inputs case_meshes ["solver"; "-input"; "case.toml"] case_metis n (Ok (solution_file demo_rmesh 1 4 (INR 1 * B2R (ddiv (dint 1) (dint 8))) c)) /\
  sound_result 2 2 demo_rmesh (quad_area demo_rmesh) c0 c.
Proof.
  intros n Hn. pose proof (proj1 (proj2 (proj2 (proj2 (proj2 (proj2 (proj2 (proj2 (proj2 (proj2 (proj2 C84_demo))))))))))) as GQ.
  assert (MV : metis_valid case_metis demo_rmesh n).
  { intros ep N2 E. destruct Hn as [-> | ->]; [lia|]. injection E as <-. split; [reflexivity|]. repeat constructor; lia. }
  destruct (C101_program_quads gust_inputs case_meshes ["solver"; "-input"; "case.toml"] case_metis n gust_input demo_rmesh gust_config 1 (fun _ k => ph_IC (cf_phys gust_config) k)
      (if (n =? 2)%Z then [0; 1; 0; 1]%Z else [0; 0; 0; 0]%Z) ltac:(lia) gust_reads gust_asks gust_data eq_refl eq_refl ltac:(intros q Q; discriminate Q) ltac:(now left) MV
      (case_intended n Hn) (case_enough n Hn) ltac:(reflexivity) eq_refl eq_refl eq_refl GQ ltac:(now left) ltac:(cbn; lra) ltac:(cbn [cf_dt gust_config]; rewrite (proj1 eighth); lra)
      ltac:(apply uniform_starts; cbn; lia) ltac:(split; reflexivity) ltac:(intros e y _ _; exact gust_admissible) gust_cfl) as (g & PG & c0 & S0 & R).
  destruct (R g PG) as (c & -> & SR). exists c0, c. split; [exact S0|]. split; [exact PG|exact SR].
Qed.
Print Assumptions C101_demo.

(** ** Hexahedra *)

Definition tide_input : input :=
  mkInput (Some 3%Z) (Some 0%Z) (Some "LagrangeHex") None (Some "mesh.h5") false None None (Some "Uniform") (Some [1;3;0;0;10])
    (Some "Euler") (Some "HLLC") (Some 2) (Some 1) None (Some (ddiv (dint 1) (dint 32))) (Some (ddiv (dint 1) (dint 32))).
Definition tide_config : config :=
  mkConfig 3 LagrangeHex 0 Uniform Euler HLLC (Build_phys 2 1 (of_list [1;3;0;0;10])) ForwardEuler (ddiv (dint 1) (dint 32)) (ddiv (dint 1) (dint 32)).
Definition tide_inputs (name : string) : option input := if String.eqb name "case.toml" then Some tide_input else None.

Lemma tide_asks : asks_for tide_input tide_config.
Proof. constructor; try reflexivity; try (now left); try (now right). - exists [1;3;0;0;10]. auto. - intros _. split; now left. Qed.
Lemma tide_data : enough_data tide_input tide_config.
Proof. intros data E. injection E as <-. cbn [cf_ic tide_config cf_dim]. unfold zlen. cbn [List.length]. lia. Qed.
Lemma tide_admissible : admissible 3 2 (ph_IC (cf_phys tide_config)).
Proof. unfold admissible, pressure, density, energy, vdot, velocity, momentum, density. rewrite rsum_3. unfold density. cbv -[IZR Rplus Rmult Rminus Rdiv Rlt]. split; lra. Qed.

Lemma tide_reads : reads tide_inputs cube_meshes ["solver"; "-input"; "case.toml"] tide_input four_cubes.
Proof.
  exists "case.toml", "mesh.h5", cube_file. eexists. split; [reflexivity|]. split; [reflexivity|]. split; [reflexivity|]. split; [reflexivity|]. split; [exact cube_wf|].
  split; [cbv -[IZR]; reflexivity|reflexivity].
Qed.

Lemma tide_speed : max_speed 3 2 (ph_IC (cf_phys tide_config)) < 64 / 10.
Proof.
  unfold max_speed, vlen, sound, pressure, density, energy, vdot, velocity, momentum, density. rewrite rsum_3. unfold density.
  cbv -[IZR Rplus Rmult Rminus Rdiv Rlt sqrt].
  apply Rlt_le_trans with (301 / 100 + 332 / 100); [|lra]. apply Rplus_lt_compat; apply sqrt_below; lra.
Qed.

Lemma tide_jac e y : (0 <= e < 4)%Z -> jac_det EHex 1 (elem_nodes four_cubes e) y = / 8.
Proof.
  intros He.
  assert (J : forall j d, (0 <= j < 3)%Z -> (0 <= d < 3)%Z -> jacobian EHex 1 (elem_nodes four_cubes e) y j d = if (j =? d)%Z then / 2 else 0).
  { intros j d Hj Hd. unfold jacobian. rewrite (Derive_ext _ (fun t => cube_map e (with_coord y d t 0) (with_coord y d t 1) (with_coord y d t 2) j)) by (intros t; now apply cube_place).
    unfold cube_map, with_coord. apply is_derive_unique.
    assert (Cj : (j = 0 \/ j = 1 \/ j = 2)%Z) by lia. assert (Cd : (d = 0 \/ d = 1 \/ d = 2)%Z) by lia.
    destruct Cj as [-> | [-> | ->]], Cd as [-> | [-> | ->]]; unfold PropShape.vec3; cbn [Z.eqb Pos.eqb]; auto_derive; auto; field. }
  unfold jac_det, small_det. cbn [space_dim Z.eqb Pos.eqb]. unfold det3, minor2. rewrite !J by lia. cbn [Z.eqb Pos.eqb]. lra.
Qed.

Lemma tide_cfl k c : (k < 1)%nat -> hex_solution four_cubes LagrangeHex 0 2 HLLC (fun _ k => ph_IC (cf_phys tide_config) k) (repeat (ForwardEuler, B2R (ddiv (dint 1) (dint 32))) k) c ->
  cfl_by (hllc_speed 3 2 four_cubes (flat_normal four_cubes) c) four_cubes (gauss_volume four_cubes) (parallelogram_area four_cubes) (B2R (ddiv (dint 1) (dint 32))).
Proof.
  intros Hk (nq & P & W & fp & fw & nq2 & P2 & W2 & EQ & EF & EQ2 & H). replace k with O in H by lia. cbn [repeat] in H. pose proof tide_speed as SP.
  assert (AR : forall e, (0 <= e < gm_num_elems four_cubes)%Z -> mass_matrix3 LagrangeHex 0 four_cubes nq2 P2 W2 e 0%Z 0%Z = gauss_volume four_cubes e /\ 0 < gauss_volume four_cubes e /\
    0 < / 8 /\ forall y, inside EHex y -> / 8 <= jac_det EHex 1 (elem_nodes four_cubes e) y <= / 8).
  { intros e He. split; [|split; [|split; [lra|intros y Hy; rewrite tide_jac by exact He; lra]]].
    - rewrite <- (eight four_cubes e nq2 P2 W2 EQ2). unfold mass_matrix3. apply rsum_ext. intros q Hq. rewrite !basis0. ring.
    - rewrite current_volume by exact He. lra. }
  destruct (uniform_sized EHex four_cubes LagrangeHex _ _ (gauss_volume four_cubes) (fun _ => / 8) (fun _ => / 8) (ph_IC (cf_phys tide_config)) c AR H) as (t & Ht & U). clear AR H EQ EF EQ2.
  set (u := ph_IC (cf_phys tide_config)) in *.
  assert (FS : forall f, (0 <= f < 4)%Z -> hllc_speed 3 2 four_cubes (flat_normal four_cubes) c f <= 2 * max_speed 3 2 u).
  { intros f Hf. assert (RG : forall sd, (0 <= side_elem four_cubes f sd < 4)%Z) by (intros sd; four f; destruct sd; vm_compute; split; congruence).
    destruct (U _ (RG false)) as (r & Br & HU), (U _ (RG true)) as (r' & Br' & HV). rewrite current_volume in Br by apply RG. rewrite current_volume in Br' by apply RG.
    assert (D0 : density u <> 0) by (cbv -[IZR]; lra).
    assert (X1 : max_speed 3 2 (c (side_elem four_cubes f false) 0%Z) = max_speed 3 2 u) by (apply (speed_scale 3 2 r); [now right|lra|exact D0|exact HU]).
    assert (X2 : max_speed 3 2 (c (side_elem four_cubes f true) 0%Z) = max_speed 3 2 u) by (apply (speed_scale 3 2 r'); [now right|lra|exact D0|exact HV]).
    destruct cube_good as [FV FD FH CF _ _].
    assert (HN : vdot 3 (flat_normal four_cubes f) (flat_normal four_cubes f) <> 0) by exact (flat_nonzero four_cubes FH f _ _ _ (sides_of _ _ four_cubes _ (one_rank four_cubes (reads_wf _ _ _ _ _ tide_reads)) f false Hf)).
    unfold hllc_speed, face_speed. cbv zeta. rewrite X1, X2, Rmax_left by lra.
    replace (2 * max_speed 3 2 u) with (max_speed 3 2 u + 1 * max_speed 3 2 u) by ring. apply Rplus_le_compat_l.
    apply (scaled_waves 3 2 u r r' 1 _ _ _); [now right|lra|exact tide_admissible|now apply unit_normal|lra|lra|lra|lra|lra|exact HU|exact HV]. }
  set (lam := max_speed 3 2 u) in *. set (sp := hllc_speed 3 2 four_cubes (flat_normal four_cubes) c) in *. clearbody lam sp. intros e He. change (gm_num_elems four_cubes) with 4%Z in He.
  rewrite (proj2 eighth), current_volume by exact He. unfold around. change (gm_nIF four_cubes) with 4%Z. rewrite rsum_4, !current_areas by lia.
  pose proof (FS 0%Z ltac:(lia)). pose proof (FS 1%Z ltac:(lia)). pose proof (FS 2%Z ltac:(lia)). pose proof (FS 3%Z ltac:(lia)).
  four e;
  repeat match goal with |- context [side_elem four_cubes ?f ?sd] => let v := eval vm_compute in (side_elem four_cubes f sd) in change (side_elem four_cubes f sd) with v end; cbn [Z.eqb Pos.eqb]; lra.
Qed.

Example C101_hexahedra_demo : forall n, (n = 1 \/ n = 2)%Z -> exists c0 c,
  hex_solution four_cubes LagrangeHex 0 2 HLLC (fun _ k => ph_IC (cf_phys tide_config) k) [] c0 /\
  program tide_inputs cube_meshes ["solver"; "-input"; "case.toml"] case_metis n (Ok (solution_file four_cubes 1 5 (INR 1 * B2R (ddiv (dint 1) (dint 32))) c)) /\
  sound_result 3 2 four_cubes (gauss_volume four_cubes) c0 c.
Proof.
  intros n Hn. pose proof cube_good as GQ.
  assert (MV : metis_valid case_metis four_cubes n).
  { intros ep N2 E. destruct Hn as [-> | ->]; [lia|]. injection E as <-. split; [reflexivity|]. repeat constructor; lia. }
  destruct (C101_program_hexahedra tide_inputs cube_meshes ["solver"; "-input"; "case.toml"] case_metis n tide_input four_cubes tide_config 1 (fun _ k => ph_IC (cf_phys tide_config) k)
      (if (n =? 2)%Z then [0; 1; 0; 1]%Z else [0; 0; 0; 0]%Z) ltac:(lia) tide_reads tide_asks tide_data eq_refl eq_refl ltac:(intros q Q; discriminate Q) ltac:(now left) MV
      (cube_intended n Hn) (cube_enough n Hn) ltac:(reflexivity) eq_refl eq_refl eq_refl GQ ltac:(now left) ltac:(cbn; lra) ltac:(cbn [cf_dt tide_config]; rewrite (proj2 eighth); lra)
      ltac:(apply uniform_starts; cbn; lia) ltac:(split; reflexivity) ltac:(intros e y _ _; exact tide_admissible) tide_cfl) as (g & PG & c0 & S0 & R).
  destruct (R g PG) as (c & -> & SR). exists c0, c. split; [exact S0|]. split; [exact PG|exact SR].
Qed.
Print Assumptions C101_hexahedra_demo.

(** ** The contact wave may overtake an outer wave: hot light gas at rest beside cold
    dense gas at rest. *)
Example C101_contact_overtakes : let U := of_list [/ 82; 0; 0; 41] in let V := of_list [2; 0; 0; 1] in let n := of_list [1; 0] in
  admissible 2 2 U /\ admissible 2 2 V /\ wave_L 2 2 U V n < 0 /\ wave_R 2 2 U V n = 4 /\ wave_star 2 2 U V n = 40 / 9.
Proof.
  cbv zeta. set (U := of_list [/ 82; 0; 0; 41]). set (V := of_list [2; 0; 0; 1]). set (n := of_list [1; 0]).
  assert (dU : density U = / 82) by reflexivity. assert (dV : density V = 2) by reflexivity.
  assert (uU : un 2 U n = 0) by (unfold un, vdot; rewrite rsum_2; cbv -[IZR Rplus Rmult Rdiv Rinv]; lra).
  assert (uV : un 2 V n = 0) by (unfold un, vdot; rewrite rsum_2; cbv -[IZR Rplus Rmult Rdiv Rinv]; lra).
  assert (pU : pressure 2 2 U = 41) by (unfold pressure, vdot; rewrite rsum_2; cbv -[IZR Rplus Rmult Rdiv Rinv Rminus]; lra).
  assert (pV : pressure 2 2 V = 1) by (unfold pressure, vdot; rewrite rsum_2; cbv -[IZR Rplus Rmult Rdiv Rinv Rminus]; lra).
  assert (sU : sound 2 2 U = 82) by (unfold sound; rewrite pU, dU; replace (2 * 41 / / 82) with (82 * 82) by field; apply sqrt_square; lra).
  assert (sV : sound 2 2 V = 1) by (unfold sound; rewrite pV, dV; replace (2 * 1 / 2) with (1 * 1) by field; apply sqrt_square; lra).
  assert (PS : p_star 2 2 U V n = 21) by (unfold p_star; rewrite pU, pV, uU, uV; rewrite Rmax_right; lra).
  assert (WL : wave_L 2 2 U V n = - 82) by (unfold wave_L; rewrite uU, sU, PS, pU; unfold q_factor; destruct (Rle_dec 21 41); lra).
  assert (WR : wave_R 2 2 U V n = 4).
  { unfold wave_R. rewrite uV, sV, PS, pV. unfold q_factor. destruct (Rle_dec 21 1); [lra|]. replace (1 + (2 + 1) / (2 * 2) * (21 / 1 - 1)) with (4 * 4) by field. rewrite sqrt_square by lra. ring. }
  unfold admissible. rewrite pU, pV, dU, dV, WL, WR. repeat split; try lra.
  unfold wave_star. cbv zeta. rewrite WL, WR, uU, uV, pU, pV, dU, dV. field.
Qed.
Print Assumptions C101_contact_overtakes.
