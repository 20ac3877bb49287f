(** PropConvergeDemo.v -- a concrete case for C105: two squares, the left one upstream
    of the right one in a supersonic wind, HLLC, order 0.  The right-hand side of the
    system is a rational function of the coefficients near its solution, and the
    solution has a closed form: the gas of the left square leaves through the common
    face at constant temperature. *)
From Coq Require Import ZArith List Lia Reals Lra Psatz String Bool.
From Flocq Require Import BinarySingleNaN.
From Coquelicot Require Import Coquelicot.
From Verif Require Import Base RBase MeshModel MeshSpec MeshProof PropMesh IOModel PropIO PropOutput.
From Verif Require Import ReadModel PropRead PropCtor UtilModel TimeModel ProgramModel PropProgram.
From Verif Require Import LinAlgModel PropLinAlg BasisModel ShapeModel PropShape SolverModel SolverSpec SolverMesh SolverFlux PhysModel PhysSpec PhysProof PropPhys PropBasis PropSolver PropNormals StepModel PropIntegral PropStep SetupModel SetupSpec SetupProof SetupFaces PropSetup PropMeshRun PropInit PropPost PropResidual DGSpec DGProof PropDG PropHex PropFree PropHexFree PropTime PropWhole PropTotal PropHexCase PropEnd PropRenumber PropSimilar PropSimilarG PropSimilarDemo PropPositive PropPositiveG PropPositiveDemo PropSymmetry PropLocal PropLocalDemo.
From Verif Require Import Converge Smooth PropConverge.
Import ListNotations.
Local Open Scope string_scope.
Local Open Scope R_scope.

(** * A supersonic wind *)
Definition wind (k : Z) : R := if (k =? 0)%Z then 1 else if (k =? 1)%Z then 10 else if (k =? 2)%Z then 0 else 51.
Definition near (r : R) (v : arr1) : Prop := 0 < r /\ forall k, (0 <= k < 4)%Z -> Rabs (v k - r * wind k) <= r / 1000.
Definition p2 (v : arr1) : R := v 3%Z + - (1 / 2) * ((v 1%Z * v 1%Z + v 2%Z * v 2%Z) * / v 0%Z).
Definition rate_of (k : Z) (v : arr1) : R :=
  if (k =? 0)%Z then v 1%Z else if (k =? 1)%Z then v 1%Z * v 1%Z * / v 0%Z + p2 v else if (k =? 2)%Z then v 2%Z * (v 1%Z * / v 0%Z) else (v 3%Z + p2 v) * (v 1%Z * / v 0%Z).

Lemma near_bounds r v : near r v -> 999 / 1000 * r <= v 0%Z <= 1001 / 1000 * r /\ 9999 / 1000 * r <= v 1%Z <= 10001 / 1000 * r /\ - (1 / 1000) * r <= v 2%Z <= 1 / 1000 * r /\ 50999 / 1000 * r <= v 3%Z <= 51001 / 1000 * r.
Proof.
  intros (Hr & H). pose proof (H 0%Z ltac:(lia)) as H0. pose proof (H 1%Z ltac:(lia)) as H1. pose proof (H 2%Z ltac:(lia)) as H2. pose proof (H 3%Z ltac:(lia)) as H3. unfold wind in *. cbn [Z.eqb Pos.eqb] in *.
  apply ab in H0, H1, H2, H3. lra.
Qed.

Lemma near_pu r v : near r v -> 0 < v 0%Z /\ 9 / 10 * r <= p2 v <= 11 / 10 * r /\ 998 / 100 <= v 1%Z * / v 0%Z <= 1002 / 100.
Proof.
  intros N. pose proof (proj1 N) as Hr. destruct (near_bounds r v N) as ((A1 & A2) & (B1 & B2) & (C1 & C2) & D1 & D2). assert (P : 0 < v 0%Z) by lra. split; [exact P|].
  assert (U : 9988 / 1000 <= v 1%Z * / v 0%Z <= 10012 / 1000) by (split; apply (Rmult_le_reg_r (v 0%Z)); try exact P; rewrite Rmult_assoc, Rinv_l, Rmult_1_r by lra; lra).
  assert (W : - (2 / 1000) <= v 2%Z * / v 0%Z <= 2 / 1000) by (split; apply (Rmult_le_reg_r (v 0%Z)); try exact P; rewrite Rmult_assoc, Rinv_l, Rmult_1_r by lra; lra).
  split; [|lra].
  assert (E : p2 v = v 3%Z - 1 / 2 * (v 1%Z * (v 1%Z * / v 0%Z) + v 2%Z * (v 2%Z * / v 0%Z))) by (unfold p2; ring). rewrite E.
  set (u := v 1%Z * / v 0%Z) in *. set (w := v 2%Z * / v 0%Z) in *.
  assert (Q1 : 9999 / 1000 * r * (9988 / 1000) <= v 1%Z * u <= 10001 / 1000 * r * (10012 / 1000)) by (split; apply Rmult_le_compat; lra).
  assert (Q2 : - (1 / 100 * r) <= v 2%Z * w <= 1 / 100 * r).
  { apply ab. apply Rle_trans with (1 / 1000 * r * (2 / 1000)); [|lra]. apply ab_mul; apply ab; lra. }
  lra.
Qed.

Lemma pressure2 v : 0 < v 0%Z -> pressure 2 2 v = p2 v.
Proof. intros H. unfold pressure, p2, energy, density, velocity, momentum, vdot, rsum. cbv -[IZR Rplus Rmult Rdiv Rminus Ropp Rinv]. field. lra. Qed.
Lemma un2 v n : n 0%Z = 1 -> n 1%Z = 0 -> un 2 v n = v 1%Z * / v 0%Z.
Proof. intros H0 H1. unfold un, velocity, momentum, vdot. transitivity (v 1%Z / v 0%Z * n 0%Z + v 2%Z / v 0%Z * n 1%Z); [cbv -[IZR Rplus Rmult Rdiv Rminus Ropp Rinv]; ring|]. rewrite H0, H1. unfold Rdiv. ring. Qed.
Lemma euler2 v n k : 0 < v 0%Z -> n 0%Z = 1 -> n 1%Z = 0 -> (0 <= k < 4)%Z -> euler_flux 2 2 v n k = rate_of k v.
Proof.
  intros Hv H0 H1 Hk. pose proof (un2 v n H0 H1) as U. unfold un in U. unfold euler_flux, rate_of. rewrite U, pressure2 by exact Hv.
  assert (C : (k = 0 \/ k = 1 \/ k = 2 \/ k = 3)%Z) by lia. destruct C as [-> | [-> | [-> | ->]]]; cbn [Z.eqb Pos.eqb Z.add Pos.add Z.sub Pos.pred_double Z.opp Z.pos_sub];
    unfold density, momentum, energy; cbn [Z.eqb Pos.eqb Z.add Pos.add Z.sub Pos.pred_double Z.opp Z.pos_sub]; rewrite ?H0, ?H1; try ring. field. lra.
Qed.

(** Faster than sound: only the state on the left counts. *)
Lemma hllc_upwind r U V n k : near r U -> near r V -> n 0%Z = 1 -> n 1%Z = 0 -> (0 <= k < 4)%Z -> toro_hllc 2 2 U V n k = rate_of k U.
Proof.
  intros NU NV H0 H1 Hk. pose proof (proj1 NU) as Hr. destruct (near_pu r U NU) as (PU & (PU1 & PU2) & UU1 & UU2). destruct (near_pu r V NV) as (PV & (PV1 & PV2) & UV1 & UV2).
  destruct (near_bounds r U NU) as ((AU1 & AU2) & _). destruct (near_bounds r V NV) as ((AV1 & AV2) & _).
  assert (SB : forall W, 0 < W 0%Z -> 999 / 1000 * r <= W 0%Z -> 9 / 10 * r <= p2 W <= 11 / 10 * r -> 0 <= sound 2 2 W <= 8 / 5).
  { intros W PW AW PP. unfold sound. split; [apply sqrt_pos|]. rewrite pressure2 by exact PW. apply Rle_trans with (sqrt (8 / 5 * (8 / 5))); [|rewrite sqrt_square; lra].
    apply sqrt_le_1_alt. unfold density. apply (Rmult_le_reg_r (W 0%Z)); [exact PW|]. unfold Rdiv at 1. rewrite Rmult_assoc, Rinv_l, Rmult_1_r by lra. lra. }
  pose proof (SB U PU AU1 (conj PU1 PU2)) as SU. pose proof (SB V PV AV1 (conj PV1 PV2)) as SV.
  assert (PS : p_star 2 2 U V n <= 13 / 10 * r).
  { unfold p_star. rewrite !un2, !pressure2 by assumption. apply Rmax_lub; [lra|]. unfold density.
    assert (X : Rabs ((V 1%Z * / V 0%Z - U 1%Z * / U 0%Z) / 2 * ((U 0%Z + V 0%Z) / 2) * ((sound 2 2 U + sound 2 2 V) / 2)) <= 4 / 100 * (1001 / 1000 * r) * (8 / 5)).
    { apply ab_mul; [apply ab_mul|]; apply ab; lra. }
    apply ab in X. lra. }
  assert (Q : 0 <= q_factor 2 (p_star 2 2 U V n) (pressure 2 2 U) <= 2).
  { unfold q_factor. destruct (Rle_dec (p_star 2 2 U V n) (pressure 2 2 U)) as [L|L]; [lra|]. split; [apply sqrt_pos|]. apply Rle_trans with (sqrt (2 * 2)); [|rewrite sqrt_square; lra].
    apply sqrt_le_1_alt. rewrite pressure2 in * by exact PU. assert (p_star 2 2 U V n / p2 U <= 2); [|lra].
    apply (Rmult_le_reg_r (p2 U)); [lra|]. unfold Rdiv. rewrite Rmult_assoc, Rinv_l, Rmult_1_r by lra. lra. }
  unfold toro_hllc. destruct (Rle_dec 0 (wave_L 2 2 U V n)) as [L|L]; [now apply euler2|]. exfalso. apply L. unfold wave_L. rewrite un2 by assumption.
  assert (sound 2 2 U * q_factor 2 (p_star 2 2 U V n) (pressure 2 2 U) <= 8 / 5 * 2) by (apply Rmult_le_compat; lra). lra.
Qed.

(** The exact solution: a gas of constant temperature whose supply stops. *)
Definition stream (a t : R) (k : Z) : R :=
  if (k =? 0)%Z then exp (- (10 * (a * t) - (a * t) * (a * t) / 2))
  else if (k =? 1)%Z then exp (- (10 * (a * t) - (a * t) * (a * t) / 2)) * (10 - a * t)
  else if (k =? 2)%Z then 0
  else exp (- (10 * (a * t) - (a * t) * (a * t) / 2)) * (1 + (10 - a * t) * (10 - a * t) / 2).

Lemma stream_start a k : (0 <= k < 4)%Z -> stream a 0 k = wind k.
Proof.
  intros Hk. assert (C : (k = 0 \/ k = 1 \/ k = 2 \/ k = 3)%Z) by lia. unfold stream, wind.
  replace (- (10 * (a * 0) - a * 0 * (a * 0) / 2)) with 0 by field. rewrite exp_0. destruct C as [-> | [-> | [-> | ->]]]; cbn [Z.eqb Pos.eqb]; field.
Qed.

Lemma stream_close a t k : 0 <= a * t <= / 2000000 -> (0 <= k < 4)%Z -> Rabs (stream a t k - wind k) <= / 2000.
Proof.
  intros Ht Hk. unfold stream. set (s := a * t) in *. set (D := exp _).
  assert (D1 : 1 - 10 * s <= D) by (unfold D; pose proof (exp_ineq1_le (- (10 * s - s * s / 2))); nra).
  assert (D2 : D <= 1) by (unfold D; rewrite <- exp_0; destruct (Rle_lt_or_eq_dec 0 (10 * s - s * s / 2)) as [L|E]; [nra|left; apply exp_increasing; lra|rewrite <- E; right; f_equal; lra]).
  assert (C : (k = 0 \/ k = 1 \/ k = 2 \/ k = 3)%Z) by lia. unfold wind. apply ab. destruct C as [-> | [-> | [-> | ->]]]; cbn [Z.eqb Pos.eqb]; [lra| |lra|].
  - assert (D * (10 - s) <= 1 * (10 - s)) by (apply Rmult_le_compat_r; lra). assert ((1 - 10 * s) * (10 - s) <= D * (10 - s)) by (apply Rmult_le_compat_r; lra). nra.
  - assert (0 <= 1 + (10 - s) * (10 - s) / 2 <= 51) by nra. assert (D * (1 + (10 - s) * (10 - s) / 2) <= 1 * (1 + (10 - s) * (10 - s) / 2)) by (apply Rmult_le_compat_r; lra).
    assert ((1 - 10 * s) * (1 + (10 - s) * (10 - s) / 2) <= D * (1 + (10 - s) * (10 - s) / 2)) by (apply Rmult_le_compat_r; lra).
    assert (0 <= s * s) by nra. assert (s * (s * s) <= s * s) by nra. nra.
Qed.

Lemma stream_derive a t k : (0 <= k < 4)%Z -> derivable_pt_lim (fun x => stream a x k) t (- a * rate_of k (stream a t)).
Proof.
  intros Hk. set (D := fun x => exp (- (10 * (a * x) - (a * x) * (a * x) / 2))).
  assert (ED : is_derive D t (- a * (10 - a * t) * D t)).
  { unfold D. auto_derive; [exact I|]. match goal with |- context [exp ?x] => replace x with (- (10 * (a * t) - a * t * (a * t) / 2)) by field end. field. }
  assert (P : D t <> 0) by (unfold D; pose proof (exp_pos (- (10 * (a * t) - a * t * (a * t) / 2))); lra).
  assert (XD : ex_derive D t) by (eexists; exact ED). pose proof (is_derive_unique _ _ _ ED) as VD.
  assert (E0 : forall x, exp (- (10 * (a * x) - a * x * (a * x) / 2)) = D x) by reflexivity.
  assert (ES : forall x i, stream a x i = if (i =? 0)%Z then D x else if (i =? 1)%Z then D x * (10 - a * x) else if (i =? 2)%Z then 0 else D x * (1 + (10 - a * x) * (10 - a * x) / 2)) by reflexivity.
  clearbody D. clear E0. apply is_derive_Reals. unfold rate_of, p2. rewrite !ES.
  assert (C : (k = 0 \/ k = 1 \/ k = 2 \/ k = 3)%Z) by lia. destruct C as [-> | [-> | [-> | ->]]]; cbn [Z.eqb Pos.eqb].
  - apply (is_derive_ext D); [intros x; now rewrite ES|]. replace (- a * (D t * (10 - a * t))) with (- a * (10 - a * t) * D t) by ring. exact ED.
  - apply (is_derive_ext (fun x => D x * (10 - a * x))); [intros x; now rewrite ES|]. auto_derive; [exact XD|]. change (Derive (fun x => D x) t) with (Derive D t). rewrite VD. field. exact P.
  - apply (is_derive_ext (fun x => 0)); [intros x; now rewrite ES|]. auto_derive; [exact I|]. field. exact P.
  - apply (is_derive_ext (fun x => D x * (1 + (10 - a * x) * (10 - a * x) / 2))); [intros x; now rewrite ES|]. auto_derive; [exact XD|]. change (Derive (fun x => D x) t) with (Derive D t). rewrite VD. field. exact P.
Qed.

Lemma rate_scale r v k : r <> 0 -> v 0%Z <> 0 -> (0 <= k < 4)%Z -> forall w, (forall i, (0 <= i < 4)%Z -> w i = r * v i) -> rate_of k w = r * rate_of k v.
Proof.
  intros Hr Hv Hk w Hw. assert (C : (k = 0 \/ k = 1 \/ k = 2 \/ k = 3)%Z) by lia. unfold rate_of, p2. rewrite !Hw by lia. destruct C as [-> | [-> | [-> | ->]]]; cbn [Z.eqb Pos.eqb]; field; auto.
Qed.
(** * Two squares *)
Local Open Scope Z_scope.
Open Scope res_scope.
Definition two : gmesh R := mkGMesh 2 2 6 1 4 [0;1;3;4; 1;2;4;5] [[0;0];[1;0];[2;0];[0;1];[1;1];[2;1]]%R [[0;1;0;1;3;1]].
Definition two_file : mesh_file R := mkMeshFile 2 1 2 6 1 4 (Some 1) [0;0;1;0;2;0;0;1;1;1;2;1]%R (gm_eind two) (List.concat (gm_IF two)) (fun _ => None).
Definition two_meshes (name : string) : option (mesh_file R) := if String.eqb name "mesh.h5" then Some two_file else None.

Lemma two_file_wf : mesh_file_wf [] two_file.
Proof.
  assert (RN : forall l k v (P : Z -> Prop), List.Forall P l -> rd l k = Ok v -> P v).
  { intros l k v P F E. rewrite List.Forall_forall in F. apply F. eapply rd_In; eassumption. }
  constructor; try (cbn -[IZR]; lia); try reflexivity.
  - change UINT_MAX with 4294967295. cbn. lia.
  - change UINT_MAX with 4294967295. cbn. lia.
  - change UINT_MAX with 4294967295. cbn. lia.
  - change UINT_MAX with 4294967295. cbn. lia.
  - intros k v. apply (RN _ k v (fun v => 0 <= v < 6)). cbn. repeat constructor; lia.
  - intros k v. apply (RN _ k v (fun v => 0 <= v)). cbn. repeat constructor; lia.
  - intros f s v Hf Hs. change (mf_niface two_file) with 1 in Hf. replace f with 0 by lia. destruct Hs as [-> | ->]; intros E; vm_compute in E; injection E as <-; reflexivity.
  - intros e He. change (mf_nelem two_file) with 2 in He. assert (C : e = 0 \/ e = 1) by lia. destruct C as [-> | ->]; vm_compute; discriminate.
  - intros e rows He F. inversion F; subst. cbn. lia.
Qed.

Lemma two_reads : reads draft_inputs two_meshes ["solver"; "-input"; "case.toml"] draft_input two.
Proof.
  exists "case.toml", "mesh.h5", two_file. eexists; (split; [reflexivity|]); (split; [reflexivity|]); (split; [reflexivity|]); (split; [reflexivity|]);
    (split; [apply two_file_wf|]); (split; [cbv -[IZR]; reflexivity|reflexivity]).
Qed.
Lemma two_wf : mesh_wf two.
Proof. exact (reads_wf _ _ _ _ _ two_reads). Qed.

Lemma two_sides f sd e k o : has_side two f sd e k o -> f = 0 /\ e = (if sd then 1 else 0) /\ k = (if sd then 3 else 1) /\ o = (if sd then 1 else 0).
Proof.
  intros (H1 & H2 & H3). unfold rd2 in *. destruct (rd (gm_IF two) f) as [row|] eqn:E; [|discriminate].
  pose proof (rd_in_range _ _ _ E) as Rg. change (zlen (gm_IF two)) with 1 in Rg. assert (f = 0) by lia. subst f. split; [reflexivity|].
  injection E as <-; destruct sd; injection H1 as <-; injection H2 as <-; injection H3 as <-; auto.
Qed.
Lemma two_nodes e k d : 0 <= e < 2 -> 0 <= k < 4 -> 0 <= d < 2 -> elem_nodes two e k d = (if d =? 0 then IZR (e + k mod 2) else IZR (k / 2))%R.
Proof. intros He Hk Hd. assert (Ce : e = 0 \/ e = 1) by lia. assert (Cd : d = 0 \/ d = 1) by lia. destruct Ce as [-> | ->]; four k; destruct Cd as [-> | ->]; reflexivity. Qed.

Lemma two_good : good_quads two.
Proof.
  constructor.
  - intros f sd e k o H. apply two_sides in H. destruct H as (-> & -> & -> & ->). destruct sd; cbn; lia.
  - intros f sd e k o f' sd' o' H H'. apply two_sides in H, H'. destruct H as (-> & -> & -> & _), H' as (-> & E & K & _). destruct sd, sd'; try lia; split; auto; lia.
  - split; [split; reflexivity|]. intros e He. change (gm_num_elems two) with 2 in He. intros k Hk. unfold cross2. cbv beta. rewrite !two_nodes by (try apply ccw_range; lia).
    four k; closed_terms; lra.
  - intros f eL kL oL eR kR oR HL HR XL XR. apply two_sides in HL, HR. destruct HL as (-> & -> & -> & ->), HR as (_ & -> & -> & ->). subst XL XR.
    exists (fun _ => 0%R). intros d Hd. rewrite !two_nodes by (try apply ccw_range; lia).
    assert (C : d = 0 \/ d = 1) by lia. destruct C as [-> | ->]; closed_terms; lra.
  - reflexivity.
  - intros x Hx. change (gm_num_nodes two) with 6 in Hx.
    assert (K : forall e j, 0 <= e < gm_num_elems two -> 0 <= j < gm_npe two -> rd (gm_eind two) (e * gm_npe two + j) = Ok x -> in_some_element two x) by (intros e j He Hj E; exists e, j; auto).
    assert (C : x = 0 \/ x = 1 \/ x = 2 \/ x = 3 \/ x = 4 \/ x = 5) by lia.
    destruct C as [->|[->|[->|[->|[->| ->]]]]]; [apply (K 0 0)|apply (K 0 1)|apply (K 1 1)|apply (K 0 2)|apply (K 0 3)|apply (K 1 3)]; reflexivity || (cbn; lia).
Qed.
Local Open Scope R_scope.

(** Coefficients of the exact solution: both squares start with [r] times the wind;
    what leaves the left one enters the right one. *)
Definition wind_solution (r : R) (t : R) : arr3 := fun e _ k => if (e =? 0)%Z then r * stream 1 t k else r * (2 * wind k - stream 1 t k).

Lemma two_near r t e u : 0 < r -> 0 <= t <= / 2000000 -> (0 <= e < 2)%Z -> tube (coefficient EQuad two LagrangeQuad 0) (wind_solution r) (r / 2000) t u -> near r (u e 0%Z).
Proof.
  intros Hr Ht He Tu. split; [exact Hr|]. intros k Hk. specialize (Tu e 0%Z k ltac:(repeat split; cbn; lia)). unfold minus3, wind_solution in Tu.
  assert (SC : Rabs (stream 1 t k - wind k) <= / 2000) by (apply stream_close; [rewrite Rmult_1_l; exact Ht|exact Hk]).
  apply ab in SC, Tu. apply ab. destruct (e =? 0)%Z; nra.
Qed.

Lemma two_rate iM fp fw nq P W t u e k r : fw 0%Z = 2 -> (forall e, (0 <= e < 2)%Z -> iM e 0%Z 0%Z = 1) -> 0 < r -> 0 <= t <= / 2000000 -> (0 <= e < 2)%Z -> (0 <= k < 4)%Z ->
  tube (coefficient EQuad two LagrangeQuad 0) (wind_solution r) (r / 2000) t u ->
  dg_rate (quad_scheme LagrangeQuad 0 two 2 HLLC nq P W (0 + 1) fp fw) two iM u e 0%Z k = (if (e =? 0)%Z then - (1) else 1) * rate_of k (u 0%Z 0%Z).
Proof.
  intros F2 HI Hr Ht He Hk Tu. unfold dg_rate. change (sc_nb (quad_scheme LagrangeQuad 0 two 2 HLLC nq P W (0 + 1) fp fw)) with (nfun LagrangeQuad 0). rewrite nfun0, rsum_1, HI, Rmult_1_l by exact He.
  rewrite residual0; [|apply nfun0|intros; apply basis0|intros; apply grad0].
  change (gm_nIF two) with 1%Z. rewrite rsum_1. change (sc_nqf (quad_scheme LagrangeQuad 0 two 2 HLLC nq P W (0 + 1) fp fw)) with 1%Z. rewrite rsum_1.
  change (sc_fwts (quad_scheme LagrangeQuad 0 two 2 HLLC nq P W (0 + 1) fp fw)) with fw. rewrite F2. change (side_elem two 0 false) with 0%Z. change (side_elem two 0 true) with 1%Z.
  assert (FX : flux0 (quad_scheme LagrangeQuad 0 two 2 HLLC nq P W (0 + 1) fp fw) two u 0 0 k = 1 / 2 * rate_of k (u 0%Z 0%Z)).
  { unfold flux0. change (side_elem two 0 false) with 0%Z. change (side_elem two 0 true) with 1%Z. cbn [sc_flux sc_shape sc_gamma sc_normal quad_scheme space_dim numflux].
    assert (N0 : edge_normal two 0 0%Z = 1 / 2).
    { unfold edge_normal. change (side_elem two 0 false) with 0%Z. change (side_face two 0 false) with 1%Z. rewrite !two_nodes by (try apply ccw_range; lia). cbn [Z.eqb]. closed_terms. lra. }
    assert (N1 : edge_normal two 0 1%Z = 0).
    { unfold edge_normal. change (side_elem two 0 false) with 0%Z. change (side_face two 0 false) with 1%Z. rewrite !two_nodes by (try apply ccw_range; lia). cbn [Z.eqb]. closed_terms. lra. }
    assert (VL : vlen 2 (edge_normal two 0) = 1 / 2).
    { unfold vlen, vdot. transitivity (sqrt (1 / 2 * (1 / 2))); [f_equal|apply sqrt_square; lra]. transitivity (edge_normal two 0 0%Z * edge_normal two 0 0%Z + edge_normal two 0 1%Z * edge_normal two 0 1%Z); [cbv -[IZR Rplus Rmult edge_normal]; ring|]. rewrite N0, N1. ring. }
    rewrite VL. f_equal. apply (hllc_upwind r); [exact (two_near r t 0 u Hr Ht ltac:(lia) Tu)|exact (two_near r t 1 u Hr Ht ltac:(lia) Tu)|rewrite N0, ?VL; field|rewrite N1, ?VL; field|exact Hk]. }
  rewrite FX. assert (C : (e = 0 \/ e = 1)%Z) by lia. destruct C as [-> | ->]; cbn [Z.eqb Pos.eqb]; field.
Qed.

Lemma two_smooth r T k : 0 < r -> 0 <= T <= / 2000000 -> 0 < Rmin 1 (r / 2000) -> (0 <= k < 4)%Z ->
  smooth (coefficient EQuad two LagrangeQuad 0) T (wind_solution r) (fun u => rate_of k (u 0%Z 0%Z)) (Rmin 1 (r / 2000)).
Proof.
  intros Hr HT HR Hk. set (ok := coefficient EQuad two LagrangeQuad 0). set (rho := Rmin 1 (r / 2000)) in *. assert (R1 : 0 < rho <= 1) by (split; [exact HR|apply Rmin_l]).
  assert (EN : forall i, (0 <= i < 4)%Z -> smooth ok T (wind_solution r) (fun u => u 0%Z 0%Z i) rho).
  { intros i Hi. apply (smooth_entry ok T (wind_solution r) 0 0 i rho (r * 100)); [exact R1|repeat split; cbn; lia|]. intros t Ht. unfold wind_solution. cbn [Z.eqb].
    rewrite Rabs_mult, (Rabs_pos_eq r) by lra. apply Rmult_le_compat_l; [lra|]. assert (SC : Rabs (stream 1 t i - wind i) <= / 2000) by (apply stream_close; [rewrite Rmult_1_l; lra|exact Hi]).
    assert (Wi : 0 <= wind i <= 51) by (unfold wind; destruct (i =? 0)%Z, (i =? 1)%Z, (i =? 2)%Z; lra). apply ab in SC. apply ab. lra. }
  assert (IV : smooth ok T (wind_solution r) (fun u => / u 0%Z 0%Z 0%Z) rho).
  { apply (smooth_inv ok T (wind_solution r) (fun u => u 0%Z 0%Z 0%Z) rho (r / 2)); [lra|now apply EN|]. intros t u Ht Tu.
    assert (N : near r (u 0%Z 0%Z)). { apply (two_near r t 0 u Hr ltac:(lra) ltac:(lia)). intros e j i Oi. eapply Rle_trans; [exact (Tu e j i Oi)|apply Rmin_r]. }
    destruct (near_bounds r _ N). lra. }
  pose proof (EN 0%Z ltac:(lia)) as E0. pose proof (EN 1%Z ltac:(lia)) as E1. pose proof (EN 2%Z ltac:(lia)) as E2. pose proof (EN 3%Z ltac:(lia)) as E3.
  assert (P2 : smooth ok T (wind_solution r) (fun u => p2 (u 0%Z 0%Z)) rho).
  { unfold p2. apply (smooth_add ok T (wind_solution r) (fun u => u 0%Z 0%Z 3%Z)); [exact E3|]. apply (smooth_mul ok T (wind_solution r) (fun _ => - (1 / 2))); [now apply smooth_const|].
    apply (smooth_mul ok T (wind_solution r) (fun u => u 0%Z 0%Z 1%Z * u 0%Z 0%Z 1%Z + u 0%Z 0%Z 2%Z * u 0%Z 0%Z 2%Z)); [|exact IV].
    apply (smooth_add ok T (wind_solution r) (fun u => u 0%Z 0%Z 1%Z * u 0%Z 0%Z 1%Z)); now apply smooth_mul. }
  assert (UU : smooth ok T (wind_solution r) (fun u => u 0%Z 0%Z 1%Z * / u 0%Z 0%Z 0%Z) rho) by now apply smooth_mul.
  assert (C : (k = 0 \/ k = 1 \/ k = 2 \/ k = 3)%Z) by lia. unfold rate_of. destruct C as [-> | [-> | [-> | ->]]]; cbn [Z.eqb Pos.eqb].
  - exact E1.
  - apply (smooth_add ok T (wind_solution r) (fun u => u 0%Z 0%Z 1%Z * u 0%Z 0%Z 1%Z * / u 0%Z 0%Z 0%Z)); [|exact P2]. apply (smooth_mul ok T (wind_solution r) (fun u => u 0%Z 0%Z 1%Z * u 0%Z 0%Z 1%Z)); [now apply smooth_mul|exact IV].
  - now apply (smooth_mul ok T (wind_solution r) (fun u => u 0%Z 0%Z 2%Z)).
  - apply (smooth_mul ok T (wind_solution r) (fun u => u 0%Z 0%Z 3%Z + p2 (u 0%Z 0%Z))); [|exact UU]. now apply (smooth_add ok T (wind_solution r) (fun u => u 0%Z 0%Z 3%Z)).
Qed.

(** Both squares: the right-hand side is smooth and the closed form solves the system. *)
Lemma two_exact : exists r, 0 < r /\ quad_exact two LagrangeQuad 0 2 HLLC (fun _ => wind) (/ 2000000) (wind_solution r).
Proof.
  destruct (volume_rule EQuad 0 ltac:(split; lia)) as (x & xw & _ & A). destruct (A zero2 zero1) as (P & W & EQ & _). set (nq := ((0 + 2) ^ space_dim EQuad)%Z) in *.
  destruct edge_rule0 as (fp & fw & EF & F2).
  destruct (volume_rule EQuad 2 ltac:(split; lia)) as (y & w & G & B). destruct (B zero2 zero1) as (P' & W' & EQ' & TR). change ((2 + 2) ^ space_dim EQuad)%Z with (4 ^ space_dim EQuad)%Z in *. set (np := (4 ^ space_dim EQuad)%Z) in *.
  set (r := rsum np (fun q => W' q * jac_det EQuad 1 (elem_nodes two 0) (P' q))).
  assert (Un : untangled EQuad 1 two) by (apply convex_untangled; apply two_good).
  assert (Hr : 0 < r).
  { apply rsum_pos; [reflexivity|]. intros q Hq. destruct (rule_inside EQuad 4 y w P' W' _ _ G ltac:(lia) TR q Hq) as (I1 & I2). apply Rmult_lt_0_compat; [exact I2|now apply Un]. }
  assert (JD : forall e z, (0 <= e < 2)%Z -> jac_det EQuad 1 (elem_nodes two e) z = jac_det EQuad 1 (elem_nodes two 0) z).
  { intros e z He. apply (jac_det_moved EQuad _ _ (fun d => if (d =? 0)%Z then IZR e else 0)). intros k d Hk Hd. change (corners EQuad) with 4%Z in Hk. cbn [space_dim] in Hd. rewrite !two_nodes by lia.
    destruct (d =? 0)%Z; rewrite ?plus_IZR; ring. }
  assert (VA : forall e, (0 <= e < gm_num_elems two)%Z -> rsum nq (fun q => W q * jac_det EQuad 1 (elem_nodes two e) (P q)) = 1).
  { intros e He. change (gm_num_elems two) with 2%Z in He. rewrite (shoelace two e nq P W EQ). unfold quad_area, cross2. rewrite !two_nodes by lia. closed_terms. lra. }
  exists r. split; [exact Hr|]. exists nq, P, W, fp, fw, nq, P, W. split; [exact EQ|]. split; [exact EF|]. split; [exact EQ|].
  exists (fun _ _ _ => 1). split; [|split; [|split]].
  - intros e He. apply (proj2 (inverse0 EQuad two LagrangeQuad nq P W (fun _ => 1) VA (fun _ _ _ => 1) e He)). ring.
  - exists np, P', W'. split; [exact EQ'|]. intros e i k He Hi Hk. change (gm_num_elems two) with 2%Z in He. cbn [space_dim] in Hk. rewrite nfun0 in *. replace i with 0%Z by lia.
    rewrite rsum_1. transitivity (1 * wind_solution r 0 e 0%Z k); [f_equal; transitivity (rsum nq (fun q => W q * jac_det EQuad 1 (elem_nodes two e) (P q))); [apply rsum_ext; intros q _; rewrite !basis0; ring|now apply VA]|].
    rewrite (rsum_ext np _ (fun q => (W' q * jac_det EQuad 1 (elem_nodes two 0) (P' q)) * wind k)) by (intros; rewrite basis0, JD by exact He; ring). rewrite rsum_scal_r. fold r.
    unfold wind_solution. rewrite stream_start by lia. destruct (e =? 0)%Z; ring.
  - intros t e j k Ht (He & Hj & Hk). change (gm_num_elems two) with 2%Z in He. rewrite nfun0 in Hj. cbn [space_dim] in Hk. replace j with 0%Z by lia.
    assert (TH : tube (coefficient EQuad two LagrangeQuad 0) (wind_solution r) (r / 2000) t (wind_solution r t)) by (apply tube_here; lra).
    rewrite (two_rate _ fp fw nq P W t _ e k r F2 (fun _ _ => eq_refl) Hr Ht He Hk TH).
    assert (SD : derivable_pt_lim (fun x => stream 1 x k) t (- (1) * rate_of k (stream 1 t))) by now apply stream_derive.
    assert (D0 : stream 1 t 0 <> 0) by (unfold stream; cbn [Z.eqb]; apply Rgt_not_eq, exp_pos).
    rewrite (rate_scale r (stream 1 t) k (Rgt_not_eq _ _ Hr) D0 Hk (wind_solution r t 0%Z 0%Z)) by (intros; reflexivity).
    unfold wind_solution. destruct (e =? 0)%Z.
    + replace (- (1) * (r * rate_of k (stream 1 t))) with (r * (- (1) * rate_of k (stream 1 t))) by ring. apply (derivable_pt_lim_scal _ r t _ SD).
    + replace (1 * (r * rate_of k (stream 1 t))) with (r * (0 - - (1) * rate_of k (stream 1 t))) by ring. apply (derivable_pt_lim_scal (fun x => 2 * wind k - stream 1 x k) r t).
      apply (derivable_pt_lim_minus (fun _ => 2 * wind k)); [apply derivable_pt_lim_const|exact SD].
  - assert (HR : 0 < Rmin 1 (r / 2000)) by (apply Rmin_pos; lra).
    assert (SS : exists A0 B0 K0 M0, smooth_along (coefficient EQuad two LagrangeQuad 0) (dg_rate (quad_scheme LagrangeQuad 0 two 2 HLLC nq P W (0 + 1) fp fw) two (fun _ _ _ => 1)) (/ 2000000) (wind_solution r) A0 B0 K0 M0 (Rmin 1 (r / 2000))).
    { apply (smooth_system _ _ _ _ _ (fun k u => rate_of k (u 0%Z 0%Z)) (fun e => if (e =? 0)%Z then - (1) else 1) 1 4).
      - split; [exact HR|apply Rmin_l].
      - intros e. destruct (e =? 0)%Z; [rewrite Rabs_Ropp|]; rewrite Rabs_R1; lra.
      - intros k Hk. apply two_smooth; [exact Hr|lra|exact HR|exact Hk].
      - exists 0%Z, 0%Z, 0%Z. repeat split; cbn; lia.
      - intros e j k (_ & _ & Hk). exact Hk.
      - intros t u e j k Ht Tu (He & Hj & Hk). change (gm_num_elems two) with 2%Z in He. rewrite nfun0 in Hj. cbn [space_dim] in Hk. replace j with 0%Z by lia.
        apply (two_rate _ fp fw nq P W t u e k r F2 (fun _ _ => eq_refl) Hr Ht He Hk). intros e' j' k' Ok. eapply Rle_trans; [exact (Tu e' j' k' Ok)|apply Rmin_r]. }
    destruct SS as (A0 & B0 & K0 & M0 & SS). exists A0, B0, K0, M0, (Rmin 1 (r / 2000)). exact SS.
Qed.

(** The run solves this system to fourth order, and the solution moves. *)
Example C105_demo : mesh_wf two /\ good_quads two /\ exists r, 0 < r /\
  quad_exact two LagrangeQuad 0 2 HLLC (fun _ => wind) (/ 2000000) (wind_solution r) /\
  (forall t, 0 < t <= / 2000000 -> wind_solution r t 0%Z 0%Z 0%Z < wind_solution r 0 0%Z 0%Z 0%Z) /\
  exists C d, 0 <= C /\ 0 < d /\ forall h n c, 0 < h <= d -> INR n * h <= / 2000000 -> quad_solution two LagrangeQuad 0 2 HLLC (fun _ => wind) (repeat (RungeKutta4, h) n) c ->
    Rabs (c 0%Z 0%Z 0%Z - r * exp (- (10 * (INR n * h) - (INR n * h) * (INR n * h) / 2))) <= C * h ^ 4.
Proof.
  split; [exact two_wf|]. split; [exact two_good|]. destruct two_exact as (r & Hr & EX). exists r. split; [exact Hr|]. split; [exact EX|]. split.
  - intros t Ht. unfold wind_solution. cbn [Z.eqb]. apply Rmult_lt_compat_l; [exact Hr|]. unfold stream. cbn [Z.eqb]. apply exp_increasing. nra.
  - destruct (C105_solution_quads two LagrangeQuad 0 2 HLLC (fun _ => wind) (/ 2000000) (wind_solution r) RungeKutta4 two_wf ltac:(lra) EX) as (C & d & HC & Hd & H). exists C, d. split; [exact HC|]. split; [exact Hd|].
    intros h n c Hh Hn QS. specialize (H h n c Hh Hn QS 0%Z 0%Z 0%Z ltac:(cbn; lia) ltac:(cbn; lia) ltac:(lia)). unfold wind_solution, stream in H. cbn [Z.eqb] in H. rewrite !Rmult_1_l in H. exact H.
Qed.
Print Assumptions C105_demo.
