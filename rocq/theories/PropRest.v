(** PropRest.v -- C102: gas at rest.  With the HLLC flux a gas at rest under
    uniform pressure stays as it is whatever its density -- smooth or with jumps
    at the faces; with the Lax-Friedrichs flux it does not. *)
From Coq Require Import ZArith List Lia Reals Lra Bool Permutation.
From Coquelicot Require Import Coquelicot.
From Verif Require Import Base RBase LinAlgModel LinAlgProof PropLinAlg QuadModel QuadProof PropQuad BasisModel BasisProof PropBasis PropSolver PropNormals.
From Verif Require Import ShapeModel ShapeProof PropShape MeshModel MeshSpec MeshProof PropMesh PhysModel PhysSpec PhysProof PropPhys SolverModel SolverSpec SolverProof SolverMesh.
From Verif Require Import StepModel StepProof PropStep PropConserve PropResidual PropIntegral.
From Verif Require CommProof.
From Verif Require Import SetupModel SetupSpec MassProof SetupProof SetupPass SetupFaces PropSetup PropVortex PropMeshRun PropInit PropPost DGSpec DGProof PropDG PolySize PropHex PropFree PropHexFree PropTotal.
Import ListNotations.
Local Open Scope R_scope.
Open Scope res_scope.

(** ** Vocabulary *)

(** A state at rest: positive density, no momentum, energy [E] per volume (the
    pressure is then [(gamma - 1) E]). *)
Definition still (dim : Z) (E : R) (u : arr1) : Prop :=
  0 < u 0%Z /\ (forall d, (0 <= d < dim)%Z -> u (d + 1)%Z = 0) /\ u (dim + 1)%Z = E.

(** The ranks hold a gas at rest with energy [E] per volume everywhere, and any
    positive density. *)
Definition at_rest (s : eshape) (bt : basis_type) (p : Z) (pm : Z -> pmesh R) (n : Z) (E : R) (U : Z -> arr3) : Prop :=
  forall r le y, (0 <= r < n)%Z -> (0 <= le < pm_num_elems_part (pm r))%Z ->
    let u := fun k => rsum (nfun bt p) (fun j => basis_fn bt p j y * U r le j k) in
    (forall d, (0 <= d < space_dim s)%Z -> u (d + 1)%Z = 0) /\ u (space_dim s + 1)%Z = E /\
    ((forall d, (0 <= d < space_dim s)%Z -> -1 <= y d <= 1) -> 0 < u 0%Z).

(** ** Fluxes of states at rest *)
Section Fluxes.
Context (dim : Z) (Hd : dim23 dim) (g E : R) (Gm : 1 < g) (Ep : 0 < E).

Definition push_of (N : arr1) (k : Z) : R := if (k =? 0)%Z then 0 else if (k =? dim + 1)%Z then 0 else (g - 1) * E * N (k - 1)%Z.

Lemma still_velocity u i : still dim E u -> (0 <= i < dim)%Z -> velocity u i = 0.
Proof. intros (A & B & _) Hi. unfold velocity, momentum. replace (1 + i)%Z with (i + 1)%Z by lia. rewrite B by exact Hi. unfold Rdiv. ring. Qed.

Lemma still_dot u N : still dim E u -> vdot dim (velocity u) N = 0.
Proof. intros SU. apply rsum_zero. intros i Hi. rewrite (still_velocity u i SU Hi). ring. Qed.

Lemma still_pressure u : still dim E u -> pressure dim g u = (g - 1) * E.
Proof.
  intros SU. unfold pressure. rewrite (still_dot u _ SU). unfold energy. destruct SU as (_ & _ & ->). lra.
Qed.

Lemma still_admissible u : still dim E u -> admissible dim g u.
Proof. intros SU. split; [apply SU|]. rewrite (still_pressure u SU). nra. Qed.

Lemma still_euler u N k : still dim E u -> (0 <= k < dim + 2)%Z -> euler_flux dim g u N k = push_of N k.
Proof.
  intros SU Hk. unfold euler_flux, push_of. rewrite (still_dot u N SU), (still_pressure u SU).
  destruct (k =? 0)%Z; [ring|]. destruct (k =? dim + 1)%Z; ring.
Qed.

Lemma still_primitive u : still dim E u -> same_state dim u (from_primitive dim g (u 0%Z) (fun _ => 0) ((g - 1) * E)).
Proof.
  intros (A & B & C) k Hk. unfold from_primitive. destruct (Z.eqb_spec k 0) as [->|H0]; [reflexivity|].
  destruct (Z.eqb_spec k (dim + 1)) as [->|H1].
  - rewrite C. unfold vdot. rewrite rsum_zero by (intros; ring). field. lra.
  - replace k with ((k - 1) + 1)%Z at 1 by lia. rewrite B by lia. ring.
Qed.

Lemma still_hllc uL uR N k : still dim E uL -> still dim E uR -> vdot dim N N <> 0 -> (0 <= k < dim + 2)%Z ->
  numflux HLLC dim g uL uR N k = push_of N k.
Proof.
  intros SL SR HN Hk.
  rewrite (numflux_state dim g Hd uL _ uR _ (still_primitive uL SL) (still_primitive uR SR)) by exact Hk.
  set (vL := from_primitive dim g (uL 0%Z) (fun _ => 0) ((g - 1) * E)). set (vR := from_primitive dim g (uR 0%Z) (fun _ => 0) ((g - 1) * E)).
  assert (P0 : 0 < (g - 1) * E) by nra.
  assert (AL : admissible dim g vL) by (apply (admissible_ext dim g uL); [exact Hd|exact (still_primitive uL SL)|now apply still_admissible]).
  assert (AR : admissible dim g vR) by (apply (admissible_ext dim g uR); [exact Hd|exact (still_primitive uR SR)|now apply still_admissible]).
  destruct (C53_hllc_contact dim g (uL 0%Z) (uR 0%Z) ((g - 1) * E) N Hd Gm (proj1 SL) (proj1 SR) P0 HN zero1) as (F & EF & HF & _).
  destruct (C51_hllc_total dim g vL vR N Hd Gm AL AR HN zero1) as (F' & EF' & HF' & _).
  fold vL vR in EF. rewrite EF in EF'. injection EF' as <-. cbn [numflux]. rewrite <- (HF' k Hk), (HF k Hk). reflexivity.
Qed.
End Fluxes.

(** ** The residual *)
Section Rest.
Context (iter : Z -> list Z -> list Z) (n : Z) (m : gmesh R) (ep : list Z) (WF : run_wf iter n m ep).
Context (S : scheme) (bt : basis_type) (p : Z) (P fp : arr2).
Let s := sc_shape S.
Let dim := space_dim s.
Context (E2 : sc_nb S = nfun bt p) (E3 : sc_val S = (fun q i => basis_fn bt p i (P q))) (E4 : sc_fval S = (fun k q i => basis_fn bt p i (face_at s k (fp q)))).
Context (FV : faces_valid s m) (FP : face_points s (sc_nqf S)).
Context (PI : forall q, (0 <= q < sc_nq S)%Z -> forall d, (0 <= d < dim)%Z -> -1 <= P q d <= 1).
Context (FI : forall q, (0 <= q < sc_nqf S)%Z -> forall k d, (0 <= d < dim)%Z -> -1 <= face_at s k (fp q) d <= 1).
Context (NZ : forall f q, (0 <= f < gm_nIF m)%Z -> (0 <= q < sc_nqf S)%Z -> vdot dim (sc_normal S f q) (sc_normal S f q) <> 0).
Context (E : R) (Ep : 0 < E) (Gm : 1 < sc_gamma S).

Definition rests (c : arr3) : Prop := forall e y, (0 <= e < gm_num_elems m)%Z ->
  let u := fun k => rsum (nfun bt p) (fun j => basis_fn bt p j y * c e j k) in
  (forall d, (0 <= d < dim)%Z -> u (d + 1)%Z = 0) /\ u (dim + 1)%Z = E /\ ((forall d, (0 <= d < dim)%Z -> -1 <= y d <= 1) -> 0 < u 0%Z).

Lemma rest_dim : dim23 dim.
Proof. unfold dim, dim23. destruct s; cbn; lia. Qed.

Lemma rests_state c e q : rests c -> (0 <= e < gm_num_elems m)%Z -> (0 <= q < sc_nq S)%Z -> still dim E (dg_state S c e q).
Proof.
  intros RC He Hq. destruct (RC e (P q) He) as (A & B & C). unfold still, dg_state. rewrite E2, E3. split; [apply C; now apply PI|]. split; [exact A|exact B].
Qed.

Lemma rest_elem f sd : (0 <= f < gm_nIF m)%Z -> (0 <= side_elem m f sd < gm_num_elems m)%Z.
Proof. intros Hf. destruct (side_nonneg iter n m ep WF _ _ _ _ _ (side_has iter n m ep WF S f sd Hf)) as (_ & _ & H). exact H. Qed.

Lemma rest_point f sd q : (0 <= f < gm_nIF m)%Z -> (0 <= q < sc_nqf S)%Z -> (0 <= side_point S m f sd q < sc_nqf S)%Z.
Proof.
  intros Hf Hq. pose proof (side_has iter n m ep WF S f sd Hf) as HS. destruct (side_nonneg iter n m ep WF _ _ _ _ _ HS) as (_ & O0 & _).
  destruct (FV _ _ _ _ _ HS) as (_ & O1). unfold side_point. refine (proj1 (order_perm s (sc_nqf S) _ (fun _ => 0%Z) FP _) q Hq). split; assumption.
Qed.

Lemma rests_trace c f sd q : rests c -> (0 <= f < gm_nIF m)%Z -> (0 <= q < sc_nqf S)%Z ->
  still dim E (dg_trace S c (side_elem m f sd) (side_face m f sd) q).
Proof.
  intros RC Hf Hq. destruct (RC (side_elem m f sd) (face_at s (side_face m f sd) (fp q)) (rest_elem f sd Hf)) as (A & B & C).
  unfold still, dg_trace. rewrite E2, E4. split; [apply C; now apply FI|]. split; [exact A|exact B].
Qed.

Lemma rests_physical c : rests c -> physical S m c.
Proof.
  intros RC. split.
  - intros e q He Hq. apply (rests_state c e q RC He Hq).
  - intros f sd q Hf Hq. apply (still_admissible dim _ E Gm Ep). now apply rests_trace.
Qed.

Lemma rests_volume c e q j k : rests c -> (0 <= e < gm_num_elems m)%Z -> (0 <= q < sc_nq S)%Z -> (0 <= k < dim + 2)%Z ->
  euler_flux dim (sc_gamma S) (dg_state S c e q) (axis j) k = push_of dim (sc_gamma S) E (axis j) k.
Proof. intros RC He Hq Hk. apply still_euler; [|exact Hk]. now apply rests_state. Qed.

Context (FT : sc_flux S = HLLC).

Lemma rests_flux c f q k : rests c -> (0 <= f < gm_nIF m)%Z -> (0 <= q < sc_nqf S)%Z -> (0 <= k < dim + 2)%Z ->
  dg_flux S m c f q k = push_of dim (sc_gamma S) E (sc_normal S f q) k.
Proof.
  intros RC Hf Hq Hk. unfold dg_flux. fold s. fold dim. rewrite FT.
  apply (still_hllc dim rest_dim _ E Gm Ep); [| |now apply NZ|exact Hk]; apply rests_trace; auto; now apply rest_point.
Qed.

(** Two gases at rest with the same pressure have the same residual. *)
Lemma rests_residual c c' e i k : rests c -> rests c' -> (0 <= e < gm_num_elems m)%Z -> (0 <= k < dim + 2)%Z ->
  dg_residual S m c e i k = dg_residual S m c' e i k.
Proof.
  intros RC RC' He Hk. unfold dg_residual. f_equal.
  - unfold dg_volume. fold s. fold dim. apply rsum_ext. intros q Hq. f_equal. apply rsum_ext. intros j Hj. now rewrite !rests_volume.
  - apply rsum_ext. intros f Hf.
    assert (K : forall sd, dg_side S m c f sd e i k = dg_side S m c' f sd e i k).
    { intros sd. unfold dg_side. destruct (side_elem m f sd =? e)%Z; [|reflexivity]. f_equal. apply rsum_ext. intros q Hq. now rewrite !rests_flux. }
    now rewrite !K.
Qed.

(** Mass and energy do not change at all. *)
Lemma rests_still c e i k : rests c -> (0 <= e < gm_num_elems m)%Z -> (k = 0 \/ k = dim + 1)%Z -> dg_residual S m c e i k = 0.
Proof.
  intros RC He Hk. assert (R : (0 <= k < dim + 2)%Z) by (pose proof rest_dim as [|]; lia).
  assert (Z0 : forall N, push_of dim (sc_gamma S) E N k = 0).
  { intros N. unfold push_of. destruct Hk as [->| ->]; [reflexivity|]. rewrite Z.eqb_refl. now destruct (dim + 1 =? 0)%Z. }
  unfold dg_residual. rewrite (rsum_zero (gm_nIF m)).
  - rewrite Rplus_0_r. unfold dg_volume. fold s. fold dim. apply rsum_zero. intros q Hq. rewrite rsum_zero; [ring|].
    intros j Hj. rewrite rests_volume, Z0 by assumption. ring.
  - intros f Hf.
    assert (K : forall sd, dg_side S m c f sd e i k = 0).
    { intros sd. unfold dg_side. destruct (side_elem m f sd =? e)%Z; [|reflexivity]. rewrite rsum_zero; [ring|]. intros q Hq. rewrite rests_flux, Z0 by assumption. ring. }
    rewrite !K. ring.
Qed.
End Rest.

(** ** Points of the rules *)
Lemma volume_closed s p nq P W : order_ok p -> volume_quadrature s p zero2 zero1 = Ok (nq, P, W) ->
  forall q, (0 <= q < nq)%Z -> forall d, (0 <= d < space_dim s)%Z -> -1 <= P q d <= 1.
Proof.
  unfold order_ok. intros Op EQ q Hq d Hd. destruct (volume_rule s p ltac:(split; lia)) as (x & w & G & A). destruct (A zero2 zero1) as (P' & W' & EQ' & TR).
  rewrite EQ in EQ'. injection EQ' as EN <- <-. rewrite EN in Hq.
  destruct (rule_inside s (p + 2) x w P W _ _ G ltac:(lia) TR q Hq) as (IN & _). specialize (IN d Hd). lra.
Qed.

Lemma face_closed s p nqf fp fw : order_ok p -> face_quadrature s p = Ok (nqf, fp, fw) ->
  forall q, (0 <= q < nqf)%Z -> forall k d, (0 <= d < space_dim s)%Z -> -1 <= face_at s k (fp q) d <= 1.
Proof.
  unfold order_ok. intros Op EF q Hq k d Hd. destruct (face_rule s p ltac:(lia) ltac:(lia) ltac:(lia)) as (x & w & fp' & fw' & (G & _) & TR & EF').
  rewrite EF in EF'. injection EF' as EN <- <-. subst nqf.
  assert (B : forall j, (0 <= j < space_dim s - 1)%Z -> -1 <= fp q j <= 1).
  { intros j Hj. destruct (TR q Hq) as (T & _). rewrite (T j Hj).
    assert (NP : (0 < face_rule_points s p)%Z) by (destruct s; cbn; lia).
    destruct (G (digit (face_rule_points s p) j q) (digit_range _ _ _ NP)) as (X & _). lra. }
  destruct s; cbn [face_at space_dim] in *.
  - pose proof (B 0%Z ltac:(lia)). unfold PropShape.quad_face, vec2. destruct k as [|[| [| |]|]|]; cbn; destruct (d =? 0)%Z; lra.
  - pose proof (B 0%Z ltac:(lia)). pose proof (B 1%Z ltac:(lia)). unfold PropShape.hex_face, vec3.
    destruct k as [|[[|[| |]|]|[[| |]|[| |]|]|]|]; cbn; destruct (d =? 0)%Z; try lra; destruct (d =? 1)%Z; lra.
Qed.

Lemma at_rest_rests zero iter n m ep pm s bt p E U c : run_wf iter n m ep -> partitioned zero iter n m ep pm ->
  (forall r le e j k, (0 <= r < n)%Z -> rd (pm_l2g_elem (pm r)) le = Ok e -> U r le j k = c e j k) ->
  at_rest s bt p pm n E U ->
  forall e y, (0 <= e < gm_num_elems m)%Z ->
  let u := fun k => rsum (nfun bt p) (fun j => basis_fn bt p j y * c e j k) in
  (forall d, (0 <= d < space_dim s)%Z -> u (d + 1)%Z = 0) /\ u (space_dim s + 1)%Z = E /\ ((forall d, (0 <= d < space_dim s)%Z -> -1 <= y d <= 1) -> 0 < u 0%Z).
Proof.
  intros WF PT Hc AR e y He u. destruct (owner_of zero iter n m ep pm e WF PT He) as (r & le & Hr & Hle).
  assert (L : (0 <= le < pm_num_elems_part (pm r))%Z).
  { destruct (C01_element_ownership R zero iter n m ep pm WF PT) as (_ & _ & CN & _). destruct (CN r Hr) as (_ & ->). now apply rd_in_range in Hle. }
  pose proof (AR r le y Hr L) as A. cbv zeta in A.
  assert (K : forall k, u k = rsum (nfun bt p) (fun j => basis_fn bt p j y * U r le j k)).
  { intros k. unfold u. apply rsum_ext. intros j Hj. f_equal. symmetry. now apply Hc. }
  destruct A as (A1 & A2 & A3). split; [|split].
  - intros d Hd. rewrite K. now apply A1.
  - now rewrite K.
  - intros Hy. rewrite K. now apply A3.
Qed.

(** The coefficients of the gas of density 1. *)
Definition unit_gas (dim : Z) (E : R) : arr1 := fun k => if (k =? 0)%Z then 1 else if (k =? dim + 1)%Z then E else 0.

Lemma unit_still dim E : (0 < dim)%Z -> still dim E (unit_gas dim E).
Proof.
  intros Hd. unfold still, unit_gas. split; [cbn; lra|]. split.
  - intros d Hd'. destruct (Z.eqb_spec (d + 1) 0); [lia|]. destruct (Z.eqb_spec (d + 1) (dim + 1)); [lia|reflexivity].
  - destruct (Z.eqb_spec (dim + 1) 0); [lia|]. now rewrite Z.eqb_refl.
Qed.

Lemma unit_sum bt p (u : arr1) k y : order_ok p -> supported bt p -> rsum (nfun bt p) (fun j => basis_fn bt p j y * (ones bt j * u k)) = u k.
Proof.
  unfold order_ok. intros Op Sup. transitivity (rsum (nfun bt p) (fun j => (ones bt j * basis_fn bt p j y) * u k)); [apply rsum_ext; intros; ring|].
  rewrite rsum_scal_r, ones_sum by (auto; lia). ring.
Qed.

(** ** A physical state has a residual *)
Section Evaluates.
Context (zero : R) (iter : Z -> list Z -> list Z) (n : Z) (m : gmesh R) (ep : list Z) (pm : Z -> pmesh R).
Context (WF : run_wf iter n m ep) (PT : partitioned zero iter n m ep pm).
Context (S : scheme) (D : Z -> rdata) (RS : runs_scheme S m pm n D).
Let s := sc_shape S.
Let dim := space_dim s.
Let nqf := sc_nqf S.
Let nb := sc_nb S.
Context (HV : faces_valid s m) (HD : faces_distinct m) (HP : face_points s nqf) (Hg : 1 < sc_gamma S).

Lemma evaluates_physical c U w : physical S m c -> holds pm n nb (dim + 2) c U ->
  exists rs w1, evaluation s m ep pm n nqf (sc_gamma S) D U w rs w1.
Proof.
  intros (PV & PF) HU. pose proof (rs_same _ _ _ _ _ RS) as SS.
  assert (Hd : dim23 dim) by (unfold dim, dim23; destruct s; cbn; lia).
  destruct (C04_interior_faces R zero iter n m ep pm WF PT) as (_ & H4).
  destruct (C64_evaluates R zero iter n m ep pm s nqf nb (sc_gamma S) (sc_flux S) (sc_fval S) (sc_fwts S) D U (snd w) (fst w) WF PT HV HD HP Hg SS)
    as (UL & UR & v2 & rs2 & E & _ & AD).
  - intros r lf iq Hr Hlf Hiq. destruct (local_faces zero iter n m ep pm WF PT r lf Hr Hlf) as (f & Rf).
    destruct (rs_face _ _ _ _ _ RS r lf f iq Hr Rf Hiq) as (NZ & EN). fold dim.
    intros X. apply NZ. rewrite <- X. apply rsum_ext. intros j Hj. fold dim in EN. now rewrite !EN.
  - intros r le q Hr Hle Hq. destruct (rs_rule _ _ _ _ _ RS r Hr) as (EQ & RU). rewrite EQ in Hq.
    destruct (C01_element_ownership R zero iter n m ep pm WF PT) as (_ & _ & H1 & _). destruct (H1 r Hr) as (_ & EL). rewrite EL in Hle.
    destruct (rd_total (pm_l2g_elem (pm r)) le Hle) as (e & Re).
    assert (He : (0 <= e < gm_num_elems m)%Z) by exact (SetupProof.owned_elem zero iter n m ep pm WF PT r le e Hr Re).
    specialize (PV e q He Hq). unfold density, vol_state, dg_state in *.
    destruct (ss_sizes _ _ _ _ _ _ _ _ _ _ _ SS r Hr) as (_ & _ & _ & -> & _).
    rewrite (rsum_ext _ _ (fun j => sc_val S q j * c e j 0%Z)); [lra|]. intros j Hj. destruct (RU q Hq) as (_ & RU2). destruct (RU2 j Hj) as (-> & _).
    f_equal. apply (HU r le e); try assumption. destruct Hd; lia.
  - intros f sd e kf o r le q HS Hr Re Hq.
    destruct (face_of_side iter n m ep WF S f sd e kf o HS) as (Hf & E1 & E2 & _).
    specialize (PF f sd q Hf Hq). rewrite E1, E2 in PF.
    apply (admissible_ext _ _ (dg_trace S c e kf q)); [exact Hd| |exact PF].
    intros k Hk. unfold dg_trace, face_trace. apply rsum_ext. intros j Hj. f_equal. symmetry. now apply (HU r le e).
  - exists rs2, (v2, rs2), UL, UR. split; [exact E|]. split; [reflexivity|exact AD].
Qed.
End Evaluates.

(** ** C102, quadrilaterals *)

(** The residual of a gas at rest can be evaluated (any numerical flux). *)
Theorem C102_rest_evaluates : forall zero iter n m ep pm bt p h f gamma ft ord pord junk E U w,
  run_wf iter n m ep -> partitioned zero iter n m ep pm -> faces_valid EQuad m -> faces_distinct m ->
  straight_quads m -> conforming m -> basis_for EQuad bt -> supported bt p -> order_ok p -> 1 < gamma ->
  all_set_up EQuad bt p 1 m pm n h f -> inner_loops_ok pm n ord pord ->
  0 < E -> at_rest EQuad bt p pm n E U ->
  exists rs w1, evaluation EQuad m ep pm n (p + 1) gamma (tables EQuad bt p pm gamma ft h f ord pord junk) U w rs w1.
Proof.
  intros zero iter n m ep pm bt p h f gamma ft ord pord junk E U w WF PT FV FD SQ CF BF Sup Op Gm AS IL Ep AR.
  assert (RD : ready EQuad bt p 1 m) by (constructor; auto; [lia|apply SQ|now apply convex_untangled]).
  destruct (quad_runs zero iter n m ep pm bt p h f gamma ft ord pord junk WF PT FV SQ CF RD AS IL) as (nq & P & W & fp & fw & EQ & EF & FP & RS).
  destruct (gather zero iter n m ep pm U WF PT) as (c & Hc).
  set (S := quad_scheme bt p m gamma ft nq P W (p + 1) fp fw) in *.
  apply (evaluates_physical zero iter n m ep pm WF PT S _ RS FV FD FP Gm c U w).
  - apply (rests_physical iter n m ep WF S bt p P fp eq_refl eq_refl eq_refl (volume_closed EQuad p nq P W Op EQ) (face_closed EQuad p (p + 1) fp fw Op EF) E Ep Gm).
    exact (at_rest_rests zero iter n m ep pm EQuad bt p E U c WF PT Hc AR).
  - intros r le e j k Hr He _ _. now apply Hc.
Qed.
Print Assumptions C102_rest_evaluates.

(** HLLC: density and energy of a gas at rest do not change in any element; in an
    element with a neighbour on every edge it does not start to move either, up
    to the error of the tabulated rules. *)
Theorem C102_rest_quads : forall zero iter n m ep pm bt p h f gamma ord pord junk E U w rs w1,
  run_wf iter n m ep -> partitioned zero iter n m ep pm -> faces_valid EQuad m -> faces_distinct m ->
  straight_quads m -> conforming m -> basis_for EQuad bt -> supported bt p -> order_ok p -> 1 < gamma ->
  all_set_up EQuad bt p 1 m pm n h f -> inner_loops_ok pm n ord pord ->
  0 < E -> at_rest EQuad bt p pm n E U -> boundary_zero EQuad m pm n (p + 1) (fst w) ->
  evaluation EQuad m ep pm n (p + 1) gamma (tables EQuad bt p pm gamma HLLC h f ord pord junk) U w rs w1 ->
  forall r le e i, (0 <= r < n)%Z -> rd (pm_l2g_elem (pm r)) le = Ok e -> (0 <= i < nfun bt p)%Z ->
    rs r le i 0%Z = 0 /\ rs r le i 3%Z = 0 /\
    forall H, extent_at_most m e H -> (forall kk, (0 <= kk < 4)%Z -> exists f sd o, has_side m f sd e kk o) ->
      forall d, (0 <= d < 2)%Z -> Rabs (rs r le i (d + 1)%Z) <= free_stream_eps * H * ((gamma - 1) * E).
Proof.
  intros zero iter n m ep pm bt p h f gamma ord pord junk E U w rs w1 WF PT FV FD SQ CF BF Sup Op Gm AS IL Ep AR BZ EV.
  assert (RD : ready EQuad bt p 1 m) by (constructor; auto; [lia|apply SQ|now apply convex_untangled]).
  destruct (quad_runs zero iter n m ep pm bt p h f gamma HLLC ord pord junk WF PT FV SQ CF RD AS IL) as (nq & P & W & fp & fw & EQ & EF & FP & RS).
  destruct (gather zero iter n m ep pm U WF PT) as (c & Hc).
  set (S := quad_scheme bt p m gamma HLLC nq P W (p + 1) fp fw) in *.
  assert (HU : holds_solution pm n (nfun bt p) 4 c U) by (intros r le e j k Hr He _ _; now apply Hc).
  pose proof (at_rest_rests zero iter n m ep pm EQuad bt p E U c WF PT Hc AR) as RC.
  assert (NZ : forall f q, (0 <= f < gm_nIF m)%Z -> (0 <= q < sc_nqf S)%Z -> vdot 2 (sc_normal S f q) (sc_normal S f q) <> 0).
  { intros g q Hg _. exact (edge_normal_nonzero iter n m ep WF FV SQ g Hg). }
  pose proof (rests_still iter n m ep WF S bt p P fp eq_refl eq_refl eq_refl FV FP (volume_closed EQuad p nq P W Op EQ) (face_closed EQuad p (p + 1) fp fw Op EF) NZ E Ep Gm eq_refl c) as ST.
  pose proof (rests_residual iter n m ep WF S bt p P fp eq_refl eq_refl eq_refl FV FP (volume_closed EQuad p nq P W Op EQ) (face_closed EQuad p (p + 1) fp fw Op EF) NZ E Ep Gm eq_refl c) as RR.
  intros r le e i Hr He Hi. pose proof (owned_elem zero iter n m ep pm WF PT r le e Hr He) as Hm.
  pose proof (C77_residual_of_scheme zero iter n m ep pm S _ c U w rs w1 WF PT RS FV FD FP Gm HU BZ EV r le e i) as RE.
  cbn [S quad_scheme sc_nb sc_shape space_dim] in RE. fold S in RE.
  split; [|split].
  - rewrite RE by (assumption || lia). apply ST; [exact RC|exact Hm|now left].
  - rewrite RE by (assumption || lia). apply ST; [exact RC|exact Hm|now right].
  - intros H HX IN d Hd. rewrite RE by (assumption || lia).
    set (u := unit_gas 2 E). pose proof (unit_still 2 E ltac:(lia)) as SU. fold u in SU.
    set (c0 := (fun _ j k => ones bt j * u k) : arr3).
    assert (UF : uniform bt p m u c0) by (intros e' k y _ _; apply unit_sum; assumption).
    rewrite (RR c0 e i (d + 1)%Z RC); [| |exact Hm|change (space_dim (sc_shape S)) with 2%Z; lia].
    2: { intros e' y _. cbv zeta. destruct SU as (S1 & S2 & S3). unfold c0. split; [|split].
         - intros d' Hd'. rewrite unit_sum by assumption. now apply S2.
         - rewrite unit_sum by assumption. exact S3.
         - intros _. rewrite unit_sum by assumption. exact S1. }
    pose proof (residual_uniform iter n m ep WF FV FD SQ CF bt p BF Op Sup gamma Gm HLLC nq P W fp fw EQ EF u (still_admissible 2 gamma E Gm Ep u SU) c0 UF e i (d + 1)%Z H Hm Hi ltac:(lia) HX) as B.
    rewrite (rsum_zero 4) in B.
    + rewrite Rminus_0_r in B. eapply Rle_trans; [exact B|]. apply Req_le. f_equal.
      rewrite !(still_euler 2 gamma E) by (assumption || lia). unfold push_of.
      destruct (Z.eqb_spec (d + 1) 0); [lia|]. destruct (Z.eqb_spec (d + 1) (2 + 1)); [lia|]. replace (d + 1 - 1)%Z with d by lia. unfold axis.
      assert (0 < (gamma - 1) * E) by nra.
      assert (d = 0 \/ d = 1)%Z as [-> | ->] by lia; cbn [Z.eqb]; rewrite Rmult_1_r, Rmult_0_r, Rabs_R0, Rabs_right; lra.
    + intros kk Hkk. destruct (IN kk Hkk) as (fc & sd & o & HS).
      destruct (face_of_side iter n m ep WF S fc sd e kk o HS) as (Hf & Ee & Ek & _).
      assert (EX : exposed m e kk = false).
      { unfold exposed. apply negb_false_iff. apply existsb_exists. exists fc. split; [now apply In_zseq|]. unfold on_side.
        destruct sd; rewrite Ee, Ek, !Z.eqb_refl; cbn [andb]; [apply orb_true_r|reflexivity]. }
      now rewrite EX.
Qed.
Print Assumptions C102_rest_quads.

(** ** C102, hexahedra *)

(** The residual of a gas at rest can be evaluated (any numerical flux). *)
Theorem C102_rest_evaluates_hexahedra : forall zero iter n m ep pm bt p h f gamma ft ord pord junk E U w,
  run_wf iter n m ep -> partitioned zero iter n m ep pm -> faces_valid EHex m -> faces_distinct m ->
  flat_hexes m -> conforming_hexes m -> basis_for EHex bt -> supported bt p -> order_ok p -> 1 < gamma ->
  all_set_up EHex bt p 1 m pm n h f -> inner_loops_ok pm n ord pord ->
  0 < E -> at_rest EHex bt p pm n E U ->
  exists rs w1, evaluation EHex m ep pm n ((p + 2) * (p + 2)) gamma (tables EHex bt p pm gamma ft h f ord pord junk) U w rs w1.
Proof.
  intros zero iter n m ep pm bt p h f gamma ft ord pord junk E U w WF PT FV FD FH CF BF Sup Op Gm AS IL Ep AR.
  assert (RD : ready EHex bt p 1 m) by (constructor; auto; [lia|apply FH|apply FH]).
  destruct (hex_runs zero iter n m ep pm bt p h f gamma ft ord pord junk WF PT FV FH CF RD AS IL) as (nq & P & W & fp & fw & EQ & EF & FP & RS).
  destruct (gather zero iter n m ep pm U WF PT) as (c & Hc).
  set (S := hex_scheme bt p m gamma ft nq P W ((p + 2) * (p + 2)) fp fw) in *.
  apply (evaluates_physical zero iter n m ep pm WF PT S _ RS FV FD FP Gm c U w).
  - apply (rests_physical iter n m ep WF S bt p P fp eq_refl eq_refl eq_refl (volume_closed EHex p nq P W Op EQ) (face_closed EHex p ((p + 2) * (p + 2)) fp fw Op EF) E Ep Gm).
    exact (at_rest_rests zero iter n m ep pm EHex bt p E U c WF PT Hc AR).
  - intros r le e j k Hr He _ _. now apply Hc.
Qed.
Print Assumptions C102_rest_evaluates_hexahedra.

(** HLLC: density and energy of a gas at rest do not change in any element; in an
    element with a neighbour on every face it does not start to move either, up
    to the error of the tabulated rules. *)
Theorem C102_rest_hexahedra : forall zero iter n m ep pm bt p h f gamma ord pord junk E U w rs w1,
  run_wf iter n m ep -> partitioned zero iter n m ep pm -> faces_valid EHex m -> faces_distinct m ->
  flat_hexes m -> conforming_hexes m -> basis_for EHex bt -> supported bt p -> order_ok p -> 1 < gamma ->
  all_set_up EHex bt p 1 m pm n h f -> inner_loops_ok pm n ord pord ->
  0 < E -> at_rest EHex bt p pm n E U -> boundary_zero EHex m pm n ((p + 2) * (p + 2)) (fst w) ->
  evaluation EHex m ep pm n ((p + 2) * (p + 2)) gamma (tables EHex bt p pm gamma HLLC h f ord pord junk) U w rs w1 ->
  forall r le e i, (0 <= r < n)%Z -> rd (pm_l2g_elem (pm r)) le = Ok e -> (0 <= i < nfun bt p)%Z ->
    rs r le i 0%Z = 0 /\ rs r le i 4%Z = 0 /\
    ((forall kk, (0 <= kk < 6)%Z -> exists f sd o, has_side m f sd e kk o) ->
      forall d, (0 <= d < 3)%Z -> Rabs (rs r le i (d + 1)%Z) <= free_stream_eps3 p * rsum 6 (fun kk => Rabs ((gamma - 1) * E * face_vector m e kk d))).
Proof.
  intros zero iter n m ep pm bt p h f gamma ord pord junk E U w rs w1 WF PT FV FD FH CF BF Sup Op Gm AS IL Ep AR BZ EV.
  assert (RD : ready EHex bt p 1 m) by (constructor; auto; [lia|apply FH|apply FH]).
  destruct (hex_runs zero iter n m ep pm bt p h f gamma HLLC ord pord junk WF PT FV FH CF RD AS IL) as (nq & P & W & fp & fw & EQ & EF & FP & RS).
  destruct (gather zero iter n m ep pm U WF PT) as (c & Hc).
  set (S := hex_scheme bt p m gamma HLLC nq P W ((p + 2) * (p + 2)) fp fw) in *.
  assert (HU : holds_solution pm n (nfun bt p) 5 c U) by (intros r le e j k Hr He _ _; now apply Hc).
  pose proof (at_rest_rests zero iter n m ep pm EHex bt p E U c WF PT Hc AR) as RC.
  assert (NZ : forall f q, (0 <= f < gm_nIF m)%Z -> (0 <= q < sc_nqf S)%Z -> vdot 3 (sc_normal S f q) (sc_normal S f q) <> 0).
  { intros g q Hg _. exact (flat_normal_nonzero iter n m ep WF FH g Hg). }
  pose proof (rests_still iter n m ep WF S bt p P fp eq_refl eq_refl eq_refl FV FP (volume_closed EHex p nq P W Op EQ) (face_closed EHex p ((p + 2) * (p + 2)) fp fw Op EF) NZ E Ep Gm eq_refl c) as ST.
  pose proof (rests_residual iter n m ep WF S bt p P fp eq_refl eq_refl eq_refl FV FP (volume_closed EHex p nq P W Op EQ) (face_closed EHex p ((p + 2) * (p + 2)) fp fw Op EF) NZ E Ep Gm eq_refl c) as RR.
  intros r le e i Hr He Hi. pose proof (owned_elem zero iter n m ep pm WF PT r le e Hr He) as Hm.
  pose proof (C77_residual_of_scheme zero iter n m ep pm S _ c U w rs w1 WF PT RS FV FD FP Gm HU BZ EV r le e i) as RE.
  cbn [S hex_scheme sc_nb sc_shape space_dim] in RE. fold S in RE.
  split; [|split].
  - rewrite RE by (assumption || lia). apply ST; [exact RC|exact Hm|now left].
  - rewrite RE by (assumption || lia). apply ST; [exact RC|exact Hm|now right].
  - intros IN d Hd. rewrite RE by (assumption || lia).
    set (u := unit_gas 3 E). pose proof (unit_still 3 E ltac:(lia)) as SU. fold u in SU.
    set (c0 := (fun _ j k => ones bt j * u k) : arr3).
    assert (UF : forall e k y, (0 <= e < gm_num_elems m)%Z -> (0 <= k < 5)%Z -> rsum (nfun bt p) (fun j => basis_fn bt p j y * c0 e j k) = u k) by (intros e' k y _ _; apply unit_sum; assumption).
    rewrite (RR c0 e i (d + 1)%Z RC); [| |exact Hm|change (space_dim (sc_shape S)) with 3%Z; lia].
    2: { intros e' y _. cbv zeta. destruct SU as (S1 & S2 & S3). unfold c0. split; [|split].
         - intros d' Hd'. rewrite unit_sum by assumption. now apply S2.
         - rewrite unit_sum by assumption. exact S3.
         - intros _. rewrite unit_sum by assumption. exact S1. }
    assert (FE : flat_element m e).
    { intros kk Hkk. destruct (IN kk Hkk) as (fc & sd & o & HS). destruct FH as (_ & _ & PF). exact (PF _ _ _ _ _ HS). }
    pose proof (residual_uniform3 iter n m ep WF FV FD FH CF bt p BF Op Sup gamma Gm HLLC nq P W fp fw EQ EF u (still_admissible 3 gamma E Gm Ep u SU) c0 UF e i (d + 1)%Z Hm FE Hi ltac:(lia)) as B.
    rewrite (rsum_zero 6) in B.
    + rewrite Rminus_0_r in B. eapply Rle_trans; [exact B|]. apply Req_le. f_equal. apply rsum_ext. intros kk Hkk. f_equal.
      rewrite (still_euler 3 gamma E u _ (d + 1)%Z SU) by lia. unfold push_of.
      destruct (Z.eqb_spec (d + 1) 0); [lia|]. destruct (Z.eqb_spec (d + 1) (3 + 1)); [lia|]. now replace (d + 1 - 1)%Z with d by lia.
    + intros kk Hkk. destruct (IN kk Hkk) as (fc & sd & o & HS).
      destruct (face_of_side iter n m ep WF S fc sd e kk o HS) as (Hf & Ee & Ek & _).
      assert (EX : exposed m e kk = false).
      { unfold exposed. apply negb_false_iff. apply existsb_exists. exists fc. split; [now apply In_zseq|]. unfold on_side.
        destruct sd; rewrite Ee, Ek, !Z.eqb_refl; cbn [andb]; [apply orb_true_r|reflexivity]. }
      now rewrite EX.
Qed.
Print Assumptions C102_rest_hexahedra.
