(** PropPositive.v -- C96: a run of order zero with the Lax-Friedrichs flux and
    forward Euler keeps densities and pressures positive under a CFL condition,
    conserves mass and energy, and is therefore bounded for all times. *)
From Coq Require Import ZArith List Lia Reals Lra String Bool Permutation.
From Coquelicot Require Import Coquelicot.
From Flocq Require Import BinarySingleNaN.
From Verif Require Import Base RBase MeshModel MeshSpec MeshProof PropMesh IOModel PropIO PropOutput.
From Verif Require Import ReadModel PropRead PropCtor UtilModel TimeModel ProgramModel PropProgram.
From Verif Require Import LinAlgModel PropLinAlg BasisModel ShapeModel PropShape SolverModel SolverSpec SolverMesh SolverFlux PhysModel PhysSpec PhysProof PropPhys PropBasis PropSolver PropNormals StepModel PropIntegral PropStep SetupModel SetupSpec SetupProof SetupFaces PropSetup PropMeshRun PropInit PropPost PropResidual DGSpec DGProof PropDG PropHex PropFree PropHexFree PropTime PropWhole PropTotal PropRenumber.
Import ListNotations.
Local Open Scope Z_scope.
Local Open Scope R_scope.
Open Scope res_scope.

(** * The set of physical states *)

Definition kinetic (dim : Z) (U : arr1) : R := rsum dim (fun i => momentum U i * momentum U i / (2 * density U)).

Lemma pressure_kinetic dim g U : density U <> 0 -> pressure dim g U = (g - 1) * (energy dim U - kinetic dim U).
Proof.
  intros H. unfold pressure, kinetic. f_equal. f_equal. unfold vdot, velocity. unfold Rdiv at 1. rewrite <- rsum_scal, <- rsum_scal_r. apply rsum_ext. intros i Hi. field. exact H.
Qed.

Lemma admissible_kinetic dim g U : 1 < g -> (admissible dim g U <-> 0 < density U /\ kinetic dim U < energy dim U).
Proof.
  intros G. unfold admissible. split; intros (H & P); (split; [exact H|]); [rewrite pressure_kinetic in P by lra|rewrite pressure_kinetic by lra].
  - assert (0 < energy dim U - kinetic dim U) by (apply (Rmult_lt_reg_l (g - 1)); [lra|rewrite Rmult_0_r; exact P]). lra.
  - apply Rmult_lt_0_compat; lra.
Qed.

Lemma square_convex a b r s : 0 < r -> 0 < s -> (a + b) * (a + b) / (2 * (r + s)) <= a * a / (2 * r) + b * b / (2 * s).
Proof.
  intros Hr Hs. apply (Rmult_le_reg_r (2 * (r + s) * (r * s))); [repeat apply Rmult_lt_0_compat; lra|].
  replace ((a + b) * (a + b) / (2 * (r + s)) * (2 * (r + s) * (r * s))) with ((a + b) * (a + b) * (r * s)) by (field; lra).
  replace ((a * a / (2 * r) + b * b / (2 * s)) * (2 * (r + s) * (r * s))) with ((a * a * s + b * b * r) * (r + s)) by (field; lra).
  pose proof (Rle_0_sqr (a * s - b * r)) as Q. unfold Rsqr in Q. nra.
Qed.

Definition vadd (U V : arr1) : arr1 := fun k => U k + V k.
Definition vscale (c : R) (U : arr1) : arr1 := fun k => c * U k.

Lemma admissible_add dim g U V : 1 < g -> admissible dim g U -> admissible dim g V -> admissible dim g (vadd U V).
Proof.
  intros G A B. apply admissible_kinetic in A; [|exact G]. apply admissible_kinetic in B; [|exact G]. apply admissible_kinetic; [exact G|].
  destruct A as (A1 & A2), B as (B1 & B2). unfold density, energy, vadd in *. split; [lra|].
  apply Rle_lt_trans with (kinetic dim U + kinetic dim V); [|lra]. unfold kinetic. rewrite <- rsum_plus. apply rsum_le. intros i Hi.
  unfold momentum, density. apply square_convex; assumption.
Qed.

Lemma admissible_scale dim g c U : 1 < g -> 0 < c -> admissible dim g U -> admissible dim g (vscale c U).
Proof.
  intros G Hc A. apply admissible_kinetic in A; [|exact G]. apply admissible_kinetic; [exact G|]. destruct A as (A1 & A2).
  unfold density, energy, vscale in *. split; [nra|].
  replace (kinetic dim (fun k => c * U k)) with (c * kinetic dim U); [nra|]. unfold kinetic. rewrite <- rsum_scal. apply rsum_ext. intros i Hi. unfold momentum, density. field. lra.
Qed.

(** A weak form: nothing, or a physical state. *)
Definition cone (dim : Z) (g : R) (U : arr1) : Prop := (forall k, (0 <= k < dim + 2)%Z -> U k = 0) \/ admissible dim g U.

Lemma cone_ext dim g U V : (dim = 2 \/ dim = 3)%Z -> (forall k, (0 <= k < dim + 2)%Z -> U k = V k) -> cone dim g U -> cone dim g V.
Proof. intros D E [Z0|A]; [left; intros k Hk; rewrite <- E; auto|right; now apply (admissible_ext dim g U)]. Qed.

Lemma cone_scale dim g c U : 1 < g -> 0 <= c -> cone dim g U -> cone dim g (vscale c U).
Proof.
  intros G Hc C. destruct (Req_dec c 0) as [-> | N]; [left; intros; unfold vscale; ring|].
  destruct C as [Z0|A]; [left; intros k Hk; unfold vscale; rewrite Z0 by exact Hk; ring|right; apply admissible_scale; auto; lra].
Qed.

Lemma admissible_cone dim g U V : (dim = 2 \/ dim = 3)%Z -> 1 < g -> admissible dim g U -> cone dim g V -> admissible dim g (vadd U V).
Proof.
  intros D G A [Z0|B]; [|now apply admissible_add]. apply (admissible_ext dim g U); auto. intros k Hk. unfold vadd. rewrite Z0 by exact Hk. ring.
Qed.

Lemma cone_add dim g U V : (dim = 2 \/ dim = 3)%Z -> 1 < g -> cone dim g U -> cone dim g V -> cone dim g (vadd U V).
Proof.
  intros D G [Z0|A] B; [|right; now apply admissible_cone]. apply (cone_ext dim g V); auto. intros k Hk. unfold vadd. rewrite Z0 by exact Hk. ring.
Qed.

Lemma cone_sum dim g n (U : Z -> arr1) : (dim = 2 \/ dim = 3)%Z -> 1 < g -> (forall i, (0 <= i < n)%Z -> cone dim g (U i)) -> cone dim g (fun k => rsum n (fun i => U i k)).
Proof.
  intros D G H. destruct (Z_le_gt_dec 0 n) as [Hn|Hn]; [|left; intros k Hk; now apply rsum_0; lia].
  revert H. pattern n. apply natlike_ind; [| |exact Hn].
  - intros _. left. intros k Hk. now rewrite rsum_0 by lia.
  - intros i Hi IH H. apply (cone_ext dim g (vadd (fun k => rsum i (fun j => U j k)) (U i))); auto.
    + intros k Hk. unfold vadd. rewrite <- Z.add_1_r, rsum_S by lia. reflexivity.
    + apply cone_add; auto; [apply IH; intros; apply H; lia|apply H; lia].
Qed.

(** Waves travel slower than [lam], so moving a state by its flux over [lam]
    leaves it physical. *)
Lemma admissible_flux dim g lam U n : (dim = 2 \/ dim = 3)%Z -> 1 < g -> admissible dim g U -> vdot dim n n = 1 -> max_speed dim g U <= lam ->
  admissible dim g (fun k => U k - euler_flux dim g U n k / lam).
Proof.
  intros D G A N1 HL. pose proof A as (R0 & P0). pose proof (sound_pos dim g U G A) as S0.
  pose proof (cauchy dim (velocity U) n D) as CS. unfold vlen in CS at 2. rewrite N1, sqrt_1, Rmult_1_r in CS. pose proof (Rle_abs (vdot dim (velocity U) n)) as AB.
  unfold max_speed in HL. assert (V0 : 0 <= vlen dim (velocity U)) by apply sqrt_pos.
  set (u := vdot dim (velocity U) n) in *. set (p := pressure dim g U) in *. set (r := density U) in *.
  assert (L0 : 0 < lam) by lra. assert (SS : sound dim g U * sound dim g U = g * p / r).
  { unfold sound. fold p r. apply sqrt_sqrt. apply Rlt_le, Rdiv_lt_0_compat; nra. }
  set (s := 1 - u / lam).
  assert (s0 : sound dim g U <= s * lam) by (unfold s; replace ((1 - u / lam) * lam) with (lam - u) by (field; lra); lra).
  assert (sp : 0 < s) by (apply (Rmult_lt_reg_r lam); lra).
  apply admissible_kinetic; [exact G|].
  assert (ED : density (fun k => U k - euler_flux dim g U n k / lam) = r * s).
  { unfold density. unfold euler_flux. cbn [Z.eqb]. fold u r. change (U 0%Z) with r. unfold s. field. lra. }
  split; [rewrite ED; nra|].
  assert (EM : forall i, (0 <= i < dim)%Z -> momentum (fun k => U k - euler_flux dim g U n k / lam) i = r * velocity U i * s - p * n i / lam).
  { intros i Hi. unfold momentum at 1. unfold euler_flux. destruct (Z.eqb_spec (1 + i) 0); [lia|]. destruct (Z.eqb_spec (1 + i) (dim + 1)); [lia|]. replace (1 + i - 1)%Z with i by lia.
    fold u p. change (U (1 + i)%Z) with (momentum U i). unfold velocity. fold r. unfold s. field. split; lra. }
  assert (EE : energy dim (fun k => U k - euler_flux dim g U n k / lam) = energy dim U * s - p * u / lam).
  { unfold energy at 1. unfold euler_flux. destruct (Z.eqb_spec (dim + 1) 0); [lia|]. rewrite Z.eqb_refl. fold u p. change (U (dim + 1)%Z) with (energy dim U). unfold s. field. lra. }
  assert (EK : kinetic dim (fun k => U k - euler_flux dim g U n k / lam) = s * (r * vdot dim (velocity U) (velocity U) / 2) - p * u / lam + p * p / (2 * r * s * (lam * lam))).
  { unfold kinetic. rewrite ED. rewrite (rsum_ext dim _ (fun i => (r * s / 2) * (velocity U i * velocity U i) - (p / lam) * (velocity U i * n i) + p * p / (2 * r * s * (lam * lam)) * (n i * n i))).
    2:{ intros i Hi. rewrite EM by exact Hi. field. repeat split; lra. }
    rewrite rsum_plus, rsum_minus, !rsum_scal. fold (vdot dim (velocity U) (velocity U)). fold (vdot dim (velocity U) n). fold (vdot dim n n). fold u. rewrite N1. field. repeat split; lra. }
  rewrite EK, EE.
  assert (EP : energy dim U - r * vdot dim (velocity U) (velocity U) / 2 = p / (g - 1)) by (unfold p, pressure; fold r; field; lra).
  assert (K : p * p / (2 * r * s * (lam * lam)) < s * (p / (g - 1))); [|nra].
  assert (Q : g * p / r <= s * lam * (s * lam)) by (rewrite <- SS; apply Rmult_le_compat; lra).
  apply (Rmult_lt_reg_r (2 * s * (lam * lam))); [nra|].
  replace (p * p / (2 * r * s * (lam * lam)) * (2 * s * (lam * lam))) with (p * p / r) by (field; repeat split; lra).
  replace (s * (p / (g - 1)) * (2 * s * (lam * lam))) with (2 * (p / (g - 1)) * (s * lam * (s * lam))) by (field; lra).
  apply Rlt_le_trans with (2 * (p / (g - 1)) * (g * p / r)).
  - replace (p * p / r) with (p * p / (r * (g - 1)) * (g - 1)) by (field; split; lra). replace (2 * (p / (g - 1)) * (g * p / r)) with (p * p / (r * (g - 1)) * (2 * g)) by (field; split; lra).
    apply Rmult_lt_compat_l; [apply Rdiv_lt_0_compat; nra|lra].
  - apply Rmult_le_compat_l; [|exact Q]. apply Rlt_le, Rmult_lt_0_compat; [lra|apply Rdiv_lt_0_compat; lra].
Qed.

(** * Specification *)

(** Order zero: an element has one coefficient per state variable, its state.
    Largest wave speed on the two sides of a face: *)
Definition face_speed (dim : Z) (gamma : R) (m : gmesh R) (c : arr3) (f : Z) : R :=
  Rmax (max_speed dim gamma (c (side_elem m f false) 0%Z)) (max_speed dim gamma (c (side_elem m f true) 0%Z)).

(** Sum over the faces of an element (a face with both sides at the element counts
    twice). *)
Definition around (m : gmesh R) (e : Z) (x : Z -> R) : R :=
  rsum (gm_nIF m) (fun f => (if (side_elem m f false =? e)%Z then x f else 0) + (if (side_elem m f true =? e)%Z then x f else 0)).

(** CFL condition: in a time step no wave carries more through the faces of an
    element than its volume. *)
Definition cfl_by (speed : Z -> R) (m : gmesh R) (vol area : Z -> R) (dt : R) : Prop :=
  forall e, (0 <= e < gm_num_elems m)%Z -> dt * around m e (fun f => area f * speed f) < vol e.
Definition cfl (dim : Z) (gamma : R) (m : gmesh R) (vol area : Z -> R) (dt : R) (c : arr3) : Prop :=
  cfl_by (face_speed dim gamma m c) m vol area dt.

Definition all_admissible (dim : Z) (gamma : R) (m : gmesh R) (c : arr3) : Prop :=
  forall e, (0 <= e < gm_num_elems m)%Z -> admissible dim gamma (c e 0%Z).

Definition in_total (m : gmesh R) (vol : Z -> R) (c : arr3) (k : Z) : R := rsum (gm_num_elems m) (fun e => vol e * c e 0%Z k).

(** * The Lax-Friedrichs flux through a face *)

Section Lax.
Context (dim : Z) (gamma : R) (D : (dim = 2 \/ dim = 3)%Z) (GM : 1 < gamma).

(** A face seen from the element with state [U]: [V] is the state on the other
    side, [N] points outwards. *)
Lemma half_flux lam U V N k : (0 <= k < dim + 2)%Z -> 0 < lam -> vdot dim N N <> 0 -> Rmax (max_speed dim gamma U) (max_speed dim gamma V) = lam ->
  let n := fun i => N i / vlen dim N in
  - numflux LaxFriedrichs dim gamma U V N k =
  vlen dim N * lam / 2 * (V k - euler_flux dim gamma V n k / lam) + vlen dim N * lam / 2 * (U k - euler_flux dim gamma U n k / lam) - vlen dim N * lam * U k.
Proof.
  intros Hk Hl HN HR n. pose proof (vlen_pos dim N HN) as L. unfold numflux. rewrite HR.
  assert (E : forall X, euler_flux dim gamma X N k = vlen dim N * euler_flux dim gamma X n k).
  { intros X. rewrite <- euler_flux_scal by exact Hk. apply (PhysProof.euler_flux_ext dim gamma X _ _ k Hk). intros i Hi. unfold n. field. lra. }
  rewrite !E. field. lra.
Qed.

Lemma unit_normal N : vdot dim N N <> 0 -> vdot dim (fun i => N i / vlen dim N) (fun i => N i / vlen dim N) = 1.
Proof.
  intros HN. pose proof (vlen_pos dim N HN) as L.
  rewrite (vdot_ext dim _ _ (fun i => / vlen dim N * N i) (fun i => / vlen dim N * N i)) by (intros; unfold Rdiv; ring).
  rewrite vdot_scal_l, vdot_scal_r. unfold vlen in *. rewrite <- (sqrt_sqrt (vdot dim N N)) at 3 by apply vdot_nonneg. field. lra.
Qed.

(** What a side of a face adds to the element, up to a multiple of its state, is
    made of physical states. *)
Definition gain (U V N : arr1) (lam : R) (k : Z) : R := - numflux LaxFriedrichs dim gamma U V N k + vlen dim N * lam * U k.

Lemma gain_cone lam U V N : vdot dim N N <> 0 -> admissible dim gamma U -> admissible dim gamma V -> Rmax (max_speed dim gamma U) (max_speed dim gamma V) = lam ->
  cone dim gamma (gain U V N lam).
Proof.
  intros HN AU AV HR. pose proof (vlen_pos dim N HN) as L. 
  pose proof (Rmax_l (max_speed dim gamma U) (max_speed dim gamma V)) as LU. pose proof (Rmax_r (max_speed dim gamma U) (max_speed dim gamma V)) as LV. rewrite HR in LU, LV.
  assert (L0 : 0 < lam).
  { apply Rlt_le_trans with (max_speed dim gamma U); [|exact LU]. unfold max_speed. pose proof (sound_pos dim gamma U GM AU). pose proof (sqrt_pos (vdot dim (velocity U) (velocity U))). unfold vlen. lra. }
  set (n := fun i => N i / vlen dim N).
  apply (cone_ext dim gamma (vadd (vscale (vlen dim N * lam / 2) (fun k => V k - euler_flux dim gamma V n k / lam)) (vscale (vlen dim N * lam / 2) (fun k => U k - euler_flux dim gamma U n k / lam)))); [exact D| |].
  - intros k Hk. unfold gain. rewrite (half_flux lam U V N k Hk L0 HN HR). fold n. unfold vadd, vscale. ring.
  - assert (C : 0 <= vlen dim N * lam / 2) by (apply Rlt_le; nra).
    apply cone_add; [exact D|exact GM| |]; (apply cone_scale; [exact GM|exact C|]; right; apply admissible_flux; auto; now apply unit_normal).
Qed.

(** The same for the other side of the face. *)
Lemma gain_cone_R lam U V N : vdot dim N N <> 0 -> admissible dim gamma U -> admissible dim gamma V -> Rmax (max_speed dim gamma U) (max_speed dim gamma V) = lam ->
  cone dim gamma (fun k => numflux LaxFriedrichs dim gamma U V N k + vlen dim N * lam * V k).
Proof.
  intros HN AU AV HR. apply (cone_ext dim gamma (gain V U (opposite N) lam)); [exact D| |].
  - intros k Hk. unfold gain. rewrite (lax_exchanges dim gamma U V N k Hk), vlen_opposite. ring.
  - apply gain_cone; auto; [|now rewrite Rmax_comm]. unfold opposite. now rewrite vdot_opp_l, vdot_opp_r, Ropp_involutive.
Qed.
End Lax.

(** * The scheme of order zero *)

Lemma rsum_z n : rsum n (fun _ => 0) = 0.
Proof. now apply rsum_zero. Qed.

Section Zero.
Context (S : scheme) (m : gmesh R) (iM : arr3) (vol : Z -> R) (lam : arr3 -> Z -> R).
Notation dim := (space_dim (sc_shape S)).
Notation gamma := (sc_gamma S).
Hypothesis NB : sc_nb S = 1%Z.
Hypothesis VAL : forall q, sc_val S q 0%Z = 1.
Hypothesis FVAL : forall k q, sc_fval S k q 0%Z = 1.
Hypothesis GRAD : forall q d, sc_grad S q 0%Z d = 0.
Hypothesis FW : forall q, (0 <= q < sc_nqf S)%Z -> 0 <= sc_fwts S q.
Hypothesis RG : forall f sd, (0 <= f < gm_nIF m)%Z -> (0 <= side_elem m f sd < gm_num_elems m)%Z.
Hypothesis VP : forall e, (0 <= e < gm_num_elems m)%Z -> 0 < vol e.
Hypothesis IM : forall e, (0 <= e < gm_num_elems m)%Z -> iM e 0%Z 0%Z * vol e = 1.
Hypothesis GM : 1 < gamma.

Definition area (f : Z) : R := rsum (sc_nqf S) (fun q => sc_fwts S q * vlen dim (sc_normal S f q)).

Lemma dim_23 : (dim = 2 \/ dim = 3)%Z.
Proof. destruct (sc_shape S); cbn; lia. Qed.

Lemma trace0 c e k q i : dg_trace S c e k q i = c e 0%Z i.
Proof. unfold dg_trace. rewrite NB, rsum_1, FVAL. ring. Qed.

Lemma state0 c e q i : dg_state S c e q i = c e 0%Z i.
Proof. unfold dg_state. rewrite NB, rsum_1, VAL. ring. Qed.

Definition flux0 (c : arr3) (f q k : Z) : R := numflux (sc_flux S) dim gamma (c (side_elem m f false) 0%Z) (c (side_elem m f true) 0%Z) (sc_normal S f q) k.

Lemma residual0 c e k : dg_residual S m c e 0 k =
  rsum (gm_nIF m) (fun f => rsum (sc_nqf S) (fun q => sc_fwts S q * ((if (side_elem m f false =? e)%Z then - flux0 c f q k else 0) + (if (side_elem m f true =? e)%Z then flux0 c f q k else 0)))).
Proof.
  unfold dg_residual. replace (dg_volume S c e 0 k) with 0.
  - rewrite Rplus_0_l. apply rsum_ext. intros f Hf. unfold dg_side.
    assert (K : forall sd, rsum (sc_nqf S) (fun iq => sc_fwts S iq * dg_flux S m c f iq k * sc_fval S (side_face m f sd) (side_point S m f sd iq) 0%Z) = rsum (sc_nqf S) (fun q => sc_fwts S q * flux0 c f q k)).
    { intros sd. apply rsum_ext. intros q Hq. rewrite FVAL, Rmult_1_r. f_equal. unfold dg_flux, flux0.
      f_equal; apply FunctionalExtensionality.functional_extensionality; intros i; apply trace0. }
    rewrite !K. destruct (side_elem m f false =? e)%Z, (side_elem m f true =? e)%Z; cbn [side_sign].
    + rewrite (rsum_ext (sc_nqf S) (fun q => sc_fwts S q * (- flux0 c f q k + flux0 c f q k)) (fun _ => 0)) by (intros; ring). rewrite rsum_z. ring.
    + rewrite <- rsum_scal, Rplus_0_r. apply rsum_ext. intros. ring.
    + rewrite <- rsum_scal, Rplus_0_l. apply rsum_ext. intros. ring.
    + rewrite (rsum_ext (sc_nqf S) _ (fun _ => 0)) by (intros; ring). rewrite rsum_z. ring.
  - unfold dg_volume. symmetry. rewrite (rsum_ext _ _ (fun _ => 0)); [apply rsum_z|]. intros q Hq.
    rewrite (rsum_ext _ _ (fun _ => 0)); [rewrite rsum_z; ring|]. intros j Hj. rewrite (rsum_ext dim _ (fun _ => 0)); [rewrite rsum_z; ring|]. intros d Hd. rewrite GRAD. ring.
Qed.

Lemma step0 c dt e k : (0 <= e < gm_num_elems m)%Z -> vol e * dg_step S m iM ForwardEuler dt c e 0%Z k = vol e * c e 0%Z k + dt * dg_residual S m c e 0 k.
Proof.
  intros He. cbn [dg_step]. unfold shift, dg_rate. rewrite NB, rsum_1.
  replace (vol e * (c e 0%Z k + dt * (iM e 0%Z 0%Z * dg_residual S m c e 0 k))) with (vol e * c e 0%Z k + dt * (iM e 0%Z 0%Z * vol e) * dg_residual S m c e 0 k) by ring.
  rewrite IM by exact He. ring.
Qed.

(** What a side of a face adds to its element, up to a multiple of the state of the
    element, is made of physical states. *)
Hypothesis GL : forall c f q, (0 <= f < gm_nIF m)%Z -> (0 <= q < sc_nqf S)%Z -> all_admissible dim gamma m c ->
  cone dim gamma (fun k => - flux0 c f q k + vlen dim (sc_normal S f q) * lam c f * c (side_elem m f false) 0%Z k).
Hypothesis GR : forall c f q, (0 <= f < gm_nIF m)%Z -> (0 <= q < sc_nqf S)%Z -> all_admissible dim gamma m c ->
  cone dim gamma (fun k => flux0 c f q k + vlen dim (sc_normal S f q) * lam c f * c (side_elem m f true) 0%Z k).

Theorem positive_step c dt : 0 <= dt -> all_admissible dim gamma m c -> cfl_by (lam c) m vol area dt ->
  all_admissible dim gamma m (dg_step S m iM ForwardEuler dt c).
Proof.
  intros Hdt AD CF e He. pose proof dim_23 as D. specialize (VP e He).
  set (l := lam c).
  (* the two sides of a face, each with its own multiple of the state *)
  set (G := fun f q (k : Z) => (if (side_elem m f false =? e)%Z then - flux0 c f q k + vlen dim (sc_normal S f q) * l f * c (side_elem m f false) 0%Z k else 0)
                  + (if (side_elem m f true =? e)%Z then flux0 c f q k + vlen dim (sc_normal S f q) * l f * c (side_elem m f true) 0%Z k else 0)).
  assert (CG : forall f q, (0 <= f < gm_nIF m)%Z -> (0 <= q < sc_nqf S)%Z -> cone dim gamma (G f q)).
  { intros f q Hf Hq. apply (cone_add dim gamma (fun k => if (side_elem m f false =? e)%Z then - flux0 c f q k + vlen dim (sc_normal S f q) * l f * c (side_elem m f false) 0%Z k else 0)
      (fun k => if (side_elem m f true =? e)%Z then flux0 c f q k + vlen dim (sc_normal S f q) * l f * c (side_elem m f true) 0%Z k else 0) D GM).
    - destruct (side_elem m f false =? e)%Z; [|left; reflexivity]. now apply GL.
    - destruct (side_elem m f true =? e)%Z; [|left; reflexivity]. now apply GR. }
  set (T := around m e (fun f => area f * l f)). specialize (CF e He). fold l in CF. change (dt * T < vol e) in CF.
  assert (EQ : forall k, (0 <= k < dim + 2)%Z -> vol e * dg_step S m iM ForwardEuler dt c e 0%Z k =
    (vol e - dt * T) * c e 0%Z k + dt * rsum (gm_nIF m) (fun f => rsum (sc_nqf S) (fun q => sc_fwts S q * G f q k))).
  { intros k Hk. rewrite step0 by exact He. rewrite residual0. unfold T, around.
    transitivity (vol e * c e 0%Z k + dt * (rsum (gm_nIF m) (fun f => rsum (sc_nqf S) (fun q => sc_fwts S q * G f q k)) - rsum (gm_nIF m) (fun f => (if (side_elem m f false =? e)%Z then area f * l f else 0) + (if (side_elem m f true =? e)%Z then area f * l f else 0)) * c e 0%Z k)); [|ring].
    f_equal. f_equal. rewrite <- rsum_scal_r, <- rsum_minus. apply rsum_ext. intros f Hf.
    transitivity (rsum (sc_nqf S) (fun q => sc_fwts S q * G f q k) - rsum (sc_nqf S) (fun q => sc_fwts S q * (((if (side_elem m f false =? e)%Z then vlen dim (sc_normal S f q) * l f else 0) + (if (side_elem m f true =? e)%Z then vlen dim (sc_normal S f q) * l f else 0)) * c e 0%Z k))).
    - rewrite <- rsum_minus. apply rsum_ext. intros q Hq. unfold G.
      destruct (Z.eqb_spec (side_elem m f false) e) as [E1|_], (Z.eqb_spec (side_elem m f true) e) as [E2|_]; rewrite ?E1, ?E2; ring.
    - f_equal. unfold area. destruct (side_elem m f false =? e)%Z, (side_elem m f true =? e)%Z.
      + rewrite <- !rsum_scal_r, <- rsum_plus, <- rsum_scal_r. apply rsum_ext. intros. ring.
      + rewrite Rplus_0_r, <- !rsum_scal_r. apply rsum_ext. intros. ring.
      + rewrite Rplus_0_l, <- !rsum_scal_r. apply rsum_ext. intros. ring.
      + rewrite Rplus_0_r, Rmult_0_l. rewrite (rsum_ext _ _ (fun _ => 0)) by (intros; ring). apply rsum_z. }
  apply (admissible_ext dim gamma (vscale (/ vol e) (vadd (vscale (vol e - dt * T) (c e 0%Z)) (vscale dt (fun k => rsum (gm_nIF m) (fun f => rsum (sc_nqf S) (fun q => sc_fwts S q * G f q k))))))); [exact D| |].
  - intros k Hk. unfold vscale at 1. unfold vadd, vscale. rewrite <- EQ by exact Hk. field. lra.
  - apply admissible_scale; [exact GM|now apply Rinv_0_lt_compat|]. apply admissible_cone; [exact D|exact GM| |].
    + apply admissible_scale; [exact GM|lra|]. now apply AD.
    + apply cone_scale; [exact GM|exact Hdt|]. apply cone_sum; [exact D|exact GM|]. intros f Hf.
      apply (cone_sum dim gamma (sc_nqf S) (fun q => vscale (sc_fwts S q) (G f q)) D GM). intros q Hq. apply cone_scale; [exact GM|now apply FW|now apply CG].
Qed.

(** What leaves one element enters another. *)
Theorem conserved_step c dt k : in_total m vol (dg_step S m iM ForwardEuler dt c) k = in_total m vol c k.
Proof.
  unfold in_total. rewrite (rsum_ext _ _ (fun e => vol e * c e 0%Z k + dt * dg_residual S m c e 0 k)) by (intros; now apply step0).
  rewrite rsum_plus, rsum_scal. replace (rsum (gm_num_elems m) (fun e => dg_residual S m c e 0 k)) with 0; [ring|].
  rewrite (rsum_ext _ _ _ (fun e He => residual0 c e k)). rewrite rsum_swap. symmetry. rewrite (rsum_ext _ _ (fun _ => 0)); [apply rsum_z|]. intros f Hf.
  rewrite rsum_swap. rewrite (rsum_ext _ _ (fun _ => 0)); [apply rsum_z|]. intros q Hq. rewrite rsum_scal, rsum_plus.
  rewrite (rsum_ext _ (fun e => if (side_elem m f false =? e)%Z then - flux0 c f q k else 0) (fun e => if (e =? side_elem m f false)%Z then - flux0 c f q k else 0)) by (intros; now rewrite Z.eqb_sym).
  rewrite (rsum_ext _ (fun e => if (side_elem m f true =? e)%Z then flux0 c f q k else 0) (fun e => if (e =? side_elem m f true)%Z then flux0 c f q k else 0)) by (intros; now rewrite Z.eqb_sym).
  rewrite (rsum_delta _ _ (fun _ => - flux0 c f q k)) by now apply RG. rewrite (rsum_delta _ _ (fun _ => flux0 c f q k)) by now apply RG. ring.
Qed.

Lemma physical0 c : all_admissible dim gamma m c -> physical S m c.
Proof.
  intros AD. split.
  - intros e q He Hq. unfold density. rewrite state0. exact (proj1 (AD e He)).
  - intros f sd q Hf Hq. apply (admissible_ext dim gamma (c (side_elem m f sd) 0%Z)); [exact dim_23| |now apply AD, RG]. intros k Hk. now rewrite trace0.
Qed.

(** Runs in which the CFL condition holds before every step. *)
Theorem positive_march : forall dt c n, 0 <= dt -> all_admissible dim gamma m c ->
  (forall k, (k < n)%nat -> cfl_by (lam (dg_march S m iM (repeat (ForwardEuler, dt) k) c)) m vol area dt) ->
  stays_physical S m iM (repeat (ForwardEuler, dt) n) c /\
  all_admissible dim gamma m (dg_march S m iM (repeat (ForwardEuler, dt) n) c) /\
  forall k, in_total m vol (dg_march S m iM (repeat (ForwardEuler, dt) n) c) k = in_total m vol c k.
Proof.
  intros dt c n Hdt. revert c. induction n as [|n IH]; intros c AD CF; [split; [exact Logic.I|split; [exact AD|reflexivity]]|]. cbn [repeat].
  assert (C0 : cfl_by (lam c) m vol area dt) by exact (CF O ltac:(lia)).
  destruct (IH (dg_step S m iM ForwardEuler dt c)) as (SP & AA & TT); [now apply positive_step|intros k Hk; exact (CF (Datatypes.S k) ltac:(lia))|].
  split; [|split; [exact AA|intros k]].
  - cbn [stays_physical]. split; [|exact SP]. cbn [stages]. repeat constructor; now apply physical0.
  - unfold dg_march. cbn [fold_left fst snd]. change (in_total m vol (dg_march S m iM (repeat (ForwardEuler, dt) n) (dg_step S m iM ForwardEuler dt c)) k = in_total m vol c k).
    rewrite TT. apply conserved_step.
Qed.

(** Positivity and conservation bound the solution. *)
Lemma bounded0 c e : (0 <= e < gm_num_elems m)%Z -> all_admissible dim gamma m c ->
  density (c e 0%Z) <= in_total m vol c 0 / vol e /\ energy dim (c e 0%Z) <= in_total m vol c (dim + 1) / vol e /\
  forall i, (0 <= i < dim)%Z -> momentum (c e 0%Z) i * momentum (c e 0%Z) i <= 2 * density (c e 0%Z) * energy dim (c e 0%Z).
Proof.
  intros He AD. pose proof (VP e He) as V.
  assert (P : forall x, (0 <= x < gm_num_elems m)%Z -> 0 < density (c x 0%Z) /\ 0 < energy dim (c x 0%Z) /\ kinetic dim (c x 0%Z) < energy dim (c x 0%Z)).
  { intros x Hx. pose proof (AD x Hx) as A. apply admissible_kinetic in A; [|exact GM]. destruct A as (A1 & A2). split; [exact A1|]. split; [|exact A2].
    apply Rle_lt_trans with (kinetic dim (c x 0%Z)); [|exact A2]. apply rsum_nonneg. intros i Hi. apply Rmult_le_pos; [apply Rle_0_sqr|apply Rlt_le, Rinv_0_lt_compat; lra]. }
  assert (B : forall k, (forall x, (0 <= x < gm_num_elems m)%Z -> 0 <= c x 0%Z k) -> c e 0%Z k <= in_total m vol c k / vol e).
  { intros k N. apply (Rmult_le_reg_l (vol e)); [exact V|]. replace (vol e * (in_total m vol c k / vol e)) with (in_total m vol c k) by (field; lra).
    unfold in_total. rewrite <- (rsum_delta (gm_num_elems m) e (fun x => vol x * c x 0%Z k) He). apply rsum_le. intros x Hx.
    destruct (x =? e)%Z; [lra|]. apply Rmult_le_pos; [apply Rlt_le, VP; exact Hx|now apply N]. }
  split; [|split].
  - apply B. intros x Hx. apply Rlt_le. exact (proj1 (P x Hx)).
  - apply B. intros x Hx. apply Rlt_le. exact (proj1 (proj2 (P x Hx))).
  - intros i Hi. destruct (P e He) as (P1 & P2 & P3). set (r := density (c e 0%Z)) in *. set (mm := momentum (c e 0%Z)) in *.
    assert (K : mm i * mm i / (2 * r) <= kinetic dim (c e 0%Z)).
    { unfold kinetic. fold r mm. rewrite <- (rsum_delta dim i (fun j => mm j * mm j / (2 * r)) Hi). apply rsum_le. intros j Hj. destruct (j =? i)%Z; [lra|].
      apply Rmult_le_pos; [apply Rle_0_sqr|apply Rlt_le, Rinv_0_lt_compat; lra]. }
    apply Rle_trans with (2 * r * kinetic dim (c e 0%Z)); [|apply Rmult_le_compat_l; lra].
    replace (mm i * mm i) with (2 * r * (mm i * mm i / (2 * r))) by (field; lra). apply Rmult_le_compat_l; [lra|exact K].
Qed.
End Zero.
