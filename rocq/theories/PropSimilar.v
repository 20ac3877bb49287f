(** PropSimilar.v -- C95: position and orientation of the mesh in space and the
    units of length, density and velocity do not matter. *)
From Coq Require Import ZArith List Lia Reals Lra String Bool Permutation.
From Flocq Require Import BinarySingleNaN.
From Verif Require Import Base RBase MeshModel MeshSpec MeshProof PropMesh IOModel PropIO PropOutput.
From Verif Require Import ReadModel PropRead PropCtor UtilModel TimeModel ProgramModel PropProgram.
From Verif Require Import LinAlgModel PropLinAlg BasisModel ShapeModel PropShape SolverModel SolverSpec SolverMesh SolverFlux PhysModel PhysSpec PhysProof PropPhys PropBasis PropSolver PropNormals StepModel PropIntegral PropStep SetupModel SetupSpec SetupProof PropSetup PropMeshRun PropInit PropPost DGSpec DGProof PropDG PropHex PropFree PropHexFree PropTime PropWhole PropTotal PropRenumber.
Import ListNotations.
Local Open Scope Z_scope.
Local Open Scope R_scope.
Open Scope res_scope.

(** * Specification *)

(** Rotations: orthonormal columns, determinant one. *)
Definition turned (dim : Z) (Q : arr2) (v : arr1) : arr1 := fun i => rsum dim (fun j => Q i j * v j).
Definition rotation (dim : Z) (Q : arr2) : Prop :=
  (forall i j, (0 <= i < dim)%Z -> (0 <= j < dim)%Z -> rsum dim (fun k => Q k i * Q k j) = (if (i =? j)%Z then 1 else 0)) /\
  small_det dim Q = 1.

(** A state in other units: density times [a], velocity times [b] and turned,
    energy and pressure times [a b^2]. *)
Definition restated (dim : Z) (a b : R) (Q : arr2) (U : arr1) : arr1 := fun k =>
  if (k =? 0)%Z then a * U 0%Z
  else if (k =? dim + 1)%Z then a * (b * b) * U (dim + 1)%Z
  else a * b * turned dim Q (momentum U) (k - 1)%Z.

(** Mesh [m'] is mesh [m] turned, [l] times as large and moved by [x0]. *)
Record similar (s : eshape) (m m' : gmesh R) (Q : arr2) (l : R) (x0 : arr1) : Prop := {
  sm_ne : gm_num_elems m' = gm_num_elems m;
  sm_nf : gm_nIF m' = gm_nIF m;
  sm_sides : forall f sd e k o, has_side m' f sd e k o <-> has_side m f sd e k o;
  sm_nodes : forall e k d, (0 <= e < gm_num_elems m)%Z -> (0 <= k < corners s)%Z -> (0 <= d < space_dim s)%Z ->
    elem_nodes m' e k d = x0 d + l * turned (space_dim s) Q (elem_nodes m e k) d }.

(** Initial states that correspond at corresponding places. *)
Definition initial_similar (dim : Z) (a b : R) (Q : arr2) (l : R) (x0 : arr1) (u u' : (Z -> R) -> Z -> R) : Prop :=
  forall x x' k, (forall d, (0 <= d < dim)%Z -> x' d = x0 d + l * turned dim Q x d) -> (0 <= k < dim + 2)%Z ->
    u' x' k = restated dim a b Q (u x) k.

(** * Proof *)

(** ** The fluxes *)

Lemma rot_rows2 Q : rotation 2 Q -> Q 1%Z 1%Z = Q 0%Z 0%Z /\ Q 0%Z 1%Z = - Q 1%Z 0%Z.
Proof.
  intros (O & D). unfold small_det in D. cbn [Z.eqb Pos.eqb] in D. unfold det2, minor2 in D.
  pose proof (O 0 0 ltac:(lia) ltac:(lia))%Z as O00. pose proof (O 0 1 ltac:(lia) ltac:(lia))%Z as O01. pose proof (O 1 1 ltac:(lia) ltac:(lia))%Z as O11.
  rewrite rsum_2 in O00, O01, O11. cbn [Z.eqb Pos.eqb] in O00, O01, O11.
  set (p := Q 0%Z 0%Z) in *. set (q := Q 0%Z 1%Z) in *. set (r := Q 1%Z 0%Z) in *. set (s := Q 1%Z 1%Z) in *. split.
  - transitivity (s * (p * p + r * r) - r * (p * q + r * s)); [rewrite O00, O01; ring|]. transitivity (p * (p * s - q * r)); [ring|rewrite D; ring].
  - transitivity (q * (p * p + r * r) - p * (p * q + r * s)); [rewrite O00, O01; ring|]. transitivity (- r * (p * s - q * r)); [ring|rewrite D; ring].
Qed.

Lemma sqrt_square_scal b x : 0 < b -> sqrt (b * b * x) = b * sqrt x.
Proof.
  intros Hb. destruct (Rle_lt_dec 0 x) as [H|H].
  - rewrite sqrt_mult by nra. rewrite sqrt_square by lra. reflexivity.
  - rewrite (sqrt_neg_0 x) by lra. rewrite sqrt_neg_0 by nra. ring.
Qed.

Lemma div_scal c x y : c <> 0 -> c * x / (c * y) = x / y.
Proof. intros H. unfold Rdiv. rewrite Rinv_mult. transitivity (c * / c * (x * / y)); [ring|]. rewrite Rinv_r by exact H. ring. Qed.

Lemma turned_ext dim Q v w i : (forall j, (0 <= j < dim)%Z -> v j = w j) -> turned dim Q v i = turned dim Q w i.
Proof. intros H. unfold turned. apply rsum_ext. intros j Hj. now rewrite H. Qed.

Lemma turned_scal dim Q c v i : turned dim Q (fun j => c * v j) i = c * turned dim Q v i.
Proof. unfold turned. rewrite <- rsum_scal. apply rsum_ext. intros. ring. Qed.

Lemma turned_plus dim Q v w i : turned dim Q (fun j => v j + w j) i = turned dim Q v i + turned dim Q w i.
Proof. unfold turned. rewrite <- rsum_plus. apply rsum_ext. intros. ring. Qed.

Lemma turned_sum dim Q n (v : Z -> arr1) i : turned dim Q (fun j => rsum n (fun q => v q j)) i = rsum n (fun q => turned dim Q (v q) i).
Proof.
  unfold turned. rewrite <- rsum_swap. apply rsum_ext. intros j Hj. now rewrite <- rsum_scal.
Qed.

Section Fluxes.
Context (dim : Z) (Hd : dim23 dim) (Q : arr2).
Context (HQ : forall i j, (0 <= i < dim)%Z -> (0 <= j < dim)%Z -> rsum dim (fun k => Q k i * Q k j) = (if (i =? j)%Z then 1 else 0)).
Context (a b : R) (Ha : 0 < a) (Hb : 0 < b) (g : R).
Let T := restated dim a b Q.

Lemma ab_pos : 0 < a * b.
Proof. now apply Rmult_lt_0_compat. Qed.
Lemma abb_pos : 0 < a * (b * b).
Proof. apply Rmult_lt_0_compat; [exact Ha|]. now apply Rmult_lt_0_compat. Qed.

Lemma turned_dot v w : vdot dim (turned dim Q v) (turned dim Q w) = vdot dim v w.
Proof.
  unfold vdot, turned. transitivity (rsum dim (fun i => rsum dim (fun j => rsum dim (fun k => v j * w k * (Q i j * Q i k))))).
  - apply rsum_ext. intros i Hi. rewrite <- rsum_scal_r. apply rsum_ext. intros j Hj. rewrite <- rsum_scal. apply rsum_ext. intros k Hk. ring.
  - rewrite rsum_swap. apply rsum_ext. intros j Hj. rewrite rsum_swap.
    rewrite (rsum_ext dim _ (fun k => v j * w k * (if (j =? k)%Z then 1 else 0))).
    + rewrite (rsum_ext dim _ (fun k => (v j * w j) * (if (j =? k)%Z then 1 else 0))) by (intros k Hk; destruct (Z.eqb_spec j k) as [-> |]; ring).
      rewrite rsum_scal. destruct Hd as [-> | ->].
      * rewrite rsum_2. assert (C : (j = 0 \/ j = 1)%Z) by lia. destruct C as [-> | ->]; cbn; ring.
      * rewrite rsum_3. assert (C : (j = 0 \/ j = 1 \/ j = 2)%Z) by lia. destruct C as [-> |[-> | ->]]; cbn; ring.
    + intros k Hk. rewrite <- HQ by assumption. rewrite <- rsum_scal. reflexivity.
Qed.

Lemma T_first U : T U 0%Z = a * U 0%Z.
Proof. reflexivity. Qed.
Lemma T_last U : T U (dim + 1)%Z = a * (b * b) * U (dim + 1)%Z.
Proof. unfold T, restated. destruct (Z.eqb_spec (dim + 1) 0) as [E|_]; [destruct Hd; lia|]. now rewrite Z.eqb_refl. Qed.
Lemma T_mid U i : (0 <= i < dim)%Z -> T U (1 + i)%Z = a * b * turned dim Q (momentum U) i.
Proof.
  intros Hi. unfold T, restated. destruct (Z.eqb_spec (1 + i) 0) as [E|_]; [lia|]. destruct (Z.eqb_spec (1 + i) (dim + 1)) as [E|_]; [lia|].
  now replace (1 + i - 1)%Z with i by lia.
Qed.

Lemma index_cases k (P : Z -> Prop) : (0 <= k < dim + 2)%Z -> P 0%Z -> P (dim + 1)%Z -> (forall i, (0 <= i < dim)%Z -> P (1 + i)%Z) -> P k.
Proof.
  intros Hk P0 P1 P2. destruct (Z.eq_dec k 0) as [-> |]; [exact P0|]. destruct (Z.eq_dec k (dim + 1)) as [-> |]; [exact P1|].
  replace k with (1 + (k - 1))%Z by lia. apply P2. lia.
Qed.

(** Linearity. *)
Lemma T_sum n (c : Z -> R) (V : Z -> arr1) k : (0 <= k < dim + 2)%Z ->
  T (fun k => rsum n (fun j => c j * V j k)) k = rsum n (fun j => c j * T (V j) k).
Proof.
  intros Hk. pattern k. apply index_cases; [exact Hk| | |].
  - rewrite T_first, <- rsum_scal. apply rsum_ext. intros j Hj. rewrite T_first. ring.
  - rewrite T_last, <- rsum_scal. apply rsum_ext. intros j Hj. rewrite T_last. ring.
  - intros i Hi. rewrite T_mid by exact Hi. unfold momentum at 1.
    rewrite (turned_sum dim Q n (fun j i => c j * V j (1 + i)%Z)). rewrite <- rsum_scal. apply rsum_ext. intros j Hj.
    rewrite (turned_scal dim Q (c j) (momentum (V j))). rewrite T_mid by exact Hi. ring.
Qed.
Lemma T_lin U V x y k : (0 <= k < dim + 2)%Z -> T (fun k => x * U k + y * V k) k = x * T U k + y * T V k.
Proof.
  intros Hk. pattern k. apply index_cases; [exact Hk| | |].
  - rewrite !T_first. ring.
  - rewrite !T_last. ring.
  - intros i Hi. rewrite !T_mid by exact Hi. unfold momentum at 1.
    rewrite (turned_plus dim Q (fun j => x * momentum U j) (fun j => y * momentum V j)), !turned_scal. ring.
Qed.
Lemma T_ext U V k : (0 <= k < dim + 2)%Z -> (forall i, (0 <= i < dim + 2)%Z -> U i = V i) -> T U k = T V k.
Proof.
  intros Hk E. pattern k. apply index_cases; [exact Hk| | |].
  - rewrite !T_first, E; [reflexivity|destruct Hd; lia].
  - rewrite !T_last, E; [reflexivity|destruct Hd; lia].
  - intros i Hi. rewrite !T_mid by exact Hi. f_equal. apply turned_ext. intros j Hj. unfold momentum. apply E. lia.
Qed.
Lemma T_scal U x k : (0 <= k < dim + 2)%Z -> T (fun k => x * U k) k = x * T U k.
Proof.
  intros Hk. rewrite <- (Rplus_0_r (x * T U k)), <- (Rmult_0_l (T U k)), <- (T_lin U U x 0 k Hk).
  apply T_ext; [exact Hk|]. intros. ring.
Qed.

Lemma density_T U : density (T U) = a * density U.
Proof. apply T_first. Qed.
Lemma energy_T U : energy dim (T U) = a * (b * b) * energy dim U.
Proof. apply T_last. Qed.
Lemma velocity_T U i : (0 <= i < dim)%Z -> velocity (T U) i = b * turned dim Q (velocity U) i.
Proof.
  intros Hi. unfold velocity at 1. unfold momentum. rewrite T_mid by exact Hi. rewrite density_T.
  rewrite Rmult_assoc, div_scal by lra. rewrite (turned_ext dim Q (velocity U) (fun j => / density U * momentum U j)) by (intros; unfold velocity, Rdiv; ring).
  rewrite turned_scal. unfold Rdiv. ring.
Qed.
Lemma velocity_dot U s N : vdot dim (velocity (T U)) (fun i => s * turned dim Q N i) = s * b * vdot dim (velocity U) N.
Proof.
  rewrite <- (turned_dot (velocity U) N). unfold vdot. rewrite <- rsum_scal. apply rsum_ext. intros i Hi. rewrite velocity_T by exact Hi. ring.
Qed.
Lemma velocity_square U : vdot dim (velocity (T U)) (velocity (T U)) = b * b * vdot dim (velocity U) (velocity U).
Proof.
  rewrite <- (turned_dot (velocity U) (velocity U)). unfold vdot. rewrite <- rsum_scal. apply rsum_ext. intros i Hi. rewrite velocity_T by exact Hi. ring.
Qed.
Lemma pressure_T U : pressure dim g (T U) = a * (b * b) * pressure dim g U.
Proof. unfold pressure. rewrite energy_T, density_T, velocity_square. field. Qed.
Lemma sound_T U : sound dim g (T U) = b * sound dim g U.
Proof.
  unfold sound. rewrite <- sqrt_square_scal by exact Hb. f_equal. rewrite pressure_T, density_T.
  replace (g * (a * (b * b) * pressure dim g U)) with (a * (b * b * (g * pressure dim g U))) by ring. rewrite div_scal by lra. unfold Rdiv. ring.
Qed.
Lemma max_speed_T U : max_speed dim g (T U) = b * max_speed dim g U.
Proof. unfold max_speed, vlen. rewrite velocity_square, sqrt_square_scal by exact Hb. rewrite sound_T. ring. Qed.
Lemma vlen_T s N : 0 < s -> vlen dim (fun i => s * turned dim Q N i) = s * vlen dim N.
Proof.
  intros Hs. unfold vlen. rewrite <- sqrt_square_scal by exact Hs. f_equal. rewrite <- (turned_dot N N). unfold vdot. rewrite <- rsum_scal.
  apply rsum_ext. intros. ring.
Qed.

Lemma euler_T U s N k : (0 <= k < dim + 2)%Z ->
  euler_flux dim g (T U) (fun i => s * turned dim Q N i) k = s * b * T (euler_flux dim g U N) k.
Proof.
  intros Hk. assert (D2 : (2 <= dim)%Z) by (destruct Hd; lia). pattern k. apply index_cases; [exact Hk| | |].
  - rewrite T_first. unfold euler_flux. cbn [Z.eqb]. rewrite density_T, velocity_dot. ring.
  - rewrite T_last. unfold euler_flux. destruct (Z.eqb_spec (dim + 1) 0) as [E|_]; [lia|]. rewrite Z.eqb_refl.
    rewrite energy_T, pressure_T, velocity_dot. ring.
  - intros i Hi. rewrite T_mid by exact Hi.
    rewrite (turned_ext dim Q _ (fun j => vdot dim (velocity U) N * momentum U j + pressure dim g U * N j)).
    2:{ intros j Hj. unfold momentum at 1. unfold euler_flux. destruct (Z.eqb_spec (1 + j) 0) as [E|_]; [lia|]. destruct (Z.eqb_spec (1 + j) (dim + 1)) as [E|_]; [lia|].
        replace (1 + j - 1)%Z with j by lia. ring. }
    rewrite (turned_plus dim Q (fun j => vdot dim (velocity U) N * momentum U j) (fun j => pressure dim g U * N j)), !turned_scal.
    unfold euler_flux. destruct (Z.eqb_spec (1 + i) 0) as [E|_]; [lia|]. destruct (Z.eqb_spec (1 + i) (dim + 1)) as [E|_]; [lia|].
    replace (1 + i - 1)%Z with i by lia. unfold momentum at 1. rewrite T_mid by exact Hi. rewrite velocity_dot, pressure_T. ring.
Qed.

(** With [s = 1]. *)
Lemma euler_T1 U N k : (0 <= k < dim + 2)%Z ->
  euler_flux dim g (T U) (turned dim Q N) k = b * T (euler_flux dim g U N) k.
Proof.
  intros Hk. rewrite <- (Rmult_1_l b) at 1. rewrite <- (euler_T U 1 N k Hk). apply (PhysProof.euler_flux_ext dim g _ _ _ k Hk). intros. ring.
Qed.

Lemma un_T U n : un dim (T U) (turned dim Q n) = b * un dim U n.
Proof.
  unfold un. rewrite <- (Rmult_1_l b) at 1. rewrite <- (velocity_dot U 1 n). unfold vdot. apply rsum_ext. intros. ring.
Qed.

Lemma Rmax_scal c x y : 0 < c -> Rmax (c * x) (c * y) = c * Rmax x y.
Proof. intros Hc. apply RmaxRmult. lra. Qed.

Section Waves.
Context (UL UR n : arr1).
Let n' := turned dim Q n.

Lemma p_star_T : p_star dim g (T UL) (T UR) n' = a * (b * b) * p_star dim g UL UR n.
Proof.
  unfold p_star, n'. rewrite !pressure_T, !un_T, !density_T, !sound_T. rewrite <- Rmax_scal by exact abb_pos. f_equal; field.
Qed.
Lemma q_factor_T ps p : q_factor g (a * (b * b) * ps) (a * (b * b) * p) = q_factor g ps p.
Proof.
  pose proof abb_pos as C. unfold q_factor.
  destruct (Rle_dec (a * (b * b) * ps) (a * (b * b) * p)) as [H|H], (Rle_dec ps p) as [K|K].
  - reflexivity.
  - exfalso. apply K. apply Rmult_le_reg_l with (a * (b * b)); assumption.
  - exfalso. apply H. apply Rmult_le_compat_l; lra.
  - rewrite div_scal by lra. reflexivity.
Qed.
Lemma wave_L_T : wave_L dim g (T UL) (T UR) n' = b * wave_L dim g UL UR n.
Proof. unfold wave_L. rewrite p_star_T, pressure_T, q_factor_T, sound_T. unfold n'. rewrite un_T. ring. Qed.
Lemma wave_R_T : wave_R dim g (T UL) (T UR) n' = b * wave_R dim g UL UR n.
Proof. unfold wave_R. rewrite p_star_T, pressure_T, q_factor_T, sound_T. unfold n'. rewrite un_T. ring. Qed.
Lemma wave_star_T : wave_star dim g (T UL) (T UR) n' = b * wave_star dim g UL UR n.
Proof.
  unfold wave_star. cbv zeta. rewrite wave_L_T, wave_R_T, !pressure_T, !density_T. unfold n'. rewrite !un_T.
  set (SL := wave_L dim g UL UR n). set (SR := wave_R dim g UL UR n). set (vL := un dim UL n). set (vR := un dim UR n).
  set (A := pressure dim g UR - _ + _ - _).
  replace (a * (b * b) * pressure dim g UR - a * (b * b) * pressure dim g UL + a * density UL * (b * vL) * (b * SL - b * vL) - a * density UR * (b * vR) * (b * SR - b * vR))
    with (a * b * (b * A)) by (unfold A; ring).
  set (B := density UL * (SL - vL) - _).
  replace (a * density UL * (b * SL - b * vL) - a * density UR * (b * SR - b * vR)) with (a * b * B) by (unfold B; ring).
  rewrite div_scal by (apply Rgt_not_eq; exact ab_pos). unfold Rdiv. ring.
Qed.
End Waves.

Lemma star_state_T U n S Sm k : (0 <= k < dim + 2)%Z ->
  star_state dim g (T U) (turned dim Q n) (b * S) (b * Sm) k = T (star_state dim g U n S Sm) k.
Proof.
  intros Hk. assert (D2 : (2 <= dim)%Z) by (destruct Hd; lia).
  assert (E1 : (b * S - un dim (T U) (turned dim Q n)) / (b * S - b * Sm) = (S - un dim U n) / (S - Sm)).
  { rewrite un_T. rewrite <- !Rmult_minus_distr_l. apply div_scal. lra. }
  pattern k. apply index_cases; [exact Hk| | |].
  - rewrite T_first. unfold star_state. cbn [Z.eqb]. rewrite E1, density_T. ring.
  - rewrite T_last. unfold star_state. destruct (Z.eqb_spec (dim + 1) 0) as [E|_]; [lia|]. rewrite Z.eqb_refl.
    rewrite E1, density_T, energy_T, pressure_T, un_T.
    replace (a * (b * b) * energy dim U) with (a * (b * b * energy dim U)) by ring. rewrite div_scal by lra.
    replace (a * density U * (b * S - b * un dim U n)) with (a * b * (density U * (S - un dim U n))) by ring.
    replace (a * (b * b) * pressure dim g U) with (a * b * (b * pressure dim g U)) by ring. rewrite div_scal by (apply Rgt_not_eq; exact ab_pos). unfold Rdiv. ring.
  - intros i Hi. rewrite T_mid by exact Hi.
    rewrite (turned_ext dim Q _ (fun j => (S - un dim U n) / (S - Sm) * density U * (velocity U j + (Sm - un dim U n) * n j))).
    2:{ intros j Hj. unfold momentum, star_state. destruct (Z.eqb_spec (1 + j) 0) as [E|_]; [lia|]. destruct (Z.eqb_spec (1 + j) (dim + 1)) as [E|_]; [lia|].
        replace (1 + j - 1)%Z with j by lia. reflexivity. }
    rewrite turned_scal, (turned_plus dim Q (velocity U) (fun j => (Sm - un dim U n) * n j)), turned_scal.
    unfold star_state. destruct (Z.eqb_spec (1 + i) 0) as [E|_]; [lia|]. destruct (Z.eqb_spec (1 + i) (dim + 1)) as [E|_]; [lia|].
    replace (1 + i - 1)%Z with i by lia. rewrite E1, density_T, velocity_T by exact Hi. rewrite un_T. ring.
Qed.

Lemma star_flux_T U n S Sm k : (0 <= k < dim + 2)%Z ->
  star_flux dim g (T U) (turned dim Q n) (b * S) (b * Sm) k = b * T (star_flux dim g U n S Sm) k.
Proof.
  intros Hk. unfold star_flux at 1. rewrite euler_T1, star_state_T by exact Hk.
  rewrite (T_ext (star_flux dim g U n S Sm) (fun k => 1 * euler_flux dim g U n k + 1 * (S * (star_state dim g U n S Sm k - U k))) k Hk) by (intros; unfold star_flux; ring).
  rewrite T_lin by exact Hk. rewrite (T_scal (fun k => star_state dim g U n S Sm k - U k)) by exact Hk.
  rewrite (T_ext (fun k => star_state dim g U n S Sm k - U k) (fun k => 1 * star_state dim g U n S Sm k + -1 * U k) k Hk) by (intros; ring).
  rewrite T_lin by exact Hk. ring.
Qed.

Lemma toro_T UL UR n k : (0 <= k < dim + 2)%Z ->
  toro_hllc dim g (T UL) (T UR) (turned dim Q n) k = b * T (toro_hllc dim g UL UR n) k.
Proof.
  intros Hk. unfold toro_hllc. cbv zeta. rewrite wave_L_T, wave_R_T, wave_star_T.
  set (SL := wave_L dim g UL UR n). set (SR := wave_R dim g UL UR n). set (Sm := wave_star dim g UL UR n).
  assert (C1 : forall x, 0 <= b * x <-> 0 <= x) by (intros x; split; intros; nra).
  assert (C2 : forall x, b * x <= 0 <-> x <= 0) by (intros x; split; intros; nra).
  destruct (Rle_dec 0 (b * SL)) as [H|H], (Rle_dec 0 SL) as [K|K]; rewrite C1 in H; try contradiction.
  { now apply euler_T1. }
  destruct (Rle_dec (b * SR) 0) as [H'|H'], (Rle_dec SR 0) as [K'|K']; rewrite C2 in H'; try contradiction.
  { now apply euler_T1. }
  destruct (Rle_dec 0 (b * Sm)) as [H2|H2], (Rle_dec 0 Sm) as [K2|K2]; rewrite C1 in H2; try contradiction; now apply star_flux_T.
Qed.

(** Both numerical fluxes. *)
Lemma numflux_T ft UL UR s N k : 0 < s -> (0 <= k < dim + 2)%Z ->
  numflux ft dim g (T UL) (T UR) (fun i => s * turned dim Q N i) k = s * b * T (numflux ft dim g UL UR N) k.
Proof.
  intros Hs Hk. destruct ft; unfold numflux; rewrite vlen_T by exact Hs.
  - rewrite !euler_T, !max_speed_T, Rmax_scal by assumption.
    set (A := Rmax _ _). set (l := vlen dim N).
    rewrite (T_ext (fun k => (euler_flux dim g UL N k + euler_flux dim g UR N k) / 2 - l * A * (UR k - UL k) / 2)
      (fun k => / 2 * (1 * euler_flux dim g UL N k + 1 * euler_flux dim g UR N k) + (- (l * A) / 2) * (1 * UR k + -1 * UL k)) k Hk) by (intros; field).
    rewrite (T_lin (fun k => 1 * euler_flux dim g UL N k + 1 * euler_flux dim g UR N k) (fun k => 1 * UR k + -1 * UL k)) by exact Hk.
    rewrite !T_lin by exact Hk. field.
  - rewrite (T_scal (fun k => toro_hllc dim g UL UR (fun i => N i / vlen dim N) k)) by exact Hk.
    assert (E : same_vec dim (fun i => s * turned dim Q N i / (s * vlen dim N)) (turned dim Q (fun i => N i / vlen dim N))).
    { intros i Hi. rewrite div_scal by lra. rewrite (turned_ext dim Q (fun i => N i / vlen dim N) (fun j => / vlen dim N * N j)) by (intros; unfold Rdiv; ring).
      rewrite turned_scal. unfold Rdiv. ring. }
    transitivity (s * vlen dim N * toro_hllc dim g (T UL) (T UR) (turned dim Q (fun i => N i / vlen dim N)) k).
    + f_equal. now apply toro_ext.
    + rewrite toro_T by exact Hk. change (T (fun k0 => toro_hllc dim g UL UR (fun i => N i / vlen dim N) k0) k) with (T (toro_hllc dim g UL UR (fun i => N i / vlen dim N)) k). ring.
Qed.
End Fluxes.

(** ** Residuals, steps, marches *)
Section Core.
Context (iter : Z -> list Z -> list Z) (n : Z) (m : gmesh R) (ep : list Z) (WF : run_wf iter n m ep).
Context (m' : gmesh R) (Q : arr2) (l L a b : R) (x0 : arr1).
Context (S : scheme) (SM : similar (sc_shape S) m m' Q l x0).
Let dim := space_dim (sc_shape S).
Let nb := sc_nb S.
Context (RO : forall i j, (0 <= i < dim)%Z -> (0 <= j < dim)%Z -> rsum dim (fun k => Q k i * Q k j) = (if (i =? j)%Z then 1 else 0)).
Context (Hl : 0 < l) (HL : 0 < L) (Ha : 0 < a) (Hb : 0 < b).
Context (det : arr2) (inv : arr4) (nrm : arr3).
Let S' : scheme := mkScheme (sc_shape S) (sc_nb S) (sc_gamma S) (sc_flux S) (sc_nq S) (sc_val S) (sc_grad S) (sc_wts S) (sc_nqf S) (sc_fval S) (sc_fwts S) det inv nrm.
Context (HD : forall e q, (0 <= e < gm_num_elems m)%Z -> (0 <= q < sc_nq S)%Z -> det e q = l * L * sc_det S e q).
Context (HI : forall e q d j, (0 <= e < gm_num_elems m)%Z -> (0 <= q < sc_nq S)%Z -> (0 <= d < dim)%Z -> (0 <= j < dim)%Z ->
  inv e q d j = / l * turned dim Q (sc_inv S e q d) j).
Context (HN : forall f q d, (0 <= f < gm_nIF m)%Z -> (0 <= q < sc_nqf S)%Z -> (0 <= d < dim)%Z -> nrm f q d = L * turned dim Q (sc_normal S f q) d).
Context (iM iM' : arr3) (HM : forall e i j, (0 <= e < gm_num_elems m)%Z -> (0 <= i < nb)%Z -> (0 <= j < nb)%Z -> iM' e i j = / (l * L) * iM e i j).
Let T := restated dim a b Q.

Definition matches (s : R) (c c' : arr3) : Prop := forall e j k, (0 <= e < gm_num_elems m)%Z -> (0 <= j < nb)%Z -> (0 <= k < dim + 2)%Z -> c' e j k = s * T (c e j) k.

Lemma dd : dim23 dim.
Proof. unfold dim. destruct (sc_shape S); [now left|now right]. Qed.

Lemma same_sides f sd : (0 <= f < gm_nIF m)%Z ->
  side_elem m' f sd = side_elem m f sd /\ side_face m' f sd = side_face m f sd /\ forall q, side_point S' m' f sd q = side_point S m f sd q.
Proof.
  intros Hf. pose proof (proj2 (sm_sides _ _ _ _ _ _ SM _ _ _ _ _) (sides_of iter n m ep WF f sd Hf)) as (E1 & E2 & E3).
  unfold side_elem, side_face, side_point, face_entry at 1 3 5. destruct sd.
  - change (3 + 1)%Z with 4%Z in E2. change (3 + 2)%Z with 5%Z in E3. rewrite E1, E2, E3. auto.
  - change (0 + 1)%Z with 1%Z in E2. change (0 + 2)%Z with 2%Z in E3. rewrite E1, E2, E3. auto.
Qed.

Lemma combined c c' e (v : Z -> R) k : matches 1 c c' -> (0 <= e < gm_num_elems m)%Z -> (0 <= k < dim + 2)%Z ->
  rsum nb (fun j => v j * c' e j k) = T (fun k => rsum nb (fun j => v j * c e j k)) k.
Proof.
  intros C He Hk. unfold T. rewrite (T_sum dim dd Q a b nb v (fun j => c e j) k Hk). apply rsum_ext. intros j Hj. rewrite C by assumption. unfold T. ring.
Qed.

Lemma trace_matches c c' f sd q k : matches 1 c c' -> (0 <= f < gm_nIF m)%Z -> (0 <= k < dim + 2)%Z ->
  dg_trace S' c' (side_elem m' f sd) (side_face m' f sd) (side_point S' m' f sd q) k =
  T (dg_trace S c (side_elem m f sd) (side_face m f sd) (side_point S m f sd q)) k.
Proof.
  intros C Hf Hk. destruct (same_sides f sd Hf) as (-> & -> & ->). unfold dg_trace. apply combined; auto. now apply (side_range' iter n m ep WF).
Qed.

Lemma flux_matches c c' f q k : matches 1 c c' -> (0 <= f < gm_nIF m)%Z -> (0 <= q < sc_nqf S)%Z -> (0 <= k < dim + 2)%Z ->
  dg_flux S' m' c' f q k = L * b * T (dg_flux S m c f q) k.
Proof.
  intros C Hf Hq Hk. pose proof (fun sd k => trace_matches c c' f sd q k C Hf) as TM. unfold dg_flux. cbn [S' sc_flux sc_shape sc_gamma sc_normal]. fold dim.
  rewrite (numflux_ext _ _ _ _ _ _ (fun i => L * turned dim Q (sc_normal S f q) i)); [|intros d Hd; now apply HN|exact Hk].
  rewrite (numflux_state _ _ dd _ (T (dg_trace S c (side_elem m f false) (side_face m f false) (side_point S m f false q))) _ (T (dg_trace S c (side_elem m f true) (side_face m f true) (side_point S m f true q))));
      [|intros x Hx; exact (TM false x Hx)|intros x Hx; exact (TM true x Hx)|exact Hk].
  unfold T. now rewrite (numflux_T dim dd Q RO a b Ha Hb).
Qed.

Lemma side_matches c c' f sd e i k : matches 1 c c' -> (0 <= f < gm_nIF m)%Z -> (0 <= k < dim + 2)%Z ->
  dg_side S' m' c' f sd e i k = L * b * T (dg_side S m c f sd e i) k.
Proof.
  intros C Hf Hk. unfold dg_side. destruct (same_sides f sd Hf) as (-> & -> & EP).
  destruct (Z.eqb_spec (side_elem m f sd) e) as [E|NE].
  - cbn [S' sc_nqf sc_fwts sc_fval]. unfold T.
    rewrite (T_scal dim dd Q a b (fun k => rsum (sc_nqf S) (fun iq => sc_fwts S iq * dg_flux S m c f iq k * sc_fval S (side_face m f sd) (side_point S m f sd iq) i)) (side_sign sd) k Hk).
    rewrite (T_ext dim dd Q a b (fun k => rsum (sc_nqf S) (fun iq => sc_fwts S iq * dg_flux S m c f iq k * sc_fval S (side_face m f sd) (side_point S m f sd iq) i))
      (fun k => rsum (sc_nqf S) (fun iq => (sc_fwts S iq * sc_fval S (side_face m f sd) (side_point S m f sd iq) i) * dg_flux S m c f iq k)) k Hk).
    2:{ intros x Hx. apply rsum_ext. intros q Hq. ring. }
    rewrite (T_sum dim dd Q a b (sc_nqf S) (fun iq => sc_fwts S iq * sc_fval S (side_face m f sd) (side_point S m f sd iq) i) (fun iq => dg_flux S m c f iq) k Hk).
    transitivity (side_sign sd * (L * b * rsum (sc_nqf S) (fun iq => sc_fwts S iq * sc_fval S (side_face m f sd) (side_point S m f sd iq) i * restated dim a b Q (dg_flux S m c f iq) k))); [|ring].
    f_equal. rewrite <- rsum_scal. apply rsum_ext. intros q Hq. rewrite EP. rewrite (flux_matches c c' f q k C Hf Hq Hk). unfold T. ring.
  - unfold T.
    symmetry. transitivity (L * b * restated dim a b Q (fun x => 0 * axis 0 x) k).
    { f_equal. apply T_ext; [exact dd|exact Hk|]. intros x Hx. unfold dg_side. destruct (Z.eqb_spec (side_elem m f sd) e) as [E|_]; [contradiction|]. ring. }
    rewrite (T_scal dim dd Q a b (axis 0) 0 k Hk). ring.
Qed.

Lemma volume_matches c c' e i k : matches 1 c c' -> (0 <= e < gm_num_elems m)%Z -> (0 <= k < dim + 2)%Z ->
  dg_volume S' c' e i k = L * b * T (dg_volume S c e i) k.
Proof.
  intros C He Hk. set (w := fun q j => rsum dim (fun d => sc_grad S q i d * sc_inv S e q d j)).
  assert (EV : forall k, (0 <= k < dim + 2)%Z -> dg_volume S c e i k = rsum (sc_nq S) (fun q => sc_wts S q * sc_det S e q * euler_flux dim (sc_gamma S) (dg_state S c e q) (w q) k)).
  { intros x Hx. unfold dg_volume. fold dim. apply rsum_ext. intros q Hq. f_equal. now rewrite (euler_flux_axes dim _ _ (w q) x Hx). }
  unfold T. rewrite (T_ext dim dd Q a b _ _ k Hk EV).
  rewrite (T_sum dim dd Q a b (sc_nq S) (fun q => sc_wts S q * sc_det S e q) (fun q => euler_flux dim (sc_gamma S) (dg_state S c e q) (w q)) k Hk).
  rewrite <- rsum_scal. unfold dg_volume. cbn [S' sc_nq sc_wts sc_det sc_shape sc_gamma sc_grad sc_inv]. fold dim. apply rsum_ext. intros q Hq.
  rewrite HD by assumption.
  transitivity (sc_wts S q * (l * L * sc_det S e q) * euler_flux dim (sc_gamma S) (T (dg_state S c e q)) (fun j => / l * turned dim Q (w q) j) k).
  - f_equal. rewrite (euler_flux_axes dim _ _ (fun j => / l * turned dim Q (w q) j) k Hk). apply rsum_ext. intros j Hj. f_equal.
    + apply euler_flux_extU; [exact dd| |exact Hk]. intros x Hx. unfold dg_state. cbn [sc_nb sc_val]. apply combined; assumption.
    + transitivity (rsum dim (fun d => / l * turned dim Q (fun j => sc_grad S q i d * sc_inv S e q d j) j)).
      * apply rsum_ext. intros d Hd. rewrite HI by assumption. rewrite turned_scal. ring.
      * rewrite rsum_scal. f_equal. unfold w. now rewrite (turned_sum dim Q dim (fun d j => sc_grad S q i d * sc_inv S e q d j)).
  - unfold T. rewrite (euler_T dim dd Q RO a b Ha (sc_gamma S)) by exact Hk. field. lra.
Qed.

Lemma residual_matches c c' e i k : matches 1 c c' -> (0 <= e < gm_num_elems m)%Z -> (0 <= k < dim + 2)%Z ->
  dg_residual S' m' c' e i k = L * b * T (dg_residual S m c e i) k.
Proof.
  intros C He Hk. unfold dg_residual at 1. rewrite (volume_matches c c' e i k C He Hk), (sm_nf _ _ _ _ _ _ SM).
  unfold T. rewrite (T_ext dim dd Q a b (dg_residual S m c e i) (fun k => 1 * dg_volume S c e i k +
    1 * rsum (gm_nIF m) (fun f => 1 * (1 * dg_side S m c f false e i k + 1 * dg_side S m c f true e i k))) k Hk).
  2:{ intros x Hx. unfold dg_residual. rewrite !Rmult_1_l. f_equal. apply rsum_ext. intros. ring. }
  rewrite (T_lin dim dd Q a b (dg_volume S c e i) (fun k => rsum (gm_nIF m) (fun f => 1 * (1 * dg_side S m c f false e i k + 1 * dg_side S m c f true e i k)))) by exact Hk.
  rewrite (T_sum dim dd Q a b (gm_nIF m) (fun _ => 1) (fun f k => 1 * dg_side S m c f false e i k + 1 * dg_side S m c f true e i k)) by exact Hk.
  rewrite !Rmult_1_l, Rmult_plus_distr_l. f_equal. rewrite <- rsum_scal. apply rsum_ext. intros f Hf.
  rewrite (T_lin dim dd Q a b (dg_side S m c f false e i) (dg_side S m c f true e i)) by exact Hk.
  rewrite !(side_matches c c' f _ e i k C Hf Hk). unfold T. ring.
Qed.

Lemma rate_matches c c' : matches 1 c c' -> matches (b / l) (dg_rate S m iM c) (dg_rate S' m' iM' c').
Proof.
  intros C e j k He Hj Hk. unfold dg_rate. unfold T.
  rewrite (T_sum dim dd Q a b (sc_nb S) (iM e j) (fun x => dg_residual S m c e x) k Hk). rewrite <- rsum_scal. cbn [S' sc_nb]. apply rsum_ext. intros x Hx.
  rewrite HM by assumption. rewrite (residual_matches c c' e x k C He Hk). unfold T. field. lra.
Qed.

Lemma shift_matches s s' x x' c c' d d' : matches s c c' -> matches s' d d' -> x' * s' = s * x -> matches s (shift c x d) (shift c' x' d').
Proof.
  intros C D E e j k He Hj Hk. unfold shift. rewrite (C e j k), (D e j k) by assumption.
  unfold T. rewrite (T_ext dim dd Q a b (fun k => c e j k + x * d e j k) (fun k => 1 * c e j k + x * d e j k) k Hk) by (intros; ring).
  rewrite (T_lin dim dd Q a b (c e j) (d e j)) by exact Hk.
  rewrite <- Rmult_assoc, E. ring.
Qed.

Lemma sum_matches s c c' d d' y : matches s c c' -> matches s d d' -> matches s (fun e j k => c e j k + y * d e j k) (fun e j k => c' e j k + y * d' e j k).
Proof. intros C D. apply (shift_matches s s y y c c' d d' C D). ring. Qed.

Lemma matches_ext s c c' d d' : (forall e j k, c e j k = d e j k) -> (forall e j k, c' e j k = d' e j k) -> matches s d d' -> matches s c c'.
Proof.
  intros E E' D e j k He Hj Hk. rewrite E', (D e j k) by assumption. f_equal. apply T_ext; [exact dd|exact Hk|]. intros. now rewrite E.
Qed.

Lemma step_matches st dt c c' : matches 1 c c' -> matches 1 (dg_step S m iM st dt c) (dg_step S' m' iM' st (l / b * dt) c').
Proof.
  intros C. destruct st; cbn [dg_step].
  - apply (shift_matches 1 (b / l)); [exact C|now apply rate_matches|]. field. lra.
  - pose proof (rate_matches _ _ C) as K1.
    pose proof (shift_matches 1 (b / l) (dt / 2) (l / b * dt / 2) _ _ _ _ C K1 ltac:(field; lra)) as C2. pose proof (rate_matches _ _ C2) as K2.
    pose proof (shift_matches 1 (b / l) (dt / 2) (l / b * dt / 2) _ _ _ _ C K2 ltac:(field; lra)) as C3. pose proof (rate_matches _ _ C3) as K3.
    pose proof (shift_matches 1 (b / l) dt (l / b * dt) _ _ _ _ C K3 ltac:(field; lra)) as C4. pose proof (rate_matches _ _ C4) as K4.
    apply (shift_matches 1 (b / l)); [exact C| |field; lra].
    pose proof (sum_matches (b / l) _ _ _ _ 1 (sum_matches (b / l) _ _ _ _ 2 (sum_matches (b / l) _ _ _ _ 2 K1 K2) K3) K4) as KK.
    apply (matches_ext (b / l) _ _ _ _ (fun e j k => ltac:(cbv beta; rewrite Rmult_1_l; reflexivity)) (fun e j k => ltac:(cbv beta; rewrite Rmult_1_l; reflexivity)) KK) ||
    (eapply matches_ext; [| |exact KK]; intros; cbv beta; ring).
Qed.

Lemma march_matches steps : forall c c', matches 1 c c' ->
  matches 1 (dg_march S m iM steps c) (dg_march S' m' iM' (map (fun st => (fst st, l / b * snd st)) steps) c').
Proof.
  induction steps as [|[st dt] steps IH]; intros c c' C; [exact C|]. cbn [dg_march fold_left map fst snd]. apply IH. now apply step_matches.
Qed.
End Core.
