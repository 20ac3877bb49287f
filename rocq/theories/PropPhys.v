(** PropPhys.v -- property theorems C49-C54: Euler state functions and
    numerical fluxes.  The specification is PhysSpec.v. *)
From Coq Require Import ZArith List Lia Reals Lra Bool Psatz FunctionalExtensionality.
From Verif Require Import Base RBase LinAlgModel PhysModel PhysSpec PhysProof.
Import ListNotations.
Local Open Scope R_scope.

Definition opposite (N : arr1) : arr1 := fun i => - N i.
Definition scaled (c : R) (N : arr1) : arr1 := fun i => c * N i.

(** The call returns normally with the value [f k] in each of the entries of
    the flux array and leaves everything else alone, whatever the arrays
    contained before. *)
Definition returns_flux (dim : Z) (call : arr1 -> res arr1) (f : Z -> R) : Prop :=
  forall F0, exists F, call F0 = Ok F /\
    (forall k, (0 <= k < dim + 2)%Z -> F k = f k) /\
    (forall k, ~ (0 <= k < dim + 2)%Z -> F k = F0 k).

Lemma returns_flux_ext dim call f g : (forall k, (0 <= k < dim + 2)%Z -> f k = g k) ->
  returns_flux dim call f -> returns_flux dim call g.
Proof.
  intros E H F0. destruct (H F0) as (F & H1 & H2 & H3). exists F. split; [easy|]. split; [|easy].
  intros k Hk. now rewrite H2, E.
Qed.

(** ** C54 Euler state functions *)

Lemma cauchy dim a b : dim23 dim -> Rabs (vdot dim a b) <= vlen dim a * vlen dim b.
Proof.
  intros Hd. unfold vlen. rewrite <- sqrt_mult_alt by apply vdot_nonneg. rewrite <- sqrt_Rsqr_abs.
  apply sqrt_le_1_alt. unfold Rsqr.
  destruct Hd as [->| ->]; unfold vdot; rewrite ?rsum_2, ?rsum_3.
  - pose proof (Rle_0_sqr (a 0%Z * b 1%Z - a 1%Z * b 0%Z)). unfold Rsqr in *. nra.
  - pose proof (Rle_0_sqr (a 0%Z * b 1%Z - a 1%Z * b 0%Z)). pose proof (Rle_0_sqr (a 0%Z * b 2%Z - a 2%Z * b 0%Z)).
    pose proof (Rle_0_sqr (a 1%Z * b 2%Z - a 2%Z * b 1%Z)). unfold Rsqr in *. nra.
Qed.

Lemma from_primitive_velocity dim g rho v p i : rho <> 0 -> (0 <= i < dim)%Z ->
  velocity (from_primitive dim g rho v p) i = v i.
Proof.
  intros Hr Hi. unfold velocity, momentum, density, from_primitive.
  destruct (Z.eqb_spec (1 + i) 0); [lia|]. destruct (Z.eqb_spec (1 + i) (dim + 1)); [lia|].
  rewrite Z.eqb_refl. replace (1 + i - 1)%Z with i by lia. field. easy.
Qed.

Lemma from_primitive_pressure dim g rho v p : (0 <= dim)%Z -> 1 < g -> rho <> 0 ->
  pressure dim g (from_primitive dim g rho v p) = p.
Proof.
  intros Hd Hg Hr. unfold pressure.
  rewrite (vdot_ext dim _ _ v v) by (intros; now apply from_primitive_velocity).
  unfold energy, density, from_primitive. rewrite !Z.eqb_refl. destruct (Z.eqb_spec (dim + 1) 0); [lia|].
  field. lra.
Qed.

Theorem C54_euler_state : forall dim gamma U, (dim = 2 \/ dim = 3)%Z -> 1 < gamma -> admissible dim gamma U ->
  get_pressure dim gamma U = Ok (pressure dim gamma U) /\
  (exists a, get_maxwavespeed dim gamma U = Ok a /\
     a = vlen dim (velocity U) + sound dim gamma U /\
     forall n, vdot dim n n = 1 -> Rabs (vdot dim (velocity U) n) + sound dim gamma U <= a) /\
  (forall F0, exists F, conv_flux_interior dim gamma U F0 = Ok F /\
     (forall k d, (0 <= k < dim + 2)%Z -> (0 <= d < dim)%Z ->
        F (k + d * (dim + 2))%Z = euler_flux dim gamma U (axis d) k) /\
     (forall N k, (0 <= k < dim + 2)%Z ->
        rsum dim (fun d => F (k + d * (dim + 2))%Z * N d) = euler_flux dim gamma U N k) /\
     (forall j, ~ (0 <= j < dim * (dim + 2))%Z -> F j = F0 j)).
Proof.
  intros dim g U Hd Hg HU. assert (density U <> 0) by (destruct HU; lra). split; [|split].
  - now apply get_pressure_ok.
  - exists (vlen dim (velocity U) + sound dim g U). split; [now apply get_maxwavespeed_ok|]. split; [easy|].
    intros n Hn. pose proof (cauchy dim (velocity U) n Hd) as C. unfold vlen in C at 2. rewrite Hn, sqrt_1 in C. lra.
  - intros F0. destruct (conv_flux_interior_ok dim g U F0 Hd H) as (F & E1 & E2 & E3). exists F. repeat split; auto.
    intros N k Hk. rewrite (euler_flux_axes dim g U N k Hk). apply rsum_ext. intros d Hdd. now rewrite E2.
Qed.
Print Assumptions C54_euler_state.

Theorem C54_primitive_state : forall dim gamma rho v p, (dim = 2 \/ dim = 3)%Z -> 1 < gamma -> 0 < rho ->
  get_pressure dim gamma (from_primitive dim gamma rho v p) = Ok p /\
  density (from_primitive dim gamma rho v p) = rho /\
  (forall i, (0 <= i < dim)%Z -> velocity (from_primitive dim gamma rho v p) i = v i) /\
  (0 < p -> admissible dim gamma (from_primitive dim gamma rho v p) /\
            sound dim gamma (from_primitive dim gamma rho v p) = sqrt (gamma * p / rho)).
Proof.
  intros dim g rho v p Hd Hg Hr. pose proof (dim23_pos dim Hd).
  assert (E : pressure dim g (from_primitive dim g rho v p) = p) by (apply from_primitive_pressure; try lia; lra).
  split; [|split; [reflexivity|split]].
  - rewrite get_pressure_ok; [now rewrite E|easy|]. unfold density, from_primitive. cbn. lra.
  - intros i Hi. apply from_primitive_velocity; [lra|easy].
  - intros Hp. split; [split; [exact Hr|now rewrite E]|]. unfold sound. now rewrite E.
Qed.
Print Assumptions C54_primitive_state.

(** A concrete admissible state: air at rest, and one moving at speed 5. *)
Definition still (rho : R) : arr1 := from_primitive 2 1.4 rho (fun _ => 0) 1.
Example C54_witness : admissible 2 1.4 (still 1) /\ admissible 3 1.4 (from_primitive 3 1.4 2 (fun i => if (i =? 0)%Z then 3 else 4) 7).
Proof. split; apply C54_primitive_state; auto; lra. Qed.

(** ** C49 Lax-Friedrichs *)

Theorem C49_lax_friedrichs : forall dim gamma UL UR N, (dim = 2 \/ dim = 3)%Z -> 1 < gamma ->
  admissible dim gamma UL -> admissible dim gamma UR -> vdot dim N N <> 0 ->
  let a := Rmax (vlen dim (velocity UL) + sound dim gamma UL) (vlen dim (velocity UR) + sound dim gamma UR) in
  let F k := (euler_flux dim gamma UL N k + euler_flux dim gamma UR N k) / 2
             - vlen dim N * a * (UR k - UL k) / 2 in
  forall work,
  returns_flux dim (fun F0 => laxfriedrichs dim gamma UL UR N F0 work) F /\
  returns_flux dim (fun F0 => laxfriedrichs dim gamma UL UL N F0 work) (euler_flux dim gamma UL N) /\
  returns_flux dim (fun F0 => laxfriedrichs dim gamma UR UL (opposite N) F0 work) (fun k => - F k) /\
  (forall c, 0 < c -> returns_flux dim (fun F0 => laxfriedrichs dim gamma UL UR (scaled c N) F0 work) (fun k => c * F k)).
Proof.
  intros dim g UL UR N Hd Hg HL HR HN a F work.
  assert (X : forall UL UR N, admissible dim g UL -> admissible dim g UR -> vdot dim N N <> 0 ->
    returns_flux dim (fun F0 => laxfriedrichs dim g UL UR N F0 work)
      (fun k => (euler_flux dim g UL N k + euler_flux dim g UR N k) / 2
             - vlen dim N * Rmax (speed dim g UL) (speed dim g UR) * (UR k - UL k) / 2)).
  { intros ul ur m H1 H2 H3 F0. now apply laxfriedrichs_ok. }
  split; [|split; [|split]].
  - now apply X.
  - apply (returns_flux_ext dim) with (2 := X UL UL N HL HL HN). intros k Hk. field.
  - assert (HN' : vdot dim (opposite N) (opposite N) = vdot dim N N)
      by (unfold opposite; rewrite vdot_opp_l, vdot_opp_r; ring).
    apply (returns_flux_ext dim) with (2 := X UR UL (opposite N) HR HL ltac:(now rewrite HN')).
    intros k Hk. unfold F, a. unfold vlen at 1. rewrite HN'. fold (vlen dim N).
    replace (opposite N) with (fun i => -1 * N i) by (apply functional_extensionality; intros; unfold opposite; ring).
    rewrite !euler_flux_scal by easy. fold (speed dim g UL). fold (speed dim g UR).
    rewrite (Rmax_comm (speed dim g UR)). field.
  - intros c Hc.
    assert (HN' : vdot dim (scaled c N) (scaled c N) = c * c * vdot dim N N)
      by (unfold scaled; rewrite vdot_scal_l, vdot_scal_r; ring).
    apply (returns_flux_ext dim) with (2 := X UL UR (scaled c N) HL HR ltac:(rewrite HN'; apply Rmult_integral_contrapositive_currified; nra)).
    intros k Hk. unfold F, a. unfold vlen at 1. rewrite HN', sqrt_mult_alt by nra. rewrite sqrt_square by lra. fold (vlen dim N).
    change (scaled c N) with (fun i => c * N i). rewrite !euler_flux_scal by easy. fold (speed dim g UL). fold (speed dim g UR).
    field.
Qed.
Print Assumptions C49_lax_friedrichs.

(** ** C51 HLLC returns the HLLC flux of the literature *)

Theorem C51_hllc_total : forall dim gamma UL UR N, (dim = 2 \/ dim = 3)%Z -> 1 < gamma ->
  admissible dim gamma UL -> admissible dim gamma UR -> vdot dim N N <> 0 ->
  returns_flux dim (hllc dim gamma UL UR N)
    (fun k => vlen dim N * toro_hllc dim gamma UL UR (fun i => N i / vlen dim N) k).
Proof.
  intros dim g UL UR N Hd Hg HL HR HN F0. destruct (hllc_ok dim g UL UR N F0 Hd Hg HL HR HN) as (F & E & H).
  exists F. split; [easy|]. split; intros k Hk; rewrite H;
  destruct (Z.leb_spec 0 k), (Z.ltb_spec k (dim + 2)); cbn [andb]; try lia; easy.
Qed.
Print Assumptions C51_hllc_total.

(** The waves are correctly built: across the contact wave the flux jumps by the
    wave speed times the jump of the state (Rankine-Hugoniot), the normal
    velocity and the pressure being continuous.  This is what fixes the speed of the
    middle wave. *)
Definition p_contact (dim : Z) (gamma : R) (U n : arr1) (S Sm : R) : R :=
  pressure dim gamma U + density U * (S - un dim U n) * (Sm - un dim U n).

Lemma star_relative dim g U n S Sm k : (0 <= k < dim + 2)%Z -> density U <> 0 -> S - un dim U n <> 0 -> S - Sm <> 0 ->
  star_flux dim g U n S Sm k - Sm * star_state dim g U n S Sm k =
  p_contact dim g U n S Sm * (if (k =? 0)%Z then 0 else if (k =? dim + 1)%Z then Sm else n (k - 1)%Z).
Proof.
  intros Hk Hr Hs HsS. unfold star_flux, star_state, euler_flux, p_contact. fold (un dim U n).
  destruct (Z.eqb_spec k 0) as [->|H0]; [change (U 0%Z) with (density U); field; auto|].
  destruct (Z.eqb_spec k (dim + 1)) as [->|H1]; [unfold energy; field; auto|].
  unfold velocity, momentum. replace (1 + (k - 1))%Z with k by lia. field. auto.
Qed.

Lemma contact_pressures dim g UL UR n : 1 < g -> admissible dim g UL -> admissible dim g UR ->
  p_contact dim g UL n (wave_L dim g UL UR n) (wave_star dim g UL UR n) =
  p_contact dim g UR n (wave_R dim g UL UR n) (wave_star dim g UL UR n).
Proof.
  intros Hg HL HR. pose proof (toro_branch dim g UL UR n Hg HL HR) as HB.
  unfold p_contact. unfold wave_star. cbv zeta. field. lra.
Qed.

Theorem C51_contact_wave : forall dim gamma UL UR n, 1 < gamma -> admissible dim gamma UL -> admissible dim gamma UR ->
  let SL := wave_L dim gamma UL UR n in let SR := wave_R dim gamma UL UR n in
  let Sm := wave_star dim gamma UL UR n in
  SL <> Sm -> SR <> Sm -> forall k, (0 <= k < dim + 2)%Z ->
  star_flux dim gamma UR n SR Sm k - star_flux dim gamma UL n SL Sm k =
  Sm * (star_state dim gamma UR n SR Sm k - star_state dim gamma UL n SL Sm k).
Proof.
  intros dim g UL UR n Hg HL HR SL SR Sm H1 H2 k Hk.
  pose proof (wave_L_lt dim g UL UR n Hg HL) as HwL. pose proof (wave_R_gt dim g UL UR n Hg HR) as HwR.
  fold SL in HwL. fold SR in HwR.
  pose proof (star_relative dim g UL n SL Sm k Hk ltac:(destruct HL; lra) ltac:(lra) ltac:(lra)) as EL.
  pose proof (star_relative dim g UR n SR Sm k Hk ltac:(destruct HR; lra) ltac:(lra) ltac:(lra)) as ER.
  pose proof (contact_pressures dim g UL UR n Hg HL HR) as EP. fold SL SR Sm in EP. rewrite EP in EL. lra.
Qed.
Print Assumptions C51_contact_wave.

(** ** C50 HLLC consistency *)

Lemma toro_equal dim g U n k : 1 < g -> admissible dim g U -> (0 <= k < dim + 2)%Z ->
  toro_hllc dim g U U n k = euler_flux dim g U n k.
Proof.
  intros Hg HU Hk. pose proof (toro_branch dim g U U n Hg HU HU) as HB.
  pose proof (wave_L_lt dim g U U n Hg HU) as HwL. pose proof (wave_R_gt dim g U U n Hg HU) as HwR.
  unfold toro_hllc.
  destruct (Rle_dec 0 (wave_L dim g U U n)); [easy|]. destruct (Rle_dec (wave_R dim g U U n) 0); [easy|].
  assert (Hr : density U <> 0) by (destruct HU; lra).
  assert (E : wave_star dim g U U n = un dim U n) by (unfold wave_star; cbv zeta; field; lra).
  rewrite E.
  assert (X : forall S, S - un dim U n <> 0 -> star_flux dim g U n S (un dim U n) k = euler_flux dim g U n k).
  { intros S HS. unfold star_flux, star_state.
    replace ((S - un dim U n) / (S - un dim U n)) with 1 by (field; easy).
    destruct (Z.eqb_spec k 0) as [->|H0]; [change (U 0%Z) with (density U); field; auto|].
    destruct (Z.eqb_spec k (dim + 1)) as [->|H1]; [unfold energy; field; auto|].
    unfold velocity, momentum. replace (1 + (k - 1))%Z with k by lia. field. auto. }
  destruct (Rle_dec 0 (un dim U n)); apply X; lra.
Qed.

Theorem C50_hllc_consistent : forall dim gamma U N, (dim = 2 \/ dim = 3)%Z -> 1 < gamma ->
  admissible dim gamma U -> vdot dim N N <> 0 ->
  returns_flux dim (hllc dim gamma U U N) (euler_flux dim gamma U N).
Proof.
  intros dim g U N Hd Hg HU HN. pose proof (vlen_pos dim N HN).
  apply (returns_flux_ext dim) with (2 := C51_hllc_total dim g U U N Hd Hg HU HU HN).
  intros k Hk. rewrite toro_equal by easy. rewrite <- euler_flux_scal by easy.
  apply euler_flux_ext; [easy|]. intros i _. field. lra.
Qed.
Print Assumptions C50_hllc_consistent.

(** ** C53 Stationary contacts *)

Theorem C53_hllc_contact : forall dim gamma rhoL rhoR p N, (dim = 2 \/ dim = 3)%Z -> 1 < gamma ->
  0 < rhoL -> 0 < rhoR -> 0 < p -> vdot dim N N <> 0 ->
  returns_flux dim
    (hllc dim gamma (from_primitive dim gamma rhoL (fun _ => 0) p) (from_primitive dim gamma rhoR (fun _ => 0) p) N)
    (fun k => if (k =? 0)%Z then 0 else if (k =? dim + 1)%Z then 0 else p * N (k - 1)%Z).
Proof.
  intros dim g rL rR p N Hd Hg HrL HrR Hp HN. pose proof (dim23_pos dim Hd) as Hd2. pose proof (vlen_pos dim N HN) as Hl.
  set (UL := from_primitive dim g rL (fun _ => 0) p). set (UR := from_primitive dim g rR (fun _ => 0) p).
  destruct (C54_primitive_state dim g rL (fun _ => 0) p Hd Hg HrL) as (_ & DL & VL & AL). specialize (AL Hp). destruct AL as [AL _].
  destruct (C54_primitive_state dim g rR (fun _ => 0) p Hd Hg HrR) as (_ & DR & VR & AR). specialize (AR Hp). destruct AR as [AR _].
  fold UL in DL, VL, AL. fold UR in DR, VR, AR.
  assert (PL : pressure dim g UL = p) by (apply from_primitive_pressure; try lia; lra).
  assert (PR : pressure dim g UR = p) by (apply from_primitive_pressure; try lia; lra).
  apply (returns_flux_ext dim) with (2 := C51_hllc_total dim g UL UR N Hd Hg AL AR HN).
  intros k Hk. set (n := fun i => N i / vlen dim N).
  assert (uL : un dim UL n = 0).
  { unfold un. rewrite (vdot_ext dim _ n (fun _ => 0) n) by auto. unfold vdot. apply rsum_zero. intros; ring. }
  assert (uR : un dim UR n = 0).
  { unfold un. rewrite (vdot_ext dim _ n (fun _ => 0) n) by auto. unfold vdot. apply rsum_zero. intros; ring. }
  pose proof (wave_L_lt dim g UL UR n Hg AL) as HwL. pose proof (wave_R_gt dim g UL UR n Hg AR) as HwR.
  pose proof (toro_branch dim g UL UR n Hg AL AR) as HB.
  assert (E : wave_star dim g UL UR n = 0).
  { unfold wave_star. cbv zeta. rewrite PL, PR. rewrite uL, uR in *. field. lra. }
  unfold toro_hllc. rewrite uL in HwL. rewrite uR in HwR.
  destruct (Rle_dec 0 (wave_L dim g UL UR n)); [lra|]. destruct (Rle_dec (wave_R dim g UL UR n) 0); [lra|].
  rewrite E. destruct (Rle_dec 0 0); [|lra].
  pose proof (star_relative dim g UL n (wave_L dim g UL UR n) 0 k Hk ltac:(lra) ltac:(lra) ltac:(lra)) as S.
  replace (star_flux dim g UL n (wave_L dim g UL UR n) 0 k)
    with (star_flux dim g UL n (wave_L dim g UL UR n) 0 k - 0 * star_state dim g UL n (wave_L dim g UL UR n) 0 k) by ring.
  rewrite S. unfold p_contact. rewrite PL, uL. destruct (k =? 0)%Z; [ring|]. destruct (k =? dim + 1)%Z; [ring|].
  unfold n. field. lra.
Qed.
Print Assumptions C53_hllc_contact.

(** ** C52 Exchange of sides *)

Lemma un_opp dim U n : un dim U (opposite n) = - un dim U n.
Proof. apply vdot_opp_r. Qed.

Lemma p_star_swap dim g UL UR n : p_star dim g UR UL (opposite n) = p_star dim g UL UR n.
Proof. unfold p_star. rewrite !un_opp. f_equal. field. Qed.

Lemma wave_swap_L dim g UL UR n : wave_L dim g UR UL (opposite n) = - wave_R dim g UL UR n.
Proof. unfold wave_L, wave_R. rewrite un_opp, p_star_swap. ring. Qed.

Lemma wave_swap_R dim g UL UR n : wave_R dim g UR UL (opposite n) = - wave_L dim g UL UR n.
Proof. unfold wave_L, wave_R. rewrite un_opp, p_star_swap. ring. Qed.

Lemma wave_swap_star dim g UL UR n : 1 < g -> admissible dim g UL -> admissible dim g UR ->
  wave_star dim g UR UL (opposite n) = - wave_star dim g UL UR n.
Proof.
  intros Hg HL HR. pose proof (toro_branch dim g UL UR n Hg HL HR) as HB.
  unfold wave_star. cbv zeta. rewrite wave_swap_L, wave_swap_R, !un_opp. field. lra.
Qed.

Lemma euler_flux_opp dim g U n k : (0 <= k < dim + 2)%Z -> euler_flux dim g U (opposite n) k = - euler_flux dim g U n k.
Proof.
  intros Hk. rewrite (euler_flux_ext dim g U (opposite n) (fun i => -1 * n i) k Hk) by (intros; unfold opposite; ring).
  rewrite euler_flux_scal by easy. ring.
Qed.

Lemma star_flux_opp dim g U n S Sm k : (0 <= k < dim + 2)%Z -> density U <> 0 -> S - un dim U n <> 0 -> S - Sm <> 0 ->
  star_flux dim g U (opposite n) (- S) (- Sm) k = - star_flux dim g U n S Sm k.
Proof.
  intros Hk Hr Hs HsS. unfold star_flux. rewrite euler_flux_opp by easy. unfold star_state. rewrite un_opp. unfold opposite.
  replace ((- S - - un dim U n) / (- S - - Sm)) with ((S - un dim U n) / (S - Sm)) by (field; lra).
  destruct (k =? 0)%Z; [ring|]. destruct (k =? dim + 1)%Z; field; repeat split; auto; lra.
Qed.

Lemma toro_swap dim g UL UR n k : 1 < g -> admissible dim g UL -> admissible dim g UR -> (0 <= k < dim + 2)%Z ->
  ~ (0 <= wave_L dim g UL UR n /\ wave_R dim g UL UR n <= 0) ->
  toro_hllc dim g UR UL (opposite n) k = - toro_hllc dim g UL UR n k.
Proof.
  intros Hg HL HR Hk HC.
  pose proof (wave_L_lt dim g UL UR n Hg HL) as HwL. pose proof (wave_R_gt dim g UL UR n Hg HR) as HwR.
  assert (rL : density UL <> 0) by (destruct HL; lra). assert (rR : density UR <> 0) by (destruct HR; lra).
  unfold toro_hllc. rewrite wave_swap_L, wave_swap_R, wave_swap_star by easy.
  set (SL := wave_L dim g UL UR n) in *. set (SR := wave_R dim g UL UR n) in *. set (Sm := wave_star dim g UL UR n).
  destruct (Rle_dec 0 SL), (Rle_dec SR 0), (Rle_dec 0 (- SR)), (Rle_dec (- SL) 0); try lra; try (now apply euler_flux_opp).
  destruct (Rle_dec 0 Sm), (Rle_dec 0 (- Sm)); try lra; try (apply star_flux_opp; auto; lra).
  (* the contact wave is at rest: both star fluxes agree *)
  assert (E0 : Sm = 0) by lra.
  rewrite star_flux_opp by (auto; lra). f_equal.
  pose proof (C51_contact_wave dim g UL UR n Hg HL HR ltac:(fold SL Sm; lra) ltac:(fold SR Sm; lra) k Hk) as E.
  cbv zeta in E. fold SL SR Sm in E. rewrite E0 in *. lra.
Qed.

(** Swapping the states and reversing the normal negates the flux, unless both
    sides run into the face at or above their sound speeds. *)
Theorem C52_hllc_exchange_partial : forall dim gamma UL UR N, (dim = 2 \/ dim = 3)%Z -> 1 < gamma ->
  admissible dim gamma UL -> admissible dim gamma UR -> vdot dim N N <> 0 ->
  let n := fun i => N i / vlen dim N in
  ~ (sound dim gamma UL <= vdot dim (velocity UL) n /\ vdot dim (velocity UR) n <= - sound dim gamma UR) ->
  exists f, returns_flux dim (hllc dim gamma UL UR N) f /\
            returns_flux dim (hllc dim gamma UR UL (opposite N)) (fun k => - f k).
Proof.
  intros dim g UL UR N Hd Hg HL HR HN n HC. pose proof (vlen_pos dim N HN) as Hl.
  exists (fun k => vlen dim N * toro_hllc dim g UL UR n k). split; [now apply C51_hllc_total|].
  assert (HN' : vdot dim (opposite N) (opposite N) = vdot dim N N)
      by (unfold opposite; rewrite vdot_opp_l, vdot_opp_r; ring).
  apply (returns_flux_ext dim) with (2 := C51_hllc_total dim g UR UL (opposite N) Hd Hg HR HL ltac:(now rewrite HN')).
  intros k Hk. unfold vlen at 1. rewrite HN'. fold (vlen dim N).
  replace (fun i => opposite N i / vlen dim (opposite N)) with (opposite n).
  2:{ apply functional_extensionality. intros i. unfold opposite at 1 2, n. unfold vlen at 2. rewrite HN'. fold (vlen dim N). field. lra. }
  rewrite toro_swap; auto; [ring|]. intros [C1 C2]. apply HC. fold (un dim UL n). fold (un dim UR n).
  unfold wave_L in C1. unfold wave_R in C2.
  pose proof (sound_pos dim g UL Hg HL). pose proof (sound_pos dim g UR Hg HR).
  pose proof (q_factor_ge1 g (p_star dim g UL UR n) (pressure dim g UL) Hg (proj2 HL)).
  pose proof (q_factor_ge1 g (p_star dim g UL UR n) (pressure dim g UR) Hg (proj2 HR)). split; nra.
Qed.
Print Assumptions C52_hllc_exchange_partial.

(** The excluded case is real: two streams colliding head-on at Mach 100 (the
    code tests the left wave first, whichever side is called left). *)
Definition stream (u : R) : arr1 := from_primitive 2 1.4 1.4 (fun i => if (i =? 0)%Z then u else 0) 1.

Theorem C52_hllc_exchange_refuted : ~ (forall dim gamma UL UR N, (dim = 2 \/ dim = 3)%Z -> 1 < gamma ->
  admissible dim gamma UL -> admissible dim gamma UR -> vdot dim N N <> 0 ->
  exists f, returns_flux dim (hllc dim gamma UL UR N) f /\
            returns_flux dim (hllc dim gamma UR UL (opposite N)) (fun k => - f k)).
Proof.
  intros X.
  assert (A : forall u, admissible 2 1.4 (stream u)) by (intros u; apply C54_primitive_state; auto; lra).
  assert (HN : vdot 2 (axis 0) (axis 0) = 1) by (rewrite vdot_axis by lia; reflexivity).
  destruct (X 2%Z 1.4 (stream 100) (stream (-100)) (axis 0) (or_introl eq_refl) ltac:(lra) (A _) (A _) ltac:(lra)) as (f & F1 & F2).
  assert (HN' : vdot 2 (opposite (axis 0)) (opposite (axis 0)) = 1)
      by (unfold opposite; rewrite vdot_opp_l, vdot_opp_r, HN; ring).
  pose proof (C51_hllc_total 2 1.4 (stream 100) (stream (-100)) (axis 0) (or_introl eq_refl) ltac:(lra) (A _) (A _) ltac:(lra)) as G1.
  pose proof (C51_hllc_total 2 1.4 (stream (-100)) (stream 100) (opposite (axis 0)) (or_introl eq_refl) ltac:(lra) (A _) (A _) ltac:(lra)) as G2.
  destruct (F1 (fun _ => 0)) as (a & Ea & Ha & _). destruct (F2 (fun _ => 0)) as (b & Eb & Hb & _).
  destruct (G1 (fun _ => 0)) as (a' & Ea' & Ha' & _). destruct (G2 (fun _ => 0)) as (b' & Eb' & Hb' & _).
  rewrite Ea in Ea'. injection Ea' as <-. rewrite Eb in Eb'. injection Eb' as <-.
  specialize (Ha 0%Z ltac:(lia)). specialize (Hb 0%Z ltac:(lia)). specialize (Ha' 0%Z ltac:(lia)). specialize (Hb' 0%Z ltac:(lia)).
  assert (L1 : vlen 2 (axis 0) = 1) by (unfold vlen; rewrite HN; apply sqrt_1).
  assert (L2 : vlen 2 (opposite (axis 0)) = 1) by (unfold vlen; rewrite HN'; apply sqrt_1).
  (* both calls return the mass flux of their left state *)
  assert (V : forall u i, (0 <= i < 2)%Z -> velocity (stream u) i = if (i =? 0)%Z then u else 0)
    by (intros; apply from_primitive_velocity; auto; lra).
  assert (P : forall u, pressure 2 1.4 (stream u) = 1) by (intros; apply from_primitive_pressure; try lia; lra).
  assert (SS : forall u, sound 2 1.4 (stream u) = 1).
  { intros u. unfold sound. rewrite P. change (density (stream u)) with 1.4. replace (1.4 * 1 / 1.4) with 1 by lra. apply sqrt_1. }
  assert (K : forall s n, s * s = 1 -> (forall i, n i = s * axis 0 i) ->
     toro_hllc 2 1.4 (stream (s * 100)) (stream (s * -100)) n 0 = 140).
  { intros s n Hs Hn.
    assert (U1 : forall u, un 2 (stream u) n = s * u).
    { intros u. unfold un, vdot. rewrite rsum_2, !V, !Hn by lia. unfold axis. cbn. ring. }
    unfold toro_hllc.
    assert (W : 0 <= wave_L 2 1.4 (stream (s * 100)) (stream (s * -100)) n).
    { unfold wave_L, p_star. rewrite !U1, !SS, !P. change (density (stream (s * 100))) with 1.4. change (density (stream (s * -100))) with 1.4.
      replace (s * (s * 100)) with 100 by nra. replace (s * (s * -100)) with (-100) by nra.
      rewrite Rmax_right by lra. unfold q_factor. destruct (Rle_dec _ 1); [lra|].
      assert (B : sqrt (1 + (1.4 + 1) / (2 * 1.4) * (((1 + 1) / 2 - (-100 - 100) / 2 * ((1.4 + 1.4) / 2) * ((1 + 1) / 2)) / 1 - 1)) <= 100).
      { match goal with |- sqrt ?x <= 100 => replace x with 121 by lra end.
        replace 121 with (11 * 11) by ring. rewrite sqrt_square by lra. lra. }
      lra. }
    destruct (Rle_dec 0 _); [|lra]. unfold euler_flux. cbn [Z.eqb]. fold (un 2 (stream (s * 100)) n). rewrite U1.
    change (density (stream (s * 100))) with 1.4. replace (s * (s * 100)) with 100 by nra. lra. }
  rewrite L1 in Ha'. rewrite L2 in Hb'.
  pose proof (K 1 (fun i => axis 0 i / 1) ltac:(lra) ltac:(intros; cbv beta; field)) as K1.
  pose proof (K (-1) (fun i => opposite (axis 0) i / 1) ltac:(lra) ltac:(intros; unfold opposite; cbv beta; field)) as K2.
  replace (1 * 100) with 100 in K1 by ring. replace (1 * -100) with (-100) in K1 by ring.
  replace (-1 * 100) with (-100) in K2 by ring. replace (-1 * -100) with 100 in K2 by ring.
  rewrite K1 in Ha'. rewrite K2 in Hb'. lra.
Qed.
Print Assumptions C52_hllc_exchange_refuted.

(** Non-vacuity: the hypotheses of the flux theorems hold for a shock-tube pair
    of states and a slanted normal of length 5. *)
Example flux_witness : let N := fun i => if (i =? 0)%Z then 3 else 4 in
  admissible 2 1.4 (still 1) /\ admissible 2 1.4 (from_primitive 2 1.4 0.125 (fun _ => 0) 0.1) /\
  vdot 2 N N = 25 /\ ~ (sound 2 1.4 (still 1) <= vdot 2 (velocity (still 1)) (fun i => N i / vlen 2 N) /\
    vdot 2 (velocity (from_primitive 2 1.4 0.125 (fun _ => 0) 0.1)) (fun i => N i / vlen 2 N) <= - sound 2 1.4 (from_primitive 2 1.4 0.125 (fun _ => 0) 0.1)).
Proof.
  assert (A : admissible 2 1.4 (still 1)) by (apply C54_primitive_state; auto; lra).
  cbv zeta. split; [exact A|split; [apply C54_primitive_state; auto; lra|split]].
  - unfold vdot. rewrite rsum_2. cbn. ring.
  - intros [H _]. pose proof (sound_pos 2 1.4 (still 1) ltac:(lra) A).
    assert (E : forall n, vdot 2 (velocity (still 1)) n = 0).
    { intros n. unfold vdot, still. rewrite rsum_2, !from_primitive_velocity by (try lia; lra). ring. }
    rewrite E in H. lra.
Qed.
