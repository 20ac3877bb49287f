(** HllcPositive.v -- the HLLC flux and the set of physical states.  For C101. *)
From Coq Require Import ZArith List Lia Reals Lra.
From Verif Require Import Base RBase PhysModel PhysSpec PhysProof PropPhys SolverSpec PropResidual PropRenumber PropPositive.
Local Open Scope Z_scope.
Local Open Scope R_scope.

Section Hllc.
Context (dim : Z) (g : R) (D : (dim = 2 \/ dim = 3)%Z) (G : 1 < g).

Lemma rsum3_quad (a b c : R) (v n : arr1) : vdot dim n n = 1 ->
  rsum dim (fun i => a * (v i * v i) + b * (v i * n i) + c * (n i * n i)) = a * vdot dim v v + b * vdot dim v n + c.
Proof. intros N1. rewrite !rsum_plus, !rsum_scal. fold (vdot dim v v) (vdot dim v n) (vdot dim n n). rewrite N1. ring. Qed.

Lemma sound_sq U : admissible dim g U -> sound dim g U * sound dim g U * density U = g * pressure dim g U.
Proof.
  intros (R0 & P0). unfold sound. rewrite sqrt_sqrt by (apply Rlt_le, Rdiv_lt_0_compat; nra). field. lra.
Qed.

(** A state is physical if its density is positive and its momentum and energy
    leave room for heat. *)
Lemma admissible_by (W : arr1) r (a : R) (v n : arr1) E : vdot dim n n = 1 -> 0 < r ->
  W 0%Z = r -> (forall i, (0 <= i < dim)%Z -> W (1 + i)%Z = r * (v i + a * n i)) -> W (dim + 1)%Z = E ->
  r / 2 * (vdot dim v v + 2 * a * vdot dim v n + a * a) < E -> admissible dim g W.
Proof.
  intros N1 R0 H0 HM HE HK. apply admissible_kinetic; [exact G|]. unfold density, energy. rewrite H0, HE. split; [exact R0|].
  eapply Rle_lt_trans; [|exact HK]. right. unfold kinetic, momentum, density.
  rewrite (rsum_ext dim _ (fun i => (r / 2) * (v i * v i) + (r * a) * (v i * n i) + (r / 2 * (a * a)) * (n i * n i))).
  - rewrite rsum3_quad by exact N1. field.
  - intros i Hi. rewrite HM, H0 by exact Hi. field. lra.
Qed.

Lemma energy_heat U : admissible dim g U -> energy dim U = density U * vdot dim (velocity U) (velocity U) / 2 + pressure dim g U / (g - 1).
Proof. intros (R0 & P0). unfold pressure. field. lra. Qed.

Lemma momentum_velocity U i : admissible dim g U -> U (1 + i)%Z = density U * velocity U i.
Proof. intros (R0 & _). unfold velocity, momentum. field. lra. Qed.

(** The flux of a supersonic state is itself a physical state. *)
Lemma supersonic U n : admissible dim g U -> vdot dim n n = 1 -> sound dim g U <= un dim U n ->
  admissible dim g (fun k => euler_flux dim g U n k).
Proof.
  intros A N1 HS. pose proof A as (R0 & P0). pose proof (sound_pos dim g U G A) as S0. pose proof (sound_sq U A) as SS.
  set (u := un dim U n) in *. set (p := pressure dim g U) in *. set (r := density U) in *. set (s := sound dim g U) in *.
  assert (u0 : 0 < u) by lra.
  apply (admissible_by _ (r * u) (p / (r * u)) (velocity U) n ((energy dim U + p) * u)); [exact N1|nra| | | |].
  - reflexivity.
  - intros i Hi. unfold euler_flux. destruct (Z.eqb_spec (1 + i) 0); [lia|]. destruct (Z.eqb_spec (1 + i) (dim + 1)); [lia|]. replace (1 + i - 1)%Z with i by lia.
    change (momentum U i) with (U (1 + i)%Z). rewrite momentum_velocity by exact A. fold (un dim U n). fold u p r. field. split; lra.
  - unfold euler_flux. destruct (Z.eqb_spec (dim + 1) 0); [lia|]. rewrite Z.eqb_refl. reflexivity.
  - rewrite energy_heat by exact A. fold r p. fold (un dim U n). fold u. set (v2 := vdot dim (velocity U) (velocity U)).
    replace (r * u / 2 * (v2 + 2 * (p / (r * u)) * u + p / (r * u) * (p / (r * u)))) with (r * u / 2 * v2 + p * u + p * p / (2 * r * u)) by (field; split; lra).
    assert (K : p * p / (2 * r * u) < p / (g - 1) * u); [|nra].
    apply (Rmult_lt_reg_r (2 * r * u * (g - 1))); [repeat apply Rmult_lt_0_compat; lra|].
    replace (p * p / (2 * r * u) * (2 * r * u * (g - 1))) with (p * ((g - 1) * p)) by (field; split; lra).
    replace (p / (g - 1) * u * (2 * r * u * (g - 1))) with (p * (2 * (u * u * r))) by (field; lra).
    apply Rmult_lt_compat_l; [exact P0|]. assert (s * s <= u * u) by nra. assert (s * s * r <= u * u * r) by (apply Rmult_le_compat_r; lra). nra.
Qed.

(** The heat left behind a wave moving by at least the speed of sound. *)
Lemma heat_pos p r w d : 0 < p -> 0 < r -> g * p <= w * w * r -> 0 < p / ((g - 1) * r) + d * d / 2 + d * p / (r * w).
Proof.
  intros P0 R0 HW. assert (W0 : w <> 0) by (intros ->; nra).
  replace (p / ((g - 1) * r) + d * d / 2 + d * p / (r * w)) with ((d + p / (r * w)) * (d + p / (r * w)) / 2 + (2 * (w * w * r) - p * (g - 1)) * (p / (2 * (g - 1) * r * (r * (w * w))))) by (field; repeat split; (exact W0 || lra)).
  assert (0 <= (d + p / (r * w)) * (d + p / (r * w))) by apply Rle_0_sqr.
  assert (0 < w * w) by exact (Rsqr_pos_lt w W0).
  assert (0 < p / (2 * (g - 1) * r * (r * (w * w)))) by (apply Rdiv_lt_0_compat; [exact P0|set (ww := w * w) in *; clearbody ww; repeat apply Rmult_lt_0_compat; lra]).
  assert (0 < 2 * (w * w * r) - p * (g - 1)) by nra. nra.
Qed.

(** The state between an outer wave and the contact wave. *)
Lemma star_admissible U n s sm : admissible dim g U -> vdot dim n n = 1 -> g * pressure dim g U <= (s - un dim U n) * (s - un dim U n) * density U ->
  0 < (s - un dim U n) / (s - sm) -> admissible dim g (star_state dim g U n s sm).
Proof.
  intros A N1 HW HQ. pose proof A as (R0 & P0). set (u := un dim U n) in *. set (p := pressure dim g U) in *. set (r := density U) in *.
  set (w := s - u) in *. set (d := sm - u). set (c := w / (s - sm)) in *.
  assert (w0 : w <> 0) by (intros E; rewrite E in HW; nra).
  apply (admissible_by _ (c * r) d (velocity U) n (c * r * (energy dim U / r + d * (sm + p / (r * w))))); [exact N1|nra| | | |].
  - unfold star_state. cbn [Z.eqb]. fold u r w c. ring.
  - intros i Hi. unfold star_state. destruct (Z.eqb_spec (1 + i) 0); [lia|]. destruct (Z.eqb_spec (1 + i) (dim + 1)); [lia|]. replace (1 + i - 1)%Z with i by lia. reflexivity.
  - unfold star_state. destruct (Z.eqb_spec (dim + 1) 0); [lia|]. rewrite Z.eqb_refl. reflexivity.
  - rewrite energy_heat by exact A. fold r p. fold (un dim U n). fold u. set (v2 := vdot dim (velocity U) (velocity U)).
    pose proof (heat_pos p r w d P0 R0 HW) as H. assert (0 < c * r) by nra.
    replace (c * r / 2 * (v2 + 2 * d * u + d * d)) with (c * r * (v2 / 2 + d * u + d * d / 2)) by field. apply Rmult_lt_compat_l; [assumption|].
    replace ((r * v2 / 2 + p / (g - 1)) / r) with (v2 / 2 + p / ((g - 1) * r)) by (field; lra).
    replace (d * (sm + p / (r * w))) with (d * sm + d * p / (r * w)) by (unfold Rdiv; ring). unfold d in *. nra.
Qed.

(** Momentum and work of a pressure [q] on a face moving with speed [s]. *)
Definition push (q s : R) (n : arr1) (k : Z) : R :=
  if (k =? 0)%Z then 0 else if (k =? dim + 1)%Z then q * s else q * n (k - 1)%Z.

(** An element losing only to the push of its neighbour stays physical. *)
Lemma away U n lam w0 s : admissible dim g U -> vdot dim n n = 1 -> g * pressure dim g U <= w0 * w0 * density U -> 0 < w0 -> w0 <= lam + un dim U n ->
  admissible dim g (fun k => lam * U k + euler_flux dim g U n k - push (pressure dim g U + density U * w0 * (un dim U n - s)) s n k).
Proof.
  intros A N1 HW W0 HL. pose proof A as (R0 & P0). set (u := un dim U n) in *. set (p := pressure dim g U) in *. set (r := density U) in *.
  set (w := lam + u) in *. set (d := s - u). set (q := p + r * w0 * (u - s)).
  assert (w1 : 0 < w) by lra.
  apply (admissible_by _ (r * w) (w0 / w * d) (velocity U) n (energy dim U * w + p * u - q * s)); [exact N1|nra| | | |].
  - unfold euler_flux, push. cbn [Z.eqb]. fold (un dim U n). fold u. fold r. change (U 0%Z) with r. unfold w. ring.
  - intros i Hi. unfold euler_flux, push. destruct (Z.eqb_spec (1 + i) 0); [lia|]. destruct (Z.eqb_spec (1 + i) (dim + 1)); [lia|]. replace (1 + i - 1)%Z with i by lia.
    change (momentum U i) with (U (1 + i)%Z). rewrite momentum_velocity by exact A. fold (un dim U n). fold u p r. unfold q, d.
    transitivity (r * velocity U i * w - r * w0 * (u - s) * n i); [unfold w; ring|field; lra].
  - unfold euler_flux, push. destruct (Z.eqb_spec (dim + 1) 0); [lia|]. rewrite Z.eqb_refl. fold (un dim U n). fold u p. change (U (dim + 1)%Z) with (energy dim U). unfold w. ring.
  - rewrite energy_heat by exact A. fold r p. fold (un dim U n). fold u. set (v2 := vdot dim (velocity U) (velocity U)).
    set (x := w0 / w). assert (X1 : x * w = w0) by (unfold x; field; lra).
    assert (X0 : 0 < x <= 1) by (split; [unfold x; apply Rdiv_lt_0_compat; lra|apply (Rmult_le_reg_r w); lra]).
    pose proof (heat_pos p r w0 (- (x * d)) P0 R0 HW) as H.
    replace (r * w / 2 * (v2 + 2 * (x * d) * u + x * d * (x * d))) with (r * v2 / 2 * w + r * w0 * d * u + r * w0 * d * d * x / 2) by (rewrite <- X1; field).
    unfold q. replace ((r * v2 / 2 + p / (g - 1)) * w + p * u - (p + r * w0 * (u - s)) * s) with (r * v2 / 2 * w + p / (g - 1) * w - p * d + r * w0 * d * s) by (unfold d; ring).
    apply (Rplus_lt_reg_l (- (r * v2 / 2 * w + r * w0 * d * u + r * w0 * d * d * x / 2))). ring_simplify.
    assert (H2 : 0 < w * r * (p / ((g - 1) * r) + - (x * d) * - (x * d) / 2 + - (x * d) * p / (r * w0))) by (apply Rmult_lt_0_compat; [nra|exact H]).
    replace (w * r * (p / ((g - 1) * r) + - (x * d) * - (x * d) / 2 + - (x * d) * p / (r * w0))) with (p / (g - 1) * w + r * w0 * d * d * x / 2 - p * d) in H2.
    2:{ unfold x. field. repeat split; lra. }
    eapply Rlt_le_trans; [exact H2|].
    assert (K : 0 <= r * w0 * (d * d) * (1 - x)) by (apply Rmult_le_pos; [apply Rmult_le_pos; [nra|apply Rle_0_sqr]|lra]).
    unfold d in *. unfold Rdiv in *. nra.
Qed.

Lemma push_opposite q s n k : push q s n k = - push q (- s) (opposite n) k.
Proof. unfold push, opposite. destruct (k =? 0)%Z; [ring|]. destruct (k =? dim + 1)%Z; ring. Qed.

Lemma un_opposite U n : un dim U (opposite n) = - un dim U n.
Proof. unfold un, opposite. now rewrite vdot_opp_r. Qed.

Lemma unit_opposite n : vdot dim n n = 1 -> vdot dim (opposite n) (opposite n) = 1.
Proof. intros H. unfold opposite. now rewrite vdot_opp_l, vdot_opp_r, Ropp_involutive. Qed.

(** The flux behind an outer wave: carried by the contact wave, and pushed. *)
Lemma star_flux_carried U n s sm k : admissible dim g U -> s <> sm -> s <> un dim U n -> (0 <= k < dim + 2)%Z ->
  star_flux dim g U n s sm k = sm * star_state dim g U n s sm k + push (pressure dim g U + density U * (s - un dim U n) * (sm - un dim U n)) sm n k.
Proof.
  intros A N1 N2 Hk. pose proof A as (R0 & P0). unfold star_flux, star_state, euler_flux, push. fold (un dim U n).
  set (u := un dim U n) in *. set (p := pressure dim g U) in *. set (r := density U) in *.
  assert (s - sm <> 0) by lra. assert (s - u <> 0) by lra. assert (r <> 0) by lra.
  destruct (Z.eqb_spec k 0) as [->|K0]; [change (U 0%Z) with r; field; auto|].
  destruct (Z.eqb_spec k (dim + 1)) as [->|K1]; [change (U (dim + 1)%Z) with (energy dim U); field; auto|].
  change (momentum U (k - 1)%Z) with (U (1 + (k - 1))%Z). rewrite (momentum_velocity U (k - 1)%Z A). replace (U k) with (U (1 + (k - 1))%Z) by (f_equal; lia). rewrite (momentum_velocity U (k - 1)%Z A). fold r. field. auto.
Qed.

(** ** One face: [U] on the left, [V] on the right, unit normal [n] *)
Context (U V n : arr1) (AU : admissible dim g U) (AV : admissible dim g V) (N1 : vdot dim n n = 1).
Notation SL := (wave_L dim g U V n).
Notation SR := (wave_R dim g U V n).
Notation Sm := (wave_star dim g U V n).

Lemma left_wave : 0 < un dim U n - SL /\ sound dim g U <= un dim U n - SL /\ g * pressure dim g U <= (SL - un dim U n) * (SL - un dim U n) * density U.
Proof.
  pose proof (sound_pos dim g U G AU) as S0. pose proof (q_factor_ge1 g (p_star dim g U V n) (pressure dim g U) G (proj2 AU)) as Q. rewrite <- (sound_sq U AU). unfold wave_L.
  set (s := sound dim g U) in *. set (q := q_factor g (p_star dim g U V n) (pressure dim g U)) in *. assert (s <= s * q) by nra.
  split; [lra|]. split; [lra|]. apply Rmult_le_compat_r; [apply Rlt_le, AU|]. nra.
Qed.

Lemma right_wave : 0 < SR - un dim V n /\ sound dim g V <= SR - un dim V n /\ g * pressure dim g V <= (SR - un dim V n) * (SR - un dim V n) * density V.
Proof.
  pose proof (sound_pos dim g V G AV) as S0. pose proof (q_factor_ge1 g (p_star dim g U V n) (pressure dim g V) G (proj2 AV)) as Q. rewrite <- (sound_sq V AV). unfold wave_R.
  set (s := sound dim g V) in *. set (q := q_factor g (p_star dim g U V n) (pressure dim g V)) in *. assert (s <= s * q) by nra.
  split; [lra|]. split; [lra|]. apply Rmult_le_compat_r; [apply Rlt_le, AV|]. nra.
Qed.

(** Both outer waves leave the same pressure behind. *)
Lemma star_pressure : pressure dim g U + density U * (SL - un dim U n) * (Sm - un dim U n) = pressure dim g V + density V * (SR - un dim V n) * (Sm - un dim V n).
Proof.
  pose proof (toro_branch dim g U V n G AU AV) as T. unfold wave_star. cbv zeta. field. lra.
Qed.

Lemma moving W ν mu w0 : admissible dim g W -> vdot dim ν ν = 1 -> 0 < w0 -> g * pressure dim g W <= w0 * w0 * density W -> w0 <= mu + un dim W ν ->
  admissible dim g (fun k => mu * W k + euler_flux dim g W ν k).
Proof.
  intros A M1 W0 HW HL. pose proof A as (R0 & _).
  apply (admissible_ext dim g (fun k => mu * W k + euler_flux dim g W ν k - push (pressure dim g W + density W * w0 * (un dim W ν - (un dim W ν + pressure dim g W / (density W * w0)))) (un dim W ν + pressure dim g W / (density W * w0)) ν k)); [exact D| |now apply away].
  intros k Hk. replace (pressure dim g W + density W * w0 * (un dim W ν - (un dim W ν + pressure dim g W / (density W * w0)))) with 0 by (field; lra).
  unfold push. destruct (k =? 0)%Z; [ring|]. destruct (k =? dim + 1)%Z; ring.
Qed.

Lemma outgoing W ν mu : admissible dim g W -> vdot dim ν ν = 1 -> max_speed dim g W <= mu -> admissible dim g (fun k => mu * W k - euler_flux dim g W ν k).
Proof.
  intros A M1 HM. assert (L0 : 0 < mu).
  { apply Rlt_le_trans with (max_speed dim g W); [|exact HM]. unfold max_speed. pose proof (sound_pos dim g W G A). pose proof (sqrt_pos (vdot dim (velocity W) (velocity W))). unfold vlen. lra. }
  apply (admissible_ext dim g (vscale mu (fun k => W k - euler_flux dim g W ν k / mu))); [exact D| |].
  - intros k Hk. unfold vscale. field. lra.
  - apply admissible_scale; [exact G|exact L0|]. now apply admissible_flux.
Qed.

Theorem hllc_left lam : max_speed dim g U + Rmax 0 (- SL) <= lam -> admissible dim g (fun k => - toro_hllc dim g U V n k + lam * U k).
Proof.
  intros HL. destruct left_wave as (L0 & L1 & L2), right_wave as (R0 & R1 & R2). pose proof star_pressure as SP. set (mu := Rmax 0 (- SL)) in *.
  pose proof (Rmax_l 0 (- SL)) as M0. pose proof (Rmax_r 0 (- SL)) as M1. fold mu in M0, M1.
  pose proof (outgoing U n (lam - mu) AU N1 ltac:(lra)) as OUT.
  apply (admissible_ext dim g (vadd (fun k => (lam - mu) * U k - euler_flux dim g U n k) (fun k => - toro_hllc dim g U V n k + euler_flux dim g U n k + mu * U k))); [exact D|intros k Hk; unfold vadd; ring|].
  apply admissible_cone; [exact D|exact G|exact OUT|]. unfold toro_hllc. cbv zeta.
  assert (W2 : g * pressure dim g U <= (un dim U n - SL) * (un dim U n - SL) * density U) by (replace ((un dim U n - SL) * (un dim U n - SL)) with ((SL - un dim U n) * (SL - un dim U n)) by ring; exact L2).
  destruct (Rle_dec 0 SL) as [H1|H1].
  { left. intros k Hk. unfold mu. rewrite Rmax_left by lra. ring. }
  assert (EM : mu = - SL) by (unfold mu; apply Rmax_right; lra).
  destruct (Rle_dec SR 0) as [H2|H2].
  { right. apply (admissible_ext dim g (vadd (fun k => mu * U k + euler_flux dim g U n k) (fun k => euler_flux dim g V (opposite n) k))); [exact D| |].
    - intros k Hk. unfold vadd. rewrite euler_opposite by exact Hk. ring.
    - apply admissible_add; [exact G| |].
      + apply (moving U n mu (un dim U n - SL)); auto. lra.
      + apply supersonic; [exact AV|now apply unit_opposite|rewrite un_opposite; lra]. }
  destruct (Rle_dec 0 Sm) as [H3|H3].
  { right. apply (admissible_ext dim g (vscale (- SL) (star_state dim g U n SL Sm))); [exact D|intros k Hk; unfold vscale, star_flux; rewrite EM; ring|].
    apply admissible_scale; [exact G|lra|]. apply star_admissible; auto. replace ((SL - un dim U n) / (SL - Sm)) with ((un dim U n - SL) / (Sm - SL)) by (field; lra). apply Rdiv_lt_0_compat; lra. }
  right. apply (admissible_ext dim g (vadd (fun k => mu * U k + euler_flux dim g U n k - push (pressure dim g U + density U * (un dim U n - SL) * (un dim U n - Sm)) Sm n k) (vscale (- Sm) (star_state dim g V n SR Sm)))); [exact D| |].
  - intros k Hk. unfold vadd, vscale. rewrite star_flux_carried by (auto; lra). rewrite <- SP.
    replace (density U * (un dim U n - SL) * (un dim U n - Sm)) with (density U * (SL - un dim U n) * (Sm - un dim U n)) by ring. ring.
  - apply admissible_add; [exact G| |].
    + apply away; auto. lra.
    + apply admissible_scale; [exact G|lra|]. apply star_admissible; auto. apply Rdiv_lt_0_compat; lra.
Qed.

Theorem hllc_right lam : max_speed dim g V + Rmax 0 SR <= lam -> admissible dim g (fun k => toro_hllc dim g U V n k + lam * V k).
Proof.
  intros HL. destruct left_wave as (L0 & L1 & L2), right_wave as (R0 & R1 & R2). pose proof star_pressure as SP. set (mu := Rmax 0 SR) in *.
  pose proof (Rmax_l 0 SR) as M0. pose proof (Rmax_r 0 SR) as M1. fold mu in M0, M1.
  pose proof (outgoing V (opposite n) (lam - mu) AV (unit_opposite n N1) ltac:(lra)) as OUT.
  apply (admissible_ext dim g (vadd (fun k => (lam - mu) * V k - euler_flux dim g V (opposite n) k) (fun k => toro_hllc dim g U V n k + euler_flux dim g V (opposite n) k + mu * V k))); [exact D|intros k Hk; unfold vadd; ring|].
  apply admissible_cone; [exact D|exact G|exact OUT|]. unfold toro_hllc. cbv zeta.
  assert (MV : admissible dim g (fun k => mu * V k + euler_flux dim g V (opposite n) k)).
  { apply (moving V (opposite n) mu (SR - un dim V n)); auto; [now apply unit_opposite|rewrite un_opposite; lra]. }
  destruct (Rle_dec 0 SL) as [H1|H1].
  { right. apply (admissible_ext dim g (vadd (fun k => mu * V k + euler_flux dim g V (opposite n) k) (fun k => euler_flux dim g U n k))); [exact D|intros k Hk; unfold vadd; ring|].
    apply admissible_add; [exact G|exact MV|]. apply supersonic; auto. lra. }
  destruct (Rle_dec SR 0) as [H2|H2].
  { left. intros k Hk. unfold mu. rewrite Rmax_left, euler_opposite by (exact Hk || lra). ring. }
  assert (EM : mu = SR) by (unfold mu; apply Rmax_right; lra).
  destruct (Rle_dec 0 Sm) as [H3|H3].
  { apply (cone_ext dim g (vadd (vscale Sm (star_state dim g U n SL Sm)) (fun k => mu * V k + euler_flux dim g V (opposite n) k - push (pressure dim g V + density V * (SR - un dim V n) * (un dim V (opposite n) - (- Sm))) (- Sm) (opposite n) k))); [exact D| |].
    - intros k Hk. unfold vadd, vscale. rewrite star_flux_carried by (auto; lra). rewrite SP, (push_opposite _ Sm). rewrite un_opposite.
      replace (density V * (SR - un dim V n) * (- un dim V n - - Sm)) with (density V * (SR - un dim V n) * (Sm - un dim V n)) by ring. ring.
    - apply cone_add; [exact D|exact G| |].
      + apply cone_scale; [exact G|exact H3|]. right. apply star_admissible; auto. replace ((SL - un dim U n) / (SL - Sm)) with ((un dim U n - SL) / (Sm - SL)) by (field; lra). apply Rdiv_lt_0_compat; lra.
      + right. apply away; auto; [now apply unit_opposite|rewrite un_opposite; lra]. }
  right. apply (admissible_ext dim g (vscale SR (star_state dim g V n SR Sm))); [exact D| |].
  - intros k Hk. unfold vscale, star_flux. rewrite EM, euler_opposite by exact Hk. ring.
  - apply admissible_scale; [exact G|lra|]. apply star_admissible; auto. apply Rdiv_lt_0_compat; lra.
Qed.
End Hllc.
