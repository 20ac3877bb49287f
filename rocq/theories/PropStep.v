(** PropStep.v -- C25, C26: the steppers compute the textbook formulas. *)
From Coq Require Import ZArith List Lia Reals Lra Bool Permutation FunctionalExtensionality.
From Verif Require Import Base RBase LinAlgModel LinAlgProof QuadModel PhysModel PhysSpec PhysProof SolverModel SolverProof StepModel StepProof.
Import ListNotations.
Local Open Scope R_scope.

(** ** Specification *)

(** U + c K on the entries of the views. *)
Definition plus (x : ext3) (c : R) (K U : arr3) : arr3 :=
  fun i j k => if within3 x i j k then U i j k + c * K i j k else U i j k.
(** Right-hand side of the ODE: element-wise inverse mass matrix times residual. *)
Definition rhs (x : ext3) (iMM : arr3) (resid : R -> arr3 -> arr3) (t : R) (U : arr3) : arr3 :=
  fun e i k => rsum (nbas x) (fun b => iMM e i b * resid t U e b k).
(** Element loops run each element once, in any order. *)
Definition elem_orders (x : ext3) (order : nat -> list Z) : Prop :=
  forall s, Permutation (order s) (zseq (let '(e0, _, _) := x in e0)).
(** The number of entries fits the 32-bit counter. *)
Definition fits (x : ext3) : Prop := extents_ok x /\ (entries x < 2 ^ 32)%Z.

Lemma fits_num x : fits x -> num_entries x = entries x /\ extents_ok x.
Proof.
  intros [E B]. split; [|exact E]. unfold num_entries. apply Z.mod_small. split; [|exact B].
  destruct x as [[e0 e1] e2], E as (H0 & H1 & H2). unfold entries. apply Z.mul_nonneg_nonneg; [apply Z.mul_nonneg_nonneg|]; lia.
Qed.

(** Forward Euler: one evaluation at (t, U), result U + dt k. *)
Theorem C25_forward_euler :
  forall l x order dt iMM resid U t, fits x -> elem_orders x order ->
  run resid (FE_step l x order dt iMM U t) = (plus x dt (rhs x iMM resid t U) U, t + dt, [(t, U)]).
Proof.
  intros l x order dt iMM resid U t HF HO. destruct (fits_num x HF) as [EN EX]. unfold FE_step. cbn [run].
  rewrite EN, axpy_data_eq by exact EX. f_equal. f_equal.
  extensionality i. extensionality j. extensionality k. unfold plus.
  destruct (within3 x i j k) eqn:W; [|reflexivity]. specialize (HO 0%nat). destruct x as [[e0 e1] e2].
  cbn [nbas nst] in *. rewrite (mult_inv_mass_box _ e0) by assumption. unfold rhs. cbn [nbas]. ring.
Qed.
Print Assumptions C25_forward_euler.

(** Classical Runge-Kutta: stages, stage times, result. *)
Theorem C25_runge_kutta :
  forall l x order dt iMM resid w U t, fits x -> elem_orders x order ->
  let f := rhs x iMM resid in
  let k1 := f t U in
  let k2 := f (t + dt / 2) (plus x (dt / 2) k1 U) in
  let k3 := f (t + dt / 2) (plus x (dt / 2) k2 U) in
  let k4 := f (t + dt) (plus x dt k3 U) in
  run resid (RK4_step l x order dt iMM w U t) =
  (plus x (dt / 6) (fun i j k => k1 i j k + 2 * k2 i j k + 2 * k3 i j k + k4 i j k) U, t + dt,
   [(t, U); (t + dt / 2, plus x (dt / 2) k1 U); (t + dt / 2, plus x (dt / 2) k2 U); (t + dt, plus x dt k3 U)]).
Proof.
  intros l x order dt iMM resid w U t HF HO f k1 k2 k3 k4. destruct (fits_num x HF) as [EN EX].
  assert (ST : forall s c c' (rs dU V K : arr3), c' = c * dt ->
    K = (fun e i k => rsum (nbas x) (fun b => iMM e i b * rs e b k)) ->
    (forall i j k, within3 x i j k = false -> V i j k = U i j k) ->
    update_data l x (num_entries x) c (mult_inv_mass_matrix (order s) (nbas x) (nst x) dt iMM rs dU) (copy_data l x U (w_Uhold w)) V = plus x c' K U).
  { intros s c c' rs dU V K -> -> HV. rewrite EN, update_data_eq, copy_data_eq by exact EX.
    extensionality i. extensionality j. extensionality k. unfold plus. destruct (within3 x i j k) eqn:W; [|now apply HV].
    specialize (HO s). destruct x as [[e0 e1] e2]. cbn [nbas nst] in *. rewrite (mult_inv_mass_box _ e0) by assumption. ring. }
  assert (OUT : forall c K i j k, within3 x i j k = false -> plus x c K U i j k = U i j k).
  { intros c K i j k W. unfold plus. now rewrite W. }
  assert (T1 : t + dt / 2.0 = t + dt / 2) by lra. assert (T2 : t + dt / 2 + dt / 2.0 = t + dt) by lra.
  unfold RK4_step. cbn [run].
  rewrite (ST 0%nat 0.5 (dt / 2) (resid t U) _ U k1) by (try lra; reflexivity).
  rewrite T1, T2.
  rewrite (ST 1%nat 0.5 (dt / 2) (resid (t + dt / 2) (plus x (dt / 2) k1 U)) _ _ k2) by (try lra; try reflexivity; apply OUT).
  rewrite (ST 2%nat 1.0 dt (resid (t + dt / 2) (plus x (dt / 2) k2 U)) _ _ k3) by (try lra; try reflexivity; apply OUT).
  f_equal. f_equal.
  rewrite EN, !axpy_data_eq, !copy_data_eq by exact EX.
  extensionality i. extensionality j. extensionality k.
  destruct (within3 x i j k) eqn:W; [|rewrite !OUT by exact W; reflexivity].
  pose proof (HO 0%nat) as H0. pose proof (HO 1%nat) as H1. pose proof (HO 2%nat) as H2. pose proof (HO 3%nat) as H3.
  destruct x as [[e0 e1] e2]. cbn [nbas nst] in *. rewrite !(mult_inv_mass_box _ e0) by assumption.
  change (rsum e1 (fun b => iMM i j b * resid t U i b k)) with (k1 i j k).
  change (rsum e1 (fun b => iMM i j b * resid (t + dt / 2) (plus (e0, e1, e2) (dt / 2) k1 U) i b k)) with (k2 i j k).
  change (rsum e1 (fun b => iMM i j b * resid (t + dt / 2) (plus (e0, e1, e2) (dt / 2) k2 U) i b k)) with (k3 i j k).
  change (rsum e1 (fun b => iMM i j b * resid (t + dt) (plus (e0, e1, e2) dt k3 U) i b k)) with (k4 i j k).
  match goal with |- _ = plus ?x ?c ?K ?U i j k => replace (plus x c K U i j k) with (U i j k + c * K i j k) by (unfold plus; rewrite W; reflexivity) end.
  lra.
Qed.
Print Assumptions C25_runge_kutta.

(** Any number of steps (base.cpp 388-394): the solver's time advances by dt in
    each, whatever the residual does. *)
Theorem C25_time_advances :
  forall l x order dt iMM resid w n U t, fits x -> elem_orders x order ->
  let fe := fun s : arr3 * R => fst (run resid (FE_step l x order dt iMM (fst s) (snd s))) in
  let rk := fun s : arr3 * R => fst (run resid (RK4_step l x order dt iMM w (fst s) (snd s))) in
  snd (time_loop fe n (U, t)) = t + INR n * dt /\ snd (time_loop rk n (U, t)) = t + INR n * dt.
Proof.
  intros l x order dt iMM resid w n U t HF HO fe rk.
  assert (X : forall (take : arr3 * R -> arr3 * R), (forall s, snd (take s) = snd s + dt) ->
    forall n s, snd (time_loop take n s) = snd s + INR n * dt).
  { intros take H m. induction m as [|m IH]; intros s; cbn [time_loop].
    - cbn [INR]. lra.
    - rewrite IH, H, S_INR. lra. }
  split; (rewrite X; [reflexivity|]); intros [V s].
  - unfold fe. cbn [fst snd]. rewrite C25_forward_euler by assumption. reflexivity.
  - unfold rk. cbn [fst snd]. rewrite C25_runge_kutta by assumption. reflexivity.
Qed.
Print Assumptions C25_time_advances.

(** ** C26 linear right-hand sides *)

(** [f] is a linear operator on the entries of the views, the same at all times:
    f(U + c K) = f(U) + c f(K), and only the entries of the views matter. *)
Definition linear_rhs (x : ext3) (f : R -> arr3 -> arr3) (L : arr3 -> arr3) : Prop :=
  (forall t U i j k, within3 x i j k = true -> f t U i j k = L U i j k) /\
  (forall U V, (forall i j k, within3 x i j k = true -> U i j k = V i j k) ->
     forall i j k, within3 x i j k = true -> L U i j k = L V i j k) /\
  (forall c K U i j k, within3 x i j k = true -> L (fun a b d => U a b d + c * K a b d) i j k = L U i j k + c * L K i j k).

Theorem C26_taylor :
  forall l x order dt iMM resid w U t L, fits x -> elem_orders x order -> linear_rhs x (rhs x iMM resid) L ->
  forall i j k, within3 x i j k = true ->
  fst (fst (run resid (RK4_step l x order dt iMM w U t))) i j k =
  U i j k + dt * L U i j k + dt ^ 2 / 2 * L (L U) i j k + dt ^ 3 / 6 * L (L (L U)) i j k + dt ^ 4 / 24 * L (L (L (L U))) i j k.
Proof.
  intros l x order dt iMM resid w U t L HF HO (HL & HE & HLin) i j k W.
  rewrite C25_runge_kutta by assumption. cbn [fst].
  set (k1 := rhs x iMM resid t U).
  set (k2 := rhs x iMM resid (t + dt / 2) (plus x (dt / 2) k1 U)).
  set (k3 := rhs x iMM resid (t + dt / 2) (plus x (dt / 2) k2 U)).
  set (k4 := rhs x iMM resid (t + dt) (plus x dt k3 U)).
  assert (LP : forall c K i j k, within3 x i j k = true -> L (plus x c K U) i j k = L U i j k + c * L K i j k).
  { intros c K a b d Wa. rewrite <- HLin by assumption. apply HE; [|assumption].
    intros a' b' d' W'. unfold plus. now rewrite W'. }
  assert (E1 : forall i j k, within3 x i j k = true -> k1 i j k = L U i j k) by (intros; now apply HL).
  assert (E2 : forall i j k, within3 x i j k = true -> k2 i j k = L U i j k + dt / 2 * L (L U) i j k).
  { intros a b d Wa. unfold k2. rewrite HL, LP by assumption. rewrite (HE k1 (L U) E1) by assumption. reflexivity. }
  assert (E3 : forall i j k, within3 x i j k = true ->
    k3 i j k = L U i j k + dt / 2 * (L (L U) i j k + dt / 2 * L (L (L U)) i j k)).
  { intros a b d Wa. unfold k3. rewrite HL, LP by assumption.
    rewrite (HE k2 (fun i j k => L U i j k + dt / 2 * L (L U) i j k) E2), HLin by assumption. reflexivity. }
  assert (E4 : forall i j k, within3 x i j k = true ->
    k4 i j k = L U i j k + dt * (L (L U) i j k + dt / 2 * (L (L (L U)) i j k + dt / 2 * L (L (L (L U))) i j k))).
  { intros a b d Wa. unfold k4. rewrite HL, LP by assumption.
    rewrite (HE k3 (fun i j k => L U i j k + dt / 2 * (fun i j k => L (L U) i j k + dt / 2 * L (L (L U)) i j k) i j k)) by (exact E3 || assumption).
    rewrite HLin by assumption. rewrite HLin by assumption. reflexivity. }
  unfold plus at 1. rewrite W, E1, E2, E3, E4 by exact W. field.
Qed.
Print Assumptions C26_taylor.

(** The hypotheses are met: one element, one basis function, one variable,
    residual -3 U, any layout. *)
Example C26_demo :
  fits (1, 1, 1)%Z /\ elem_orders (1, 1, 1)%Z (fun _ => zseq 1) /\
  linear_rhs (1, 1, 1)%Z (rhs (1, 1, 1)%Z (fun _ _ _ => 1) (fun _ U i j k => -3 * U i j k)) (fun U i j k => -3 * U i j k).
Proof.
  split; [split; [unfold extents_ok|unfold entries]; lia|]. split; [intros s; apply Permutation_refl|].
  split; [|split].
  - intros t U i j k W. apply within3_spec in W. destruct W as (W0 & W1 & W2). unfold rhs. cbn [nbas]. rewrite rsum_1.
    replace j with 0%Z by lia. ring.
  - intros U V H i j k W. now rewrite H.
  - intros. ring.
Qed.

(** A counter that wraps: with 2^32 entries forward Euler changes nothing. *)
Theorem C25_counter_wraps_refuted :
  forall l order dt iMM resid U t,
  run resid (FE_step l (2 ^ 16, 2 ^ 8, 2 ^ 8)%Z order dt iMM U t) = (U, t + dt, [(t, U)]).
Proof.
  intros. unfold FE_step. cbn [run].
  replace (num_entries (2 ^ 16, 2 ^ 8, 2 ^ 8)%Z) with 0%Z by reflexivity.
  unfold axpy_data. now rewrite zloop_0 by lia.
Qed.
Print Assumptions C25_counter_wraps_refuted.
