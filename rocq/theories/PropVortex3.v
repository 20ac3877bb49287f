(** PropVortex3.v -- C100: the three-dimensional vortex. Carried along with the
    base flow the initial state solves the Euler equations; the "exact solution"
    the error norms use ignores the time, so it stays where it was. *)
From Coq Require Import ZArith List Lia Reals Lra Bool Psatz FunctionalExtensionality.
From Coquelicot Require Import Coquelicot.
From Verif Require Import Base RBase LinAlgModel PhysModel PhysSpec PhysProof PropPhys PropVortex.
Import ListNotations.
Local Open Scope R_scope.

(** A state field with values U(x, y, z, t) solves the 3D Euler equations at a
    point: every component satisfies U_t + F(U)_x + G(U)_y + H(U)_z = 0. *)
Definition solves_euler3 (gamma : R) (U : R -> R -> R -> R -> arr1) (x y z t : R) : Prop :=
  forall k, (0 <= k < 5)%Z -> exists Ut Fx Gy Hz,
    is_derive (fun t => U x y z t k) t Ut /\
    is_derive (fun x => euler_flux 3 gamma (U x y z t) (axis 0) k) x Fx /\
    is_derive (fun y => euler_flux 3 gamma (U x y z t) (axis 1) k) y Gy /\
    is_derive (fun z => euler_flux 3 gamma (U x y z t) (axis 2) k) z Hz /\
    Ut + Fx + Gy + Hz = 0.

(** ** Closed form, in the coordinates of the centre *)
Definition vy_Om (X Y : R) : R := vx3_beta * exp (- 50 * (X * X + Y * Y)).
Definition vy_T (g X Y : R) : R := 1 - (g - 1) / 2 * (vy_Om X Y * vy_Om X Y).
Definition vy_rho (g X Y : R) : R := Rpower (vy_T g X Y) (1 / (g - 1)).
Definition vec3d (u v : R) : arr1 := fun i => if (i =? 0)%Z then u else if (i =? 1)%Z then 0 else v.
Definition vy_state (g X Y : R) : arr1 :=
  from_primitive 3 g (vy_rho g X Y) (vec3d (1 - 10 * Y * vy_Om X Y) (10 * X * vy_Om X Y)) (vy_rho g X Y * vy_T g X Y / g).

Lemma vy_T_pos g X Y : 1 < g <= 2 -> 0 < vy_T g X Y.
Proof.
  intros Hg. set (f := exp (- 50 * (X * X + Y * Y))).
  assert (Hf : 0 < f <= 1).
  { split; [apply exp_pos|]. unfold f. rewrite <- exp_0. destruct (Req_dec (X * X + Y * Y) 0) as [-> | Hne]; [right; f_equal; ring|].
    left. apply exp_increasing. assert (0 < X * X + Y * Y) by nra. lra. }
  pose proof (vx3_T_pos g f Hg Hf) as H. unfold vy_T, vy_Om. fold f. eapply Rlt_le_trans; [exact H|]. right. field.
Qed.
Lemma vy_rho_pos g X Y : 0 < vy_rho g X Y.
Proof. unfold vy_rho, Rpower. apply exp_pos. Qed.

Lemma vortex3_ok ph x U0 : 1 < ph_gamma ph <= 2 ->
  exists U, (forall t, vortex3 ph x t U0 = Ok U) /\
    (forall k, (0 <= k < 5)%Z -> U k = vy_state (ph_gamma ph) (x 0%Z - 1 / 2) (x 2%Z - 1 / 2) k).
Proof.
  intros Hg. set (g := ph_gamma ph) in *. set (X := x 0%Z - 0.5). set (Y := x 2%Z - 0.5).
  replace (x 0%Z - 1 / 2) with X by (unfold X; lra). replace (x 2%Z - 1 / 2) with Y by (unfold Y; lra).
  assert (HT : 0 < vy_T g X Y) by (now apply vy_T_pos).
  unfold vortex3. fold g X Y vx3_beta.
  replace (-0.5 / (1 * 1) * (X * X + Y * Y) / (1 / 10 * (1 / 10))) with (- 50 * (X * X + Y * Y)) by lra.
  fold (vy_Om X Y). cbv zeta.
  replace (1 + - (g - 1) / 2 * vy_Om X Y * vy_Om X Y) with (vy_T g X Y) by (unfold vy_T; field).
  rewrite !ckdiv_ok by lra. cbn [bind]. rewrite !ckpow_ok by easy. cbn [bind].
  fold (vy_rho g X Y). set (r := vy_rho g X Y). assert (Hr : 0 < r) by apply vy_rho_pos.
  change (upd1 (upd1 (upd1 (upd1 U0 0 r) 1 (upd1 U0 0 r 0%Z * (1 * 1 + - Y / (1 / 10) * vy_Om X Y))) 2 0) 3
     (upd1 (upd1 (upd1 U0 0 r) 1 (upd1 U0 0 r 0%Z * (1 * 1 + - Y / (1 / 10) * vy_Om X Y))) 2 0 0%Z * (X / (1 / 10) * vy_Om X Y)) 0%Z) with r.
  rewrite ckdiv_ok by lra. cbn [bind]. rewrite ckdiv_ok by lra. cbn [bind].
  assert (EP : 1 / g * Rpower (vy_T g X Y) (g / (g - 1)) = r * vy_T g X Y / g).
  { unfold r, vy_rho. replace (g / (g - 1)) with (1 / (g - 1) + 1) by (field; lra). rewrite Rpower_plus, Rpower_1 by easy. field. lra. }
  rewrite EP. eexists. split; [intros _; reflexivity|].
  intros k Hk. unfold vy_state, from_primitive, vdot. fold r. rewrite rsum_3.
  assert (k = 0 \/ k = 1 \/ k = 2 \/ k = 3 \/ k = 4)%Z as [-> | [-> | [-> | [-> | ->]]]] by lia; unfold upd1, dot_inst, dot3, tail1, vec3d; cbn -[IZR]; try field.
  rewrite half. field. lra.
Qed.

(** Fluxes in primitive variables. *)
Definition pU (g r u v p : R) (k : Z) : R :=
  if (k =? 0)%Z then r else if (k =? 1)%Z then r * u else if (k =? 2)%Z then 0 else if (k =? 3)%Z then r * v
  else p / (g - 1) + r * (u * u + v * v) / 2.
Definition pF (g r u v p n : R) (k : Z) : R :=
  if (k =? 0)%Z then r * n else if (k =? 1)%Z then r * u * n else if (k =? 2)%Z then 0 else if (k =? 3)%Z then r * v * n
  else (p / (g - 1) + r * (u * u + v * v) / 2 + p) * n.

Lemma state_prim3 g r u v p k : (0 <= k < 5)%Z -> from_primitive 3 g r (vec3d u v) p k = pU g r u v p k.
Proof.
  intros Hk. unfold from_primitive, pU, vdot, vec3d. rewrite rsum_3.
  assert (k = 0 \/ k = 1 \/ k = 2 \/ k = 3 \/ k = 4)%Z as [-> | [-> | [-> | [-> | ->]]]] by lia; cbn -[IZR]; unfold Rdiv; ring.
Qed.
Lemma flux_prim3 g r u v p d k : 1 < g -> r <> 0 -> (0 <= d < 3)%Z -> (0 <= k < 5)%Z ->
  euler_flux 3 g (from_primitive 3 g r (vec3d u v) p) (axis d) k =
  pF g r u v p (vec3d u v d) k + (if (k =? d + 1)%Z then p else 0).
Proof.
  intros Hg Hr Hd Hk. unfold euler_flux. rewrite from_primitive_pressure by (try lia; lra).
  rewrite vdot_axis by lia. rewrite from_primitive_velocity by (try lia; lra).
  unfold energy, momentum, density.
  assert (d = 0 \/ d = 1 \/ d = 2)%Z as [-> | [-> | ->]] by lia;
  assert (k = 0 \/ k = 1 \/ k = 2 \/ k = 3 \/ k = 4)%Z as [-> | [-> | [-> | [-> | ->]]]] by lia; cbn [Z.eqb Pos.eqb Z.add Pos.add Z.sub Z.opp Z.pos_sub Pos.pred_double Pos.succ];
  rewrite ?state_prim3 by lia; unfold pU, pF, axis, vec3d; cbn -[IZR]; ring.
Qed.

(** Derivatives of the fields along a line z -> (c + a z, d + b z). *)
Section Line.
Context (g : R) (Hg : 1 < g <= 2) (c a d b : R).
Let X z := c + a * z.
Let Y z := d + b * z.
Let q z := X z * a + Y z * b.
Lemma d_Om z : is_derive (fun z => vy_Om (X z) (Y z)) z (- 100 * q z * vy_Om (X z) (Y z)).
Proof. unfold vy_Om, q, X, Y. auto_derive; [easy|]. ring. Qed.
Lemma d_T3 z : is_derive (fun z => vy_T g (X z) (Y z)) z (100 * (g - 1) * q z * (vy_Om (X z) (Y z) * vy_Om (X z) (Y z))).
Proof.
  unfold vy_T. pose proof (d_Om z) as D. set (om := fun z => vy_Om (X z) (Y z)) in *.
  change (is_derive (fun z => 1 - (g - 1) / 2 * (om z * om z)) z (100 * (g - 1) * q z * (om z * om z))).
  assert (Ex : ex_derive om z) by (eexists; exact D). assert (U : Derive (fun z => om z) z = - 100 * q z * om z) by (now apply is_derive_unique).
  auto_derive; [split; auto|]. rewrite U. field.
Qed.
Lemma d_rho3 z : is_derive (fun z => vy_rho g (X z) (Y z)) z
  (vy_rho g (X z) (Y z) / vy_T g (X z) (Y z) * (100 * q z * (vy_Om (X z) (Y z) * vy_Om (X z) (Y z)))).
Proof.
  pose proof (vy_T_pos g (X z) (Y z) Hg) as HT. pose proof (d_T3 z) as D. unfold vy_rho, Rpower at 1.
  evar_last.
  - apply (is_derive_comp exp (fun z => 1 / (g - 1) * ln (vy_T g (X z) (Y z)))).
    + apply is_derive_exp.
    + apply is_derive_scal. apply (is_derive_comp ln (fun z => vy_T g (X z) (Y z))); [|exact D]. apply is_derive_ln. exact HT.
  - unfold scal. simpl. unfold mult. simpl. unfold Rpower. field. repeat split; lra.
Qed.
End Line.

Ltac known H := match type of H with is_derive ?f ?z ?d => 
  let E := fresh "Ex" in let U := fresh "U" in
  assert (E : ex_derive f z) by (eexists; exact H);
  assert (U : Derive (fun z => f z) z = d) by (now apply is_derive_unique) end.

Lemma d_pU g (r u v p : R -> R) z dr du dv dp k : 1 < g ->
  is_derive r z dr -> is_derive u z du -> is_derive v z dv -> is_derive p z dp ->
  is_derive (fun z => pU g (r z) (u z) (v z) (p z) k) z
    (if (k =? 0)%Z then dr else if (k =? 1)%Z then dr * u z + r z * du else if (k =? 2)%Z then 0 else if (k =? 3)%Z then dr * v z + r z * dv
     else dp / (g - 1) + dr * (u z * u z + v z * v z) / 2 + r z * (u z * du + v z * dv)).
Proof.
  intros Hg Hr Hu Hv Hp. unfold pU. known Hr. known Hu. known Hv. known Hp.
  destruct (k =? 0)%Z; [exact Hr|]. destruct (k =? 1)%Z; [|destruct (k =? 2)%Z; [apply (is_derive_const (V := R_NormedModule))|destruct (k =? 3)%Z]];
    (auto_derive; [repeat split; auto; lra|]); rewrite ?U, ?U0, ?U1, ?U2; field; lra.
Qed.
Lemma d_pF g (r u v p n : R -> R) z dr du dv dp dn k : 1 < g ->
  is_derive r z dr -> is_derive u z du -> is_derive v z dv -> is_derive p z dp -> is_derive n z dn ->
  forall e, is_derive (fun z => pF g (r z) (u z) (v z) (p z) (n z) k + (if (e : bool) then p z else 0)) z
    ((if (k =? 0)%Z then dr else if (k =? 1)%Z then dr * u z + r z * du else if (k =? 2)%Z then 0 else if (k =? 3)%Z then dr * v z + r z * dv
      else dp / (g - 1) + dr * (u z * u z + v z * v z) / 2 + r z * (u z * du + v z * dv) + dp) * n z
     + (if (k =? 0)%Z then r z else if (k =? 1)%Z then r z * u z else if (k =? 2)%Z then 0 else if (k =? 3)%Z then r z * v z
        else p z / (g - 1) + r z * (u z * u z + v z * v z) / 2 + p z) * dn
     + (if e then dp else 0)).
Proof.
  intros Hg Hr Hu Hv Hp Hn e. unfold pF. known Hr. known Hu. known Hv. known Hp. known Hn.
  destruct (k =? 0)%Z; [|destruct (k =? 1)%Z; [|destruct (k =? 2)%Z; [|destruct (k =? 3)%Z]]]; destruct e;
    (auto_derive; [repeat split; auto; lra|]); rewrite ?U, ?U0, ?U1, ?U2, ?U3; field; lra.
Qed.

(** All four fields along a line through (X, Y) in the direction (a, b). *)
Lemma along g c a d b z X Y : 1 < g <= 2 -> c + a * z = X -> d + b * z = Y ->
  let om := vy_Om X Y in let q := X * a + Y * b in let r := vy_rho g X Y in let T := vy_T g X Y in
  let dr := r / T * (100 * q * (om * om)) in
  is_derive (fun z => vy_rho g (c + a * z) (d + b * z)) z dr /\
  is_derive (fun z => 1 - 10 * (d + b * z) * vy_Om (c + a * z) (d + b * z)) z (- 10 * b * om + 1000 * Y * q * om) /\
  is_derive (fun z => 10 * (c + a * z) * vy_Om (c + a * z) (d + b * z)) z (10 * a * om - 1000 * X * q * om) /\
  is_derive (fun z => vy_rho g (c + a * z) (d + b * z) * vy_T g (c + a * z) (d + b * z) / g) z (r * (100 * q * (om * om))).
Proof.
  intros Hg EX EY om q r T dr.
  pose proof (d_Om c a d b z) as DO. pose proof (d_T3 g c a d b z) as DT. pose proof (d_rho3 g Hg c a d b z) as DR.
  cbv beta in DO, DT, DR. rewrite EX, EY in DO, DT, DR. fold om q r T in DO, DT, DR. fold dr in DR.
  assert (HT : 0 < T) by (now apply vy_T_pos).
  set (fo := fun z => vy_Om (c + a * z) (d + b * z)) in *. set (fr := fun z => vy_rho g (c + a * z) (d + b * z)) in *.
  set (ft := fun z => vy_T g (c + a * z) (d + b * z)) in *.
  assert (Eo : fo z = om) by (unfold fo; now rewrite EX, EY). assert (Er : fr z = r) by (unfold fr; now rewrite EX, EY).
  assert (Et : ft z = T) by (unfold ft; now rewrite EX, EY).
  match type of DO with is_derive _ _ ?e => change (is_derive fo z e) in DO end. match type of DT with is_derive _ _ ?e => change (is_derive ft z e) in DT end.
  match type of DR with is_derive _ _ ?e => change (is_derive fr z e) in DR end.
  known DO. known DT. known DR.
  split; [exact DR|]. split; [|split].
  - change (is_derive (fun z => 1 - 10 * (d + b * z) * fo z) z (- 10 * b * om + 1000 * Y * q * om)).
    auto_derive; [auto|]. rewrite U, Eo, <- EY. ring.
  - change (is_derive (fun z => 10 * (c + a * z) * fo z) z (10 * a * om - 1000 * X * q * om)).
    auto_derive; [auto|]. rewrite U, Eo, <- EX. ring.
  - change (is_derive (fun z => fr z * ft z / g) z (r * (100 * q * (om * om)))).
    auto_derive; [auto|]. rewrite U0, U1, Er, Et. unfold dr. field. split; lra.
Qed.

(** The state carried along the x direction with speed 1. *)
Definition carried (g x z t : R) : arr1 := vy_state g (x - t - 1 / 2) (z - 1 / 2).

Lemma carried_flux g d x z t k : 1 < g -> (0 <= d < 3)%Z -> (0 <= k < 5)%Z ->
  euler_flux 3 g (carried g x z t) (axis d) k =
  let X := x - t - 1 / 2 in let Y := z - 1 / 2 in
  let u := 1 - 10 * Y * vy_Om X Y in let v := 10 * X * vy_Om X Y in let p := vy_rho g X Y * vy_T g X Y / g in
  pF g (vy_rho g X Y) u v p (vec3d u v d) k + (if (k =? d + 1)%Z then p else 0).
Proof. intros Hg Hd Hk. unfold carried, vy_state. apply flux_prim3; auto. apply Rgt_not_eq, vy_rho_pos. Qed.

Lemma carried_divergence g x y z t k : 1 < g <= 2 -> (0 <= k < 5)%Z ->
  exists D Fx Hz,
    is_derive (fun t => carried g x z t k) t (- D) /\
    is_derive (fun x => euler_flux 3 g (carried g x z t) (axis 0) k) x Fx /\
    is_derive (fun y : R => euler_flux 3 g (carried g x z t) (axis 1) k) y 0 /\
    is_derive (fun z => euler_flux 3 g (carried g x z t) (axis 2) k) z Hz /\
    Fx + Hz = D /\
    (k = 0%Z -> let X := x - t - 1 / 2 in let Y := z - 1 / 2 in
       D = vy_rho g X Y / vy_T g X Y * (100 * X * (vy_Om X Y * vy_Om X Y))).
Proof.
  intros Hg Hk. set (X := x - t - 1 / 2). set (Y := z - 1 / 2).
  assert (G1 : 1 < g) by lra.
  destruct (along g (x - 1 / 2) (-1) Y 0 t X Y Hg ltac:(unfold X; lra) ltac:(unfold Y; lra)) as (T1 & T2 & T3 & T4).
  destruct (along g (- t - 1 / 2) 1 Y 0 x X Y Hg ltac:(unfold X; lra) ltac:(unfold Y; lra)) as (X1 & X2 & X3 & X4).
  destruct (along g X 0 (- 1 / 2) 1 z X Y Hg ltac:(unfold X; lra) ltac:(unfold Y; lra)) as (Z1 & Z2 & Z3 & Z4).
  pose proof (d_pU g _ _ _ _ t _ _ _ _ k G1 T1 T2 T3 T4) as DT.
  pose proof (d_pF g _ _ _ _ _ x _ _ _ _ _ k G1 X1 X2 X3 X4 X2 (k =? 0 + 1)%Z) as DX.
  pose proof (d_pF g _ _ _ _ _ z _ _ _ _ _ k G1 Z1 Z2 Z3 Z4 Z3 (k =? 2 + 1)%Z) as DZ.
  cbv beta in DT, DX, DZ.
  replace (x - 1 / 2 + -1 * t) with X in DT by (unfold X; lra). replace (Y + 0 * t) with Y in DT by lra.
  replace (- t - 1 / 2 + 1 * x) with X in DX by (unfold X; lra). replace (Y + 0 * x) with Y in DX by lra.
  replace (X + 0 * z) with X in DZ by lra. replace (- 1 / 2 + 1 * z) with Y in DZ by (unfold Y; lra).
  pose proof (vy_T_pos g X Y Hg) as HT.
  match type of DT with is_derive _ _ ?e => exists (- e) end. match type of DX with is_derive _ _ ?e => exists e end. match type of DZ with is_derive _ _ ?e => exists e end.
  rewrite Ropp_involutive.
  split; [|split; [|split; [|split; [|split]]]].
  - refine (is_derive_ext _ _ _ _ _ DT). intros s. cbv beta. unfold carried, vy_state.
    replace (x - s - 1 / 2) with (x - 1 / 2 + -1 * s) by lra. fold Y. replace (Y + 0 * s) with Y by lra. symmetry. now apply state_prim3.
  - refine (is_derive_ext _ _ _ _ _ DX). intros s. cbv beta. rewrite carried_flux by (auto; lia). cbv zeta.
    replace (s - t - 1 / 2) with (- t - 1 / 2 + 1 * s) by lra. fold Y. replace (Y + 0 * s) with Y by lra. reflexivity.
  - apply (is_derive_const (V := R_NormedModule)).
  - refine (is_derive_ext _ _ _ _ _ DZ). intros s. cbv beta. rewrite carried_flux by (auto; lia). cbv zeta. fold X.
    replace (X + 0 * s) with X by lra. replace (s - 1 / 2) with (- 1 / 2 + 1 * s) by lra. reflexivity.
  - clear - Hg Hk HT. pose proof (vy_rho_pos g X Y) as Hr. revert HT Hr. generalize (vy_T g X Y), (vy_Om X Y), (vy_rho g X Y). intros T0 o0 r0 HT Hr0.
    assert (k = 0 \/ k = 1 \/ k = 2 \/ k = 3 \/ k = 4)%Z as [-> | [-> | [-> | [-> | ->]]]] by lia; cbn [Z.eqb Pos.eqb Z.add Pos.add]; field; lra.
  - intros ->. cbn [Z.eqb]. field. lra.
Qed.

(** ** C100: carried along with the base flow (velocity 1 in x) the state the
    initial condition sets solves the five Euler equations at every point and time,
    and at time 0 it is that initial state. *)
Theorem C100_vortex3_travels_partial : forall ph, 1 < ph_gamma ph <= 2 ->
  exists U : R -> R -> R -> R -> arr1,
    (forall x t0 U0, exists V, call_IC 3 IsentropicVortex ph x t0 U0 = Ok V /\
       forall k, (0 <= k < 5)%Z -> V k = U (x 0%Z) (x 1%Z) (x 2%Z) 0 k) /\
    (forall x y z t, U x y z t = U (x - t) y z 0) /\
    forall x y z t, solves_euler3 (ph_gamma ph) U x y z t.
Proof.
  intros ph Hg. exists (fun x _ z t => carried (ph_gamma ph) x z t). split; [|split].
  - intros x t0 U0. destruct (vortex3_ok ph x U0 Hg) as (V & E1 & E2). exists V. cbn. split; [apply E1|].
    intros k Hk. rewrite E2 by easy. unfold carried. f_equal. ring.
  - intros x y z t. unfold carried. f_equal. ring.
  - intros x y z t k Hk. destruct (carried_divergence (ph_gamma ph) x y z t k Hg Hk) as (D & Fx & Hz & A & B & C & E & S & _).
    exists (- D), Fx, 0, Hz. split; [exact A|]. split; [exact B|]. split; [exact C|]. split; [exact E|]. lra.
Qed.
Print Assumptions C100_vortex3_travels_partial.

(** What the program takes as exact solution does not depend on the time. It is
    not a solution: the mass equation fails at every time and at every point off
    the plane x = 1/2; and at every time other than 0 it differs from the vortex
    carried along with the flow, at the density of the point (1/2, y, 1/2). *)
Theorem C100_vortex3_exact_refuted : forall ph, 1 < ph_gamma ph <= 2 ->
  exists W : R -> R -> R -> R -> arr1,
    (forall x t U0, exists V, call_exact_solution 3 IsentropicVortex ph x t U0 = Ok (V, false) /\
       forall k, (0 <= k < 5)%Z -> V k = W (x 0%Z) (x 1%Z) (x 2%Z) t k) /\
    (forall x y z t, x <> 1 / 2 -> ~ solves_euler3 (ph_gamma ph) W x y z t) /\
    forall U : R -> R -> R -> R -> arr1,
      (forall x t0 U0, exists V, call_IC 3 IsentropicVortex ph x t0 U0 = Ok V /\
         forall k, (0 <= k < 5)%Z -> V k = U (x 0%Z) (x 1%Z) (x 2%Z) 0 k) ->
      (forall x y z t, U x y z t = U (x - t) y z 0) ->
      forall y t, t <> 0 -> W (1 / 2) y (1 / 2) t 0%Z < U (1 / 2) y (1 / 2) t 0%Z.
Proof.
  intros ph Hg. set (g := ph_gamma ph) in *. exists (fun x _ z t => carried g x z 0). split; [|split].
  - intros x t U0. destruct (vortex3_ok ph x U0 Hg) as (V & E1 & E2). exists V. cbn. rewrite E1. split; [reflexivity|].
    intros k Hk. rewrite E2 by easy. unfold carried. f_equal. ring.
  - intros x y z t Hx H. destruct (H 0%Z ltac:(lia)) as (Ut & Fx & Gy & Hz & A & B & C & D & S).
    destruct (carried_divergence g x y z 0 0 Hg ltac:(lia)) as (D' & Fx' & Hz' & _ & B' & C' & D'' & S' & V). specialize (V eq_refl). cbv zeta in V.
    assert (Ut = 0). { rewrite <- (is_derive_unique _ _ _ A). apply (is_derive_unique (fun _ : R => carried g x z 0 0%Z)). apply (is_derive_const (V := R_NormedModule)). }
    assert (Fx = Fx') by (rewrite <- (is_derive_unique _ _ _ B); now apply is_derive_unique).
    assert (Hz = Hz') by (rewrite <- (is_derive_unique _ _ _ D); now apply is_derive_unique).
    assert (Gy = 0) by (rewrite <- (is_derive_unique _ _ _ C); now apply is_derive_unique).
    assert (D' = 0) by lra. rewrite H4 in V. 
    set (X := x - 0 - 1 / 2) in *. set (Y := z - 1 / 2) in *.
    assert (X <> 0) by (unfold X; lra).
    pose proof (vy_rho_pos g X Y). pose proof (vy_T_pos g X Y Hg).
    assert (vy_Om X Y <> 0).
    { unfold vy_Om. apply Rmult_integral_contrapositive_currified; [|apply Rgt_not_eq, exp_pos]. unfold vx3_beta.
      pose proof PI_RGT_0. pose proof (exp_pos 0.5). assert (0 < sqrt 2) by (apply sqrt_lt_R0; lra).
      apply Rgt_not_eq. apply Rmult_lt_0_compat; [|easy]. apply Rdiv_lt_0_compat; lra. }
    symmetry in V. apply Rmult_integral in V as [V|V].
    + apply Rmult_integral in V as [V|V]; [lra|]. apply (Rinv_neq_0_compat (vy_T g X Y)); lra.
    + apply Rmult_integral in V as [V|V]; [lra|]. apply Rmult_integral in V as [V|V]; easy.
  - intros U HU HT y t Ht.
    assert (E : forall x z, U x y z 0 0%Z = carried g x z 0 0%Z).
    { intros x z. destruct (HU (fun i => if (i =? 0)%Z then x else if (i =? 1)%Z then y else z) 0 (fun _ => 0)) as (V & E1 & E2).
      destruct (vortex3_ok ph (fun i => if (i =? 0)%Z then x else if (i =? 1)%Z then y else z) (fun _ => 0) Hg) as (V' & E1' & E2').
      cbn in E1, E2, E2'. rewrite E1' in E1. injection E1 as ->. specialize (E2 0%Z ltac:(lia)). specialize (E2' 0%Z ltac:(lia)). rewrite <- E2, E2'.
      unfold carried. f_equal. ring. }
    rewrite HT, E. unfold carried, vy_state, from_primitive. cbn [Z.eqb]. unfold vy_rho.
    pose proof (vy_T_pos g (1 / 2 - 0 - 1 / 2) (1 / 2 - 1 / 2) Hg) as P0.
    pose proof (vy_T_pos g (1 / 2 - t - 0 - 1 / 2) (1 / 2 - 1 / 2) Hg) as P1.
    apply Rlt_Rpower_l; [apply Rdiv_lt_0_compat; lra|]. split; [exact P0|].
    unfold vy_T, vy_Om.
    replace (- 50 * ((1 / 2 - 0 - 1 / 2) * (1 / 2 - 0 - 1 / 2) + (1 / 2 - 1 / 2) * (1 / 2 - 1 / 2))) with 0 by field.
    replace (- 50 * ((1 / 2 - t - 0 - 1 / 2) * (1 / 2 - t - 0 - 1 / 2) + (1 / 2 - 1 / 2) * (1 / 2 - 1 / 2))) with (- (50 * (t * t))) by field.
    assert (L : exp (- (50 * (t * t))) < exp 0) by (apply exp_increasing; assert (0 < t * t) by nra; lra).
    pose proof (exp_pos (- (50 * (t * t)))) as Q.
    assert (B : 0 < vx3_beta).
    { unfold vx3_beta. pose proof PI_RGT_0. pose proof (exp_pos 0.5). assert (0 < sqrt 2) by (apply sqrt_lt_R0; lra).
      apply Rmult_lt_0_compat; [|easy]. apply Rdiv_lt_0_compat; lra. }
    assert (M : vx3_beta * exp (- (50 * (t * t))) * (vx3_beta * exp (- (50 * (t * t)))) < vx3_beta * exp 0 * (vx3_beta * exp 0)).
    { apply Rmult_gt_0_lt_compat; try (apply Rmult_lt_0_compat; lra); apply Rmult_lt_compat_l; lra. }
    nra.
Qed.
Print Assumptions C100_vortex3_exact_refuted.
Example C100_vortex3_demo : 1 < ph_gamma {| ph_gamma := 1.4; ph_R := 1; ph_IC := fun _ => 0 |} <= 2.
Proof. cbn. lra. Qed.
