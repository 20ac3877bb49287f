(** PropVortex.v -- property theorems C55, C62, C63: initial conditions and
    exact solutions. *)
From Coq Require Import ZArith List Lia Reals Lra Bool Psatz FunctionalExtensionality.
From Coquelicot Require Import Coquelicot.
From Verif Require Import Base RBase LinAlgModel PhysModel PhysSpec PhysProof PropPhys.
Import ListNotations.
Local Open Scope R_scope.

(** ** Closed form of the 2D vortex *)

Definition vx_A (g vs : R) : R := (g - 1) * vs ^ 2 / (8 * g * PI ^ 2).
Definition vx_T (g rb pb vs X Y : R) : R := pb / rb - vx_A g vs * exp (1 - (X ^ 2 + Y ^ 2)).
Definition vx_w (vs X Y : R) : R := vs / (2 * PI) * exp (0.5 * (1 - (X ^ 2 + Y ^ 2))).
Definition vx_rho (g rb pb vs X Y : R) : R :=
  Rpower (vx_T g rb pb vs X Y / (pb / Rpower rb g)) (1 / (g - 1)).
Definition vec2d (a b : R) : arr1 := fun i => if (i =? 0)%Z then a else b.

Definition vx_state (g rb ub vb pb vs X Y : R) : arr1 :=
  from_primitive 2 g (vx_rho g rb pb vs X Y) (vec2d (ub - vx_w vs X Y * Y) (vb + vx_w vs X Y * X))
    (vx_rho g rb pb vs X Y * vx_T g rb pb vs X Y).

(** The vortex is weak enough for the temperature to stay positive. *)
Definition weak_vortex (g rb pb vs : R) : Prop := (g - 1) * vs ^ 2 * exp 1 / (8 * g * PI ^ 2) < pb / rb.

Lemma vx_T_pos g rb pb vs X Y : 1 < g -> weak_vortex g rb pb vs -> 0 < vx_T g rb pb vs X Y.
Proof.
  intros Hg Hw. unfold vx_T, weak_vortex, vx_A in *. pose proof PI_RGT_0.
  assert (HA : 0 <= (g - 1) * vs ^ 2 / (8 * g * PI ^ 2)).
  { apply Rmult_le_pos; [nra|]. left. apply Rinv_0_lt_compat. apply Rmult_lt_0_compat; nra. }
  assert (HE : exp (1 - (X ^ 2 + Y ^ 2)) <= exp 1).
  { destruct (Req_dec (X ^ 2 + Y ^ 2) 0) as [->|Hne]; [right; f_equal; ring|].
    left. apply exp_increasing. nra. }
  replace ((g - 1) * vs ^ 2 * exp 1 / (8 * g * PI ^ 2)) with ((g - 1) * vs ^ 2 / (8 * g * PI ^ 2) * exp 1) in Hw by (field; split; lra).
  nra.
Qed.

Lemma vortex2_ok ph x t U0 : ph_R ph = 1 -> 1 < ph_gamma ph -> 0 < ph_IC ph 0%Z -> 0 < ph_IC ph 3%Z ->
  weak_vortex (ph_gamma ph) (ph_IC ph 0%Z) (ph_IC ph 3%Z) (ph_IC ph 4%Z) ->
  exists U, vortex2 ph x t U0 = Ok U /\
    (forall k, (0 <= k < 4)%Z -> U k = vx_state (ph_gamma ph) (ph_IC ph 0%Z) (ph_IC ph 1%Z) (ph_IC ph 2%Z) (ph_IC ph 3%Z) (ph_IC ph 4%Z)
                         (x 0%Z - ph_IC ph 1%Z * t) (x 1%Z - ph_IC ph 2%Z * t) k) /\
    (forall k, ~ (0 <= k < 4)%Z -> U k = U0 k).
Proof.
  destruct ph as [g Rg IC]. cbn [ph_gamma ph_R ph_IC]. intros -> Hg Hr Hp Hw. unfold vortex2. cbn [ph_gamma ph_R ph_IC].
  set (rb := IC 0%Z) in *. set (ub := IC 1%Z). set (vb := IC 2%Z). set (pb := IC 3%Z) in *. set (vs := IC 4%Z) in *.
  destruct (Req_EM_T 1 1) as [_|H]; [|lra].
  pose proof PI_RGT_0 as HPI.
  rewrite ckdiv_ok by lra. cbn [bind]. rewrite ckpow_ok by easy. cbn [bind].
  assert (Hpow : 0 < Rpower rb g) by (unfold Rpower; apply exp_pos).
  rewrite ckdiv_ok by lra. cbn [bind].
  set (X := x 0%Z - ub * t). set (Y := x 1%Z - vb * t).
  assert (Hsq : 0 <= X ^ 2 + Y ^ 2) by nra.
  rewrite cksqrt_ok by easy. cbn [bind]. rewrite pow2_sqrt by easy.
  assert (HP2 : 8 * g * PI ^ 2 <> 0) by (assert (0 < 8 * g * PI ^ 2) by (apply Rmult_lt_0_compat; nra); lra).
  rewrite ckdiv_ok by easy. cbn [bind]. cbv zeta.
  replace (pb / (rb * 1) + -1 * (g - 1) * vs ^ 2 / (8 * g * PI ^ 2) * exp (1 - (X ^ 2 + Y ^ 2)))
    with (vx_T g rb pb vs X Y) by (unfold vx_T, vx_A; field; repeat split; lra).
  pose proof (vx_T_pos g rb pb vs X Y Hg Hw) as HT.
  assert (Hs : 0 < pb / Rpower rb g) by (apply Rdiv_lt_0_compat; lra).
  rewrite ckdiv_ok by lra. cbn [bind]. rewrite ckdiv_ok by lra. cbn [bind].
  rewrite ckpow_ok by (apply Rdiv_lt_0_compat; lra). cbn [bind].
  change (Rpower (vx_T g rb pb vs X Y / (pb / Rpower rb g)) (1 / (g - 1))) with (vx_rho g rb pb vs X Y).
  assert (Hrho : 0 < vx_rho g rb pb vs X Y) by (unfold vx_rho, Rpower; apply exp_pos).
  rewrite ckdiv_ok by lra. cbn [bind]. rewrite ckdiv_ok by lra. cbn [bind].
  fold (vx_w vs X Y).
  set (T := vx_T g rb pb vs X Y) in *. set (r := vx_rho g rb pb vs X Y) in *. set (w := vx_w vs X Y).
  eexists; split; [reflexivity|]. split.
  - intros k Hk. unfold vx_state. fold T r w. unfold from_primitive, upd1, vdot, vec2d. rewrite rsum_2.
    assert (k = 0 \/ k = 1 \/ k = 2 \/ k = 3)%Z as [-> | [-> | [-> | ->]]] by lia; cbn -[IZR]; try ring.
    rewrite half. field. lra.
  - intros k Hk. unfold upd1. repeat match goal with |- context [(k =? ?c)%Z] => destruct (Z.eqb_spec k c); [exfalso; lia|] end; reflexivity.
Qed.

Lemma vx_rho_pos g rb pb vs X Y : 0 < vx_rho g rb pb vs X Y.
Proof. unfold vx_rho, Rpower. apply exp_pos. Qed.

(** Entropy p / rho^gamma. *)
Definition entropy (dim : Z) (g : R) (U : arr1) : R := pressure dim g U / Rpower (density U) g.

Lemma vx_entropy g rb pb vs X Y : 1 < g -> 0 < rb -> 0 < pb -> 0 < vx_T g rb pb vs X Y ->
  vx_rho g rb pb vs X Y * vx_T g rb pb vs X Y / Rpower (vx_rho g rb pb vs X Y) g = pb / Rpower rb g.
Proof.
  intros Hg Hr Hp HT. set (T := vx_T g rb pb vs X Y) in *. set (s := pb / Rpower rb g).
  assert (Hs : 0 < s) by (apply Rdiv_lt_0_compat; [lra|unfold Rpower; apply exp_pos]).
  unfold vx_rho. fold T. fold s. set (z := T / s). assert (Hz : 0 < z) by (apply Rdiv_lt_0_compat; lra).
  rewrite Rpower_mult. replace T with (z * s) by (unfold z; field; lra).
  replace (1 / (g - 1) * g) with (1 / (g - 1) + 1) by (field; lra).
  rewrite Rpower_plus, Rpower_1 by easy.
  assert (0 < Rpower z (1 / (g - 1))) by (unfold Rpower; apply exp_pos). field. lra.
Qed.

Lemma vx_no_vortex g rb pb X Y : 1 < g -> 0 < rb -> 0 < pb -> vx_rho g rb pb 0 X Y = rb /\ vx_T g rb pb 0 X Y = pb / rb.
Proof.
  intros Hg Hr Hp. pose proof PI_RGT_0. assert (E : vx_T g rb pb 0 X Y = pb / rb).
  { unfold vx_T, vx_A. field. repeat split; lra. }
  split; [|exact E]. unfold vx_rho. rewrite E.
  assert (Hpow : 0 < Rpower rb g) by (unfold Rpower; apply exp_pos).
  replace (pb / rb / (pb / Rpower rb g)) with (Rpower rb g / rb) by (field; lra).
  replace (Rpower rb g / rb) with (Rpower rb (g - 1)).
  - rewrite Rpower_mult. replace ((g - 1) * (1 / (g - 1))) with 1 by (field; lra). now apply Rpower_1.
  - unfold Rminus. rewrite Rpower_plus, Rpower_Ropp, Rpower_1 by easy. reflexivity.
Qed.

(** ** C55 *)
Theorem C55_isentropic_vortex : forall ph x t U0,
  let gamma := ph_gamma ph in let rho_b := ph_IC ph 0%Z in let u_b := ph_IC ph 1%Z in
  let v_b := ph_IC ph 2%Z in let p_b := ph_IC ph 3%Z in let strength := ph_IC ph 4%Z in
  ph_R ph = 1 -> 1 < gamma -> 0 < rho_b -> 0 < p_b -> weak_vortex gamma rho_b p_b strength ->
  exists U, call_IC 2 IsentropicVortex ph x t U0 = Ok U /\ call_exact_solution 2 IsentropicVortex ph x t U0 = Ok (U, false) /\
    admissible 2 gamma U /\
    entropy 2 gamma U = p_b / Rpower rho_b gamma /\
    (strength = 0 -> forall k, (0 <= k < 4)%Z -> U k = from_primitive 2 gamma rho_b (vec2d u_b v_b) p_b k) /\
    (forall x' t', x' 0%Z = x 0%Z + u_b * (t' - t) -> x' 1%Z = x 1%Z + v_b * (t' - t) ->
       exists U', call_IC 2 IsentropicVortex ph x' t' U0 = Ok U' /\ forall k, U' k = U k) /\
    (forall k, ~ (0 <= k < 4)%Z -> U k = U0 k).
Proof.
  intros ph x t U0 g rb ub vb pb vs HR Hg Hr Hp Hw.
  destruct (vortex2_ok ph x t U0 HR Hg Hr Hp Hw) as (U & E1 & E2 & E3).
  fold g rb ub vb pb vs in E2. set (X := x 0%Z - ub * t) in *. set (Y := x 1%Z - vb * t) in *.
  pose proof (vx_T_pos g rb pb vs X Y Hg Hw) as HT. pose proof (vx_rho_pos g rb pb vs X Y) as Hrho.
  exists U. unfold call_IC, call_exact_solution. cbn [Z.eqb Pos.eqb]. rewrite E1. cbn [bind].
  split; [easy|]. split; [easy|].
  assert (ED : density U = vx_rho g rb pb vs X Y) by (unfold density; rewrite E2 by lia; reflexivity).
  assert (EP : pressure 2 g U = vx_rho g rb pb vs X Y * vx_T g rb pb vs X Y).
  { transitivity (pressure 2 g (vx_state g rb ub vb pb vs X Y)); [|apply from_primitive_pressure; try lia; lra].
    unfold pressure, energy, density, vdot. rewrite !rsum_2. unfold velocity, momentum, density. cbn [Z.add Pos.add Z.pos_sub].
    rewrite !E2 by lia. reflexivity. }
  split; [|split; [|split; [|split; [|exact E3]]]].
  - unfold admissible. rewrite ED, EP. split; [easy|nra].
  - unfold entropy. rewrite ED, EP. now apply vx_entropy.
  - intros Hv k Hk. rewrite E2 by easy. unfold vx_state. destruct (vx_no_vortex g rb pb X Y Hg Hr Hp) as [N1 N2].
    rewrite Hv, N1, N2. replace (rb * (pb / rb)) with pb by (field; lra).
    unfold from_primitive, vdot, vec2d, vx_w. rewrite !rsum_2. pose proof PI_RGT_0.
    replace (0 / (2 * PI)) with 0 by (field; lra).
    assert (k = 0 \/ k = 1 \/ k = 2 \/ k = 3)%Z as [-> | [-> | [-> | ->]]] by lia; cbn -[IZR]; try ring.
    field. lra.
  - intros x' t' Ex Ey. destruct (vortex2_ok ph x' t' U0 HR Hg Hr Hp Hw) as (U' & F1 & F2 & F3).
    exists U'. split; [exact F1|]. fold g rb ub vb pb vs in F2.
    replace (x' 0%Z - ub * t') with X in F2 by (unfold X; rewrite Ex; ring).
    replace (x' 1%Z - vb * t') with Y in F2 by (unfold Y; rewrite Ey; ring).
    intros k. destruct (Z_lt_le_dec k 0); [rewrite E3, F3 by lia; easy|]. destruct (Z_lt_le_dec k 4); [|rewrite E3, F3 by lia; easy].
    rewrite E2, F2 by lia. easy.
Qed.
Print Assumptions C55_isentropic_vortex.

(** The gas constant must be 1 (the default of the input reader, 287.05,
    stops the program in this initial condition). *)
Theorem C55_gas_constant : forall ph x t U0, ph_R ph <> 1 -> call_IC 2 IsentropicVortex ph x t U0 = Fail Aborted.
Proof. intros ph x t U0 H. cbn. unfold vortex2. destruct (Req_EM_T (ph_R ph) 1); easy. Qed.

(** Parameters of the vortex example: base flow (1, 1, 1, 1), strength 5. *)
Definition vortex_example : phys :=
  {| ph_gamma := 1.4; ph_R := 1; ph_IC := fun i => if (i =? 4)%Z then 5 else 1 |}.

Example C55_witness : weak_vortex (ph_gamma vortex_example) (ph_IC vortex_example 0%Z) (ph_IC vortex_example 3%Z) (ph_IC vortex_example 4%Z).
Proof.
  unfold weak_vortex, vortex_example. cbn. pose proof PI2_1 as H. pose proof exp_le_3 as HE. pose proof (exp_pos 1).
  assert (HP : 2 < PI) by lra.
  assert (HP2 : 4 < PI * (PI * 1)) by nra.
  apply (Rmult_lt_reg_r (8 * 1.4 * (PI * (PI * 1)))); [lra|].
  unfold Rdiv at 1. rewrite Rmult_assoc, Rinv_l by lra. lra.
Qed.

(** ** C62 The exact solution used for the error norms solves the Euler equations *)

(** A state field with values U(x, y, t) solves the 2D Euler equations at a
    point: every component satisfies U_t + F(U)_x + G(U)_y = 0. *)
Definition solves_euler (gamma : R) (U : R -> R -> R -> arr1) (x y t : R) : Prop :=
  forall k, (0 <= k < 4)%Z -> exists Ut Fx Gy,
    is_derive (fun t => U x y t k) t Ut /\
    is_derive (fun x => euler_flux 2 gamma (U x y t) (axis 0) k) x Fx /\
    is_derive (fun y => euler_flux 2 gamma (U x y t) (axis 1) k) y Gy /\
    Ut + Fx + Gy = 0.

(** Fluxes in primitive variables. *)
Definition prim_U (g r u v p : R) (k : Z) : R :=
  if (k =? 0)%Z then r else if (k =? 1)%Z then r * u else if (k =? 2)%Z then r * v
  else p / (g - 1) + r * (u * u + v * v) / 2.
Definition prim_F (g r u v p w : R) (k : Z) : R :=   (* w: normal velocity, axis 0: w = u *)
  if (k =? 0)%Z then r * w else if (k =? 1)%Z then r * u * w else if (k =? 2)%Z then r * v * w
  else (p / (g - 1) + r * (u * u + v * v) / 2 + p) * w.

Lemma state_prim g r u v p k : (0 <= k < 4)%Z -> from_primitive 2 g r (vec2d u v) p k = prim_U g r u v p k.
Proof.
  intros Hk. unfold from_primitive, prim_U, vdot, vec2d. rewrite rsum_2.
  assert (k = 0 \/ k = 1 \/ k = 2 \/ k = 3)%Z as [-> | [-> | [-> | ->]]] by lia; cbn -[IZR]; ring.
Qed.

Lemma flux_prim g r u v p d k : 1 < g -> r <> 0 -> (d = 0 \/ d = 1)%Z -> (0 <= k < 4)%Z ->
  euler_flux 2 g (from_primitive 2 g r (vec2d u v) p) (axis d) k =
  prim_F g r u v p (vec2d u v d) k + (if (k =? d + 1)%Z then p else 0).
Proof.
  intros Hg Hr Hd Hk. unfold euler_flux. rewrite from_primitive_pressure by (try lia; lra).
  rewrite vdot_axis by lia. rewrite from_primitive_velocity by (try lia; lra).
  unfold energy, momentum, density. 
  assert (k = 0 \/ k = 1 \/ k = 2 \/ k = 3)%Z as [-> | [-> | [-> | ->]]] by lia; cbn [Z.eqb Pos.eqb Z.add Pos.add Z.sub Z.opp Z.pos_sub Pos.pred_double Pos.succ];
  rewrite ?state_prim by lia; destruct Hd as [->| ->]; unfold prim_U, prim_F, axis, vec2d; cbn -[IZR]; ring.
Qed.

(** Derivatives of the fields along a line z -> (c + a z, d + b z). *)
Section Line.
Context (g rb ub vb pb vs : R).
Context (Hg : 1 < g) (Hr : 0 < rb) (Hp : 0 < pb) (Hw : weak_vortex g rb pb vs).
Context (c a d b : R).
Let X z := c + a * z.
Let Y z := d + b * z.

Lemma d_T z : is_derive (fun z => vx_T g rb pb vs (X z) (Y z)) z
  (2 * vx_A g vs * exp (1 - (X z ^ 2 + Y z ^ 2)) * (X z * a + Y z * b)).
Proof. unfold vx_T, X, Y. auto_derive; [easy|]. simpl pow. unfold Rminus. ring. Qed.

Lemma d_w z : is_derive (fun z => vx_w vs (X z) (Y z)) z (- vx_w vs (X z) (Y z) * (X z * a + Y z * b)).
Proof. unfold vx_w, X, Y. rewrite half. auto_derive; [easy|]. simpl pow. unfold Rminus. field. pose proof PI_RGT_0. lra. Qed.

Lemma d_rho z : is_derive (fun z => vx_rho g rb pb vs (X z) (Y z)) z
  (vx_rho g rb pb vs (X z) (Y z) / ((g - 1) * vx_T g rb pb vs (X z) (Y z)) *
   (2 * vx_A g vs * exp (1 - (X z ^ 2 + Y z ^ 2)) * (X z * a + Y z * b))).
Proof.
  pose proof (vx_T_pos g rb pb vs (X z) (Y z) Hg Hw) as HT.
  assert (Hs : 0 < pb / Rpower rb g) by (apply Rdiv_lt_0_compat; [lra|unfold Rpower; apply exp_pos]).
  unfold vx_rho, Rpower at 1.
  set (s := pb / Rpower rb g) in *.
  evar_last.
  - apply (is_derive_comp exp (fun z => 1 / (g - 1) * ln (vx_T g rb pb vs (X z) (Y z) / s))).
    + apply is_derive_exp.
    + apply is_derive_scal. apply (is_derive_comp ln (fun z => vx_T g rb pb vs (X z) (Y z) / s)).
      * apply is_derive_ln. apply Rdiv_lt_0_compat; lra.
      * apply (is_derive_ext (fun z => / s * vx_T g rb pb vs (X z) (Y z))); [intros; unfold Rdiv; apply Rmult_comm|].
        apply is_derive_scal. apply d_T.
  - unfold scal. simpl. unfold mult. simpl. unfold Rpower. field. repeat split; lra.
Qed.
End Line.

Lemma vx_A_w g vs X Y : 1 < g -> vx_A g vs * exp (1 - (X ^ 2 + Y ^ 2)) = (g - 1) / (2 * g) * (vx_w vs X Y) ^ 2.
Proof.
  intros Hg. unfold vx_A, vx_w.
  replace (exp (1 - (X ^ 2 + Y ^ 2))) with (exp (0.5 * (1 - (X ^ 2 + Y ^ 2))) * exp (0.5 * (1 - (X ^ 2 + Y ^ 2))))
    by (rewrite <- exp_plus; f_equal; rewrite half; field).
  pose proof PI_RGT_0. field. split; lra.
Qed.

Lemma d_prim_U g (r u v p : R -> R) z dr du dv dp k : 1 < g ->
  is_derive r z dr -> is_derive u z du -> is_derive v z dv -> is_derive p z dp ->
  is_derive (fun z => prim_U g (r z) (u z) (v z) (p z) k) z
    (if (k =? 0)%Z then dr else if (k =? 1)%Z then dr * u z + r z * du else if (k =? 2)%Z then dr * v z + r z * dv
     else dp / (g - 1) + dr * (u z * u z + v z * v z) / 2 + r z * (u z * du + v z * dv)).
Proof.
  intros Hg Hr Hu Hv Hp. unfold prim_U.
  assert (Er : ex_derive r z) by (eexists; eauto). assert (Eu : ex_derive u z) by (eexists; eauto).
  assert (Ev : ex_derive v z) by (eexists; eauto). assert (Ep : ex_derive p z) by (eexists; eauto).
  assert (Ur : Derive (fun z => r z) z = dr) by (now apply is_derive_unique). assert (Uu : Derive (fun z => u z) z = du) by (now apply is_derive_unique).
  assert (Uv : Derive (fun z => v z) z = dv) by (now apply is_derive_unique). assert (Up : Derive (fun z => p z) z = dp) by (now apply is_derive_unique).
  destruct (k =? 0)%Z; [exact Hr|]. destruct (k =? 1)%Z; [|destruct (k =? 2)%Z]; (auto_derive; [repeat split; auto; lra|]);
    rewrite ?Ur, ?Uu, ?Uv, ?Up; field; lra.
Qed.

Lemma d_prim_F g (r u v p w : R -> R) z dr du dv dp dw k : 1 < g ->
  is_derive r z dr -> is_derive u z du -> is_derive v z dv -> is_derive p z dp -> is_derive w z dw ->
  forall e, is_derive (fun z => prim_F g (r z) (u z) (v z) (p z) (w z) k + (if (e : bool) then p z else 0)) z
    ((if (k =? 0)%Z then dr else if (k =? 1)%Z then dr * u z + r z * du else if (k =? 2)%Z then dr * v z + r z * dv
     else dp / (g - 1) + dr * (u z * u z + v z * v z) / 2 + r z * (u z * du + v z * dv) + dp) * w z
     + (if (k =? 0)%Z then r z else if (k =? 1)%Z then r z * u z else if (k =? 2)%Z then r z * v z
        else p z / (g - 1) + r z * (u z * u z + v z * v z) / 2 + p z) * dw
     + (if e then dp else 0)).
Proof.
  intros Hg Hr Hu Hv Hp Hww e. unfold prim_F.
  assert (Er : ex_derive r z) by (eexists; eauto). assert (Eu : ex_derive u z) by (eexists; eauto).
  assert (Ev : ex_derive v z) by (eexists; eauto). assert (Ep : ex_derive p z) by (eexists; eauto).
  assert (Ur : Derive (fun z => r z) z = dr) by (now apply is_derive_unique). assert (Uu : Derive (fun z => u z) z = du) by (now apply is_derive_unique).
  assert (Uv : Derive (fun z => v z) z = dv) by (now apply is_derive_unique). assert (Up : Derive (fun z => p z) z = dp) by (now apply is_derive_unique).
  assert (Ew : ex_derive w z) by (eexists; eauto).
  assert (Uw : Derive (fun z => w z) z = dw) by (now apply is_derive_unique).
  destruct (k =? 0)%Z; [|destruct (k =? 1)%Z; [|destruct (k =? 2)%Z]]; destruct e; (auto_derive; [repeat split; auto; lra|]);
    rewrite ?Ur, ?Uu, ?Uv, ?Up, ?Uw;
    field; lra.
Qed.

Theorem C62_vortex_exact : forall ph, ph_R ph = 1 -> 1 < ph_gamma ph -> 0 < ph_IC ph 0%Z -> 0 < ph_IC ph 3%Z ->
  weak_vortex (ph_gamma ph) (ph_IC ph 0%Z) (ph_IC ph 3%Z) (ph_IC ph 4%Z) ->
  exists U : R -> R -> R -> arr1,
    (forall x t U0, exists V, call_exact_solution 2 IsentropicVortex ph x t U0 = Ok (V, false) /\
       forall k, (0 <= k < 4)%Z -> V k = U (x 0%Z) (x 1%Z) t k) /\
    forall x y t, solves_euler (ph_gamma ph) U x y t.
Proof.
  intros ph HR Hg Hr Hp Hw.
  set (g := ph_gamma ph) in *. set (rb := ph_IC ph 0%Z) in *. set (ub := ph_IC ph 1%Z). set (vb := ph_IC ph 2%Z).
  set (pb := ph_IC ph 3%Z) in *. set (vs := ph_IC ph 4%Z) in *.
  exists (fun x y t => vx_state g rb ub vb pb vs (x - ub * t) (y - vb * t)). split.
  { intros x t U0. destruct (vortex2_ok ph x t U0 HR Hg Hr Hp Hw) as (V & E1 & E2 & _).
    exists V. cbn. rewrite E1. split; [easy|]. exact E2. }
  intros x y t k Hk. set (X := x - ub * t). set (Y := y - vb * t).
  set (T := fun X Y => vx_T g rb pb vs X Y). set (w := fun X Y => vx_w vs X Y). set (rho := fun X Y => vx_rho g rb pb vs X Y).
  assert (HT : forall X Y, 0 < T X Y) by (intros; now apply vx_T_pos).
  assert (Hrho : forall X Y, 0 < rho X Y) by (intros; apply vx_rho_pos).
  (* derivatives along a line through (X, Y) in the direction (a, b) *)
  pose (q := fun a b => X * a + Y * b).
  pose (dw := fun a b => - w X Y * q a b).
  pose (dT := fun a b => (g - 1) / g * (w X Y) ^ 2 * q a b).
  pose (dr := fun a b => rho X Y / ((g - 1) * T X Y) * dT a b).
  assert (D : forall c a d b z, c + a * z = X -> d + b * z = Y ->
     is_derive (fun z => rho (c + a * z) (d + b * z)) z (dr a b) /\
     is_derive (fun z => ub - w (c + a * z) (d + b * z) * (d + b * z)) z (- (dw a b * Y + w X Y * b)) /\
     is_derive (fun z => vb + w (c + a * z) (d + b * z) * (c + a * z)) z (dw a b * X + w X Y * a) /\
     is_derive (fun z => rho (c + a * z) (d + b * z) * T (c + a * z) (d + b * z)) z (dr a b * T X Y + rho X Y * dT a b)).
  { intros c a d b z EX EY.
    pose proof (d_T g rb pb vs c a d b z) as DT. pose proof (d_w vs c a d b z) as Dw.
    pose proof (d_rho g rb pb vs Hg Hp Hw c a d b z) as Dr.
    cbv beta zeta in DT, Dw, Dr. rewrite EX, EY in DT, Dw, Dr.
    assert (EA : 2 * vx_A g vs * exp (1 - (X ^ 2 + Y ^ 2)) * (X * a + Y * b) = dT a b).
    { unfold dT, q, w. rewrite Rmult_assoc with (r1 := 2), (vx_A_w g vs X Y Hg). field. lra. }
    rewrite EA in DT, Dr. fold T w rho in DT, Dw, Dr.
    change (is_derive (fun z => T (c + a * z) (d + b * z)) z (dT a b)) in DT.
    change (is_derive (fun z => w (c + a * z) (d + b * z)) z (dw a b)) in Dw.
    change (is_derive (fun z => rho (c + a * z) (d + b * z)) z (dr a b)) in Dr.
    assert (Lx : is_derive (fun z => c + a * z) z a) by (auto_derive; [easy|ring]).
    assert (Ly : is_derive (fun z => d + b * z) z b) by (auto_derive; [easy|ring]).
    split; [exact Dr|]. split; [|split].
    - evar_last.
      + apply (is_derive_minus (V := R_NormedModule) (fun _ => ub) (fun z => w (c + a * z) (d + b * z) * (d + b * z))).
        * apply is_derive_const.
        * apply (is_derive_mult (fun z => w (c + a * z) (d + b * z)) (fun z => d + b * z) z (dw a b) b Dw Ly). apply Rmult_comm.
      + cbv beta. rewrite EX, EY. unfold minus, plus, opp, zero, mult; simpl. ring.
    - evar_last.
      + apply (is_derive_plus (V := R_NormedModule) (fun _ => vb) (fun z => w (c + a * z) (d + b * z) * (c + a * z))).
        * apply is_derive_const.
        * apply (is_derive_mult (fun z => w (c + a * z) (d + b * z)) (fun z => c + a * z) z (dw a b) a Dw Lx). apply Rmult_comm.
      + cbv beta. rewrite EX, EY. unfold plus, zero, mult; simpl. ring.
    - evar_last.
      + apply (is_derive_mult (fun z => rho (c + a * z) (d + b * z)) (fun z => T (c + a * z) (d + b * z)) z (dr a b) (dT a b) Dr DT). apply Rmult_comm.
      + cbv beta. rewrite EX, EY. unfold plus, mult; simpl. ring. }
  assert (EXt : x + - ub * t = X) by (unfold X; ring). assert (EYt : y + - vb * t = Y) by (unfold Y; ring).
  assert (EXx : - ub * t + 1 * x = X) by (unfold X; ring). assert (EYx : Y + 0 * x = Y) by ring.
  assert (EXy : X + 0 * y = X) by ring. assert (EYy : - vb * t + 1 * y = Y) by (unfold Y; ring).
  destruct (D x (- ub) y (- vb) t EXt EYt) as (Dr0 & Du0 & Dv0 & Dp0).
  destruct (D (- ub * t) 1 Y 0 x EXx EYx) as (Dr1 & Du1 & Dv1 & Dp1).
  destruct (D X 0 (- vb * t) 1 y EXy EYy) as (Dr2 & Du2 & Dv2 & Dp2).
  pose proof (d_prim_U g _ _ _ _ t _ _ _ _ k Hg Dr0 Du0 Dv0 Dp0) as A0.
  pose proof (d_prim_F g _ _ _ _ _ x _ _ _ _ _ k Hg Dr1 Du1 Dv1 Dp1 Du1 (k =? 1)%Z) as A1.
  pose proof (d_prim_F g _ _ _ _ _ y _ _ _ _ _ k Hg Dr2 Du2 Dv2 Dp2 Dv2 (k =? 2)%Z) as A2.
  cbv beta in A0, A1, A2. rewrite EXt, EYt in A0. rewrite EXx, EYx in A1. rewrite EXy, EYy in A2.
  eexists _, _, _. split; [|split; [|split]].
  - refine (is_derive_ext _ _ _ _ _ A0). intros s. cbv beta.
    replace (x - ub * s) with (x + - ub * s) by ring. replace (y - vb * s) with (y + - vb * s) by ring.
    unfold vx_state. rewrite state_prim by easy. reflexivity.
  - refine (is_derive_ext _ _ _ _ _ A1). intros s. cbv beta. fold Y.
    replace (s - ub * t) with (- ub * t + 1 * s) by ring. replace (Y + 0 * s) with Y by ring.
    unfold vx_state. rewrite flux_prim by (first [exact Hg | exact Hk | lia | apply Rgt_not_eq; apply vx_rho_pos]). reflexivity.
  - refine (is_derive_ext _ _ _ _ _ A2). intros s. cbv beta. fold X.
    replace (s - vb * t) with (- vb * t + 1 * s) by ring. replace (X + 0 * s) with X by ring.
    unfold vx_state. rewrite flux_prim by (first [exact Hg | exact Hk | lia | apply Rgt_not_eq; apply vx_rho_pos]). reflexivity.
  - specialize (HT X Y). specialize (Hrho X Y).
    unfold dr, dT, dw, q. clear - Hg HT Hrho Hk. revert HT Hrho.
    generalize (T X Y), (w X Y), (rho X Y). intros T0 w0 r0 HT Hr0.
    assert (k = 0 \/ k = 1 \/ k = 2 \/ k = 3)%Z as [-> | [-> | [-> | ->]]] by lia; cbn [Z.eqb Pos.eqb]; field; lra.
Qed.
Print Assumptions C62_vortex_exact.

(** ** C63 Initial conditions give admissible states *)

(** Uniform flow: exactly the numbers of the input file. *)
Theorem C63_uniform_partial : forall dim ph x t U0, (dim = 2 \/ dim = 3)%Z ->
  exists U, call_IC dim Uniform ph x t U0 = Ok U /\ call_exact_solution dim Uniform ph x t U0 = Ok (U, false) /\
    (forall k, (0 <= k < dim + 2)%Z -> U k = ph_IC ph k) /\ (forall k, ~ (0 <= k < dim + 2)%Z -> U k = U0 k).
Proof.
  intros dim ph x t U0 Hd. exists (set_uniform (dim + 2) ph U0).
  split; [destruct Hd as [-> | ->]; reflexivity|]. split; [destruct Hd as [-> | ->]; reflexivity|].
  assert (0 <= dim + 2)%Z by lia. split; intros k Hk; unfold set_uniform; rewrite fill_rows by lia;
  destruct (Z.leb_spec 0 k), (Z.ltb_spec k (dim + 2)); cbn [andb]; try lia; reflexivity.
Qed.

(** 3D vortex in the x-z plane: admissible and isentropic for gamma <= 2; the time
    is ignored, so the "exact solution" is the initial state at every time. *)
Definition vx3_beta : R := 1 * 5 * sqrt 2 / (4 * PI) * exp 0.5.

Lemma vx3_beta_bound : vx3_beta * vx3_beta <= 150 / 144.
Proof.
  pose proof PI2_3_2 as HPI. assert (HP : 3 < PI) by lra.
  assert (HE : exp 0.5 * exp 0.5 <= 3). { rewrite <- exp_plus. replace (0.5 + 0.5) with 1 by lra. apply exp_le_3. }
  assert (HS : sqrt 2 * sqrt 2 = 2) by (apply sqrt_sqrt; lra).
  unfold vx3_beta. revert HE. generalize (exp 0.5). intros e HE.
  replace (1 * 5 * sqrt 2 / (4 * PI) * e * (1 * 5 * sqrt 2 / (4 * PI) * e))
    with (25 * (sqrt 2 * sqrt 2) * (e * e) / (16 * (PI * PI))) by (field; lra).
  rewrite HS. apply (Rmult_le_reg_r (16 * (PI * PI))); [nra|]. unfold Rdiv at 1. rewrite Rmult_assoc, Rinv_l by nra. nra.
Qed.

Lemma vx3_T_pos g f : 1 < g <= 2 -> 0 < f <= 1 -> 0 < 1 + - (g - 1) / 2 * (vx3_beta * f) * (vx3_beta * f).
Proof.
  intros Hg Hf. pose proof vx3_beta_bound as HB.
  assert (0 <= vx3_beta * vx3_beta) by nra.
  assert (f * f <= 1) by nra. assert (0 <= f * f) by nra.
  assert (vx3_beta * vx3_beta * (f * f) <= 150 / 144 * 1) by (apply Rmult_le_compat; lra).
  assert (0 <= vx3_beta * vx3_beta * (f * f)) by (apply Rmult_le_pos; lra).
  replace (1 + - (g - 1) / 2 * (vx3_beta * f) * (vx3_beta * f)) with (1 - (g - 1) * (vx3_beta * vx3_beta * (f * f)) / 2) by field.
  nra.
Qed.

Theorem C63_vortex3_partial : forall ph x t U0, 1 < ph_gamma ph <= 2 ->
  exists U, call_IC 3 IsentropicVortex ph x t U0 = Ok U /\ call_exact_solution 3 IsentropicVortex ph x t U0 = Ok (U, false) /\
    admissible 3 (ph_gamma ph) U /\ entropy 3 (ph_gamma ph) U = 1 / ph_gamma ph /\
    (forall t', call_exact_solution 3 IsentropicVortex ph x t' U0 = Ok (U, false)).
Proof.
  intros ph x t U0 Hg. set (g := ph_gamma ph) in *.
  set (X := x 0%Z - 0.5). set (Y := x 2%Z - 0.5).
  set (f := exp (-0.5 / (1 * 1) * (X * X + Y * Y) / (1 / 10 * (1 / 10)))).
  assert (Hf : 0 < f <= 1).
  { split; [apply exp_pos|]. unfold f. apply Rle_trans with (exp 0); [|rewrite exp_0; lra].
    assert (E : forall q, -0.5 / (1 * 1) * q / (1 / 10 * (1 / 10)) = - 50 * q) by (intros; lra). rewrite E.
    destruct (Req_dec (X * X + Y * Y) 0) as [-> | Hne]; [right; f_equal; ring|].
    left. apply exp_increasing. assert (0 < X * X + Y * Y) by nra. lra. }
  set (T := 1 + - (g - 1) / 2 * (vx3_beta * f) * (vx3_beta * f)).
  assert (HT : 0 < T) by (now apply vx3_T_pos).
  assert (Hpow : forall e, 0 < Rpower T e) by (intros; unfold Rpower; apply exp_pos).
  set (r := Rpower T (1 / (g - 1))).
  assert (E : exists u v U, (forall t, vortex3 ph x t U0 = Ok U) /\
     (forall k, (0 <= k < 5)%Z -> U k = from_primitive 3 g r (fun i => if (i =? 0)%Z then u else if (i =? 1)%Z then 0 else v)
        (1 / g * Rpower T (g / (g - 1))) k)).
  { unfold vortex3. fold g X Y f vx3_beta. fold T. rewrite !ckdiv_ok by lra. cbn [bind]. rewrite ckpow_ok by easy. cbn [bind].
    rewrite ckpow_ok by easy. cbn [bind]. fold r. cbv zeta.
    change ((upd1 (upd1 (upd1 (upd1 U0 0 r) 1 (upd1 U0 0 r 0%Z * (1 * 1 + - Y / (1 / 10) * (vx3_beta * f)))) 2 0) 3
        (upd1 (upd1 (upd1 U0 0 r) 1 (upd1 U0 0 r 0%Z * (1 * 1 + - Y / (1 / 10) * (vx3_beta * f)))) 2 0 0%Z * (X / (1 / 10) * (vx3_beta * f)))) 0%Z) with r.
    rewrite ckdiv_ok by (unfold r; specialize (Hpow (1 / (g - 1))); lra). cbn [bind].
    rewrite ckdiv_ok by lra. cbn [bind].
    exists (1 * 1 + - Y / (1 / 10) * (vx3_beta * f)), (X / (1 / 10) * (vx3_beta * f)). eexists. split; [intros _; reflexivity|].
    intros k Hk. unfold from_primitive, vdot. rewrite rsum_3.
    assert (0 < r) by apply Hpow.
    assert (k = 0 \/ k = 1 \/ k = 2 \/ k = 3 \/ k = 4)%Z as [-> | [-> | [-> | [-> | ->]]]] by lia; unfold upd1, dot_inst, dot3, tail1; cbn -[IZR]; try ring.
    rewrite half. field. lra. }
  destruct E as (u & v & U & E1 & E2). exists U. unfold call_IC, call_exact_solution. cbn [Z.eqb Pos.eqb]. 
  set (P := 1 / g * Rpower T (g / (g - 1))) in *. set (V := fun i : Z => if (i =? 0)%Z then u else if (i =? 1)%Z then 0 else v) in *.
  assert (Hr : 0 < r) by apply Hpow.
  assert (HP : 0 < P) by (unfold P; apply Rmult_lt_0_compat; [apply Rdiv_lt_0_compat; lra|apply Hpow]).
  assert (ED : density U = r) by (unfold density; rewrite E2 by lia; reflexivity).
  assert (EP : pressure 3 g U = P).
  { transitivity (pressure 3 g (from_primitive 3 g r V P)); [|apply from_primitive_pressure; try lia; lra].
    unfold pressure, energy, density, vdot. rewrite !rsum_3. unfold velocity, momentum, density. cbn [Z.add Pos.add Z.pos_sub Pos.succ].
    rewrite !E2 by lia. reflexivity. }
  split; [apply E1|]. split; [rewrite E1; reflexivity|]. split; [|split].
  - unfold admissible. rewrite ED, EP. easy.
  - unfold entropy. rewrite ED, EP. unfold P, r. rewrite Rpower_mult.
    replace (1 / (g - 1) * g) with (g / (g - 1)) by (field; lra). field. specialize (Hpow (g / (g - 1))). lra.
  - intros t'. rewrite E1. reflexivity.
Qed.
Print Assumptions C63_vortex3_partial.

(** The other initial conditions are not gas states: the "Sphere" has negative
    pressure at every point, the "Gaussian" has zero density on the axes, and in the
    dimension they are not written for they leave the state unset. *)
Theorem C63_initial_states_refuted :
  (forall ph x t U0 gamma, 1 < gamma -> exists U, call_IC 3 Sphere ph x t U0 = Ok U /\ pressure 3 gamma U < 0) /\
  (forall ph x t U0, x 0%Z = 0 -> exists U, call_IC 2 Gaussian ph x t U0 = Ok U /\ density U = 0) /\
  (forall ph x t U0, call_IC 2 Sphere ph x t U0 = Ok U0 /\ call_IC 3 Gaussian ph x t U0 = Ok U0).
Proof.
  split; [|split].
  - intros ph x t U0 g Hg. eexists; split; [reflexivity|].
    set (f := 0.5 * (1 - 0) * (tanh (PI * (0.5 - sqrt (x 0%Z * x 0%Z + x 1%Z * x 1%Z + x 2%Z * x 2%Z)) / 0.5) + 1) + 0).
    assert (E : forall k, (0 <= k < 5)%Z -> set_sphere ph x U0 k = f).
    { intros k Hk. unfold set_sphere. rewrite fill_rows by lia. destruct (Z.leb_spec 0 k), (Z.ltb_spec k 5); cbn [andb]; try lia. reflexivity. }
    assert (Hf : 0 < f).
    { unfold f. set (z := PI * _ / _). assert (-1 < tanh z).
      { unfold tanh, sinh, cosh. pose proof (exp_pos z). pose proof (exp_pos (- z)).
        apply (Rmult_lt_reg_r ((exp z + exp (- z)) / 2)); [lra|]. unfold Rdiv at 2. rewrite Rmult_assoc, Rinv_l by lra. lra. }
      lra. }
    unfold pressure, energy, density, vdot. rewrite rsum_3. unfold velocity, momentum, density. cbn [Z.add Pos.add Z.pos_sub Pos.succ].
    rewrite !E by lia. replace (f * (f / f * (f / f) + f / f * (f / f) + f / f * (f / f)) / 2) with (3 * f / 2) by (field; lra). nra.
  - intros ph x t U0 Hx. eexists; split; [reflexivity|]. unfold density, set_gaussian. rewrite fill_rows by lia. cbn -[IZR].
    rewrite Hx. replace (30 * 0 * 0 * x 1%Z) with 0 by ring. rewrite sin_0. ring.
  - intros. split; reflexivity.
Qed.
Print Assumptions C63_initial_states_refuted.

(** The reference of the error norm (C74): at time 0 it is the initial condition;
    where no exact solution is known the program says so, and leaves the reference
    as it was. *)
Theorem C74_exact_at_start : forall dim ic ph x U0 U said, (dim = 2 \/ dim = 3)%Z ->
  call_exact_solution dim ic ph x 0 U0 = Ok (U, said) ->
  call_IC dim ic ph x 0 U0 = Ok U /\
  (said = true <-> (dim = 2%Z /\ ic = Sphere) \/ (dim = 3%Z /\ ic = Gaussian)) /\
  (said = true -> U = U0).
Proof.
  intros dim ic ph x U0 U said Hd E.
  assert (call_IC dim ic ph x 0 U0 = Ok U /\ (said = true /\ U = U0 /\ ((dim = 2%Z /\ ic = Sphere) \/ (dim = 3%Z /\ ic = Gaussian)) \/
    said = false /\ ~ ((dim = 2%Z /\ ic = Sphere) \/ (dim = 3%Z /\ ic = Gaussian)))) as (A & B).
  { unfold call_exact_solution in E. unfold call_IC.
    assert (Q : forall e V (P : Prop), Ok (V, e) = Ok (U, said) -> (e = said -> V = U -> P) -> P)
      by (intros e V P X Y; injection X as X1 X2; exact (Y X2 X1)).
    assert (N : ~ ((dim = 2%Z /\ Uniform = Sphere) \/ (dim = 3%Z /\ Uniform = Gaussian)) /\
      ~ ((dim = 2%Z /\ IsentropicVortex = Sphere) \/ (dim = 3%Z /\ IsentropicVortex = Gaussian)))
      by (split; intros [[_ X]|[_ X]]; discriminate X). destruct N as (N1 & N2).
    destruct Hd as [-> | ->]; cbn [Z.eqb Pos.eqb] in *; destruct ic.
    - refine (Q _ _ _ E _). intros <- <-. split; [reflexivity|]. right. easy.
    - refine (Q _ _ _ E _). intros <- <-. split; [reflexivity|]. right. split; [reflexivity|]. intros [[_ X]|[X _]]; discriminate X.
    - refine (Q _ _ _ E _). intros <- <-. split; [reflexivity|]. left. split; [reflexivity|]. split; [reflexivity|]. now left.
    - destruct (vortex2 ph x 0 U0) as [V|] eqn:EV; cbn [bind] in E; [|discriminate E].
      refine (Q _ _ _ E _). intros <- <-. split; [reflexivity|]. right. easy.
    - refine (Q _ _ _ E _). intros <- <-. split; [reflexivity|]. right. easy.
    - refine (Q _ _ _ E _). intros <- <-. split; [reflexivity|]. left. split; [reflexivity|]. split; [reflexivity|]. now right.
    - refine (Q _ _ _ E _). intros <- <-. split; [reflexivity|]. right. split; [reflexivity|]. intros [[X _]|[_ X]]; discriminate X.
    - destruct (vortex3 ph x 0 U0) as [V|] eqn:EV; cbn [bind] in E; [|discriminate E].
      refine (Q _ _ _ E _). intros <- <-. split; [reflexivity|]. right. easy. }
  split; [exact A|]. destruct B as [(-> & -> & B)|(-> & B)].
  - split; [split; intros _; [exact B|reflexivity]|reflexivity].
  - split; [split; [intros X; discriminate X|intros X; contradiction]|intros X; discriminate X].
Qed.
Print Assumptions C74_exact_at_start.
