(** PhysSpec.v -- textbook definitions for the Euler equations, against which
    the model in PhysModel.v is judged.  Nothing here refers to the model. *)
From Coq Require Import ZArith Reals Lra.
From Verif Require Import Base RBase.
Local Open Scope R_scope.

(** Scalar product and length of vectors with [dim] components. *)
Definition vdot (dim : Z) (a b : arr1) : R := rsum dim (fun i => a i * b i).
Definition vlen (dim : Z) (a : arr1) : R := sqrt (vdot dim a a).

(** A state stores density, momentum, total energy. *)
Definition density (U : arr1) : R := U 0%Z.
Definition momentum (U : arr1) : arr1 := fun i => U (1 + i)%Z.
Definition energy (dim : Z) (U : arr1) : R := U (dim + 1)%Z.
Definition velocity (U : arr1) : arr1 := fun i => momentum U i / density U.

(** Ideal gas: E = p/(gamma-1) + rho |v|^2 / 2. *)
Definition pressure (dim : Z) (gamma : R) (U : arr1) : R :=
  (gamma - 1) * (energy dim U - density U * vdot dim (velocity U) (velocity U) / 2).
Definition sound (dim : Z) (gamma : R) (U : arr1) : R := sqrt (gamma * pressure dim gamma U / density U).
Definition admissible (dim : Z) (gamma : R) (U : arr1) : Prop := 0 < density U /\ 0 < pressure dim gamma U.

(** The state with given density, velocity and pressure. *)
Definition from_primitive (dim : Z) (gamma rho : R) (v : arr1) (p : R) : arr1 := fun k =>
  if (k =? 0)%Z then rho
  else if (k =? dim + 1)%Z then p / (gamma - 1) + rho * vdot dim v v / 2
  else rho * v (k - 1)%Z.

(** Component k (mass, momentum, energy) of the Euler flux through a surface
    with normal vector N (of any length). *)
Definition euler_flux (dim : Z) (gamma : R) (U N : arr1) (k : Z) : R :=
  if (k =? 0)%Z then density U * vdot dim (velocity U) N
  else if (k =? dim + 1)%Z then (energy dim U + pressure dim gamma U) * vdot dim (velocity U) N
  else momentum U (k - 1)%Z * vdot dim (velocity U) N + pressure dim gamma U * N (k - 1)%Z.

(** Unit vector in direction d. *)
Definition axis (d : Z) : arr1 := fun i => if (i =? d)%Z then 1 else 0.

(** ** The HLLC flux (Toro, Riemann Solvers, ch. 10), unit normal n. *)
Definition un (dim : Z) (U n : arr1) : R := vdot dim (velocity U) n.

(** Star-region pressure estimate (PVRS) and wave speed factors. *)
Definition p_star (dim : Z) (gamma : R) (UL UR n : arr1) : R :=
  Rmax 0 ((pressure dim gamma UL + pressure dim gamma UR) / 2
          - (un dim UR n - un dim UL n) / 2 * ((density UL + density UR) / 2)
            * ((sound dim gamma UL + sound dim gamma UR) / 2)).
Definition q_factor (gamma ps p : R) : R :=
  if Rle_dec ps p then 1 else sqrt (1 + (gamma + 1) / (2 * gamma) * (ps / p - 1)).
Definition wave_L (dim : Z) (gamma : R) (UL UR n : arr1) : R :=
  un dim UL n - sound dim gamma UL * q_factor gamma (p_star dim gamma UL UR n) (pressure dim gamma UL).
Definition wave_R (dim : Z) (gamma : R) (UL UR n : arr1) : R :=
  un dim UR n + sound dim gamma UR * q_factor gamma (p_star dim gamma UL UR n) (pressure dim gamma UR).
Definition wave_star (dim : Z) (gamma : R) (UL UR n : arr1) : R :=
  let SL := wave_L dim gamma UL UR n in
  let SR := wave_R dim gamma UL UR n in
  (pressure dim gamma UR - pressure dim gamma UL
   + density UL * un dim UL n * (SL - un dim UL n)
   - density UR * un dim UR n * (SR - un dim UR n))
  / (density UL * (SL - un dim UL n) - density UR * (SR - un dim UR n)).

(** State between the outer wave S and the contact wave Sm on the side of U. *)
Definition star_state (dim : Z) (gamma : R) (U n : arr1) (S Sm : R) (k : Z) : R :=
  (S - un dim U n) / (S - Sm) * density U *
  (if (k =? 0)%Z then 1
   else if (k =? dim + 1)%Z then
     energy dim U / density U
     + (Sm - un dim U n) * (Sm + pressure dim gamma U / (density U * (S - un dim U n)))
   else velocity U (k - 1)%Z + (Sm - un dim U n) * n (k - 1)%Z).
Definition star_flux (dim : Z) (gamma : R) (U n : arr1) (S Sm : R) (k : Z) : R :=
  euler_flux dim gamma U n k + S * (star_state dim gamma U n S Sm k - U k).

Definition toro_hllc (dim : Z) (gamma : R) (UL UR n : arr1) (k : Z) : R :=
  let SL := wave_L dim gamma UL UR n in
  let SR := wave_R dim gamma UL UR n in
  let Sm := wave_star dim gamma UL UR n in
  if Rle_dec 0 SL then euler_flux dim gamma UL n k
  else if Rle_dec SR 0 then euler_flux dim gamma UR n k
  else if Rle_dec 0 Sm then star_flux dim gamma UL n SL Sm k
  else star_flux dim gamma UR n SR Sm k.
