(** TimeModel.v -- the number of time steps, in IEEE binary64 arithmetic
    (rtype = double, src/common/defines.h 9). *)
From Coq Require Import ZArith Reals Bool.
From Flocq Require Import Core BinarySingleNaN.
From Verif Require Import Base.
Local Open Scope Z_scope.

Definition dbl := binary_float 53 1024.
Definition dprec : Prec_gt_0 53 := eq_refl.
Definition dmax : Prec_lt_emax 53 1024 := eq_refl.
Definition ddiv (x y : dbl) : dbl := @Bdiv 53 1024 dprec dmax mode_NE x y.

(** const unsigned num_iterations = (int)(tfinal / dt); base.cpp 383.
    A quotient whose integer part is not an int is undefined behaviour. *)
Definition num_iterations (tfinal dt : dbl) : res Z :=
  let q := ddiv tfinal dt in
  if is_finite q && (- 2 ^ 31 <=? Btrunc q) && (Btrunc q <? 2 ^ 31) then Ok (Btrunc q mod 2 ^ 32)
  else Fail BadArith.

(** The double nearest to k / 10 (how the input file's decimal is read), for
    integers k below 2^53. *)
Definition dint (k : Z) : dbl := @binary_normalize 53 1024 dprec dmax mode_NE k 0 false.
Definition tenths (k : Z) : dbl := ddiv (dint k) (dint 10).

(** The clock. solver.time is an rtype, set to 0.0 by the constructor (base.cpp
    25), advanced by [time += dt] in a forward Euler step (stepper.cpp 50) and by
    [time += dt / 2.0] twice in a Runge-Kutta step (stepper.cpp 98 and 125), and
    handed to the Writer after the last step (main.cpp 112). *)
Definition dplus (x y : dbl) : dbl := @Bplus 53 1024 dprec dmax mode_NE x y.
Definition tick_fe (dt time : dbl) : dbl := dplus time dt.
Definition tick_rk4 (dt time : dbl) : dbl := dplus (dplus time (ddiv dt (dint 2))) (ddiv dt (dint 2)).
(** The while loop of Solver::solve, base.cpp 388-394, as far as it concerns the
    clock: [n] steps with the same stepper. *)
Fixpoint clock_steps (tick : dbl -> dbl) (n : nat) (time : dbl) : dbl :=
  match n with O => time | S k => clock_steps tick k (tick time) end.
Definition solve_clock (rk4 : bool) (tfinal dt : dbl) : res dbl :=
  match num_iterations tfinal dt with
  | Ok n => Ok (clock_steps (if rk4 then tick_rk4 dt else tick_fe dt) (Z.to_nat n) (dint 0))
  | Fail e => Fail e
  end.
