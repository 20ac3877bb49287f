(** StepModel.v -- model of the time steppers (src/numerics/timestepping/
    stepper.cpp) and of the solver's time loop (src/solver/base.cpp 377-399).

    A step is a program that asks for residuals: [Ask t U k] is a call of
    solver.get_residual() made when the solver's time is [t] and its
    coefficients are [U]; [k] continues with the residual.  (get_residual
    involves all ranks; what it computes is SolverModel.v.)  Arithmetic is
    exact; timers and printing are left out. *)
From Coq Require Import ZArith List Lia Reals Lra Bool.
From Verif Require Import Base RBase LinAlgModel SolverModel.
Import ListNotations.
Local Open Scope R_scope.

(** Memory position of entry (i, j, k) of a contiguous rank-3 view, and back:
    LayoutRight (host) or LayoutLeft (GPU). *)
Inductive layout := LRight | LLeft.
Definition unflat (l : layout) (x : ext3) (p : Z) : Z * Z * Z :=
  let '(e0, e1, e2) := x in
  match l with
  | LRight => ((p / (e1 * e2)), (p / e2) mod e1, p mod e2)%Z
  | LLeft => (p mod e0, (p / e0) mod e1, p / (e0 * e1))%Z
  end.
Definition entries (x : ext3) : Z := let '(e0, e1, e2) := x in (e0 * e1 * e2)%Z.
(** [const unsigned num_entries = ...]: 32 bits (stepper.cpp 47, 84, 103, 117, 132). *)
Definition num_entries (x : ext3) : Z := (entries x mod 2 ^ 32)%Z.

(** Math::cApB_to_B and cApB_to_C (linear_algebra.cpp 75-90) on the data()
    pointers of contiguous views with the same extents. *)
Definition axpy_data (l : layout) (x : ext3) (num : Z) (c : R) (A B : arr3) : arr3 :=
  zloop num (fun p B => let '(i, j, k) := unflat l x p in upd3 B i j k (c * A i j k + B i j k)) B.
Definition update_data (l : layout) (x : ext3) (num : Z) (c : R) (A B C : arr3) : arr3 :=
  zloop num (fun p C => let '(i, j, k) := unflat l x p in upd3 C i j k (c * A i j k + 1 * B i j k + 0 * C i j k)) C.
(** Kokkos::deep_copy(dst, src) *)
Definition copy_data (l : layout) (x : ext3) (src dst : arr3) : arr3 :=
  zloop (entries x) (fun p d => let '(i, j, k) := unflat l x p in upd3 d i j k (src i j k)) dst.

Inductive prog :=
| Done (U : arr3) (t : R)
| Ask (t : R) (U : arr3) (k : arr3 -> prog).

Section Step.
Context (l : layout) (x : ext3) (order : nat -> list Z) (dt : R) (iMM : arr3).
Definition nbas : Z := let '(_, e1, _) := x in e1.
Definition nst : Z := let '(_, _, e2) := x in e2.

(** stepper.cpp 23-55 *)
Definition FE_step (U : arr3) (t : R) : prog :=
  Ask t U (fun rs =>
    let dU := mult_inv_mass_matrix (order 0%nat) nbas nst dt iMM rs zero3 in
    Done (axpy_data l x (num_entries x) 1 dU U) (t + dt)).

(** stepper.cpp 71-142; [w]: previous content of dU1, .., dU4, Uhold. *)
Record rkwork := mkRW { w_dU1 : arr3; w_dU2 : arr3; w_dU3 : arr3; w_dU4 : arr3; w_Uhold : arr3 }.

Definition RK4_step (w : rkwork) (U : arr3) (t : R) : prog :=
  let Uhold := copy_data l x U (w_Uhold w) in
  Ask t U (fun rs =>
    let dU1 := mult_inv_mass_matrix (order 0%nat) nbas nst dt iMM rs (w_dU1 w) in
    let U := update_data l x (num_entries x) 0.5 dU1 Uhold U in
    let t := t + dt / 2.0 in
    Ask t U (fun rs =>
      let dU2 := mult_inv_mass_matrix (order 1%nat) nbas nst dt iMM rs (w_dU2 w) in
      let U := update_data l x (num_entries x) 0.5 dU2 Uhold U in
      Ask t U (fun rs =>
        let dU3 := mult_inv_mass_matrix (order 2%nat) nbas nst dt iMM rs (w_dU3 w) in
        let U := update_data l x (num_entries x) 1.0 dU3 Uhold U in
        let t := t + dt / 2.0 in
        Ask t U (fun rs =>
          let dU4 := mult_inv_mass_matrix (order 3%nat) nbas nst dt iMM rs (w_dU4 w) in
          let dU4 := axpy_data l x (num_entries x) 2.0 dU3 dU4 in
          let dU4 := axpy_data l x (num_entries x) 2.0 dU2 dU4 in
          let dU4 := axpy_data l x (num_entries x) 1.0 dU1 dU4 in
          let Uhold := axpy_data l x (num_entries x) (1.0 / 6.0) dU4 Uhold in
          Done (copy_data l x Uhold U) t)))).
End Step.

(** A step when the residual is a function of time and coefficients: final
    coefficients, final time, and the (time, coefficients) of the calls. *)
Fixpoint run (resid : R -> arr3 -> arr3) (p : prog) : arr3 * R * list (R * arr3) :=
  match p with
  | Done U t => (U, t, [])
  | Ask t U k => let '(U', t', tr) := run resid (k (resid t U)) in (U', t', (t, U) :: tr)
  end.

(** All ranks of a run step together: their programs ask at the same time and
    [ev] answers (work arrays [w] pass from one evaluation to the next). *)
Inductive run_all {W} (n : Z) (ev : (Z -> arr3) -> W -> (Z -> arr3) -> W -> Prop) :
  (Z -> prog) -> W -> (Z -> arr3) -> W -> Prop :=
| ra_done P w (out : Z -> arr3) (tm : Z -> R) : (forall r, (0 <= r < n)%Z -> P r = Done (out r) (tm r)) -> run_all n ev P w out w
| ra_ask P w (t : Z -> R) (U : Z -> arr3) k rs w1 out w2 :
    (forall r, (0 <= r < n)%Z -> P r = Ask (t r) (U r) (k r)) -> ev U w rs w1 ->
    run_all n ev (fun r => k r (rs r)) w1 out w2 -> run_all n ev P w out w2.

(** base.cpp 388-394: while (itime < num_iterations) take_time_step. *)
Fixpoint time_loop {S} (take : S -> S) (num_iterations : nat) (s : S) : S :=
  match num_iterations with O => s | Datatypes.S k => time_loop take k (take s) end.
