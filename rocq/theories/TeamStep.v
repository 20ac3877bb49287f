(** TeamStep.v -- the device work of a time step: the kernels the steppers launch
    (src/numerics/timestepping/stepper.cpp), in the execution model of TeamModel.v,
    and the sequence of launches and exchanges of a whole march in time. *)
From Coq Require Import ZArith List Lia Reals Bool.
From Verif Require Import Base RBase MeshModel StepModel SolverModel SolverSpec TeamModel TeamKernels PropTeam DGSpec.
From Verif Require CommModel CommSpec.
Import ListNotations.
Local Open Scope R_scope.

(** Views of the steppers (stepper.h 62-66). *)
Definition vD1 := 50%Z.   (* dU1 *)
Definition vD2 := 51%Z.   (* dU2 *)
Definition vD3 := 52%Z.   (* dU3 *)
Definition vD4 := 53%Z.   (* dU4 *)
Definition vHold := 54%Z. (* Uhold *)

(** tools.cpp 124-139 with the output view [vd]: dU(e) = dt * iMM(e) * res(e),
    one team per element. *)
Definition mass_to (vd nb ns : Z) (dt : R) (iMM : arr3) (own0 own1 : Z -> Z -> Z) : Z -> list tloop :=
  fun e => team_gemm nb ns nb dt (table (iMM e)) (inmem (at3 vRes e)) (at3 vd e) (own0 e) (own1 e).

(** Entry [p] of the memory behind view [v]. *)
Definition entry (l : layout) (x : ext3) (v p : Z) : loc := let '(i, j, k) := unflat l x p in at3 v i j k.
(** linear_algebra.cpp 75-81, KokkosBlas::axpy: y_p = c x_p + y_p, one iteration per entry. *)
Definition axpy_k (l : layout) (x : ext3) (c : R) (vA vB : Z) : Z -> list tloop :=
  flat (fun p => Load (entry l x vA p) (fun a => Load (entry l x vB p) (fun b => Store (entry l x vB p) (c * a + b) Done))).
(** linear_algebra.cpp 83-90, KokkosBlas::update: z_p = c x_p + 1 y_p; z is not read
    when its factor is 0. *)
Definition update_k (l : layout) (x : ext3) (c : R) (vA vB vC : Z) : Z -> list tloop :=
  flat (fun p => Load (entry l x vA p) (fun a => Load (entry l x vB p) (fun b => Store (entry l x vC p) (c * a + 1 * b) Done))).
(** Kokkos::deep_copy between two device views, entry by entry. *)
Definition copy_k (l : layout) (x : ext3) (vS vT : Z) : Z -> list tloop :=
  flat (fun p => Load (entry l x vS p) (fun a => Store (entry l x vT p) a Done)).

(** What the host makes a rank do: launch kernels, or take part in the exchange of
    face states (base.cpp 511-541). *)
Inductive ditem := Kernels (k : Z -> list task) | Exchange.

(** [sch k r]: team size and assignment of iterations to threads on rank [r] in
    evaluation [k]. *)
Definition schedule := nat -> Z -> Z * (nat -> Z -> Z -> Z).

Section Items.
Context (D : Z -> rdata) (l : layout) (iMM : Z -> arr3).

Definition ext_of (r : Z) : ext3 := (d_ne (D r), d_nb (D r), ns_of (D r)).
Definition axpy (r : Z) (c : R) (vA vB : Z) : task := Launch (num_entries (ext_of r)) 1 (kernel (axpy_k l (ext_of r) c vA vB)).
Definition update (r : Z) (c : R) (vA vB vC : Z) : task := Launch (num_entries (ext_of r)) 1 (kernel (update_k l (ext_of r) c vA vB vC)).
Definition deep_copy (r : Z) (vT vS : Z) : task := Launch (entries (ext_of r)) 1 (kernel (copy_k l (ext_of r) vS vT)).
Definition mult_mass (r : Z) (sc : Z * (nat -> Z -> Z -> Z)) (dt : R) (vd : Z) : task :=
  Launch (d_ne (D r)) (fst sc) (kernel (mass_to vd (d_nb (D r)) (ns_of (D r)) dt (iMM r) (snd sc 5%nat) (snd sc 6%nat))).

(** solver.get_residual (base.cpp 401-561): TeamKernels.v with the exchange in its place. *)
Definition residual_items (sc : Z -> Z * (nat -> Z -> Z -> Z)) : list ditem :=
  [ Kernels (fun r => element_tasks (D r) (fst (sc r)) (snd (sc r)) ++ face_tasks_before (D r) (fst (sc r)) (snd (sc r)));
    Exchange;
    Kernels (fun r => face_tasks_after (D r) (fst (sc r)) (snd (sc r))) ].

(** stepper.cpp 23-55: dU is constructed (zeros) in every step. *)
Definition fe_items (sch : schedule) (dt : R) : list ditem :=
  residual_items (sch 0%nat) ++
  [ Kernels (fun r => [ Alloc vdU; mult_mass r (sch 0%nat r) dt vdU; axpy r 1 vdU vUc ]) ].

(** stepper.cpp 71-142 *)
Definition rk4_items (sch : schedule) (dt : R) : list ditem :=
  [ Kernels (fun r => [ deep_copy r vHold vUc ]) ] ++
  residual_items (sch 0%nat) ++
  [ Kernels (fun r => [ mult_mass r (sch 0%nat r) dt vD1; update r 0.5 vD1 vHold vUc ]) ] ++
  residual_items (sch 1%nat) ++
  [ Kernels (fun r => [ mult_mass r (sch 1%nat r) dt vD2; update r 0.5 vD2 vHold vUc ]) ] ++
  residual_items (sch 2%nat) ++
  [ Kernels (fun r => [ mult_mass r (sch 2%nat r) dt vD3; update r 1.0 vD3 vHold vUc ]) ] ++
  residual_items (sch 3%nat) ++
  [ Kernels (fun r => [ mult_mass r (sch 3%nat r) dt vD4; axpy r 2.0 vD3 vD4; axpy r 2.0 vD2 vD4; axpy r 1.0 vD1 vD4;
                        axpy r (1.0 / 6.0) vD4 vHold; deep_copy r vUc vHold ]) ].

Definition step_items (st : stepper) (sch : schedule) (dt : R) : list ditem :=
  match st with ForwardEuler => fe_items sch dt | RungeKutta4 => rk4_items sch dt end.
(** base.cpp 388-394: one step after the other. *)
Fixpoint march_items (steps : list (stepper * R)) (sch : schedule) : list ditem :=
  match steps with
  | [] => []
  | (st, dt) :: rest => step_items st sch dt ++ march_items rest (fun k => sch (4 + k)%nat)
  end.
End Items.

(** The face states in a device memory. *)
Definition face_views (μ : mem) : rviews := mkRV (view3 vUf μ) (view3 vUL μ) (view3 vUR μ) (view3 vFq μ) (view3 vFe μ).

Section Ranks.
Context {A : Type} (n : Z) (m : gmesh A) (ep : list Z) (pm : Z -> pmesh A) (D : Z -> rdata).

(** The exchange replaces the face states of every rank's memory by the exchanged
    ones (what the messages do, for every schedule, is C12). *)
Definition exchange (M M' : Z -> mem) : Prop :=
  exists X UL UR, CommSpec.exchanged n m ep pm (fun r => face_blocks (d_nif (D r)) (face_views (M r))) X /\
  forall r, (0 <= r < n)%Z -> blocks (d_nif (D r)) (UL r) = CommModel.fs_L (X r) /\ blocks (d_nif (D r)) (UR r) = CommModel.fs_R (X r) /\
    received (M r) (UL r) (UR r) (M' r).

(** [M']: memories the ranks can be in after all of the items.  Each rank has its
    own memory; the ranks meet at the exchanges. *)
Fixpoint device_runs (items : list ditem) (M M' : Z -> mem) : Prop :=
  match items with
  | [] => forall r, (0 <= r < n)%Z -> M' r = M r
  | Kernels k :: rest => exists M1, (forall r, (0 <= r < n)%Z -> executes (k r) (M r) (M1 r)) /\ device_runs rest M1 M'
  | Exchange :: rest => exists M1, exchange M M1 /\ device_runs rest M1 M'
  end.
(** No execution gets stuck. *)
Fixpoint device_completes (items : list ditem) (M : Z -> mem) : Prop :=
  match items with
  | [] => True
  | Kernels k :: rest => (forall r, (0 <= r < n)%Z -> always_completes (k r) (M r)) /\
      forall M1, (forall r, (0 <= r < n)%Z -> executes (k r) (M r) (M1 r)) -> device_completes rest M1
  | Exchange :: rest => (exists M1, exchange M M1) /\ forall M1, exchange M M1 -> device_completes rest M1
  end.
End Ranks.
