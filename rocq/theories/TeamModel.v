(** TeamModel.v -- execution model of the device kernels: leagues of teams of
    threads that interleave single loads and stores on shared memory and meet
    at team barriers (Kokkos::parallel_for with TeamPolicy, RangePolicy and
    MDRangePolicy; library semantics, stated in DESIGN.md).

    Simplification: sequentially consistent memory; a load or store of one real
    is indivisible.  Views that no kernel of the residual writes (basis tables,
    weights, jacobians, normals, face tables) are not part of the memory: the
    kernels get them as arguments. *)
From Coq Require Import ZArith List Lia Reals Bool.
From Verif Require Import Base RBase.
Import ListNotations.
Local Open Scope R_scope.

(** Entry (i, j, k, l) of view [v]; views of lower rank use 0. *)
Inductive loc := At (v i j k l : Z).
Definition loc_eqb (a b : loc) : bool :=
  match a, b with At v i j k l, At v' i' j' k' l' =>
    ((v =? v') && (i =? i') && (j =? j') && (k =? k') && (l =? l'))%Z%bool end.
Definition mem := loc -> R.
Definition store (m : mem) (l : loc) (v : R) : mem := fun l' => if loc_eqb l' l then v else m l'.

(** A thread's code between two barriers: loads, stores, private computation. *)
Inductive prog :=
| Done
| Load (l : loc) (k : R -> prog)
| Store (l : loc) (v : R) (k : prog).

Fixpoint seq (p q : prog) : prog :=
  match p with
  | Done => q
  | Load l k => Load l (fun v => seq (k v) q)
  | Store l v k => Store l v (seq k q)
  end.

(** for (i = 0; i < n; i++) body(i) *)
Definition pfor (n : Z) (body : Z -> prog) : prog := fold_left (fun p i => seq p (body i)) (zseq n) Done.

(** double acc = a0; for (i = 0; i < n; i++) acc = step(i, acc), the step
    loading from memory; then continue with acc. *)
Definition pacc {S} (n : Z) (step : Z -> S -> (S -> prog) -> prog) (a0 : S) (k : S -> prog) : prog :=
  fold_right (fun i k a => step i a k) k (zseq n) a0.

(** Kokkos::parallel_for(TeamThreadRange(member, n), body) as executed by thread
    [t] of the team: iteration [i] runs on thread [own i]. *)
Definition share (own : Z -> Z) (t n : Z) (body : Z -> prog) : prog :=
  pfor n (fun i => if (own i =? t)%Z then body i else Done).

(** The code of every thread of a launch: team, thread |-> phases, with a team
    barrier after each phase. *)
Definition pool := Z -> Z -> list prog.
Definition set_thread (P : pool) (g t : Z) (ps : list prog) : pool :=
  fun g' t' => if ((g' =? g) && (t' =? t))%Z%bool then ps else P g' t'.

Section Machine.
(** [n]: league size; [T]: team size. *)
Context (n T : Z).

Definition member (g t : Z) : Prop := (0 <= g < n)%Z /\ (0 <= t < T)%Z.

Inductive step : pool * mem -> pool * mem -> Prop :=
| step_load : forall P m g t l k rest, member g t -> P g t = Load l k :: rest ->
    step (P, m) (set_thread P g t (k (m l) :: rest), m)
| step_store : forall P m g t l v k rest, member g t -> P g t = Store l v k :: rest ->
    step (P, m) (set_thread P g t (k :: rest), store m l v)
| step_barrier : forall P m g, (0 <= g < n)%Z ->
    (forall t, (0 <= t < T)%Z -> exists rest, P g t = Done :: rest) ->
    step (P, m) (fun g' t => if (g' =? g)%Z then tl (P g' t) else P g' t, m).

Inductive steps : pool * mem -> pool * mem -> Prop :=
| steps_refl : forall s, steps s s
| steps_cons : forall a b c, step a b -> steps b c -> steps a c.

Definition finished (P : pool) : Prop := forall g t, member g t -> P g t = [].

(** A complete execution of the launch [K] from memory [m]. *)
Definition launch (K : pool) (m m' : mem) : Prop := exists P, steps (K, m) (P, m') /\ finished P.

(** Every execution of [K] can be completed, whatever has happened so far. *)
Definition never_stuck (K : pool) (m : mem) : Prop :=
  forall s, steps (K, m) s -> exists P m', steps s (P, m') /\ finished P.
End Machine.

(** A kernel written as team loops: one [TeamThreadRange] loop per phase, a team
    barrier after each.  A RangePolicy / MDRangePolicy kernel has one iteration
    per league entry and team size 1 ([flat]). *)
Record tloop := mkTL { tl_n : Z; tl_own : Z -> Z; tl_body : Z -> prog }.
Definition kernel (kern : Z -> list tloop) : pool :=
  fun g t => map (fun L => share (tl_own L) t (tl_n L) (tl_body L)) (kern g).
Definition flat (body : Z -> prog) : Z -> list tloop := fun g => [mkTL 1 (fun _ => 0%Z) (fun _ => body g)].

(** Every iteration of every loop runs on some thread of its team. *)
Definition assigned (n T : Z) (kern : Z -> list tloop) : Prop :=
  forall g L i, (0 <= g < n)%Z -> In L (kern g) -> (0 <= i < tl_n L)%Z -> (0 <= tl_own L i < T)%Z.

(** Work the host hands to the device, in order: a kernel launch (the next one
    starts when it has finished: one execution-space instance, Kokkos::fence), or
    the construction of a view, which fills it with zeros. *)
Inductive task := Launch (n T : Z) (K : pool) | Alloc (v : Z).
Definition clear (v : Z) (m : mem) : mem := fun a => match a with At w _ _ _ _ => if (w =? v)%Z then 0 else m a end.

(** [m'] can be the memory after all of [l]. *)
Fixpoint executes (l : list task) (m m' : mem) : Prop :=
  match l with
  | [] => m' = m
  | Launch n T K :: l => exists m1, launch n T K m m1 /\ executes l m1 m'
  | Alloc v :: l => executes l (clear v m) m'
  end.

(** No execution of [l] gets stuck, and there is one. *)
Fixpoint always_completes (l : list task) (m : mem) : Prop :=
  match l with
  | [] => True
  | Launch n T K :: l => (never_stuck n T K m /\ exists m1, launch n T K m m1) /\ forall m1, launch n T K m m1 -> always_completes l m1
  | Alloc v :: l => always_completes l (clear v m)
  end.
