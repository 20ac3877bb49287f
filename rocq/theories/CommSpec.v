(** CommSpec.v -- what the face exchange is supposed to do. *)
From Coq Require Import ZArith List Lia Bool Permutation.
From Verif Require Import Base MeshModel MeshSpec CommModel.
Import ListNotations.
Local Open Scope Z_scope.

(** The two state arrays of every rank have one block per local face. *)
Definition sized {A V} (n : Z) (pm : Z -> pmesh A) (S : Z -> fstate V) : Prop :=
  forall r, 0 <= r < n ->
    zlen (fs_L (S r)) = pm_num_ifaces_part (pm r) /\
    zlen (fs_R (S r)) = pm_num_ifaces_part (pm r).

(** [S'] is [S] after a correct exchange: on every rank that stores a face, the
    left block of the face is the one the owner of the left element had, the
    right block the one the owner of the right element had.  (For a rank that
    owns the side itself this says the block is unchanged.) *)
Definition exchanged {A V} (n : Z) (m : gmesh A) (ep : list Z) (pm : Z -> pmesh A)
  (S S' : Z -> fstate V) : Prop :=
  sized n pm S' /\
  forall r lf f rL rR, 0 <= r < n ->
    rd (pm_l2g_iface (pm r)) lf = Ok f -> face_ranks m ep f rL rR ->
    (exists lfL v, rd (pm_l2g_iface (pm rL)) lfL = Ok f /\
        rd (fs_L (S rL)) lfL = Ok v /\ rd (fs_L (S' r)) lf = Ok v) /\
    (exists lfR v, rd (pm_l2g_iface (pm rR)) lfR = Ok f /\
        rd (fs_R (S rR)) lfR = Ok v /\ rd (fs_R (S' r)) lf = Ok v).

(** Hypotheses on a run of the exchange: the ranks use the tables built from one
    mesh and one assignment, parallel loops run every iteration once in any
    order, what happens between two exchanges keeps the array sizes. *)
Record comm_wf {A V} (iter : Z -> list Z -> list Z) (zero : A) (m : gmesh A) (ep : list Z)
  (c : cfg A V) : Prop := {
  cw_run : run_wf iter (c_n c) m ep;
  cw_pm : partitioned zero iter (c_n c) m ep (c_pm c);
  cw_order : forall r k i cnt, Permutation (c_order c r k i cnt) (zseq cnt);
  cw_compute : forall k S, sized (c_n c) (c_pm c) S ->
     sized (c_n c) (c_pm c) (fun r => c_compute c k r (S r))
}.

(** [E k]: states at entry of exchange number k, [X k]: at its exit. *)
Definition history {A V} (m : gmesh A) (ep : list Z) (c : cfg A V) (s0 : Z -> fstate V)
  (E X : nat -> Z -> fstate V) : Prop :=
  (forall r, E O r = s0 r) /\
  (forall k, sized (c_n c) (c_pm c) (E k)) /\
  (forall k, exchanged (c_n c) m ep (c_pm c) (E k) (X k)) /\
  (forall k r, E (S k) r = c_compute c k r (X k r)).

(** The block rank [r] sends for face [f]: its own side of the face. *)
Definition own_block {A V} (m : gmesh A) (ep : list Z) (pm : Z -> pmesh A) (S : Z -> fstate V)
  (r f : Z) (v : V) : Prop :=
  exists lf, rd (pm_l2g_iface (pm r)) lf = Ok f /\
    ((exists s, s <> r /\ face_ranks m ep f r s /\ rd (fs_L (S r)) lf = Ok v) \/
     (exists s, s <> r /\ face_ranks m ep f s r /\ rd (fs_R (S r)) lf = Ok v)).
