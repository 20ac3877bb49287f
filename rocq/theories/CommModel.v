(** CommModel.v -- model of the face-state exchange between ranks
    (src/memory/memory_network.cpp 55-175, called from src/solver/base.cpp
    501-529) as a transition system of all ranks and the MPI message queue, and
    of the rank-ordered print (memory_network.cpp 177-197). *)
From Coq Require Import ZArith List Lia Bool Permutation.
From Verif Require Import Base MeshModel.
Import ListNotations.
Local Open Scope Z_scope.
Open Scope res_scope.

(** * Per-rank data *)

(** UqL and UqR of a rank: one block per local face (the block is the nq x ns
    array of values; only whole blocks are copied).  src/solver/base.cpp
    576-585. *)
Record fstate (V : Type) := mkFS { fs_L : list V; fs_R : list V }.
Arguments mkFS {V}. Arguments fs_L {V}. Arguments fs_R {V}.

(** src/memory/memory_network.cpp 85 and 157: is this rank on the left? *)
Definition is_left {A} (pm : pmesh A) (rank lf : Z) : res bool :=
  x <- rd2 (pm_interior_faces pm) lf 0 ;; Ok (x =? rank).

(** src/memory/memory_network.cpp 67-100, body for one neighbour: copy the
    rank's own side of every ghost face into the dense send buffer.  [order] is
    the order in which the parallel_for runs its iterations. *)
Definition pack {A V} (pm : pmesh A) (rank : Z) (s : fstate V) (order : list Z) (idx : Z)
  (buf : list V) : res (list V) :=
  gf <- rd (pm_ghost_faces pm) idx ;;
  foreach order (fun i buf =>
    f <- rd gf i ;;
    let lf := search_for_local_ID f (pm_l2g_iface pm) in
    left <- is_left pm rank lf ;;
    v <- rd (if (left : bool) then fs_L s else fs_R s) lf ;;
    wr buf i v) buf.

(** src/memory/memory_network.cpp 142-173, body for one neighbour: copy the
    received blocks into the remote side of every ghost face. *)
Definition unpack {A V} (pm : pmesh A) (rank : Z) (order : list Z) (idx : Z)
  (ghost : list V) (s : fstate V) : res (fstate V) :=
  gf <- rd (pm_ghost_faces pm) idx ;;
  foreach order (fun i s =>
    f <- rd gf i ;;
    let lf := search_for_local_ID f (pm_l2g_iface pm) in
    left <- is_left pm rank lf ;;
    v <- rd ghost i ;;
    if (left : bool) then R' <- wr (fs_R s) lf v ;; Ok (mkFS (fs_L s) R')
    else L' <- wr (fs_L s) lf v ;; Ok (mkFS L' (fs_R s))) s.

(** * Ranks and messages *)

(** Where a rank is in communicate_face_solution; the index is the loop counter
    [neighbor_rank_idx]. *)
Inductive phase :=
| PPack (i : Z)      (* 67-100 *)
| PSend (i : Z)      (* 106-120 *)
| PSendEnd (i : Z)   (* 120: end of an iteration, send_view goes out of scope *)
| PRecv (i : Z)      (* 122-137 *)
| PEnter             (* 139: barrier() called *)
| PWait              (* 139: waiting inside MPI_Barrier *)
| PUnpack (i : Z)    (* 142-173 *)
| PDone              (* all rounds finished *)
| PCrash (e : err).

(** One rank.  [k_send], [k_recv]: Uq_local, Uq_ghost (base.cpp 511-519;
    [None]: destructed, 524-529); [k_tmp]: the host copy [send_view] of a device
    buffer (memory_network.cpp 114; on a host build send_view is Uq_local
    itself); [k_ent]: how often the rank has entered a barrier. *)
Record rk (V : Type) := mkRk {
  k_ph : phase;
  k_rnd : nat;
  k_st : fstate V;
  k_send : list (option (list V));
  k_tmp : option (list V);
  k_recv : list (list V);
  k_ent : nat
}.
Arguments mkRk {V}. Arguments k_ph {V}. Arguments k_rnd {V}. Arguments k_st {V}.
Arguments k_send {V}. Arguments k_tmp {V}. Arguments k_recv {V}. Arguments k_ent {V}.

(** Memory a posted message refers to. *)
Inductive bufref := RBuf (i : Z) | RTmp.

(** A message posted by MPI_Isend and not yet received.  [m_data = None]: MPI
    has not yet copied it out of the sender's memory. *)
Record msg (V : Type) := mkMsg {
  m_src : Z; m_dst : Z; m_tag : Z; m_ref : bufref; m_data : option (list V)
}.
Arguments mkMsg {V}. Arguments m_src {V}. Arguments m_dst {V}. Arguments m_tag {V}.
Arguments m_ref {V}. Arguments m_data {V}.

(** All ranks and the messages in flight, in posting order. *)
Record gstate (V : Type) := mkG { g_rk : Z -> rk V; g_net : list (msg V) }.
Arguments mkG {V}. Arguments g_rk {V}. Arguments g_net {V}.

(** What a run is made of: number of ranks, their partitioned meshes, number of
    exchanges, whether the state lives in device memory, what the solver does
    with the state between exchange number k and the next one, the order in
    which parallel loops run, and the value fresh buffers hold. *)
Record cfg (A V : Type) := mkCfg {
  c_n : Z;
  c_pm : Z -> pmesh A;
  c_rounds : nat;
  c_device : bool;
  c_compute : nat -> Z -> fstate V -> fstate V;
  c_order : Z -> nat -> Z -> Z -> list Z;
  c_v0 : V
}.
Arguments mkCfg {A V}. Arguments c_n {A V}. Arguments c_pm {A V}. Arguments c_rounds {A V}.
Arguments c_device {A V}. Arguments c_compute {A V}. Arguments c_order {A V}. Arguments c_v0 {A V}.

Section Comm.
Context {A V : Type} (c : cfg A V).

(** Start of an exchange: base.cpp 511-519 (fresh send and receive buffers) or,
    after the last one, the end. *)
Definition start (r : Z) (k : nat) (s : fstate V) (ent : nat) : rk V :=
  let counts := pm_num_faces_per_rank_boundary (c_pm c r) in
  if Nat.eqb k (c_rounds c) then mkRk PDone k s [] None [] ent
  else mkRk (PPack 0) k s (map (fun x => Some (vec x (c_v0 c))) counts) None
            (map (fun x => vec x (c_v0 c)) counts) ent.

Definition init (s0 : Z -> fstate V) : gstate V := mkG (fun r => start r 0 (s0 r) 0) [].

Definition set_rk (g : gstate V) (r : Z) (k : rk V) : gstate V :=
  mkG (fun r' => if r' =? r then k else g_rk g r') (g_net g).
Definition set_net (g : gstate V) (net : list (msg V)) : gstate V := mkG (g_rk g) net.

Definition with_ph (k : rk V) (p : phase) : rk V :=
  mkRk p (k_rnd k) (k_st k) (k_send k) (k_tmp k) (k_recv k) (k_ent k).

(** The memory a message refers to, now. *)
Definition deref (g : gstate V) (src : Z) (ref : bufref) : res (list V) :=
  match ref with
  | RBuf i => b <- rd (k_send (g_rk g src)) i ;;
              match b with Some l => Ok l | None => Fail NullDeref end
  | RTmp => match k_tmp (g_rk g src) with Some l => Ok l | None => Fail NullDeref end
  end.

Definition msg_content (g : gstate V) (x : msg V) : res (list V) :=
  match m_data x with Some d => Ok d | None => deref g (m_src x) (m_ref x) end.

(** MPI matching: the first message in posting order with this source,
    destination and tag, and the queue without it. *)
Fixpoint take_msg (src dst tag : Z) (l : list (msg V)) : option (msg V * list (msg V)) :=
  match l with
  | [] => None
  | x :: t =>
      if (m_src x =? src) && (m_dst x =? dst) && (m_tag x =? tag) then Some (x, t)
      else match take_msg src dst tag t with
           | Some (y, t') => Some (y, x :: t')
           | None => None
           end
  end.

(** MPI_Recv into a buffer of fixed size: a longer message is an error
    (MPI_ERR_TRUNCATE aborts), a shorter one leaves the rest unchanged. *)
Definition recv_into (buf data : list V) : res (list V) :=
  if zlen buf <? zlen data then Fail Aborted
  else Ok (data ++ skipn (length data) buf).

Definition set_send (k : rk V) (i : Z) (b : list V) : res (rk V) :=
  s' <- wr (k_send k) i (Some b) ;;
  Ok (mkRk (k_ph k) (k_rnd k) (k_st k) s' (k_tmp k) (k_recv k) (k_ent k)).
Definition set_recv (k : rk V) (i : Z) (b : list V) : res (rk V) :=
  s' <- wr (k_recv k) i b ;;
  Ok (mkRk (k_ph k) (k_rnd k) (k_st k) (k_send k) (k_tmp k) s' (k_ent k)).

(** A rank step that failed. *)
Definition crash (g : gstate V) (r : Z) (e : err) : gstate V :=
  set_rk g r (with_ph (g_rk g r) (PCrash e)).
Definition or_crash (g : gstate V) (r : Z) (x : res (gstate V)) : gstate V :=
  match x with Ok g' => g' | Fail e => crash g r e end.

(** One step of rank [r]; [None]: the rank is blocked or finished.
    memory_network.cpp 55-175 and base.cpp 501-529. *)
Definition rank_step (r : Z) (g : gstate V) : option (gstate V) :=
  let k := g_rk g r in
  let pm := c_pm c r in
  let nn := pm_num_neighbor_ranks pm in
  match k_ph k with
  | PPack i =>
      if i <? nn then Some (or_crash g r (
        cnt <- rd (pm_num_faces_per_rank_boundary pm) i ;;
        buf <- deref g r (RBuf i) ;;
        buf' <- pack pm r (k_st k) (c_order c r (k_rnd k) i cnt) i buf ;;
        k' <- set_send k i buf' ;;
        Ok (set_rk g r (with_ph k' (PPack (i + 1))))))
      else Some (set_rk g r (with_ph k (PSend 0)))
  | PSend i =>
      if i <? nn then Some (or_crash g r (
        dst <- rd (pm_neighbor_ranks pm) i ;;
        buf <- deref g r (RBuf i) ;;
        if c_device c then
          Ok (mkG (fun r' => if r' =? r
                     then mkRk (PSendEnd i) (k_rnd k) (k_st k) (k_send k) (Some buf) (k_recv k) (k_ent k)
                     else g_rk g r')
                  (g_net g ++ [mkMsg r dst r RTmp None]))
        else
          Ok (mkG (fun r' => if r' =? r then with_ph k (PSend (i + 1)) else g_rk g r')
                  (g_net g ++ [mkMsg r dst r (RBuf i) None]))))
      else Some (set_rk g r (with_ph k (PRecv 0)))
  | PSendEnd i =>
      Some (set_rk g r (mkRk (PSend (i + 1)) (k_rnd k) (k_st k) (k_send k) None (k_recv k) (k_ent k)))
  | PRecv i =>
      if i <? nn then
        match rd (pm_neighbor_ranks pm) i with
        | Fail e => Some (crash g r e)
        | Ok src =>
            match take_msg src r src (g_net g) with
            | None => None
            | Some (x, net') => Some (or_crash g r (
                data <- msg_content g x ;;
                buf <- rd (k_recv k) i ;;
                buf' <- recv_into buf data ;;
                k' <- set_recv k i buf' ;;
                Ok (set_rk (set_net g net') r (with_ph k' (PRecv (i + 1))))))
            end
        end
      else Some (set_rk g r (with_ph k PEnter))
  | PEnter =>
      Some (set_rk g r (mkRk PWait (k_rnd k) (k_st k) (k_send k) (k_tmp k) (k_recv k) (S (k_ent k))))
  | PWait =>
      if forallb (fun s => Nat.leb (k_ent k) (k_ent (g_rk g s))) (zseq (c_n c))
      then Some (set_rk g r (with_ph k (PUnpack 0)))
      else None
  | PUnpack i =>
      if i <? nn then Some (or_crash g r (
        cnt <- rd (pm_num_faces_per_rank_boundary pm) i ;;
        buf <- rd (k_recv k) i ;;
        s' <- unpack pm r (c_order c r (k_rnd k) i cnt) i buf (k_st k) ;;
        Ok (set_rk g r (mkRk (PUnpack (i + 1)) (k_rnd k) s' (k_send k) (k_tmp k) (k_recv k) (k_ent k)))))
      else Some (set_rk g r (start r (S (k_rnd k)) (c_compute c (k_rnd k) r (k_st k)) (k_ent k)))
  | PDone => None
  | PCrash _ => None
  end.

(** MPI copies the [j]-th message in flight out of the sender's memory (any time
    between posting and receipt). *)
Definition copy_step (j : nat) (g : gstate V) : option (gstate V) :=
  match nth_error (g_net g) j with
  | Some x =>
      match m_data x with
      | Some _ => None
      | None => Some (or_crash g (m_src x) (
          d <- deref g (m_src x) (m_ref x) ;;
          Ok (set_net g (set_nth (g_net g) j
                (mkMsg (m_src x) (m_dst x) (m_tag x) (m_ref x) (Some d))))))
      end
  | None => None
  end.

(** One step of the whole system, under any scheduling. *)
Inductive step (g : gstate V) : gstate V -> Prop :=
| step_rank r g' : 0 <= r < c_n c -> rank_step r g = Some g' -> step g g'
| step_copy j g' : copy_step j g = Some g' -> step g g'.

(** [steps k g g']: [g'] is reached from [g] in exactly [k] steps. *)
Inductive steps : nat -> gstate V -> gstate V -> Prop :=
| steps_0 g : steps 0 g g
| steps_S k g g' g'' : steps k g g' -> step g' g'' -> steps (S k) g g''.

Definition finished (g : gstate V) : Prop := forall r, 0 <= r < c_n c -> k_ph (g_rk g r) = PDone.
Definition crashed (g : gstate V) : Prop :=
  exists r e, 0 <= r < c_n c /\ k_ph (g_rk g r) = PCrash e.

End Comm.

(** * The rank-ordered print *)

(** Position of a rank in [print] (memory_network.cpp 177-197): at a barrier
    call, inside it, or at the statement after it.  [PB j]: about to enter the
    j-th barrier of the call (barrier 0 at 178, barrier i+1 at 185 for loop
    index i, barrier num_ranks+1 at 193); [PW j]: waiting inside it; [PA j]:
    just after it.  Simplification: emitting a block (184-191) is one step;
    merging of the ranks' standard outputs is taken to follow real time. *)
Inductive pphase := PB (j : Z) | PW (j : Z) | PA (j : Z) | PEnd.

(** What appears on the output. *)
Inductive out := Header | Block (r : Z) | Footer.

Record pstate := mkP { p_ph : Z -> pphase; p_ent : Z -> nat; p_out : list out }.

(** One step of rank [r] in a run of [n] ranks: [None] when blocked. *)
Definition print_step (n : Z) (r : Z) (g : pstate) : option pstate :=
  let set p := fun r' => if r' =? r then p else p_ph g r' in
  match p_ph g r with
  | PB j => Some (mkP (set (PW j)) (fun r' => if r' =? r then S (p_ent g r) else p_ent g r') (p_out g))
  | PW j => if forallb (fun s => Nat.leb (p_ent g r) (p_ent g s)) (zseq n)
            then Some (mkP (set (PA j)) (p_ent g) (p_out g)) else None
  | PA j =>
      let out := if j =? 0 then (if r =? 0 then [Header] else [])
                 else if j =? n + 1 then (if r =? 0 then [Footer] else [])
                 else (if j - 1 =? r then [Block r] else []) in
      Some (mkP (set (if j =? n + 1 then PEnd else PB (j + 1))) (p_ent g) (p_out g ++ out))
  | PEnd => None
  end.

Definition print_init : pstate := mkP (fun _ => PB 0) (fun _ => O) [].

Inductive print_reach (n : Z) : pstate -> Prop :=
| pr_init : print_reach n print_init
| pr_step g g' r : print_reach n g -> 0 <= r < n -> print_step n r g = Some g' -> print_reach n g'.
