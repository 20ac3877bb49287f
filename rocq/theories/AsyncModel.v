(** AsyncModel.v -- a run of all ranks as one transition system: every rank works
    through its launches and exchanges at its own pace; the threads of its running
    kernel, the statements of communicate_face_solution
    (src/memory/memory_network.cpp 55-175) and the reads of send buffers by MPI are
    interleaved in any way with those of the other ranks.

    The pieces are those of TeamModel.v (threads and memory of a launch), TeamStep.v
    (what the host makes a rank do) and CommModel.v (messages and barriers, with the
    state in memory MPI can read: c_device = false; the other case is C15).

    Simplification: the blocks of UqL and UqR go into the exchange's own copy when a
    rank enters communicate_face_solution and back when it returns; in between the
    rank does nothing else with them (src/solver/base.cpp 521-522 is one call, no
    kernel runs meanwhile). *)
From Coq Require Import ZArith List Lia Reals Bool.
From Verif Require Import Base RBase MeshModel SolverModel TeamModel TeamKernels TeamStep.
From Verif Require CommModel.
Import ListNotations.
Local Open Scope Z_scope.

(** What the host of a rank is doing: about to take the next item; in the middle of
    the tasks of an item; waiting for the running kernel ([N] teams of [T] threads
    with code [P] left), with tasks [l] after it; inside communicate_face_solution. *)
Inductive activity :=
| Next
| Tasks (l : list task)
| Busy (N T : Z) (P : pool) (l : list task)
| Comm.

(** A rank: the items left (with the current one), what it is doing, its memory, and
    its side of the exchange. *)
Record arank := mkA { a_items : list ditem; a_act : activity; a_mem : mem; a_rk : CommModel.rk arr2 }.
(** All ranks and the messages in flight. *)
Record astate := mkAS { s_rank : Z -> arank; s_net : list (CommModel.msg arr2) }.

Definition set_rank (s : astate) (r : Z) (a : arank) : astate :=
  mkAS (fun r' => if r' =? r then a else s_rank s r') (s_net s).

(** Blocks written back to the views UqL and UqR. *)
Definition put_faces (st : CommModel.fstate arr2) (μ : mem) : mem := fun a =>
  match a with At v i j k l =>
    if l =? 0 then
      if v =? vUL then match rd (CommModel.fs_L st) i with Ok b => b j k | Fail _ => μ a end
      else if v =? vUR then match rd (CommModel.fs_R st) i with Ok b => b j k | Fail _ => μ a end
      else μ a
    else μ a
  end.

(** A rank that is not exchanging: exchanges done, barriers entered. *)
Definition outside (rnd ent : nat) : CommModel.rk arr2 :=
  CommModel.mkRk CommModel.PDone rnd (CommModel.mkFS [] []) [] None [] ent.

Section Async.
Context {A : Type} (n : Z) (pm : Z -> pmesh A) (D : Z -> rdata).
(** The order in which the loops of pack and unpack run; contents of fresh buffers. *)
Context (order : Z -> nat -> Z -> Z -> list Z) (v0 : arr2).

(** base.cpp 511-522: fresh buffers, then the call. *)
Definition enter (r : Z) (k : CommModel.rk arr2) (μ : mem) : CommModel.rk arr2 :=
  let counts := pm_num_faces_per_rank_boundary (pm r) in
  CommModel.mkRk (CommModel.PPack 0) (CommModel.k_rnd k) (face_blocks (d_nif (D r)) (face_views μ))
    (map (fun x => Some (vec x v0)) counts) None (map (fun x => vec x v0) counts) (CommModel.k_ent k).

(** The exchange's part of the state. *)
Definition comm_of (s : astate) : CommModel.gstate arr2 := CommModel.mkG (fun r => a_rk (s_rank s r)) (s_net s).
Definition with_comm (s : astate) (g : CommModel.gstate arr2) : astate :=
  mkAS (fun r => let a := s_rank s r in mkA (a_items a) (a_act a) (a_mem a) (CommModel.g_rk g r)) (CommModel.g_net g).
(** CommModel.rank_step of a rank does not use the last two of these before the call returns. *)
Definition comm_cfg : CommModel.cfg A arr2 := CommModel.mkCfg n pm 0 false (fun _ _ x => x) order v0.

(** The rank has unpacked everything: the call returns. *)
Definition unpacked (r : Z) (k : CommModel.rk arr2) : Prop :=
  exists i, CommModel.k_ph k = CommModel.PUnpack i /\ pm_num_neighbor_ranks (pm r) <= i.

(** One step of the whole system. *)
Inductive astep (s : astate) : astate -> Prop :=
(** The host takes the next item ... *)
| as_item r k rest : 0 <= r < n -> let a := s_rank s r in
    a_act a = Next -> a_items a = Kernels k :: rest ->
    astep s (set_rank s r (mkA (a_items a) (Tasks (k r)) (a_mem a) (a_rk a)))
(** ... constructs a view ... *)
| as_alloc r v l : 0 <= r < n -> let a := s_rank s r in
    a_act a = Tasks (Alloc v :: l) ->
    astep s (set_rank s r (mkA (a_items a) (Tasks l) (clear v (a_mem a)) (a_rk a)))
(** ... launches a kernel ... *)
| as_launch r N T K l : 0 <= r < n -> let a := s_rank s r in
    a_act a = Tasks (Launch N T K :: l) ->
    astep s (set_rank s r (mkA (a_items a) (Busy N T K l) (a_mem a) (a_rk a)))
(** ... one of whose threads makes one load or store, or a team passes a barrier ... *)
| as_thread r N T P l P' μ' : 0 <= r < n -> let a := s_rank s r in
    a_act a = Busy N T P l -> TeamModel.step N T (P, a_mem a) (P', μ') ->
    astep s (set_rank s r (mkA (a_items a) (Busy N T P' l) μ' (a_rk a)))
(** ... waits for the kernel's end ... *)
| as_fence r N T P l : 0 <= r < n -> let a := s_rank s r in
    a_act a = Busy N T P l -> TeamModel.finished N T P ->
    astep s (set_rank s r (mkA (a_items a) (Tasks l) (a_mem a) (a_rk a)))
(** ... and goes on to the next item. *)
| as_item_done r x rest : 0 <= r < n -> let a := s_rank s r in
    a_act a = Tasks [] -> a_items a = x :: rest ->
    astep s (set_rank s r (mkA rest Next (a_mem a) (a_rk a)))
(** The host calls communicate_face_solution ... *)
| as_enter r rest : 0 <= r < n -> let a := s_rank s r in
    a_act a = Next -> a_items a = Exchange :: rest ->
    astep s (set_rank s r (mkA (a_items a) Comm (a_mem a) (enter r (a_rk a) (a_mem a))))
(** ... makes one step inside it ... *)
| as_comm r g' : 0 <= r < n -> a_act (s_rank s r) = Comm -> ~ unpacked r (a_rk (s_rank s r)) ->
    CommModel.rank_step comm_cfg r (comm_of s) = Some g' ->
    astep s (with_comm s g')
(** ... and returns from it. *)
| as_leave r x rest : 0 <= r < n -> let a := s_rank s r in
    a_act a = Comm -> unpacked r (a_rk a) -> a_items a = x :: rest ->
    astep s (set_rank s r (mkA rest Next (put_faces (CommModel.k_st (a_rk a)) (a_mem a))
      (outside (S (CommModel.k_rnd (a_rk a))) (CommModel.k_ent (a_rk a)))))
(** MPI reads a send buffer. *)
| as_copy j g' : CommModel.copy_step j (comm_of s) = Some g' -> astep s (with_comm s g').

(** All ranks at the start of their items, with memories [M]. *)
Definition astart (items : list ditem) (M : Z -> mem) : astate :=
  mkAS (fun r => mkA items Next (M r) (outside 0 0)) [].

(** [areaches s s']: some schedule leads from [s] to [s']. *)
Inductive areaches (s : astate) : astate -> Prop :=
| ar_refl : areaches s s
| ar_step s1 s2 : areaches s s1 -> astep s1 s2 -> areaches s s2.

Definition afinished (s : astate) : Prop :=
  forall r, 0 <= r < n -> a_items (s_rank s r) = [] /\ a_act (s_rank s r) = Next.
Definition acrashed (s : astate) : Prop :=
  exists r e, 0 <= r < n /\ CommModel.k_ph (a_rk (s_rank s r)) = CommModel.PCrash e.
End Async.
