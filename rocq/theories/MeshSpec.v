(** MeshSpec.v -- vocabulary in which the mesh properties are stated.  It only
    talks about the mesh file and the assignment of elements to ranks, not
    about how the tables are built. *)
From Coq Require Import ZArith List Lia Bool Permutation Sorted.
From Verif Require Import Base MeshModel.
Import ListNotations.
Local Open Scope Z_scope.

(** A row of the interior-face data set: two sides, each with an element of the
    mesh, a reference face number and an orientation. *)
Definition face_row_wf (num_elems : Z) (row : list Z) : Prop :=
  exists eL fL oL eR fR oR,
    row = [eL; fL; oL; eR; fR; oR] /\
    0 <= eL < num_elems /\ 0 <= eR < num_elems /\
    0 <= fL /\ 0 <= oL /\ 0 <= fR /\ 0 <= oR.

(** A well-formed mesh: array sizes are as announced, IDs are in range, and the
    counts fit 32-bit unsigned integers (so no index computation wraps and no
    ID equals UINT_MAX). *)
Record mesh_wf {A} (m : gmesh A) : Prop := {
  wf_dim : 0 <= gm_dim m;
  wf_ne : 0 <= gm_num_elems m < UINT_MAX;
  wf_nn : 0 <= gm_num_nodes m < UINT_MAX;
  wf_nif : 0 <= gm_nIF m < UINT_MAX;
  wf_npe : 0 <= gm_npe m;
  wf_eind_len : zlen (gm_eind m) = gm_num_elems m * gm_npe m;
  wf_eind_small : gm_num_elems m * gm_npe m <= UINT_MAX;
  wf_eind : Forall (fun g => 0 <= g < gm_num_nodes m) (gm_eind m);
  wf_coord_len : zlen (gm_coord m) = gm_num_nodes m;
  wf_coord : Forall (fun row => zlen row = gm_dim m) (gm_coord m);
  wf_if_len : zlen (gm_IF m) = gm_nIF m;
  wf_if : Forall (face_row_wf (gm_num_elems m)) (gm_IF m)
}.

(** An assignment of the elements to [n] ranks (anything METIS may return). *)
Definition assignment {A} (m : gmesh A) (n : Z) (ep : list Z) : Prop :=
  zlen ep = gm_num_elems m /\ Forall (fun p => 0 <= p < n) ep.

(** Element [e] is assigned to rank [r]. *)
Definition owned_by (ep : list Z) (e r : Z) : Prop := rd ep e = Ok r.

(** Element [e] is on the left / right of face [f]. *)
Definition left_of {A} (m : gmesh A) (f e : Z) : Prop := rd2 (gm_IF m) f 0 = Ok e.
Definition right_of {A} (m : gmesh A) (f e : Z) : Prop := rd2 (gm_IF m) f 3 = Ok e.

(** The left element of face [f] is on rank [r] and the right one on [s]. *)
Definition face_ranks {A} (m : gmesh A) (ep : list Z) (f r s : Z) : Prop :=
  exists eL eR, left_of m f eL /\ right_of m f eR /\ owned_by ep eL r /\ owned_by ep eR s.

(** Face [f] touches rank [r]: one of its elements is on [r]. *)
Definition face_touches {A} (m : gmesh A) (ep : list Z) (f r : Z) : Prop :=
  exists e, (left_of m f e \/ right_of m f e) /\ owned_by ep e r.

(** Face [f] joins ranks [r] and [s] (in either direction). *)
Definition face_joins {A} (m : gmesh A) (ep : list Z) (f r s : Z) : Prop :=
  face_ranks m ep f r s \/ face_ranks m ep f s r.

(** Node [g] is used by an element of rank [r]. *)
Definition node_used {A} (m : gmesh A) (ep : list Z) (g r : Z) : Prop :=
  exists e j, owned_by ep e r /\ 0 <= j < gm_npe m /\
              rd (gm_eind m) (e * gm_npe m + j) = Ok g.

(** Iteration over a hash set visits each member once, in any order. *)
Definition any_order (iter : list Z -> list Z) : Prop :=
  forall l, Permutation (iter l) l.

(** * The mesh file as read *)

(** Element on side [s] (0 left, 3 right) of face [i] in the flat interior-face
    data set. *)
Definition file_side (buff : list Z) (i s e : Z) : Prop := rd buff (6 * i + s) = Ok e.

(** Numbers of the faces of the file that have element [e] on a side, in file
    order. *)
Definition faces_of_elem (nIF : Z) (buff : list Z) (e : Z) : list Z :=
  filter (fun i => match rd buff (6 * i), rd buff (6 * i + 3) with
                   | Ok a, Ok b => (a =? e) || (b =? e)
                   | _, _ => false
                   end) (zseq nIF).

(** A readable interior-face data set: six integers per face, elements in
    range, no element with more than six faces. *)
Record face_file_wf (num_elems nIF : Z) (buff : list Z) : Prop := {
  ff_ne : 0 <= num_elems;
  ff_nif : 0 <= nIF;
  ff_len : zlen buff = 6 * nIF;
  ff_elems : forall i s, 0 <= i < nIF -> s = 0 \/ s = 3 ->
     exists e, file_side buff i s e /\ 0 <= e < num_elems;
  ff_six : forall e, 0 <= e < num_elems -> zlen (faces_of_elem nIF buff e) <= 6
}.

(** No face has the same element on both sides. *)
Definition no_self_face (nIF : Z) (buff : list Z) : Prop :=
  forall i a b, 0 <= i < nIF -> file_side buff i 0 a -> file_side buff i 3 b -> a <> b.

(** Numbers of the boundary faces (rows [elem; face; orient], numbered
    consecutively through all groups) attached to element [e]. *)
Definition bfaces_of_elem (rows : list (list Z)) (e : Z) : list Z :=
  filter (fun k => match rd rows k with
                   | Ok (a :: _) => a =? e
                   | _ => false
                   end) (zseq (zlen rows)).

(** The rows [elem; face; orient] of a group's flat data set. *)
Definition bgroup_rows (g : Z * list Z) (rows : list (list Z)) : Prop :=
  zlen rows = fst g /\
  forall i, 0 <= i < fst g ->
    exists a b c, rd rows i = Ok [a; b; c] /\ rd (snd g) (3 * i) = Ok a /\
       rd (snd g) (3 * i + 1) = Ok b /\ rd (snd g) (3 * i + 2) = Ok c.

(** A readable boundary group: a count and three integers per face, the first
    an element of the mesh. *)
Definition bgroup_wf (ne : Z) (g : Z * list Z) : Prop :=
  0 <= fst g /\ zlen (snd g) = 3 * fst g /\
  forall i, 0 <= i < fst g -> exists a, rd (snd g) (3 * i) = Ok a /\ 0 <= a < ne.

Definition sumZ (l : list Z) : Z := fold_right Z.add 0 l.

(** [pm r] is the partitioned mesh rank [r] builds, for all ranks of a run with
    [n] ranks.  All ranks use the same assignment (each calls METIS on the same
    mesh); the hash-set iteration order may differ from rank to rank. *)
Definition partitioned {A} (zero : A) (iter : Z -> list Z -> list Z) (n : Z) (m : gmesh A)
  (ep : list Z) (pm : Z -> pmesh A) : Prop :=
  forall r, 0 <= r < n -> partition_tables zero (iter r) n n r m ep = Ok (pm r).

(** Hypotheses of a run. *)
Record run_wf {A} (iter : Z -> list Z -> list Z) (n : Z) (m : gmesh A) (ep : list Z) : Prop := {
  run_mesh : mesh_wf m;
  run_ep : assignment m n ep;
  run_iter : forall r, any_order (iter r)
}.
