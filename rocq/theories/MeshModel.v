(** MeshModel.v -- model of src/mesh/mesh.cpp: reading a mesh, partitioning it
    over the ranks, and the ID look-ups. *)
From Coq Require Import ZArith List Lia Bool Permutation.
From Verif Require Import Base.
Import ListNotations.
Local Open Scope Z_scope.
Open Scope res_scope.

(** * The global mesh as held in memory after read_mesh *)

(** Global mesh data used by [Mesh::partition]: src/mesh/mesh.h 176-226
    ([dim], [num_elems], [num_nodes], [nIF], [num_nodes_per_elem], [eind],
    [coord], [IF_to_elem]).  [A] is the type of a coordinate; coordinates are
    only copied.  [gm_IF] holds the 6-entry rows
    [elemL; faceL; orientL; elemR; faceR; orientR]. *)
Record gmesh (A : Type) := mkGMesh {
  gm_dim : Z;
  gm_num_elems : Z;
  gm_num_nodes : Z;
  gm_nIF : Z;
  gm_npe : Z;
  gm_eind : list Z;
  gm_coord : list (list A);
  gm_IF : list (list Z)
}.
Arguments mkGMesh {A}.
Arguments gm_dim {A}. Arguments gm_num_elems {A}. Arguments gm_num_nodes {A}.
Arguments gm_nIF {A}. Arguments gm_npe {A}. Arguments gm_eind {A}.
Arguments gm_coord {A}. Arguments gm_IF {A}.

(** * read_mesh *)

(** src/mesh/mesh.cpp 134-141: [coord[iNode][idim] = buff[iNode*dim+idim]].
    Simplification: rows are built by appending instead of resize-then-assign;
    32-bit wrap-around of [iNode*dim+idim] is not modelled. *)
Definition read_coords {A} (num_nodes dim : Z) (buff : list A) : res (list (list A)) :=
  zfor num_nodes (fun iNode coord =>
    row <- zfor dim (fun idim row => v <- rd buff (iNode * dim + idim) ;; Ok (row ++ [v])) [] ;;
    Ok (coord ++ [row])) [].

(** State of the face-reading loop: IF_to_elem, elem_to_IF, nIF_in_elem. *)
Definition face_read_state : Type := list (list Z) * list (list Z) * list Z.

(** src/mesh/mesh.cpp 146-160: one iteration of the interior-face loop; both
    reverse-map entries are written before either counter is incremented. *)
Definition read_face_step (buff : list Z) (i : Z) (s : face_read_state) : res face_read_state :=
  let '(IF, e2f, cnt) := s in
  b0 <- rd buff (6 * i + 0) ;; b1 <- rd buff (6 * i + 1) ;; b2 <- rd buff (6 * i + 2) ;;
  b3 <- rd buff (6 * i + 3) ;; b4 <- rd buff (6 * i + 4) ;; b5 <- rd buff (6 * i + 5) ;;
  IF' <- wr IF i [b0; b1; b2; b3; b4; b5] ;;
  c0 <- rd cnt b0 ;;
  e2f1 <- wr2 e2f b0 c0 i ;;
  c3 <- rd cnt b3 ;;
  e2f2 <- wr2 e2f1 b3 c3 i ;;
  cnt1 <- wr cnt b0 (c0 + 1) ;;
  c3' <- rd cnt1 b3 ;;
  cnt2 <- wr cnt1 b3 (c3' + 1) ;;
  Ok (IF', e2f2, cnt2).

(** src/mesh/mesh.cpp 113-123 (sizes: every element gets 6 face slots) and
    146-160. *)
Definition read_faces (num_elems nIF : Z) (buff : list Z) : res face_read_state :=
  zfor nIF (read_face_step buff) (vec nIF [], vec num_elems (vec 6 0), vec num_elems 0).

(** src/mesh/mesh.cpp 162-167: eptr. *)
Definition read_eptr (num_elems npe : Z) : res (list Z) :=
  '(eptr, _) <- zfor (num_elems + 1)
     (fun i '(eptr, counter) => eptr' <- wr eptr i counter ;; Ok (eptr', counter + npe))
     (vec (num_elems + 1) 0, 0) ;;
  Ok eptr.

(** State of the boundary-group loop: BFG_to_data (per group, in file order;
    the std::map keyed by the distinct group names is kept as an association
    list), elem_to_BF, nBG_in_elem, ibface_global, nBF. *)
Definition bface_state : Type := list (list Z) * list Z * Z.

(** src/mesh/mesh.cpp 186-197: one boundary face of a group: buff_BC is the
    flat (nBface_in_group x 3) buffer. *)
Definition read_bface_step (buff : list Z) (i : Z) (st : list (list Z) * bface_state)
  : res (list (list Z) * bface_state) :=
  let '(rows, (e2b, cnt, ib)) := st in
  b0 <- rd buff (3 * i + 0) ;; b1 <- rd buff (3 * i + 1) ;; b2 <- rd buff (3 * i + 2) ;;
  c <- rd cnt b0 ;;
  e2b' <- wr2 e2b b0 c ib ;;
  cnt' <- wr cnt b0 (c + 1) ;;
  Ok (rows ++ [[b0; b1; b2]], (e2b', cnt', ib + 1)).

(** src/mesh/mesh.cpp 176-198: the loop over groups; a group is given by the
    two data sets read for it (number of faces, flat data).  Returns the data
    rows of each group, the reverse map, counters, next global face number and
    nBF.  Simplification: BFG_to_data is a list in group order (names
    distinct). *)
Definition read_bgroups (num_elems : Z) (groups : list (Z * list Z))
  : res (list (list (list Z)) * bface_state * Z) :=
  foreach groups
    (fun '(n, buff) '(datas, bst, nBF) =>
       '(rows, bst') <- zfor n (read_bface_step buff) ([], bst) ;;
       Ok (datas ++ [rows], bst', nBF + n))
    ([], (vec num_elems (vec 6 0), vec num_elems 0, 0), 0).

(** * ID look-ups *)

(** src/mesh/mesh.cpp 604-616: linear search from index [i]. *)
Fixpoint search_from (g : Z) (l : list Z) (i : Z) : Z :=
  match l with
  | [] => UINT_MAX
  | x :: t => if x =? g then i else search_from g t (i + 1)
  end.

(** src/mesh/mesh.cpp 604-616 [search_for_local_ID]; with the tables of a rank
    it is [h_get_local_elem_ID] etc. (630-640, 657-670). *)
Definition search_for_local_ID (g : Z) (local_to_global : list Z) : Z :=
  search_from g local_to_global 0.

(** src/mesh/mesh.cpp 618-628, 642-655 [get_global_*_ID]. *)
Definition get_global_ID (local_to_global : list Z) (i : Z) : res Z := rd local_to_global i.

(** * partition *)

(** src/mesh/mesh.cpp 284-287: count elements per partition. *)
Definition count_elems (num_partitions : Z) (ep : list Z) : res (list Z) :=
  foreach ep (fun p sizes => c <- rd sizes p ;; wr sizes p (c + 1)) (vec num_partitions 0).

(** [std::set<int>::insert] guarded by [count] (src/mesh/mesh.cpp 301-304):
    insertion in a sorted list without duplicates. *)
Fixpoint set_insert (x : Z) (l : list Z) : list Z :=
  match l with
  | [] => [x]
  | y :: t => if x <? y then x :: y :: t
              else if x =? y then y :: t
              else y :: set_insert x t
  end.

(** src/mesh/mesh.cpp 292-307: the set of nodes used by this rank's elements. *)
Definition collect_nodes {A} (m : gmesh A) (ep : list Z) (rank : Z) : res (list Z) :=
  zfor (gm_num_elems m) (fun i ids =>
    p <- rd ep i ;;
    if rank =? p then
      zfor (gm_npe m) (fun j ids =>
        g <- rd (gm_eind m) (i * gm_npe m + j) ;; Ok (set_insert g ids)) ids
    else Ok ids) [].

(** [std::unordered_set<int>::insert]: contents kept as a duplicate-free list;
    the iteration order is a separate oracle. *)
Definition uset_insert (x : Z) (l : list Z) : list Z :=
  if existsb (Z.eqb x) l then l else l ++ [x].

(** State of the face-counting loop: iface_partition_size, ghost_faces_vector,
    sets_of_neighbor_ranks. *)
Definition fc_state : Type := list Z * list Z * list (list Z).

(** src/mesh/mesh.cpp 314-338: one iteration. *)
Definition count_face_step {A} (m : gmesh A) (ep : list Z) (i : Z) (s : fc_state) : res fc_state :=
  let '(sizes, ghosts, sets) := s in
  eL <- rd2 (gm_IF m) i 0 ;;
  left_rank <- rd ep eL ;;
  c <- rd sizes left_rank ;;
  sizes1 <- wr sizes left_rank (c + 1) ;;
  eR <- rd2 (gm_IF m) i 3 ;;
  right_rank <- rd ep eR ;;
  if negb (left_rank =? right_rank) then
    c' <- rd sizes1 right_rank ;;
    sizes2 <- wr sizes1 right_rank (c' + 1) ;;
    sL <- rd sets left_rank ;;
    sets1 <- wr sets left_rank (uset_insert right_rank sL) ;;
    sR <- rd sets1 right_rank ;;
    sets2 <- wr sets1 right_rank (uset_insert left_rank sR) ;;
    Ok (sizes2, ghosts ++ [i], sets2)
  else Ok (sizes1, ghosts, sets).

(** src/mesh/mesh.cpp 311-338. *)
Definition count_faces {A} (m : gmesh A) (ep : list Z) (num_partitions num_ranks : Z) : res fc_state :=
  zfor (gm_nIF m) (count_face_step m ep) (vec num_partitions 0, [], vec num_ranks []).

(** [std::distance(begin, find(x))] in a std::set (src/mesh/mesh.cpp 377-378):
    the position of [x]; the size of the set when it is absent. *)
Fixpoint set_distance (x : Z) (l : list Z) : Z :=
  match l with
  | [] => 0
  | y :: t => if x =? y then 0 else 1 + set_distance x t
  end.

(** src/mesh/mesh.cpp 369-382: element IDs and local connectivity.  State:
    counter, h_local_to_global_elem_IDs, h_elem_to_node_IDs. *)
Definition fill_elems {A} (m : gmesh A) (ep : list Z) (rank num_elems_part : Z) (ids : list Z)
  : res (list Z * list (list Z)) :=
  '(_, l2g, e2n) <-
    zfor (gm_num_elems m) (fun i '(counter, l2g, e2n) =>
      p <- rd ep i ;;
      if rank =? p then
        l2g' <- wr l2g counter i ;;
        e2n' <- zfor (gm_npe m) (fun j e2n =>
                  g <- rd (gm_eind m) (i * gm_npe m + j) ;;
                  wr2 e2n counter j (set_distance g ids)) e2n ;;
        Ok (counter + 1, l2g', e2n')
      else Ok (counter, l2g, e2n))
    (0, vec num_elems_part 0, vec num_elems_part (vec (gm_npe m) 0)) ;;
  Ok (l2g, e2n).

(** src/mesh/mesh.cpp 385-396: node IDs and coordinates.  The coordinate view
    is zero-initialised; [zero] is the zero coordinate. *)
Definition fill_nodes {A} (zero : A) (m : gmesh A) (num_nodes_part : Z) (ids : list Z)
  : res (list Z * list (list A)) :=
  '(_, l2g, xy) <-
    foreach ids (fun g '(counter, l2g, xy) =>
      l2g' <- wr l2g counter g ;;
      xy' <- zfor (gm_dim m) (fun k xy =>
               v <- rd2 (gm_coord m) g k ;; wr2 xy counter k v) xy ;;
      Ok (counter + 1, l2g', xy'))
    (0, vec num_nodes_part 0, vec num_nodes_part (vec (gm_dim m) zero)) ;;
  Ok (l2g, xy).

(** State of the face-filling loop: counter, num_gfaces_part,
    h_local_to_global_iface_IDs, h_interior_faces. *)
Definition ff_state : Type := Z * Z * list Z * list (list Z).

(** src/mesh/mesh.cpp 401-429: one iteration. *)
Definition fill_face_step {A} (m : gmesh A) (ep : list Z) (rank : Z) (l2g_elem : list Z)
  (i : Z) (s : ff_state) : res ff_state :=
  let '(counter, ng, l2g, faces) := s in
  eL <- rd2 (gm_IF m) i 0 ;;
  left_rank <- rd ep eL ;;
  eR <- rd2 (gm_IF m) i 3 ;;
  right_rank <- rd ep eR ;;
  if (rank =? left_rank) || (rank =? right_rank) then
    l2g' <- wr l2g counter i ;;
    faces1 <- wr2 faces counter 0 left_rank ;;
    faces2 <- wr2 faces1 counter 4 right_rank ;;
    let ng' := if negb (left_rank =? right_rank) then ng + 1 else ng in
    faces3 <- wr2 faces2 counter 1 (search_for_local_ID eL l2g_elem) ;;
    faces4 <- wr2 faces3 counter 5 (search_for_local_ID eR l2g_elem) ;;
    faces5 <- foreach [1; 2] (fun j faces =>
                vL <- rd2 (gm_IF m) i j ;;
                f1 <- wr2 faces counter (j + 1) vL ;;
                vR <- rd2 (gm_IF m) i (j + 3) ;;
                wr2 f1 counter (j + 5) vR) faces4 ;;
    Ok (counter + 1, ng', l2g', faces5)
  else Ok s.

(** src/mesh/mesh.cpp 399-429. *)
Definition fill_faces {A} (m : gmesh A) (ep : list Z) (rank num_ifaces_part : Z) (l2g_elem : list Z)
  : res ff_state :=
  zfor (gm_nIF m) (fill_face_step m ep rank l2g_elem)
    (0, 0, vec num_ifaces_part 0, vec num_ifaces_part (vec 8 0)).

(** src/mesh/mesh.cpp 447-453, 460-466, 497-502, 507-512: position of a rank in
    the neighbour list; [None] when the loop ends without assigning [index]. *)
Fixpoint neighbor_index_from (r : Z) (nbrs : list Z) (j : Z) : option Z :=
  match nbrs with
  | [] => None
  | x :: t => if x =? r then Some j else neighbor_index_from r t (j + 1)
  end.

Definition neighbor_index (r : Z) (nbrs : list Z) : res Z :=
  match neighbor_index_from r nbrs 0 with
  | Some j => Ok j
  | None => Fail Uninitialised
  end.

(** The rank on the other side of a ghost face row: src/mesh/mesh.cpp 440-469,
    489-513.  When the rank is on neither side the first loop (431-471) does
    nothing ([None]); the second would use [index] uninitialised. *)
Definition other_rank (rank : Z) (row : list Z) : res (option Z) :=
  rank_L <- rd row 0 ;;
  rank_R <- rd row 4 ;;
  if rank =? rank_L then Ok (Some rank_R)
  else if rank =? rank_R then Ok (Some rank_L)
  else Ok None.

(** src/mesh/mesh.cpp 431-471: h_num_faces_per_rank_boundary. *)
Definition count_boundary (rank : Z) (ghosts l2g_iface : list Z) (faces : list (list Z))
  (nbrs : list Z) (num_nbrs : Z) : res (list Z) :=
  foreach ghosts (fun g counts =>
    let face_ID := search_for_local_ID g l2g_iface in
    if negb (face_ID =? UINT_MAX) then
      row <- rd faces face_ID ;;
      o <- other_rank rank row ;;
      match o with
      | Some r => index <- neighbor_index r nbrs ;; c <- rd counts index ;; wr counts index (c + 1)
      | None => Ok counts
      end
    else Ok counts) (vec num_nbrs 0).

(** src/mesh/mesh.cpp 473-525: allocate and fill ghost_faces.  State:
    gface_counter, ghost_faces. *)
Definition fill_ghosts (rank : Z) (ghosts l2g_iface : list Z) (faces : list (list Z))
  (nbrs : list Z) (num_nbrs : Z) (counts : list Z) : res (list (list Z)) :=
  alloc <- zfor num_nbrs (fun i acc => c <- rd counts i ;; Ok (acc ++ [vec c 0])) [] ;;
  '(_, gf) <- foreach ghosts (fun g '(gcount, gf) =>
    let face_ID := search_for_local_ID g l2g_iface in
    if negb (face_ID =? UINT_MAX) then
      row <- rd faces face_ID ;;
      o <- other_rank rank row ;;
      index <- (match o with Some r => neighbor_index r nbrs | None => Fail Uninitialised end) ;;
      c <- rd gcount index ;;
      gf' <- wr2 gf index c g ;;
      gcount' <- wr gcount index (c + 1) ;;
      Ok (gcount', gf')
    else Ok (gcount, gf)) (vec num_nbrs 0, alloc) ;;
  Ok gf.

(** The partitioned mesh of one rank: src/mesh/mesh.h 236-302. *)
Record pmesh (A : Type) := mkPMesh {
  pm_num_elems_part : Z;
  pm_num_nodes_part : Z;
  pm_num_ifaces_part : Z;
  pm_num_gfaces_part : Z;
  pm_num_neighbor_ranks : Z;
  pm_neighbor_ranks : list Z;
  pm_l2g_elem : list Z;
  pm_l2g_node : list Z;
  pm_l2g_iface : list Z;
  pm_elem_to_node : list (list Z);
  pm_node_coords : list (list A);
  pm_interior_faces : list (list Z);
  pm_num_faces_per_rank_boundary : list Z;
  pm_ghost_faces : list (list Z)
}.
Arguments mkPMesh {A}.
Arguments pm_num_elems_part {A}. Arguments pm_num_nodes_part {A}.
Arguments pm_num_ifaces_part {A}. Arguments pm_num_gfaces_part {A}.
Arguments pm_num_neighbor_ranks {A}. Arguments pm_neighbor_ranks {A}.
Arguments pm_l2g_elem {A}. Arguments pm_l2g_node {A}. Arguments pm_l2g_iface {A}.
Arguments pm_elem_to_node {A}. Arguments pm_node_coords {A}.
Arguments pm_interior_faces {A}. Arguments pm_num_faces_per_rank_boundary {A}.
Arguments pm_ghost_faces {A}.

(** src/mesh/mesh.cpp 283-525 of [Mesh::partition]: everything between the
    METIS call and the diagnostic printing.  [ep] is elem_partition (METIS
    output or all zero); [iter] is the iteration order of this rank's
    unordered_set (361-366). *)
Definition partition_tables {A} (zero : A) (iter : list Z -> list Z)
  (num_partitions num_ranks rank : Z) (m : gmesh A) (ep : list Z) : res (pmesh A) :=
  sizes <- count_elems num_partitions ep ;;
  num_elems_part <- rd sizes rank ;;
  ids <- collect_nodes m ep rank ;;
  let num_nodes_part := zlen ids in
  '(fsizes, ghosts, sets) <- count_faces m ep num_partitions num_ranks ;;
  num_ifaces_part <- rd fsizes rank ;;
  myset <- rd sets rank ;;
  let num_nbrs := zlen myset in
  '(_, nbrs) <- foreach (iter myset) (fun r '(counter, nb) =>
                  nb' <- wr nb counter r ;; Ok (counter + 1, nb')) (0, vec num_nbrs 0) ;;
  '(l2g_elem, e2n) <- fill_elems m ep rank num_elems_part ids ;;
  '(l2g_node, xy) <- fill_nodes zero m num_nodes_part ids ;;
  '(_, ng, l2g_iface, faces) <- fill_faces m ep rank num_ifaces_part l2g_elem ;;
  counts <- count_boundary rank ghosts l2g_iface faces nbrs num_nbrs ;;
  gf <- fill_ghosts rank ghosts l2g_iface faces nbrs num_nbrs counts ;;
  Ok (mkPMesh num_elems_part num_nodes_part num_ifaces_part ng num_nbrs nbrs
        l2g_elem l2g_node l2g_iface e2n xy faces counts gf).

(** src/mesh/mesh.cpp 539-546: the "CHECK VIEW" print of three rows; returns the
    printed values. *)
Definition check_view (faces : list (list Z)) : res (list Z) :=
  zfor 3 (fun i out => zfor 8 (fun j out => v <- rd2 faces i j ;; Ok (out ++ [v])) out) [].

(** src/mesh/mesh.cpp 227-578 [Mesh::partition] after METIS. *)
Definition partition {A} (zero : A) (iter : list Z -> list Z)
  (num_partitions num_ranks rank : Z) (m : gmesh A) (ep : list Z) : res (pmesh A) :=
  pm <- partition_tables zero iter num_partitions num_ranks rank m ep ;;
  _ <- check_view (pm_interior_faces pm) ;;
  Ok pm.

(** src/mesh/mesh.cpp 236-281: elem_partition as produced for a given number of
    partitions; [metis] is the METIS oracle, [None] meaning an error return. *)
Definition elem_partition_of {A} (metis : gmesh A -> Z -> option (list Z))
  (num_partitions : Z) (m : gmesh A) : res (list Z) :=
  if 1 <? num_partitions then
    match metis m num_partitions with
    | Some ep => Ok ep
    | None => Fail Thrown
    end
  else Ok (vec (gm_num_elems m) 0).

(** src/mesh/mesh.cpp 37-43: the number of partitions.  The key is looked up at
    the top level of the input ([top_has]) but read from the [Mesh] table
    ([mesh_value]); toml::find throws when it is absent there. *)
Definition num_partitions_of (top_has : bool) (mesh_value : option Z) (num_ranks : Z) : res Z :=
  if top_has then match mesh_value with Some v => Ok v | None => Fail Thrown end
  else Ok num_ranks.
