(** IOModel.v -- model of the parallel datasets (src/io/HDF5Wrapper.h), the
    solution writer (src/io/writer.cpp), the solution reader (src/io/reader.h),
    the restart (src/solver/base.cpp 233-279) and the converter
    (src/converter/main.cpp).

    HDF5 itself and MPI's collectives are modelled by what they are specified
    to do: a dataset is an array in the file, a hyperslab write or read copies
    a contiguous range (and fails when the range is outside the dataset), an
    attribute is a value.  All ranks of a collective call appear together as a
    list with one entry per rank (entry [r] is rank [r]).  hsize_t (64 bits) is
    taken as unbounded; casts to 32 bits are modelled.  [A] is the type of the
    floating point numbers, which this code only copies. *)
From Coq Require Import ZArith List Lia Bool.
From Verif Require Import Base MeshModel.
Import ListNotations.
Local Open Scope Z_scope.
Open Scope res_scope.

(** static_cast to unsigned and to int *)
Definition u32 (z : Z) : Z := z mod 2 ^ 32.
Definition int32 (z : Z) : Z := (z + 2 ^ 31) mod 2 ^ 32 - 2 ^ 31.

(** One result per element of a list, failing if one fails. *)
Fixpoint mapM {X Y} (f : X -> res Y) (l : list X) : res (list Y) :=
  match l with
  | [] => Ok []
  | x :: t => y <- f x ;; ys <- mapM f t ;; Ok (y :: ys)
  end.

(** std::accumulate(dims, 1, multiplies) *)
Definition prodZ (l : list Z) : Z := fold_left Z.mul l 1.

(** What one rank passes to create_and_write_parallel_dataset. *)
Record block (A : Type) := mkBlock { b_dims : list Z; b_data : list A }.
Arguments mkBlock {A}. Arguments b_dims {A}. Arguments b_data {A}.

(** A parallel dataset in the file: 'name', 'name_offsets' with its three
    attributes, 'name_dims' (HDF5Wrapper.h 682-697). *)
Record pdataset (A : Type) := mkPD {
  pd_data : list A;
  pd_offsets : list Z;
  pd_nDims : Z;
  pd_nRanks : Z;
  pd_totalSize : Z;
  pd_dims : list Z
}.
Arguments mkPD {A}. Arguments pd_data {A}. Arguments pd_offsets {A}. Arguments pd_nDims {A}.
Arguments pd_nRanks {A}. Arguments pd_totalSize {A}. Arguments pd_dims {A}.

(** H5Dwrite / H5Dread of the hyperslab [off, off + n). *)
Definition slab_write {A} (dst : list A) (off n : Z) (src : list A) : res (list A) :=
  zfor n (fun i d => v <- rd src i ;; wr d (off + i) v) dst.
Definition slab_read {A} (src : list A) (off n : Z) : res (list A) :=
  mapM (fun i => rd src (off + i)) (zseq n).

(** MPI_Scan with MPI_SUM *)
Fixpoint scan (acc : Z) (l : list Z) : list Z :=
  match l with [] => [] | x :: t => (acc + x) :: scan (acc + x) t end.

Definition sumL (l : list Z) : Z := fold_left Z.add l 0.

(** dims.size(), or 1 for an empty list (868-871) *)
Definition ndims (dims : list Z) : Z := if zlen dims =? 0 then 1 else zlen dims.

(** create_and_write_parallel_dataset, HDF5Wrapper.h 778-896, of a file opened
    in parallel mode by [zlen bs] ranks.  [order]: the order in which the
    ranks' independent writes reach the file. *)
Definition write_parallel {A} (zero : A) (order : list Z) (bs : list (block A)) : res (pdataset A) :=
  let n := zlen bs in
  let sizes := map (fun b => prodZ (b_dims b)) bs in
  let total := sumL sizes in
  let offsets := map (fun p => fst p - snd p) (combine (scan 0 sizes) sizes) in
  data <- foreach order (fun r d =>
            b <- rd bs r ;; off <- rd offsets r ;;
            slab_write d off (prodZ (b_dims b)) (b_data b)) (vec total zero) ;;
  b0 <- rd bs 0 ;;
  let nd := ndims (b_dims b0) in
  dims <- mapM (fun b => if ndims (b_dims b) =? nd then mapM (rd (b_dims b)) (zseq nd)
                         else Fail Aborted) bs ;;
  Ok (mkPD data offsets nd n total (concat dims)).

(** The same function when the file was opened in serial mode. *)
Definition write_serial {A} (zero : A) (b : block A) : res (pdataset A) :=
  let sz := prodZ (b_dims b) in
  data <- slab_write (vec sz zero) 0 sz (b_data b) ;;
  Ok (mkPD data [0] (ndims (b_dims b)) 1 sz (b_dims b)).

(** read_dims_of_parallel_dataset, 908-944, on rank [r] of [n]. *)
Definition read_dims {A} (parallel : bool) (n : Z) (f : pdataset A) (r : Z) : res (list Z) :=
  if pd_nRanks f =? (if parallel then n else 1) then
    if parallel then slab_read (pd_dims f) (r * pd_nDims f) (pd_nDims f)
    else Ok (pd_dims f)
  else Fail Aborted.

(** read_offset_of_parallel_dataset, 981-996 *)
Definition read_offset {A} (parallel : bool) (f : pdataset A) (r : Z) : res Z :=
  if parallel then rd (pd_offsets f) r else Ok 0.

(** open_and_read_parallel_dataset, 699-775 *)
Definition read_parallel {A} (parallel : bool) (n : Z) (f : pdataset A) (r : Z)
  : res (list A * list Z) :=
  dims <- read_dims parallel n f r ;;
  off <- read_offset parallel f r ;;
  if pd_totalSize f =? zlen (pd_data f) then
    data <- slab_read (pd_data f) off (prodZ dims) ;; Ok (data, dims)
  else Fail Aborted.

(** ** The solution file *)

(** What Writer::write receives on one rank (writer.cpp 10-33). *)
Record winput (A : Type) := mkWI {
  wi_num_ranks : Z; wi_dim : Z; wi_num_elems : Z; wi_num_nodes : Z; wi_npe : Z;
  wi_nb : Z; wi_ns : Z; wi_time : A; wi_nep : Z; wi_layout : bool;
  wi_coords : block A; wi_l2gn : block Z; wi_e2n : block Z; wi_l2ge : block Z; wi_Uc : block A
}.
Arguments mkWI {A}.
Arguments wi_num_ranks {A}. Arguments wi_dim {A}. Arguments wi_num_elems {A}. Arguments wi_num_nodes {A}.
Arguments wi_npe {A}. Arguments wi_nb {A}. Arguments wi_ns {A}. Arguments wi_time {A}. Arguments wi_nep {A}.
Arguments wi_layout {A}. Arguments wi_coords {A}. Arguments wi_l2gn {A}. Arguments wi_e2n {A}.
Arguments wi_l2ge {A}. Arguments wi_Uc {A}.

Record solfile (A : Type) := mkSF {
  sf_num_ranks : Z; sf_dim : Z; sf_num_elems : Z; sf_num_nodes : Z; sf_npe : Z;
  sf_nb : Z; sf_ns : Z; sf_time : A; sf_neps : list Z; sf_layout : bool;
  sf_coords : pdataset A; sf_l2gn : pdataset Z; sf_e2n : pdataset Z; sf_l2ge : pdataset Z;
  sf_Uc : pdataset A
}.
Arguments mkSF {A}.
Arguments sf_num_ranks {A}. Arguments sf_dim {A}. Arguments sf_num_elems {A}. Arguments sf_num_nodes {A}.
Arguments sf_npe {A}. Arguments sf_nb {A}. Arguments sf_ns {A}. Arguments sf_time {A}. Arguments sf_neps {A}.
Arguments sf_layout {A}. Arguments sf_coords {A}. Arguments sf_l2gn {A}. Arguments sf_e2n {A}.
Arguments sf_l2ge {A}. Arguments sf_Uc {A}.

(** Writer::write, writer.cpp 36-61, by all ranks together.  The attributes are
    collective writes of values that agree on all ranks; the model takes the
    head rank's.  [order k]: arrival order of the writes of the k-th dataset. *)
Definition write_file {A} (zero : A) (order : Z -> list Z) (ws : list (winput A)) : res (solfile A) :=
  w0 <- rd ws 0 ;;
  coords <- write_parallel zero (order 0) (map wi_coords ws) ;;
  l2gn <- write_parallel 0 (order 1) (map wi_l2gn ws) ;;
  e2n <- write_parallel 0 (order 2) (map wi_e2n ws) ;;
  l2ge <- write_parallel 0 (order 3) (map wi_l2ge ws) ;;
  Uc <- write_parallel zero (order 4) (map wi_Uc ws) ;;
  Ok (mkSF (wi_num_ranks w0) (wi_dim w0) (wi_num_elems w0) (wi_num_nodes w0) (wi_npe w0)
        (wi_nb w0) (wi_ns w0) (wi_time w0) (map wi_nep ws) (wi_layout w0) coords l2gn e2n l2ge Uc).

(** Writer::write with parallel = false: only the head rank writes. *)
Definition write_file_serial {A} (zero : A) (w : winput A) : res (solfile A) :=
  coords <- write_serial zero (wi_coords w) ;;
  l2gn <- write_serial 0 (wi_l2gn w) ;;
  e2n <- write_serial 0 (wi_e2n w) ;;
  l2ge <- write_serial 0 (wi_l2ge w) ;;
  Uc <- write_serial zero (wi_Uc w) ;;
  Ok (mkSF (wi_num_ranks w) (wi_dim w) (wi_num_elems w) (wi_num_nodes w) (wi_npe w)
        (wi_nb w) (wi_ns w) (wi_time w) [wi_nep w] (wi_layout w) coords l2gn e2n l2ge Uc).

(** Memory of a contiguous view: [right] = LayoutRight (host builds), else
    LayoutLeft (GPU builds).  Position of entry (i, j) / (i, j, k). *)
Definition unpos2 (right : bool) (e0 e1 p : Z) : Z * Z :=
  if right then (p / e1, p mod e1) else (p mod e0, p / e0).
Definition unpos3 (right : bool) (e0 e1 e2 p : Z) : Z * Z * Z :=
  if right then (p / (e1 * e2), (p / e2) mod e1, p mod e2)
  else (p mod e0, (p / e0) mod e1, p / (e0 * e1)).
(** view.data() of a 2D view held as a list of rows, and of a 3D view. *)
Definition data2 {A} (right : bool) (e0 e1 : Z) (rows : list (list A)) : res (list A) :=
  mapM (fun p => let '(i, j) := unpos2 right e0 e1 p in rd2 rows i j) (zseq (e0 * e1)).
Definition data3 {A} (right : bool) (e0 e1 e2 : Z) (U : Z -> Z -> Z -> A) : list A :=
  map (fun p => let '(i, j, k) := unpos3 right e0 e1 e2 p in U i j k) (zseq (e0 * e1 * e2)).

(** Writer::Writer(name, mesh, network, h_Uc, nb, ns, time), writer.cpp 66-97,
    on a rank whose mesh tables are [p]. *)
Definition writer_input {A} (right : bool) (n : Z) (m : gmesh A) (nb ns : Z) (time : A)
  (p : pmesh A) (U : Z -> Z -> Z -> A) : res (winput A) :=
  coords <- data2 right (pm_num_nodes_part p) (gm_dim m) (pm_node_coords p) ;;
  e2n <- data2 right (pm_num_elems_part p) (gm_npe m) (pm_elem_to_node p) ;;
  Ok (mkWI n (gm_dim m) (gm_num_elems m) (gm_num_nodes m) (gm_npe m) nb ns time
        (pm_num_elems_part p) right
        (mkBlock [pm_num_nodes_part p; gm_dim m] coords)
        (mkBlock [pm_num_nodes_part p] (pm_l2g_node p))
        (mkBlock [pm_num_elems_part p; gm_npe m] e2n)
        (mkBlock [pm_num_elems_part p] (pm_l2g_elem p))
        (mkBlock [pm_num_elems_part p; nb; ns] (data3 right (pm_num_elems_part p) nb ns U))).

(** ** Restart: Solver::read_in_coefficients, solver/base.cpp 233-279 *)

(** Writing entry (i, j, k) of h_Uc. *)
Definition put3 {A} (U : Z -> Z -> Z -> A) (i j k : Z) (v : A) : Z -> Z -> Z -> A :=
  fun i' j' k' => if (i' =? i) && (j' =? j) && (k' =? k) then v else U i' j' k'.

(** The part of the solver's state the function concerns. *)
Record sstate (A : Type) := mkSS { ss_time : A; ss_Uc : Z -> Z -> Z -> A }.
Arguments mkSS {A}. Arguments ss_time {A}. Arguments ss_Uc {A}.

(** The indices into [buff] are computed in unsigned arithmetic.  [h0]: what
    the freshly resized host mirror holds. *)
Definition read_in_coefficients {A} (n r : Z) (f : solfile A) (h0 : Z -> Z -> Z -> A)
  (s : sstate A) : res (sstate A) :=
  ne <- rd (sf_neps f) r ;;
  let nb := sf_nb f in
  let ns := sf_ns f in
  let file_time := sf_time f in
  '(buff, _) <- read_parallel true n (sf_Uc f) r ;;
  h <- (if sf_layout f then
          zfor ne (fun i => zfor nb (fun j => zfor ns (fun k h =>
            v <- rd buff (u32 (i * nb * ns + j * ns + k)) ;; Ok (put3 h i j k v)))) h0
        else
          zfor ns (fun i => zfor nb (fun j => zfor ne (fun k h =>
            v <- rd buff (u32 (i * nb * ne + j * ne + k)) ;; Ok (put3 h k j i v)))) h0) ;;
  Ok (mkSS (ss_time s) h).

(** ** Reader and converter *)

(** Reader::parallel_dataset (reader.h 12-26); the last two only on the head
    rank. *)
Record rset (A : Type) := mkRS {
  rs_data : list A; rs_dims : list Z; rs_total : Z; rs_offsets : list Z; rs_sizes : list Z
}.
Arguments mkRS {A}. Arguments rs_data {A}. Arguments rs_dims {A}. Arguments rs_total {A}.
Arguments rs_offsets {A}. Arguments rs_sizes {A}.

(** populate_parallel_dataset, reader.h 175-193, on rank [r] of [n]. *)
Definition populate {A} (n : Z) (f : pdataset A) (r : Z) : res (rset A) :=
  '(data, dims) <- read_parallel true n f r ;;
  if r =? 0 then
    let offs := pd_offsets f in
    let cnt := zlen offs in
    sizes <- zfor (cnt - 1) (fun i sz =>
               a <- rd offs i ;; b <- rd offs (i + 1) ;; wr sz i (int32 (b - a))) (vec cnt 0) ;;
    last <- rd offs (cnt - 1) ;;
    sizes <- wr sizes (cnt - 1) (int32 (pd_totalSize f - last)) ;;
    Ok (mkRS data dims (pd_totalSize f) offs sizes)
  else Ok (mkRS data dims (pd_totalSize f) [] []).

(** MPI_Gatherv into the head rank's buffer; a count that differs from what
    the rank sends, or a negative one, is an MPI error. *)
Definition gatherv {A} (order : list Z) (sizes offs : list Z) (sent : list (list A)) (buf : list A)
  : res (list A) :=
  foreach order (fun r b =>
    d <- rd sent r ;; sz <- rd sizes r ;; off <- rd offs r ;;
    if (sz =? zlen d) && (0 <=? off) then slab_write b off sz d else Fail Aborted) buf.

(** serialize_dataset, reader.h 196-233: the head rank's result. *)
Definition serialize_dataset {A} (zero : A) (order : list Z) (rs : list (rset A)) : res (rset A) :=
  h <- rd rs 0 ;;
  buf <- gatherv order (rs_sizes h) (map int32 (rs_offsets h)) (map rs_data rs)
           (vec (rs_total h) zero) ;;
  dims <- (match rs_dims h with
           | [] => Fail OutOfBounds
           | _ :: t => d0 <- foreach t (fun d acc => if d =? 0 then Fail BadArith else Ok (acc / d))
                              (rs_total h) ;;
                       Ok (d0 :: t)
           end) ;;
  Ok (mkRS buf dims (zlen buf) [0] [int32 (zlen buf)]).

(** Row [index] of [dst] := row [i] of [src]; rows of width [w]. *)
Definition copy_row {A} (w : Z) (src : list A) (i index : Z) (dst : list A) : res (list A) :=
  zfor w (fun k d => v <- rd src (i * w + k) ;; wr d (index * w + k) v) dst.

(** std::max_element; dereferencing end() of an empty range is an error. *)
Definition max_element (l : list Z) : res Z :=
  match l with [] => Fail OutOfBounds | x :: t => Ok (fold_left Z.max t x) end.

(** std::vector::resize *)
Definition resize {A} (l : list A) (n : Z) (d : A) : list A :=
  firstn (Z.to_nat n) l ++ repeat d (Z.to_nat n - length l).

(** The head rank's Reader after the constructor. *)
Record reader (A : Type) := mkRd {
  rdr_num_ranks : Z; rdr_dim : Z; rdr_num_elems : Z; rdr_num_nodes : Z; rdr_npe : Z;
  rdr_nb : Z; rdr_ns : Z; rdr_time : A; rdr_layout : bool; rdr_nep : Z;
  rdr_coords : rset A; rdr_l2gn : rset Z; rdr_e2n : rset Z; rdr_l2ge : rset Z; rdr_Uc : rset A
}.
Arguments mkRd {A}.
Arguments rdr_num_ranks {A}. Arguments rdr_dim {A}. Arguments rdr_num_elems {A}. Arguments rdr_num_nodes {A}.
Arguments rdr_npe {A}. Arguments rdr_nb {A}. Arguments rdr_ns {A}. Arguments rdr_time {A}.
Arguments rdr_layout {A}. Arguments rdr_nep {A}. Arguments rdr_coords {A}. Arguments rdr_l2gn {A}.
Arguments rdr_e2n {A}. Arguments rdr_l2ge {A}. Arguments rdr_Uc {A}.

(** reader.h 66-91: element quantities put in global order. *)
Definition sort_elements {A} (l2ge e2n : rset Z) (Uc : rset A) : res (list Z * list Z * list A) :=
  we <- rd (rs_dims e2n) 1 ;;
  u1 <- rd (rs_dims Uc) 1 ;; u2 <- rd (rs_dims Uc) 2 ;;
  zfor (zlen (rs_data l2ge)) (fun i s =>
    let '(ids, en, uc) := s in
    index <- rd ids i ;;
    ids <- wr ids i (u32 i) ;;
    en <- copy_row we (rs_data e2n) i index en ;;
    uc <- copy_row (u1 * u2) (rs_data Uc) i index uc ;;
    Ok (ids, en, uc)) (rs_data l2ge, rs_data e2n, rs_data Uc).

(** reader.h 93-114: node quantities, duplicates removed. *)
Definition sort_nodes {A} (zero : A) (l2gn : rset Z) (coords : rset A) : res (rset Z * rset A) :=
  mx <- max_element (rs_data l2gn) ;;
  let uniq := u32 (1 + mx) in
  wc <- rd (rs_dims coords) 1 ;;
  cdims <- wr (rs_dims coords) 0 uniq ;;
  ndims <- wr (rs_dims l2gn) 0 uniq ;;
  '(ids, cp) <- zfor (zlen (rs_data l2gn)) (fun i s =>
      let '(ids, cp) := s in
      index <- rd ids i ;;
      ids <- wr ids i (u32 i) ;;
      cp <- copy_row wc (rs_data coords) i index cp ;;
      Ok (ids, cp)) (rs_data l2gn, vec (uniq * wc) zero) ;;
  let ids := resize ids uniq 0 in
  Ok (mkRS ids ndims uniq (rs_offsets l2gn) [int32 uniq],
      mkRS cp cdims (zlen cp) (rs_offsets coords) [int32 (zlen cp)]).

(** Reader(filename, true) by [n] ranks: reader.h 29-116 and 145-172.
    [order k]: arrival order in the k-th MPI_Gatherv. *)
Definition reader_serialize {A} (zero : A) (n : Z) (order : Z -> list Z) (f : solfile A)
  : res (reader A) :=
  if negb (sf_num_ranks f =? n) then Fail Aborted else
  nep0 <- rd (sf_neps f) 0 ;;
  coords <- mapM (populate n (sf_coords f)) (zseq n) ;;
  l2gn <- mapM (populate n (sf_l2gn f)) (zseq n) ;;
  e2n <- mapM (populate n (sf_e2n f)) (zseq n) ;;
  l2ge <- mapM (populate n (sf_l2ge f)) (zseq n) ;;
  Uc <- mapM (populate n (sf_Uc f)) (zseq n) ;;
  if 1 <? n then
    let nep := u32 (sumL (sf_neps f)) in
    e2n <- mapM (fun r =>
             c <- rd e2n r ;; t <- rd l2gn r ;;
             d <- mapM (rd (rs_data t)) (rs_data c) ;;
             Ok (mkRS d (rs_dims c) (rs_total c) (rs_offsets c) (rs_sizes c))) (zseq n) ;;
    coords <- serialize_dataset zero (order 0) coords ;;
    l2gn <- serialize_dataset 0 (order 1) l2gn ;;
    e2n <- serialize_dataset 0 (order 2) e2n ;;
    l2ge <- serialize_dataset 0 (order 3) l2ge ;;
    Uc <- serialize_dataset zero (order 4) Uc ;;
    '(ids, en, uc) <- sort_elements l2ge e2n Uc ;;
    '(l2gn, coords) <- sort_nodes zero l2gn coords ;;
    Ok (mkRd 1 (sf_dim f) (sf_num_elems f) (sf_num_nodes f) (sf_npe f) (sf_nb f) (sf_ns f)
          (sf_time f) (sf_layout f) nep coords l2gn
          (mkRS en (rs_dims e2n) (rs_total e2n) (rs_offsets e2n) (rs_sizes e2n))
          (mkRS ids (rs_dims l2ge) (rs_total l2ge) (rs_offsets l2ge) (rs_sizes l2ge))
          (mkRS uc (rs_dims Uc) (rs_total Uc) (rs_offsets Uc) (rs_sizes Uc)))
  else
    coords <- rd coords 0 ;; l2gn <- rd l2gn 0 ;; e2n <- rd e2n 0 ;; l2ge <- rd l2ge 0 ;;
    Uc <- rd Uc 0 ;;
    Ok (mkRd (sf_num_ranks f) (sf_dim f) (sf_num_elems f) (sf_num_nodes f) (sf_npe f) (sf_nb f)
          (sf_ns f) (sf_time f) (sf_layout f) nep0 coords l2gn e2n l2ge Uc).

(** Writer(name, reader, false), writer.cpp 100-129, and converter/main.cpp
    20-27. *)
Definition reader_input {A} (d : reader A) : winput A :=
  mkWI (rdr_num_ranks d) (rdr_dim d) (rdr_num_elems d) (rdr_num_nodes d) (rdr_npe d) (rdr_nb d)
    (rdr_ns d) (rdr_time d) (rdr_nep d) (rdr_layout d)
    (mkBlock (rs_dims (rdr_coords d)) (rs_data (rdr_coords d)))
    (mkBlock (rs_dims (rdr_l2gn d)) (rs_data (rdr_l2gn d)))
    (mkBlock (rs_dims (rdr_e2n d)) (rs_data (rdr_e2n d)))
    (mkBlock (rs_dims (rdr_l2ge d)) (rs_data (rdr_l2ge d)))
    (mkBlock (rs_dims (rdr_Uc d)) (rs_data (rdr_Uc d))).

Definition convert {A} (zero : A) (n : Z) (order : Z -> list Z) (f : solfile A) : res (solfile A) :=
  d <- reader_serialize zero n order f ;; write_file_serial zero (reader_input d).
