(** QuadModel.v -- model of src/numerics/nodes.cpp, src/numerics/quadrature/*.cpp
    and the equidistant nodes of src/numerics/basis/tools.cpp. *)
From Coq Require Import ZArith List Lia Reals Lra.
From Verif Require Import Base RBase QuadTables.
Import ListNotations.
Local Open Scope R_scope.
Open Scope res_scope.

(** The number written in the source for a table entry (see QuadTables.v). *)
Definition lit (z : Z) : R := IZR z / 10 ^ 36.

(** The assignments pts(k) = v of one switch case, bounds checked. *)
Definition assign (l : list (Z * Z)) (v : list Z) : res (list Z) :=
  foreach l (fun kv v => wr v (fst kv) (snd kv)) v.

(** nodes.cpp 97-502.  [pts]: the array before the call. *)
Definition get_gauss_legendre_segment_nodes (order : Z) (pts : list Z) : res (list Z) :=
  assign (gl_node_assignments order) pts.

(** quadrature/segment.cpp 7-411. *)
Definition get_segment_weights_gl (order : Z) (wts : list Z) : res (list Z) :=
  assign (gl_weight_assignments order) wts.

(** quadrature/segment.cpp 413-422; [pts] is column 0 of quad_pts.  nq_1d is not
    used by the C++ function either. *)
Definition segment_quadrature (order : Z) (pts wts : list Z) : res (list Z * list Z) :=
  pts' <- get_gauss_legendre_segment_nodes order pts ;;
  wts' <- get_segment_weights_gl order wts ;;
  Ok (pts', wts').

(** quadrature/tools.cpp 7-17 *)
Definition get_gausslegendre_quadrature_order (order : Z) : Z :=
  let gorder := 1%Z in (2 * (order + gorder) + 1)%Z.

(** quadrature/segment.cpp 424-426 and quadrilateral.cpp 36-41 *)
Definition segment_gl_order (order : Z) : Z := (2 * order + 1)%Z.
Definition quadrilateral_gl_order (order : Z) : Z := (segment_gl_order order + 2)%Z.

(** quadrature/tools.cpp 20-24.  [nq0]: value of nq_1d before the call.  C++ [/]
    and [%] truncate; pow of small integers is exact. *)
Definition get_number_of_quadrature_points (order NDIMS nq0 : Z) : Z * Z :=
  let nq1 := if (Z.rem (order + 2) 2 =? 0)%Z then Z.quot (order + 2) 2 else nq0 in
  let nq1 := if (Z.rem (order + 1) 2 =? 0)%Z then Z.quot (order + 1) 2 else nq1 in
  (nq1, nq1 ^ NDIMS)%Z.

(** The real numbers in an array of table entries. *)
Definition arr_of (l : list Z) : arr1 := fun i => lit (nth (Z.to_nat i) l 0%Z).

(** quadrilateral.cpp 25-33: the tensor loops. *)
Definition quad_tensor (nq : Z) (x w : arr1) (pts : arr2) (wts : arr1) : arr2 * arr1 :=
  zloop nq (fun j s => zloop nq (fun i s =>
    let pts := upd2 (fst s) (j * nq + i) 0 (x i) in
    let pts := upd2 pts (j * nq + i) 1 (x j) in
    let wts := upd1 (snd s) (j * nq + i) (w i * w j) in
    (pts, wts)) s) (pts, wts).

(** hexahedron.cpp 25-34 *)
Definition hex_tensor (nq : Z) (x w : arr1) (pts : arr2) (wts : arr1) : arr2 * arr1 :=
  zloop nq (fun k s => zloop nq (fun j s => zloop nq (fun i s =>
    let q := (k * nq * nq + j * nq + i)%Z in
    let pts := upd2 (fst s) q 0 (x i) in
    let pts := upd2 pts q 1 (x j) in
    let pts := upd2 pts q 2 (x k) in
    let wts := upd1 (snd s) q (w i * w j * w k) in
    (pts, wts)) s) s) (pts, wts).

(** quadrilateral.cpp 7-34.  The 1D arrays are fresh views (zero filled) of
    length nq_1d. *)
Definition quadrilateral_quadrature (order nq : Z) (pts : arr2) (wts : arr1) : res (arr2 * arr1) :=
  s <- segment_quadrature order (vec nq 0%Z) (vec nq 0%Z) ;;
  Ok (quad_tensor nq (arr_of (fst s)) (arr_of (snd s)) pts wts).

(** hexahedron.cpp 6-36. *)
Definition hexahedron_quadrature (order nq : Z) (pts : arr2) (wts : arr1) : res (arr2 * arr1) :=
  s <- segment_quadrature order (vec nq 0%Z) (vec nq 0%Z) ;;
  Ok (hex_tensor nq (arr_of (fst s)) (arr_of (snd s)) pts wts).

(** nodes.cpp 21-35 *)
Definition get_equidistant_nodes_segment (order : Z) (xref : arr1) : arr1 :=
  if (order =? 0)%Z then upd1 xref 0 0
  else
    let dx := 2 / IZR order in
    fst (zloop (order + 1) (fun i s => (upd1 (fst s) i (snd s), snd s + dx)) (xref, -1)).

(** nodes.cpp 48-61; the local 1D view is zero filled. *)
Definition get_equidistant_nodes_quadrilateral (order : Z) (xref : arr2) : arr2 :=
  let n := (order + 1)%Z in
  let x := get_equidistant_nodes_segment order (fun _ => 0) in
  zloop n (fun j s => zloop n (fun i s =>
    upd2 (upd2 s (j * n + i) 0 (x i)) (j * n + i) 1 (x j)) s) xref.

(** nodes.cpp 75-94 *)
Definition get_equidistant_nodes_hexahedron (order : Z) (xref : arr2) : arr2 :=
  let n := (order + 1)%Z in
  let x := get_equidistant_nodes_segment order (fun _ => 0) in
  zloop n (fun k s => zloop n (fun j s => zloop n (fun i s =>
    let q := (k * n * n + j * n + i)%Z in
    upd2 (upd2 (upd2 s q 0 (x i)) q 1 (x j)) q 2 (x k)) s) s) xref.

(** basis/tools.cpp 8-25 *)
Definition equidistant_nodes_1D_range (start stop : R) (nnodes : Z) (x : arr1) : arr1 :=
  if (nnodes <=? 1)%Z then upd1 x 0 0
  else
    let dx := (stop - start) / (IZR nnodes - 1) in
    zloop nnodes (fun i x => upd1 x i (start + IZR i * dx)) x.
