(** ShapeModel.v -- model of src/numerics/basis/shape.cpp, of
    BasisTools::extract_node_coordinates (basis/tools.cpp 27-40), of
    Basis::get_face_basis_ref_grad_for_normals (basis/basis.cpp 306-341) and of
    the body of InteriorFaceHelperFunctor::precompute_normals for one face
    (solver/helpers.cpp 380-500).

    Views of int are functions Z -> Z; int overflow is not modelled.  A thrown
    exception is [Fail Thrown]. *)
From Coq Require Import ZArith List Lia Reals Lra Bool.
From Verif Require Import Base RBase LinAlgModel QuadModel BasisModel.
Import ListNotations.
Local Open Scope R_scope.
Open Scope res_scope.

Definition iarr := Z -> Z.
Definition updi (a : iarr) (i v : Z) : iarr := fun i' => if (i' =? i)%Z then v else a i'.

(** shape.cpp 42-66.  The default case prints only. *)
Definition face_pts_order_quad (orient npts : Z) (o : iarr) : iarr :=
  (match orient with
  | 0 => zloop npts (fun i o => updi o i i) o
  | 1 => zloop npts (fun i o => updi o i (npts - 1 - i)) o
  | _ => o
  end)%Z.

(** shape.cpp 326-428.  n1D is the truncated square root (332).  [%] of
    non-negative operands is mod.  The loop counters of cases 5 and 7 are i, j
    and k; k is part of the state. *)
Definition face_pts_order_hex (orient npts : Z) (o : iarr) : iarr :=
  (let n1D := Z.sqrt npts in
  let nptsp1 := npts + 1 in
  match orient with
  | 0 => zloop npts (fun i o => updi o i i) o
  | 1 => fst (zloop npts (fun i s =>
           (updi (fst s) i (snd s), (snd s + n1D) mod nptsp1)) (o, n1D - 1))
  | 2 => zloop npts (fun i o => updi o i (npts - 1 - i)) o
  | 3 => fst (zloop npts (fun i s =>
           let o := updi (fst s) i (snd s) in
           let curr := snd s - n1D in
           (o, if curr <? 0 then curr + nptsp1 else curr)) (o, npts - n1D))
  | 4 => fst (zloop npts (fun i s =>
           let o := updi (fst s) i (snd s) in
           let curr := snd s + n1D in
           (o, if curr >=? npts then curr - (npts - 1) else curr)) (o, 0))
  | 5 => fst (fst (zloop n1D (fun i s =>
           let '(o, curr, k) := zloop n1D (fun j (s : iarr * Z * Z) =>
              let '(o, curr, k) := s in (updi o k curr, curr - 1, k + 1)) s in
           (o, curr + 2 * n1D, k)) (o, n1D - 1, 0)))
  | 6 => fst (zloop npts (fun i s =>
           let o := updi (fst s) i (snd s) in
           let curr := snd s - n1D in
           (o, if curr <? 0 then curr + (npts - 1) else curr)) (o, npts - 1))
  | 7 => fst (fst (zloop n1D (fun i s =>
           let '(o, curr, k) := zloop n1D (fun j (s : iarr * Z * Z) =>
              let '(o, curr, k) := s in (updi o k curr, curr + 1, k + 1)) s in
           (o, curr - 2 * n1D, k)) (o, npts - n1D, 0)))
  | _ => o
  end)%Z.

(** shape.cpp 73-74 and 228-230: coordinates of the corner nodes. *)
Definition xref_quad : list R := [-1; 1; -1; 1].
Definition yref_quad : list R := [-1; -1; 1; 1].
Definition xref_hex : list R := [-1; 1; -1; 1; -1; 1; -1; 1].
Definition yref_hex : list R := [-1; -1; 1; 1; -1; -1; 1; 1].
Definition zref_hex : list R := [-1; -1; -1; -1; 1; 1; 1; 1].

(** shape.cpp 78-100 *)
Definition face_nodes_quad (face : Z) : option (list nat) :=
  match face with
  | 0%Z => Some [0; 1]%nat | 1%Z => Some [1; 3]%nat | 2%Z => Some [3; 2]%nat | 3%Z => Some [2; 0]%nat
  | _ => None
  end.

(** shape.cpp 234-274 *)
Definition face_nodes_hex (face : Z) : option (list nat) :=
  match face with
  | 0%Z => Some [0; 2; 3; 1]%nat | 1%Z => Some [0; 1; 5; 4]%nat | 2%Z => Some [1; 3; 7; 5]%nat
  | 3%Z => Some [3; 2; 6; 7]%nat | 4%Z => Some [2; 0; 4; 6]%nat | 5%Z => Some [4; 5; 7; 6]%nat
  | _ => None
  end.

Definition nthR (l : list R) (k : nat) : R := nth k l 0.

(** shape.cpp 68-121.  [None] of the node table is the thrown runtime_error. *)
Definition points_on_face_quad (face orient np : Z) (face_pts elem_pts : arr2) : option arr2 :=
  match face_nodes_quad face with
  | None => None
  | Some node =>
    let a := nth 0 node 0%nat in let b := nth 1 node 0%nat in
    let '(a, b) := if (orient =? 1)%Z then (b, a) else (a, b) in
    let x0 := nthR xref_quad a in let y0 := nthR yref_quad a in
    let x1 := nthR xref_quad b in let y1 := nthR yref_quad b in
    Some (zloop np (fun i e =>
      let b1 := (face_pts i 0%Z + 1) / 2 in
      let b0 := 1 - b1 in
      let e := upd2 e i 0 (b0 * x0 + b1 * x1) in
      upd2 e i 1 (b0 * y0 + b1 * y1)) elem_pts)
  end.

(** shape.cpp 276-287: rotation and flip of the face's nodes.  [/] and [%] on
    the non-negative orientation. *)
Definition oriented_nodes_hex (temp : list nat) (orient : Z) : list nat :=
  let cycle := (orient mod 4)%Z in
  let flip := (orient / 4)%Z in
  let node := map (fun j => nth (Z.to_nat ((j + cycle) mod 4)) temp 0%nat) [0; 1; 2; 3]%Z in
  if (flip >=? 1)%Z then [nth 0 node 0%nat; nth 3 node 0%nat; nth 2 node 0%nat; nth 1 node 0%nat] else node.

(** shape.cpp 224-324 *)
Definition points_on_face_hex (face orient np : Z) (face_pts elem_pts : arr2) : option arr2 :=
  match face_nodes_hex face with
  | None => None
  | Some temp =>
    let node := oriented_nodes_hex temp orient in
    let xelem := map (nthR xref_hex) node in
    let yelem := map (nthR yref_hex) node in
    let zelem := map (nthR zref_hex) node in
    Some (zloop np (fun i e =>
      let xb := (face_pts i 0%Z + 1) / 2 in
      let yb := (face_pts i 1%Z + 1) / 2 in
      let b := [(1 - xb) * (1 - yb); xb * (1 - yb); xb * yb; (1 - xb) * yb] in
      let e := upd2 (upd2 (upd2 e i 0 0) i 1 0) i 2 0 in
      zloop 4 (fun j e =>
        let bj := nthR b (Z.to_nat j) in
        let e := upd2 e i 0 (e i 0%Z + bj * nthR xelem (Z.to_nat j)) in
        let e := upd2 e i 1 (e i 1%Z + bj * nthR yelem (Z.to_nat j)) in
        upd2 e i 2 (e i 2%Z + bj * nthR zelem (Z.to_nat j))) e) elem_pts)
  end.

(** shape.cpp 124-152.  An unknown face keeps i0 = d = 0. *)
Definition local_nodes_on_face_quad (face g : Z) (lf : iarr) : iarr :=
  (let '(i0, d) := match face with
     | 0 => (0, 1) | 1 => (g, g + 1) | 2 => (g * (g + 2), -1) | 3 => (g * (g + 1), - g - 1)
     | _ => (0, 0) end in
  zloop (g + 1) (fun i lf => updi lf i (i0 + i * d)) lf)%Z.

(** shape.cpp 430-480; k counts the writes. *)
Definition local_nodes_on_face_hex (face g : Z) (lf : iarr) : iarr :=
  (let '(i0, d0, d1) := match face with
     | 0 => (0, g + 1, 1)
     | 1 => (0, 1, (g + 1) * (g + 1))
     | 2 => (g, g + 1, (g + 1) * (g + 1))
     | 3 => ((g + 1) * (g + 1) - 1, -1, (g + 1) * (g + 1))
     | 4 => (g * (g + 1), - (g + 1), (g + 1) * (g + 1))
     | 5 => (g * (g + 1) * (g + 1), 1, g + 1)
     | _ => (0, 0, 0) end in
  fst (zloop (g + 1) (fun j s => zloop (g + 1) (fun i (s : iarr * Z) =>
    (updi (fst s) (snd s) (i0 + i * d0 + j * d1), snd s + 1)) s) (lf, 0)))%Z.

(** basis/tools.cpp 27-40 *)
Definition extract_node_coordinates (dim nExtract : Z) (x_elem : arr2) (node_number : iarr) (out : arr2) : arr2 :=
  zloop dim (fun idim out => zloop nExtract (fun inode out =>
    upd2 out inode idim (x_elem (node_number inode) idim)) out) out.

(** basis.cpp 306-341.  The face gradients are evaluated at the first NDIMS-1
    coordinates of the element quadrature points of face 0; the view is fresh
    (zero filled). *)
Definition face_grad_for_normals_quad (g nqf : Z) (quad_pts0 : arr2) : arr3 :=
  get_grads LagrangeSeg g nqf quad_pts0 (fun _ _ _ => 0).
Definition face_grad_for_normals_hex (g nqf : Z) (quad_pts0 : arr2) : arr3 :=
  get_grads LagrangeQuad g nqf quad_pts0 (fun _ _ _ => 0).

(** shape.cpp 154-204.  [nn] is the number of nodes of the face, [xg0] the
    previous content of the scratch array xphys_grad(., ., ip).  The loop over
    the points handles each ip independently of the others, so the model gives
    the row of point ip. *)
Definition normal_quad (sign : R) (nn : Z) (fgrad : arr3) (fcoords : arr2) (xg0 : arr2) (ip : Z) (normal : arr1) : arr1 :=
  let xg := cATxB_to_C 2 1 nn 1 fcoords (fun k d => fgrad ip k d) xg0 in
  let normal := upd1 normal 0 (sign * xg 1%Z 0%Z) in
  upd1 normal 1 (-1 * sign * xg 0%Z 0%Z).

(** shape.cpp 482-532 *)
Definition normal_hex (sign : R) (nn : Z) (fgrad : arr3) (fcoords : arr2) (xg0 : arr2) (ip : Z) (normal : arr1) : arr1 :=
  let xg := cATxB_to_C 3 2 nn 1 fcoords (fun k d => fgrad ip k d) xg0 in
  let x1 := fun j => xg j 0%Z in
  let x2 := fun j => xg j 1%Z in
  let normal := cross x1 x2 normal in
  cA_to_A1 3 sign normal.

(** helpers.cpp 440-480 for one face: nodes of the element, nodes of the face,
    normals at the points.  [elem_coords] are the coordinates of the element
    this rank owns, [ref_face] its face and [sign] +1 on the left side, -1
    otherwise. *)
Definition face_normal_quad (sign : R) (ref_face g nqf : Z) (elem_coords quad_pts0 : arr2) (ip : Z) : arr1 :=
  let fnodes := local_nodes_on_face_quad ref_face g (fun _ => 0%Z) in
  let fcoords := extract_node_coordinates 2 (g + 1) elem_coords fnodes (fun _ _ => 0) in
  normal_quad sign (g + 1) (face_grad_for_normals_quad g nqf quad_pts0) fcoords (fun _ _ => 0) ip (fun _ => 0).

Definition face_normal_hex (sign : R) (ref_face g nqf : Z) (elem_coords quad_pts0 : arr2) (ip : Z) : arr1 :=
  let fnodes := local_nodes_on_face_hex ref_face g (fun _ => 0%Z) in
  let fcoords := extract_node_coordinates 3 ((g + 1) * (g + 1)) elem_coords fnodes (fun _ _ => 0) in
  normal_hex sign ((g + 1) * (g + 1)) (face_grad_for_normals_hex g nqf quad_pts0) fcoords (fun _ _ => 0) ip (fun _ => 0).

(** helpers.cpp 427-439: which element the normal of a face is computed from. *)
Definition face_side (rank rankL rankR : Z) : option bool :=
  if (rankL =? rank)%Z then Some true else if (rankR =? rank)%Z then Some false else None.
