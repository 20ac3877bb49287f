(** BasisModel.v -- model of src/numerics/basis/tools.cpp (basis functions) and
    src/numerics/basis/basis.cpp (Basis::get_values, Basis::get_grads).

    Views are functions of their indices (RBase.v).  A subview passed to a 1D
    routine is a row of the array; [set_row] writes the result back. *)
From Coq Require Import ZArith List Lia Reals Lra Bool.
From Verif Require Import Base RBase QuadModel.
Import ListNotations.
Local Open Scope R_scope.

(** Kokkos::subview(a, iq, ALL()) handed to a routine that fills it. *)
Definition set_row (a : arr2) (iq : Z) (f : arr1 -> arr1) : arr2 :=
  let r := f (a iq) in fun i j => if (i =? iq)%Z then r j else a i j.
(** Kokkos::subview(a, iq, ALL(), d) handed to a routine that fills it. *)
Definition set_row3 (a : arr3) (iq d : Z) (f : arr1 -> arr1) : arr3 :=
  let r := f (fun j => a iq j d) in
  fun i j k => if ((i =? iq) && (k =? d))%Z%bool then r j else a i j k.

(** basis/tools.cpp 114-127.  [n] = xnodes.extent(0). *)
Definition get_lagrange_basis_val_1D (n : Z) (xnodes : arr1) (x : R) (phi : arr1) : arr1 :=
  zloop n (fun i phi =>
    zloop n (fun j phi =>
      if (i =? j)%Z then phi
      else upd1 phi i (phi i * ((x - xnodes j) / (xnodes i - xnodes j))))
      (upd1 phi i 1)) phi.

(** basis/tools.cpp 129-149 *)
Definition get_lagrange_basis_grad_1D (n : Z) (xnodes : arr1) (x : R) (gphi : arr1) : arr1 :=
  zloop n (fun i gphi =>
    zloop n (fun j gphi =>
      if (i =? j)%Z then gphi
      else
        let prod := zloop n (fun k prod =>
          if (i =? k)%Z then prod
          else if (j =? k)%Z then prod * (1 / (xnodes i - xnodes k))
          else prod * ((x - xnodes k) / (xnodes i - xnodes k))) 1 in
        upd1 gphi i (gphi i + prod))
      (upd1 gphi i 0)) gphi.

(** basis/tools.cpp 297-331.  The message printed for p > 7 is not modelled. *)
Definition get_legendre_basis_val_1D (p : Z) (x : R) (phi : arr1) : arr1 :=
  let phi := if (p >=? 0)%Z then upd1 phi 0 1 else phi in
  let phi := if (p >=? 1)%Z then upd1 phi 1 x else phi in
  let phi := if (p >=? 2)%Z then upd1 phi 2 (1/2 * (3 * x * x - 1)) else phi in
  let phi := if (p >=? 3)%Z then upd1 phi 3 (1/2 * (5 * x * x * x - 3 * x)) else phi in
  let phi := if (p >=? 4)%Z then upd1 phi 4 (1/8 * (35 * x * x * x * x - 30 * x * x + 3)) else phi in
  let phi := if (p >=? 5)%Z then upd1 phi 5 (1/8 * (63 * x * x * x * x * x - 70 * x * x * x + 15 * x)) else phi in
  let phi := if (p >=? 6)%Z then
    upd1 phi 6 (1/16 * (231 * x * x * x * x * x * x - 315 * x * x * x * x + 105 * x * x - 5)) else phi in
  let phi := if (p =? 7)%Z then
    upd1 phi 7 (1/16 * (429 * x * x * x * x * x * x * x - 693 * x * x * x * x * x + 315 * x * x * x - 35 * x)) else phi in
  phi.

(** basis/tools.cpp 333-366 *)
Definition get_legendre_basis_grad_1D (p : Z) (x : R) (gphi : arr1) : arr1 :=
  let gphi := if (p >=? 0)%Z then upd1 gphi 0 0 else gphi in
  let gphi := if (p >=? 1)%Z then upd1 gphi 1 1 else gphi in
  let gphi := if (p >=? 2)%Z then upd1 gphi 2 (3 * x) else gphi in
  let gphi := if (p >=? 3)%Z then upd1 gphi 3 (1/2 * (15 * x * x - 3)) else gphi in
  let gphi := if (p >=? 4)%Z then upd1 gphi 4 (1/8 * (35 * 4 * x * x * x - 60 * x)) else gphi in
  let gphi := if (p >=? 5)%Z then upd1 gphi 5 (1/8 * (63 * 5 * x * x * x * x - 210 * x * x + 15)) else gphi in
  let gphi := if (p >=? 6)%Z then
    upd1 gphi 6 (1/16 * (231 * 6 * x * x * x * x * x - 315 * 4 * x * x * x + 210 * x)) else gphi in
  let gphi := if (p =? 7)%Z then
    upd1 gphi 7 (1/16 * (429 * 7 * x * x * x * x * x * x - 693 * 5 * x * x * x * x + 315 * 3 * x * x - 35)) else gphi in
  gphi.

(** basis/tools.cpp 151-177 (Lagrange) and 368-394 (Legendre): the two functions
    are the same loops around different 1D routines [val1].  The local arrays
    are fresh zero-filled views. *)
Definition basis_val_2D (val1 : R -> arr1 -> arr1) (nq : Z) (pts : arr2) (p : Z) (val : arr2) : arr2 :=
  let s := zloop nq (fun iq (s : arr2 * arr2) =>
     (set_row (fst s) iq (val1 (pts iq 0%Z)), set_row (snd s) iq (val1 (pts iq 1%Z)))) (fun _ _ => 0, fun _ _ => 0) in
  let valx := fst s in let valy := snd s in
  zloop nq (fun iq val => zloop (p + 1) (fun j val => zloop (p + 1) (fun i val =>
    upd2 val iq (j * (p + 1) + i)%Z (valx iq i * valy iq j)) val) val) val.

(** basis/tools.cpp 179-216 and 396-433 *)
Definition basis_grad_2D (val1 grad1 : R -> arr1 -> arr1) (nq : Z) (pts : arr2) (p : Z) (grad : arr3) : arr3 :=
  let s := zloop nq (fun iq (s : arr2 * arr2 * arr3 * arr3) =>
     let '(valx, valy, gradx, grady) := s in
     (set_row valx iq (val1 (pts iq 0%Z)), set_row valy iq (val1 (pts iq 1%Z)),
      set_row3 gradx iq 0 (grad1 (pts iq 0%Z)), set_row3 grady iq 0 (grad1 (pts iq 1%Z))))
     (fun _ _ => 0, fun _ _ => 0, fun _ _ _ => 0, fun _ _ _ => 0) in
  let '(valx, valy, gradx, grady) := s in
  zloop nq (fun iq grad => zloop (p + 1) (fun j grad => zloop (p + 1) (fun i grad =>
    let q := (j * (p + 1) + i)%Z in
    let grad := upd3 grad iq q 0 (gradx iq i 0%Z * valy iq j) in
    upd3 grad iq q 1 (valx iq i * grady iq j 0%Z)) grad) grad) grad.

(** basis/tools.cpp 218-250 and 435-465 *)
Definition basis_val_3D (val1 : R -> arr1 -> arr1) (nq : Z) (pts : arr2) (p : Z) (val : arr2) : arr2 :=
  let s := zloop nq (fun iq (s : arr2 * arr2 * arr2) =>
     let '(valx, valy, valz) := s in
     (set_row valx iq (val1 (pts iq 0%Z)), set_row valy iq (val1 (pts iq 1%Z)), set_row valz iq (val1 (pts iq 2%Z))))
     (fun _ _ => 0, fun _ _ => 0, fun _ _ => 0) in
  let '(valx, valy, valz) := s in
  zloop nq (fun iq val => zloop (p + 1) (fun k val => zloop (p + 1) (fun j val => zloop (p + 1) (fun i val =>
    upd2 val iq (k * (p + 1) * (p + 1) + j * (p + 1) + i)%Z (valx iq i * valy iq j * valz iq k)) val) val) val) val.

(** basis/tools.cpp 252-295 and 467-508 *)
Definition basis_grad_3D (val1 grad1 : R -> arr1 -> arr1) (nq : Z) (pts : arr2) (p : Z) (grad : arr3) : arr3 :=
  let s := zloop nq (fun iq (s : arr2 * arr2 * arr2 * arr3 * arr3 * arr3) =>
     let '(valx, valy, valz, gradx, grady, gradz) := s in
     (set_row valx iq (val1 (pts iq 0%Z)), set_row valy iq (val1 (pts iq 1%Z)), set_row valz iq (val1 (pts iq 2%Z)),
      set_row3 gradx iq 0 (grad1 (pts iq 0%Z)), set_row3 grady iq 0 (grad1 (pts iq 1%Z)),
      set_row3 gradz iq 0 (grad1 (pts iq 2%Z))))
     (fun _ _ => 0, fun _ _ => 0, fun _ _ => 0, fun _ _ _ => 0, fun _ _ _ => 0, fun _ _ _ => 0) in
  let '(valx, valy, valz, gradx, grady, gradz) := s in
  zloop nq (fun iq grad => zloop (p + 1) (fun k grad => zloop (p + 1) (fun j grad => zloop (p + 1) (fun i grad =>
    let q := (k * (p + 1) * (p + 1) + j * (p + 1) + i)%Z in
    let grad := upd3 grad iq q 0 (gradx iq i 0%Z * valy iq j * valz iq k) in
    let grad := upd3 grad iq q 1 (valx iq i * grady iq j 0%Z * valz iq k) in
    upd3 grad iq q 2 (valx iq i * valy iq j * gradz iq k 0%Z)) grad) grad) grad) grad.

(** common/enums.h 109-115 *)
Inductive basis_type := LagrangeSeg | LagrangeQuad | LagrangeHex | LegendreSeg | LegendreQuad | LegendreHex.

(** xnodes of basis.cpp 21-22 etc.: the view "xnodes" of extent order+1, zero
    filled, handed to get_1d_nodes (set in basis.cpp 240). *)
Definition basis_xnodes (order : Z) : arr1 := equidistant_nodes_1D_range (-1) 1 (order + 1) (fun _ => 0).

(** Basis::get_values, basis.cpp 293-298 with the routine the constructor
    selects (237-290): 10-30, 50-71, 90-109, 131-149, 170-185, 205-220.
    KokkosBlas::fill(basis_val, 1.) sets every entry of the view; [nb] is its
    second extent. *)
Definition fill_view (nq nb : Z) (val : arr2) : arr2 :=
  zloop nq (fun iq val => zloop nb (fun j val => upd2 val iq j 1) val) val.

Definition get_values (bt : basis_type) (order nq nb : Z) (pts val : arr2) : arr2 :=
  if (order =? 0)%Z then fill_view nq nb val else
  match bt with
  | LagrangeSeg => zloop nq (fun iq val => set_row val iq (get_lagrange_basis_val_1D (order + 1) (basis_xnodes order) (pts iq 0%Z))) val
  | LagrangeQuad => zloop nq (fun _ val => basis_val_2D (get_lagrange_basis_val_1D (order + 1) (basis_xnodes order)) nq pts order val) val
  | LagrangeHex => zloop nq (fun _ val => basis_val_3D (get_lagrange_basis_val_1D (order + 1) (basis_xnodes order)) nq pts order val) val
  | LegendreSeg => zloop nq (fun iq val => set_row val iq (get_legendre_basis_val_1D order (pts iq 0%Z))) val
  | LegendreQuad => basis_val_2D (get_legendre_basis_val_1D order) nq pts order val
  | LegendreHex => basis_val_3D (get_legendre_basis_val_1D order) nq pts order val
  end.

(** Basis::get_grads, basis.cpp 300-304: 32-46, 73-88, 111-126, 151-165, 188-200,
    223-235.  Order 0 leaves the array as it is. *)
Definition get_grads (bt : basis_type) (order nq : Z) (pts : arr2) (grad : arr3) : arr3 :=
  if (order >? 0)%Z then
  match bt with
  | LagrangeSeg => zloop nq (fun iq grad => set_row3 grad iq 0 (get_lagrange_basis_grad_1D (order + 1) (basis_xnodes order) (pts iq 0%Z))) grad
  | LagrangeQuad => zloop nq (fun _ grad => basis_grad_2D (get_lagrange_basis_val_1D (order + 1) (basis_xnodes order))
      (get_lagrange_basis_grad_1D (order + 1) (basis_xnodes order)) nq pts order grad) grad
  | LagrangeHex => zloop nq (fun _ grad => basis_grad_3D (get_lagrange_basis_val_1D (order + 1) (basis_xnodes order))
      (get_lagrange_basis_grad_1D (order + 1) (basis_xnodes order)) nq pts order grad) grad
  | LegendreSeg => zloop nq (fun iq grad => set_row3 grad iq 0 (get_legendre_basis_grad_1D order (pts iq 0%Z))) grad
  | LegendreQuad => basis_grad_2D (get_legendre_basis_val_1D order) (get_legendre_basis_grad_1D order) nq pts order grad
  | LegendreHex => basis_grad_3D (get_legendre_basis_val_1D order) (get_legendre_basis_grad_1D order) nq pts order grad
  end
  else grad.

(** shape.cpp 8-40 through Basis::Basis 289: number of basis functions.  pow of
    small integers is exact. *)
Definition num_basis_coeff (bt : basis_type) (p : Z) : Z :=
  match bt with
  | LagrangeSeg | LegendreSeg => p + 1
  | LagrangeQuad | LegendreQuad => (p + 1) * (p + 1)
  | LagrangeHex | LegendreHex => (p + 1) * (p + 1) * (p + 1)
  end%Z.
