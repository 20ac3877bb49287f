(** LinAlgModel.v -- model of src/math/linear_algebra.cpp. *)
From Coq Require Import ZArith List Lia Reals Lra.
From Verif Require Import Base RBase.
Import ListNotations.
Local Open Scope R_scope.

(** linear_algebra.cpp 3-10: generic dot product. *)
Definition dot (N : Z) (a b : arr1) : R := zloop N (fun i res => res + a i * b i) 0.

(** linear_algebra.cpp 13-34: the specialisations for 2..5 entries. *)
Definition dot2 (a b : arr1) : R := a 0%Z * b 0%Z + a 1%Z * b 1%Z.
Definition dot3 (a b : arr1) : R := a 0%Z * b 0%Z + a 1%Z * b 1%Z + a 2%Z * b 2%Z.
Definition dot4 (a b : arr1) : R := a 0%Z * b 0%Z + a 1%Z * b 1%Z + a 2%Z * b 2%Z + a 3%Z * b 3%Z.
Definition dot5 (a b : arr1) : R :=
  a 0%Z * b 0%Z + a 1%Z * b 1%Z + a 2%Z * b 2%Z + a 3%Z * b 3%Z + a 4%Z * b 4%Z.

(** Which instance the compiler selects. *)
Definition dot_inst (N : Z) : arr1 -> arr1 -> R :=
  if (N =? 2)%Z then dot2 else if (N =? 3)%Z then dot3 else
  if (N =? 4)%Z then dot4 else if (N =? 5)%Z then dot5 else dot N.

(** linear_algebra.cpp 36-41. *)
Definition cross (a b c : arr1) : arr1 :=
  let c := upd1 c 0 (a 1%Z * b 2%Z - a 2%Z * b 1%Z) in
  let c := upd1 c 1 (a 2%Z * b 0%Z - a 0%Z * b 2%Z) in
  upd1 c 2 (a 0%Z * b 1%Z - a 1%Z * b 0%Z).

(** linear_algebra.cpp 43-51; [e0], [e1]: extents of the view. *)
Definition identity (e0 e1 : Z) (mat : arr2) : arr2 :=
  zloop e0 (fun i mat => zloop e1 (fun j mat =>
    if (i =? j)%Z then upd2 mat i j 1 else mat) mat) mat.

(** linear_algebra.cpp 53-61 (SerialScale / TeamScale of the library): every
    entry is multiplied by c; rank-1 and rank-2 views. *)
Definition cA_to_A1 (n : Z) (c : R) (A : arr1) : arr1 :=
  zloop n (fun i A => upd1 A i (c * A i)) A.
Definition cA_to_A2 (e0 e1 : Z) (c : R) (A : arr2) : arr2 :=
  zloop e0 (fun i A => zloop e1 (fun j A => upd2 A i j (c * A i j)) A) A.

(** linear_algebra.cpp 64-68 (KokkosBlas::fill). *)
Definition fill (n : Z) (A : arr1) (c : R) : arr1 := zloop n (fun i A => upd1 A i c) A.

(** linear_algebra.cpp 70-73 (TeamCopy). *)
Definition copy_A_to_B (e0 e1 : Z) (A B : arr2) : arr2 :=
  zloop e0 (fun i B => zloop e1 (fun j B => upd2 B i j (A i j)) B) B.

(** linear_algebra.cpp 75-81 (KokkosBlas::axpy): B = c A + B. *)
Definition cApB_to_B (n : Z) (c : R) (A B : arr1) : arr1 :=
  zloop n (fun i B => upd1 B i (c * A i + B i)) B.

(** linear_algebra.cpp 83-90 (KokkosBlas::update): C = c A + 1.0 B + 0.0 C. *)
Definition cApB_to_C (n : Z) (c : R) (A B C : arr1) : arr1 :=
  zloop n (fun i C => upd1 C i (c * A i + 1 * B i + 0 * C i)) C.

(** linear_algebra.cpp 243-259; [d0]: value of the output before the call (it is
    left alone for other dimensions). *)
Definition det (dim : Z) (mat : arr2) (d0 : R) : R :=
  if (dim =? 1)%Z then mat 0%Z 0%Z
  else if (dim =? 2)%Z then mat 0%Z 0%Z * mat 1%Z 1%Z - mat 0%Z 1%Z * mat 1%Z 0%Z
  else if (dim =? 3)%Z then
    mat 0%Z 0%Z * mat 1%Z 1%Z * mat 2%Z 2%Z - mat 0%Z 0%Z * mat 1%Z 2%Z * mat 2%Z 1%Z
    - mat 0%Z 1%Z * mat 1%Z 0%Z * mat 2%Z 2%Z + mat 0%Z 1%Z * mat 1%Z 2%Z * mat 2%Z 0%Z
    + mat 0%Z 2%Z * mat 1%Z 0%Z * mat 2%Z 1%Z - mat 0%Z 2%Z * mat 1%Z 1%Z * mat 2%Z 0%Z
  else d0.

(** Library (KokkosBatched SerialLU / TeamLU, unblocked): right-looking LU
    factorisation without pivoting, in place. *)
Definition lu (m : Z) (A : arr2) : arr2 :=
  zloop m (fun p A =>
    zloop (m - p - 1) (fun i A =>
      let i := (p + 1 + i)%Z in
      let A := upd2 A i p (A i p / A p p) in
      zloop (m - p - 1) (fun j A =>
        let j := (p + 1 + j)%Z in
        upd2 A i j (A i j - A i p * A p j)) A) A) A.

(** Library (SerialSolveLU / TeamSolveLU): forward substitution with the unit
    lower triangle, then backward substitution with the upper triangle, for all
    columns of B in place. *)
Definition solve_lower (m n : Z) (A B : arr2) : arr2 :=
  zloop m (fun p B =>
    zloop (m - p - 1) (fun i B =>
      let i := (p + 1 + i)%Z in
      zloop n (fun j B => upd2 B i j (B i j - A i p * B p j)) B) B) B.
Definition solve_upper (m n : Z) (A B : arr2) : arr2 :=
  zloop m (fun q B =>
    let p := (m - 1 - q)%Z in
    let B := zloop n (fun j B => upd2 B p j (B p j / A p p)) B in
    zloop p (fun i B => zloop n (fun j B => upd2 B i j (B i j - A i p * B p j)) B) B) B.

(** linear_algebra.cpp 92-133 and, identical except for the team variants of the
    library calls, 136-176.  Returns the inverse; the factorisation overwrites
    [mat] when dim > 3, which is not returned. *)
Definition invA (dim : Z) (mat imat : arr2) : arr2 :=
  if (dim =? 1)%Z then
    let det := mat 0%Z 0%Z in upd2 imat 0 0 (1 / det)
  else if (dim =? 2)%Z then
    let det := mat 0%Z 0%Z * mat 1%Z 1%Z - mat 0%Z 1%Z * mat 1%Z 0%Z in
    let imat := upd2 imat 0 0 (mat 1%Z 1%Z / det) in
    let imat := upd2 imat 0 1 (- mat 0%Z 1%Z / det) in
    let imat := upd2 imat 1 0 (- mat 1%Z 0%Z / det) in
    upd2 imat 1 1 (mat 0%Z 0%Z / det)
  else if (dim =? 3)%Z then
    let det :=
      mat 0%Z 0%Z * mat 1%Z 1%Z * mat 2%Z 2%Z - mat 0%Z 0%Z * mat 1%Z 2%Z * mat 2%Z 1%Z
      - mat 0%Z 1%Z * mat 1%Z 0%Z * mat 2%Z 2%Z + mat 0%Z 1%Z * mat 1%Z 2%Z * mat 2%Z 0%Z
      + mat 0%Z 2%Z * mat 1%Z 0%Z * mat 2%Z 1%Z - mat 0%Z 2%Z * mat 1%Z 1%Z * mat 2%Z 0%Z in
    let imat := upd2 imat 0 0 ((mat 1%Z 1%Z * mat 2%Z 2%Z - mat 1%Z 2%Z * mat 2%Z 1%Z) / det) in
    let imat := upd2 imat 1 0 (- (mat 1%Z 0%Z * mat 2%Z 2%Z - mat 1%Z 2%Z * mat 2%Z 0%Z) / det) in
    let imat := upd2 imat 2 0 ((mat 1%Z 0%Z * mat 2%Z 1%Z - mat 1%Z 1%Z * mat 2%Z 0%Z) / det) in
    let imat := upd2 imat 0 1 (- (mat 0%Z 1%Z * mat 2%Z 2%Z - mat 0%Z 2%Z * mat 2%Z 1%Z) / det) in
    let imat := upd2 imat 1 1 ((mat 0%Z 0%Z * mat 2%Z 2%Z - mat 0%Z 2%Z * mat 2%Z 0%Z) / det) in
    let imat := upd2 imat 2 1 (- (mat 0%Z 0%Z * mat 2%Z 1%Z - mat 0%Z 1%Z * mat 2%Z 0%Z) / det) in
    let imat := upd2 imat 0 2 ((mat 0%Z 1%Z * mat 1%Z 2%Z - mat 0%Z 2%Z * mat 1%Z 1%Z) / det) in
    let imat := upd2 imat 1 2 (- (mat 0%Z 0%Z * mat 1%Z 2%Z - mat 0%Z 2%Z * mat 1%Z 0%Z) / det) in
    upd2 imat 2 2 ((mat 0%Z 0%Z * mat 1%Z 1%Z - mat 0%Z 1%Z * mat 1%Z 0%Z) / det)
  else
    let imat := identity dim dim imat in
    let mat := lu dim mat in
    solve_upper dim dim mat (solve_lower dim dim mat imat).

(** Library (SerialGemm / TeamGemm, unblocked): C = beta C + alpha op(A) op(B),
    [m] x [n], inner dimension [k]; [At i p], [Bt p j]: entries of op(A), op(B). *)
Definition gemm (m n k : Z) (alpha : R) (At Bt : arr2) (beta : R) (C : arr2) : arr2 :=
  let C := zloop m (fun i C => zloop n (fun j C => upd2 C i j (beta * C i j)) C) C in
  zloop m (fun i C => zloop n (fun j C =>
    zloop k (fun p C => upd2 C i j (C i j + alpha * (At i p * Bt p j))) C) C) C.

(** linear_algebra.cpp 178-193: C = c A B^T. *)
Definition cAxBT_to_C (m n k : Z) (c : R) (A B C : arr2) : arr2 :=
  gemm m n k c A (fun p j => B j p) 0 C.
(** linear_algebra.cpp 195-212: C = c A^T B. *)
Definition cATxB_to_C (m n k : Z) (c : R) (A B C : arr2) : arr2 :=
  gemm m n k c (fun i p => A p i) B 0 C.
(** linear_algebra.cpp 214-231: C = c A^T B + C. *)
Definition cATxBpC_to_C (m n k : Z) (c : R) (A B C : arr2) : arr2 :=
  gemm m n k c (fun i p => A p i) B 1 C.
(** linear_algebra.cpp 233-241: C = c A B. *)
Definition cAxB_to_C (m n k : Z) (c : R) (A B C : arr2) : arr2 :=
  gemm m n k c A B 0 C.
