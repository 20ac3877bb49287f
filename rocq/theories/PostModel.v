(** PostModel.v -- model of the post-processing program's error norm:
    get_error and the part of run_post around it (src/post/main.cpp 31-205,
    230-248).

    Simplifications: as in SetupModel.v.  The three reductions (over the points
    of an element, over the elements of a rank, MPI_Allreduce with MPI_SUM) add in
    index order: over the reals the order is immaterial.  The prints are left out;
    the value printed last is the result. *)
From Coq Require Import ZArith List Lia Reals Lra Bool.
From Verif Require Import Base RBase LinAlgModel QuadModel BasisModel PhysModel ShapeModel MeshModel SolverModel SolverSpec SetupModel IOModel.
Import ListNotations.
Local Open Scope R_scope.
Open Scope res_scope.

(** C's pow(x, 1./ord) for ord >= 1: not a number for a negative base. *)
Definition c_root (x : R) (ord : nat) : res R :=
  if Rlt_dec x 0 then Fail BadArith else Ok (if Rlt_dec 0 x then Rpower x (1 / INR ord) else 0).

(** main.cpp 46-53: the volume of the rank's elements, or one. *)
Definition error_volume (normalize : bool) (ne : Z) (vol : arr1) : R := if normalize then get_total_volume ne vol else 1.

(** main.cpp 160-168: the error of one element. *)
Definition element_error (nq ns : Z) (ord : nat) (Uq u : arr2) (wts djac err : arr1) : arr1 :=
  zloop ns (fun is err => upd1 err is (zloop nq (fun iq sum => sum + (Uq iq is - u iq is) ^ ord * wts iq * djac iq) 0)) err.

(** main.cpp 31-184 on one rank: the errors of its state variables and its
    volume.  [t]: solver.time; [vol]: the volume helpers' vol_elems; [junk1],
    [junk2], [junk3]: content of the scratch memory; [uorder], [eorder]: the
    orders of the two loops over elements. *)
Definition rank_error (s : eshape) (bt : basis_type) (order g : Z) (pm : pmesh R) (npe ns : Z) (ic : ic_type) (ph : phys) (t : R)
  (ord : nat) (normalize : bool) (vol : arr1) (junk2 : arr2) (junk3 : arr3) (junk1 : arr1) (uorder eorder : list Z) (Uc : arr3)
  : res (arr1 * R) :=
  let dim := space_dim s in
  let ne := pm_num_elems_part pm in
  let tot_vol := error_volume normalize ne vol in
  let order_ := Z.max order 1 in
  q <- volume_quadrature s (2 * order_) zero2 zero1 ;;
  let '(nq, pts, wts) := q in
  let gb := geom_basis s in
  let nb := num_basis_coeff bt order in
  let gnb := num_basis_coeff gb g in
  let bval := get_values bt order nq nb pts zero2 in
  let gval := get_values gb g nq gnb pts zero2 in
  let ggrad := get_grads gb g nq pts zero3 in
  let Uq := evaluate_state uorder nq ns nb bval Uc zero3 in
  err <- foreach eorder (fun e err =>
    c <- elem_coords_from_elem_ID pm npe dim e junk2 ;;
    let x := ref_to_phys nq dim gnb gval c junk2 in
    u <- zfor nq (fun iq u => U <- call_exact_solution dim ic ph (x iq) t (u iq) ;; Ok (setr u iq (fst U))) junk2 ;;
    let djac := snd (get_element_jacobian_det nq dim npe ggrad c (junk3, junk1)) in
    Ok (setr err e (element_error nq ns ord (Uq e) u wts djac (err e)))) zero2 ;;
  Ok (zloop ns (fun is a => upd1 a is (zloop ne (fun ie sum => sum + err ie is) 0)) zero1, tot_vol).

(** main.cpp 186-199: what every rank of [n] prints for state variable [is];
    [E]: the results of the ranks. *)
Definition total_error (n : Z) (ord : nat) (E : Z -> arr1 * R) (is : Z) : res R :=
  let total_volume := zloop n (fun r v => v + snd (E r)) 0 in
  let total := zloop n (fun r v => v + fst (E r) is) 0 in
  if Req_EM_T total_volume 0 then Fail BadArith else c_root (total / total_volume) ord.

(** main.cpp 230-248 on rank [r]: the helpers, the coefficients of the solution
    file, the error of order two.  base.cpp 24-25: the solver's time is zero. *)
Definition post_rank (s : eshape) (bt : basis_type) (order g n r : Z) (pm : pmesh R) (npe ns : Z) (ic : ic_type) (ph : phys)
  (file : solfile R) (h0 : arr3) (Uc0 : arr3) (junk2 : arr2) (junk3 : arr3) (junk1 : arr1) (eo1 eo2 fo uorder eorder : list Z) : res (arr1 * R) :=
  hf <- precompute_matrix_helpers s bt order g pm r npe junk2 eo1 eo2 fo ;;
  st <- read_in_coefficients n r file h0 (mkSS 0 Uc0) ;;
  rank_error s bt order g pm npe ns ic ph (ss_time st) 2 true (vh_vol (fst hf)) junk2 junk3 junk1 uorder eorder (ss_Uc st).
