(** TeamSetup.v -- the team kernels of the set-up (inverse mass matrices and
    volume helpers, src/solver/helpers.cpp 4-100) and of the initialisation
    (src/solver/base.cpp 171-222) as thread programs: the same code as in
    SetupModel.v at the granularity of TeamModel.v.

    Scratch memory is per team, so it is part of the shared memory, indexed by the
    team's element.  The mesh tables, the quadrature and the basis tables are not
    written by these kernels and are arguments.  Simplifications: the warning for
    a non-positive determinant only loads the determinant; a 2x2 or 3x3 inverse
    loads its matrix once, then stores its entries; a table look-up that fails
    ends the thread (shown not to happen). *)
From Coq Require Import ZArith List Lia Reals Bool.
From Verif Require Import Base RBase LinAlgModel QuadModel BasisModel PhysModel ShapeModel MeshModel SolverModel SolverSpec SetupModel
  TeamModel TeamPhases TeamKernels.
Import ListNotations.
Local Open Scope R_scope.
Open Scope res_scope.

(** The views written. *)
Definition vCrd := 20%Z.  (* elem_coords (scratch) *)
Definition vX := 21%Z.    (* x_elems *)
Definition vJac := 22%Z.  (* jac_elems *)
Definition vDet := 23%Z.  (* djac_elems *)
Definition vInv := 24%Z.  (* ijac_elems *)
Definition vVol := 25%Z.  (* vol_elems *)
Definition vSB := 26%Z.   (* scratch_basis_val (scratch) *)
Definition vMM := 27%Z.   (* MM (scratch) *)
Definition viM := 28%Z.   (* iMM_elems *)
Definition vIF := 29%Z.   (* f of the initialisation (scratch) *)
Definition vRhs := 30%Z.  (* rhs of the projection (scratch) *)
Definition vXs := 31%Z.   (* xphys (scratch) *)
Definition vJs := 32%Z.   (* jac of the initialisation (scratch) *)
Definition vDs := 33%Z.   (* djac of the initialisation (scratch) *)

(** Reading a matrix entry by entry into private memory ([junk] before), and
    storing one. *)
Definition load_mat (n0 n1 : Z) (l : Z -> Z -> loc) (junk : arr2) (k : arr2 -> prog) : prog :=
  pacc n0 (fun i A cont => pacc n1 (fun j A cont => Load (l i j) (fun v => cont (upd2 A i j v))) A cont) junk k.
Definition store_mat (n0 n1 : Z) (l : Z -> Z -> loc) (a : arr2) : prog :=
  pfor n0 (fun i => pfor n1 (fun j => Store (l i j) (a i j) Done)).

(** Library (KokkosBatched SerialGemm, unblocked, beta = 0), inside one thread. *)
Definition serial_gemm (m n k : Z) (alpha : R) (A B : operand) (C : Z -> Z -> loc) : prog :=
  seq (pfor (m * n) (tl_body (gemm_set m n C (fun _ => 0%Z)))) (pfor (m * n) (tl_body (gemm_add m n k alpha A B C (fun _ => 0%Z)))).

(** if (member.team_rank() == 0) { p } *)
Definition rank0 (p : prog) : phase := Loop (mkTL 1 (fun _ => 0%Z) (fun _ => p)).

(** mesh/tools.cpp 5-17 *)
Definition coords_code (pm : pmesh R) (npe dim e : Z) : prog :=
  pfor npe (fun i => pfor dim (fun j => lift (
    nd <- rd2 (pm_elem_to_node pm) e i ;;
    v <- rd2 (pm_node_coords pm) nd j ;;
    Ok (Store (at3 vCrd e i j) v Done)))).
(** mesh/tools.cpp 19-25; [v]: the view of the positions. *)
Definition phys_code (nq dim gnb : Z) (gval : arr2) (v e : Z) : prog :=
  serial_gemm nq dim gnb 1 (table gval) (inmem (at3 vCrd e)) (at3 v e).

(** basis/tools.cpp 50-62: one quadrature point. *)
Definition jac_body (dim npe : Z) (ggrad : arr3) (junk : arr2) (e iq : Z) : prog :=
  seq (serial_gemm dim dim npe 1 (flip (inmem (at3 vCrd e))) (table (ggrad iq)) (At vJac e iq))
    (load_mat dim dim (At vJac e iq) junk (fun J =>
     Store (at3 vDet e iq 0) (det dim J 0) (
     Load (at3 vDet e iq 0) (fun _ =>
     load_mat dim dim (At vJac e iq) junk (fun J => store_mat dim dim (At vInv e iq) (invA dim J junk)))))).
(** basis/tools.cpp 75-82 *)
Definition jacdet_body (dim npe : Z) (ggrad : arr3) (junk : arr2) (e iq : Z) : prog :=
  seq (serial_gemm dim dim npe 1 (flip (inmem (at3 vCrd e))) (table (ggrad iq)) (At vJs e iq))
    (load_mat dim dim (At vJs e iq) junk (fun J => Store (at3 vDs e iq 0) (det dim J 0) Done)).

(** SerialScale of a row of a view (linear_algebra.cpp 53-56) by quad_wts * djac:
    basis/tools.cpp 98-101 and tools.cpp 80-83. *)
Definition scale_body (n : Z) (wts : arr1) (vd v e iq : Z) : prog :=
  Load (at3 vd e iq 0) (fun d => pfor n (fun j => Load (at3 v e iq j) (fun x => Store (at3 v e iq j) (wts iq * d * x) Done))).

(** linear_algebra.cpp 136-176.  Up to order 3 every thread of the team computes
    and stores the whole inverse.  Above, every thread sets the diagonal of imat;
    the library calls TeamLU and TeamSolveLU are a trusted description: they
    synchronise the team and leave the sequential factorisation and solution. *)
Definition inv_phases (nb e : Z) (junk : arr2) (worker : Z -> Z) : list phase :=
  if (nb <=? 3)%Z then [Each (load_mat nb nb (at3 vMM e) junk (fun M => store_mat nb nb (at3 viM e) (invA nb M junk)))]
  else
    [Each (pfor nb (fun i => pfor nb (fun j => if (i =? j)%Z then Store (at3 viM e i j) 1 Done else Done)));
     Loop (mkTL 1 worker (fun _ =>
       load_mat nb nb (at3 vMM e) junk (fun M =>
       load_mat nb nb (at3 viM e) junk (fun B =>
       seq (store_mat nb nb (at3 vMM e) (lu nb M))
           (store_mat nb nb (at3 viM e) (solve_upper nb nb (lu nb M) (solve_lower nb nb (lu nb M) B)))))))].

(** The team of element [e] in helpers.cpp 71-99, with basis/tools.cpp 85-110
    inlined (the library copy is a team loop over the entries).  [own k i]: the
    thread that runs iteration [i] of the k-th loop. *)
Definition inv_mass_k (dim npe nb : Z) (pm : pmesh R) (h : vhelpers) (junk : arr2) (own : nat -> Z -> Z -> Z) (e : Z) : list phase :=
  let nq := vh_nq h in
  [rank0 (coords_code pm npe dim e);
   Loop (mkTL nq (own 0%nat e) (jac_body dim npe (vh_ggrad h) junk e));
   Loop (mkTL (nq * nb) (own 1%nat e) (fun ij => Store (at3 vSB e (ij / nb) (ij mod nb)) (vh_val h (ij / nb) (ij mod nb))%Z Done));
   Loop (mkTL nq (own 2%nat e) (scale_body nb (vh_wts h) vDet vSB e));
   Loop (gemm_set nb nb (at3 vMM e) (own 3%nat e));
   Loop (gemm_add nb nb nq 1 (flip (table (vh_val h))) (inmem (at3 vSB e)) (at3 vMM e) (own 4%nat e))]
  ++ inv_phases nb e junk (own 5%nat e).

(** The team of element [e] in helpers.cpp 12-49.  The reduction of
    mesh/tools.cpp 27-36 is a library call (trusted description): the sum of the
    terms, in some order, stored in the result. *)
Definition volume_k (dim npe gnb : Z) (pm : pmesh R) (h : vhelpers) (junk : arr2) (own : nat -> Z -> Z -> Z) (rorder : Z -> list Z) (e : Z) : list phase :=
  let nq := vh_nq h in
  [rank0 (seq (coords_code pm npe dim e) (phys_code nq dim gnb (vh_gval h) vX e));
   Loop (mkTL nq (own 0%nat e) (jac_body dim npe (vh_ggrad h) junk e));
   Loop (mkTL 0 (own 1%nat e) (fun _ => Done));
   Loop (mkTL 1 (own 2%nat e) (fun _ =>
     fold_right (fun iq k acc => Load (at3 vDet e iq 0) (fun d => k (acc + vh_wts h iq * d)))
       (fun acc => Store (at3 vVol e 0 0) acc Done) (rorder e) 0))].

(** The team of element [e] in base.cpp 171-219, with tools.cpp 68-121 inlined.
    A failing initial condition ends the thread. *)
Definition init_k (dim npe gnb nb ns nq : Z) (pm : pmesh R) (ic : ic_type) (ph : phys) (t : R) (wts : arr1) (bval gval : arr2) (ggrad : arr3) (iMM : arr3)
  (junk : arr2) (own : nat -> Z -> Z -> Z) (e : Z) : list phase :=
  [rank0 (seq (coords_code pm npe dim e) (phys_code nq dim gnb gval vXs e));
   Loop (mkTL nq (own 0%nat e) (fun iq =>
     load_row dim (at3 vXs e iq) (junk iq) (fun x =>
     load_row ns (at3 vIF e iq) (junk iq) (fun f0 =>
     match call_IC dim ic ph x t f0 with
     | Fail _ => Done
     | Ok U => pfor ns (fun k => Store (at3 vIF e iq k) (U k) Done)
     end))));
   Loop (mkTL nq (own 1%nat e) (jacdet_body dim npe ggrad junk e));
   Loop (mkTL nq (own 2%nat e) (scale_body ns wts vDs vIF e));
   Loop (gemm_set nb ns (at3 vRhs e) (own 3%nat e));
   Loop (gemm_add nb ns nq 1 (flip (table bval)) (inmem (at3 vIF e)) (at3 vRhs e) (own 4%nat e));
   Loop (gemm_set nb ns (at3 vUc e) (own 5%nat e));
   Loop (gemm_add nb ns nb 1 (table (iMM e)) (inmem (at3 vRhs e)) (at3 vUc e) (own 6%nat e))].

(** base.cpp 69-90: the launches of compute_inv_mass_matrices and of
    compute_volume_helpers, each after the host has filled the quadrature and the
    basis tables (helpers.cpp 102-170, SetupModel.reference_data).  [T1], [T2]:
    the team sizes; [own1], [own2]: the threads of the iterations. *)
Definition set_up_tasks (s : eshape) (bt : basis_type) (order g : Z) (pm : pmesh R) (npe : Z) (junk : arr2)
  (T1 T2 : Z) (own1 own2 : nat -> Z -> Z -> Z) (rorder : Z -> list Z) (h : vhelpers) : res (list task) :=
  h1 <- reference_data s bt order g (2 * order) h ;;
  h2 <- reference_data s bt order g order h1 ;;
  Ok [Launch (pm_num_elems_part pm) T1 (teams (inv_mass_k (space_dim s) npe (num_basis_coeff bt order) pm h1 junk own1));
      Launch (pm_num_elems_part pm) T2 (teams (volume_k (space_dim s) npe (num_basis_coeff (geom_basis s) g) pm h2 junk own2 rorder))].

(** base.cpp 113-223: the launch of the initialisation, after the host part
    (113-169); [iMM]: the stored inverse mass matrices. *)
Definition init_tasks (s : eshape) (bt : basis_type) (order g : Z) (pm : pmesh R) (npe ns : Z) (ic : ic_type) (ph : phys) (t : R)
  (iMM : arr3) (junk : arr2) (T : Z) (own : nat -> Z -> Z -> Z) : res (list task) :=
  q <- volume_quadrature s (2 * Z.max order 1) zero2 zero1 ;;
  let '(nq, pts, wts) := q in
  let nb := num_basis_coeff bt order in
  let gnb := num_basis_coeff (geom_basis s) g in
  Ok [Launch (pm_num_elems_part pm) T (teams (init_k (space_dim s) npe gnb nb ns nq pm ic ph t wts
        (get_values bt order nq nb pts zero2) (get_values (geom_basis s) g nq gnb pts zero2) (get_grads (geom_basis s) g nq pts zero3) iMM junk own))].
