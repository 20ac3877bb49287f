(** TeamNormals.v -- the team kernel that computes the face normals
    (src/solver/helpers.cpp 408-499, src/numerics/basis/shape.cpp 154-204 and
    482-532) as thread programs of TeamModel.v.

    Simplification: the code before the barrier at helpers.cpp 467, in which all
    threads of a team write the same node coordinates to scratch memory, is not
    part of the programs: [fc g] are the coordinates of the nodes of face [g],
    [sign g] its sign. *)
From Coq Require Import ZArith List Lia Reals Bool.
From Verif Require Import Base RBase LinAlgModel ShapeModel SolverSpec TeamModel TeamKernels.
Import ListNotations.
Local Open Scope R_scope.

Definition vXg := 10%Z.  (* xphys_grad, in the scratch memory of each team *)
Definition vN := 11%Z.   (* normals *)
Definition xg_at (g i j ip : Z) : loc := At vXg g i j ip.
Definition n_at (g ip k : Z) : loc := at3 vN g ip k.

(** Code with barriers: programs separated by team barriers; [cat a b]: [a], then
    [b], without a barrier in between. *)
Fixpoint cat (a b : list prog) : list prog :=
  match a with
  | [] => b
  | [p] => match b with [] => [p] | q :: b => seq p q :: b end
  | p :: a => p :: cat a b
  end.
Definition for_points (np : Z) (body : Z -> list prog) : list prog := fold_left (fun c ip => cat c (body ip)) (zseq np) [Done].

(** shape.cpp 166-173 and 494-502: Math::cATxB_to_C(1., face_coords, grad, xphys_grad_, member),
    linear_algebra.cpp 195-212 with beta = 0 (library TeamGemm: see TeamKernels.v). *)
Definition gradient_code (dim nn : Z) (fgrad : arr3) (fc : arr2) (own0 own1 : Z -> Z) (g t ip : Z) : list prog :=
  let L0 := gemm_set dim (dim - 1) (fun i j => xg_at g i j ip) own0 in
  let L1 := gemm_add dim (dim - 1) nn 1 (flip (table fc)) (table (fgrad ip)) (fun i j => xg_at g i j ip) own1 in
  [ share own0 t (tl_n L0) (tl_body L0); share own1 t (tl_n L1) (tl_body L1) ].

(** shape.cpp 194-200: every thread *)
Definition quad_normal_code (sign : R) (g ip : Z) : prog :=
  Load (xg_at g 1 0 ip) (fun a => Store (n_at g ip 0) (sign * a)
 (Load (xg_at g 0 0 ip) (fun b => Store (n_at g ip 1) (-1 * sign * b) Done))).
Definition normals_quad_code (sign : R) (np nn : Z) (fgrad : arr3) (fc : arr2) (own0 own1 : Z -> Z -> Z) (g t : Z) : list prog :=
  cat (for_points np (fun ip => gradient_code 2 nn fgrad fc (own0 ip) (own1 ip) g t ip))
      [pfor np (quad_normal_code sign g)].

(** shape.cpp 522-530: every thread computes the cross product (linear_algebra.cpp
    35-41) and stores it; then TeamScale (library: a TeamThreadRange over the
    entries, no barrier). *)
Definition hex_cross_code (g ip : Z) (k : prog) : prog :=
  Load (xg_at g 0 0 ip) (fun a0 => Load (xg_at g 0 1 ip) (fun b0 =>
  Load (xg_at g 1 0 ip) (fun a1 => Load (xg_at g 1 1 ip) (fun b1 =>
  Load (xg_at g 2 0 ip) (fun a2 => Load (xg_at g 2 1 ip) (fun b2 =>
  Store (n_at g ip 0) (a1 * b2 - a2 * b1)
 (Store (n_at g ip 1) (a2 * b0 - a0 * b2)
 (Store (n_at g ip 2) (a0 * b1 - a1 * b0) k)))))))).
Definition hex_normal_code (sign : R) (own : Z -> Z) (g t ip : Z) : prog :=
  hex_cross_code g ip (share own t 3 (fun i => Load (n_at g ip i) (fun v => Store (n_at g ip i) (sign * v) Done))).
Definition normals_hex_code (sign : R) (np nn : Z) (fgrad : arr3) (fc : arr2) (own0 own1 own2 : Z -> Z -> Z) (g t : Z) : list prog :=
  cat (for_points np (fun ip => gradient_code 3 nn fgrad fc (own0 ip) (own1 ip) g t ip))
      [pfor np (fun ip => hex_normal_code sign (own2 ip) g t ip)].

(** helpers.cpp 408-499: one team per face. *)
Definition normals_pool (s : eshape) (sign : Z -> R) (np nn : Z) (fgrad : arr3) (fc : Z -> arr2) (own0 own1 own2 : Z -> Z -> Z -> Z) : pool :=
  fun g t => match s with
  | EQuad => normals_quad_code (sign g) np nn fgrad (fc g) (own0 g) (own1 g) g t
  | EHex => normals_hex_code (sign g) np nn fgrad (fc g) (own0 g) (own1 g) (own2 g) g t
  end.

(** The normal of a face at a point (ShapeModel.v). *)
Definition normal_of (s : eshape) : R -> Z -> arr3 -> arr2 -> arr2 -> Z -> arr1 -> arr1 :=
  match s with EQuad => normal_quad | EHex => normal_hex end.
