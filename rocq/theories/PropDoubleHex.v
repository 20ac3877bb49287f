(** PropDoubleHex.v -- C98 is false for hexahedra: the normal of a common face is
    summed over its nodes in another order by each of its two elements, and a face
    between two ranks uses both.  Computed in binary64 for two boxes. *)
From Coq Require Import ZArith Reals List Lia Bool FunctionalExtensionality.
From Flocq Require Import Core BinarySingleNaN.
From Verif Require CommProof.
From Verif Require Import Base RBase MeshModel MeshSpec MeshProof PropMesh ShapeModel ShapeProof PropShape
  SolverModel SetupModel SolverSpec PhysModel LinAlgProof ArithModel ArithProof ArithSetup ArithRun PropArith ArithLibrary ArithDouble PropDouble.
Import ListNotations.
Local Open Scope Z_scope.

(** The double m 2^e. *)
Definition lit (p : Z * Z) : d64 := binary_normalize 53 1024 prec64 emax64 mode_NE (fst p) (snd p) false.

(** * The tables of order zero on hexahedra, as the code computes them *)

(** basis/tools.cpp 113-126 *)
Definition dlagrange_val (x : d64) (nnodes : Z) (xnodes : Z -> d64) (i : Z) : d64 :=
  zloop nnodes (fun j phi => if i =? j then phi else
    dmult phi (ddiv (dminus x (xnodes j)) (dminus (xnodes i) (xnodes j)))) (dint 1).
Definition dval (x : d64) (i : Z) : d64 := dlagrange_val x 2 (dnodes (dint (-1)) (dint 1) 2) i.
Definition dgrad (x : d64) (i : Z) : d64 := dlagrange_grad x 2 (dnodes (dint (-1)) (dint 1) 2) i.

(** nodes.cpp, the two Gauss-Legendre nodes -+0.57735026918962576450914878050196. *)
Definition gauss (i : Z) : d64 := let a := lit (1300077228592327, -51) in if i =? 0 then dopp a else a.
(** quadrature/hexahedron.cpp 25-37 *)
Definition vpoint (iq d : Z) : d64 := gauss (if d =? 0 then iq mod 2 else if d =? 1 then (iq / 2) mod 2 else iq / 4).
(** basis/tools.cpp 216-247, 249-305, geometric order 1 *)
Definition gval (iq k : Z) : d64 :=
  let i := k mod 2 in let j := (k / 2) mod 2 in let l := k / 4 in
  dmult (dmult (dval (vpoint iq 0) i) (dval (vpoint iq 1) j)) (dval (vpoint iq 2) l).
Definition ggrad (iq k d : Z) : d64 :=
  let i := k mod 2 in let j := (k / 2) mod 2 in let l := k / 4 in
  let v := fun d' => if d =? d' then dgrad (vpoint iq d') else dval (vpoint iq d') in
  dmult (dmult (v 0 i) (v 1 j)) (v 2 l).
(** shape.cpp 225-314 for face 0, orientation 0: coordinate 0 or 1 of point [iq] of
    the four-point rule of the face. *)
Definition fpoint (iq d : Z) : d64 :=
  let xb := ddiv (dplus (gauss (iq mod 2)) (dint 1)) (dint 2) in
  let yb := ddiv (dplus (gauss (iq / 2)) (dint 1)) (dint 2) in
  let b := fun j => if j =? 0 then dmult (dminus (dint 1) xb) (dminus (dint 1) yb)
    else if j =? 1 then dmult xb (dminus (dint 1) yb)
    else if j =? 2 then dmult xb yb else dmult (dminus (dint 1) xb) yb in
  let node := fun j => if j =? 0 then 0 else if j =? 1 then 2 else if j =? 2 then 3 else 1 in
  let ref := fun j => if d =? 0 then (if Z.odd (node j) then dint 1 else dint (-1)) else (if node j <? 2 then dint (-1) else dint 1) in
  zloop 4 (fun j a => dplus a (dmult (b j) (ref j))) (dint 0).
(** basis/tools.cpp 180-214 as called by basis.cpp 327-338 *)
Definition fgrad (iq k d : Z) : d64 :=
  let i := k mod 2 in let j := k / 2 in
  if d =? 0 then dmult (dgrad (fpoint iq 0) i) (dval (fpoint iq 1) j) else dmult (dval (fpoint iq 0) i) (dgrad (fpoint iq 1) j).

(** The same numbers, tabulated. *)
Definition gval_tab : list (list (Z * Z)) :=
  [[(1104648798668115,-51); (4735836056370101,-55); (4735836056370101,-55); (5075853787162245,-57); (4735836056370101,-55); (2537926893581123,-56); (2537926893581123,-56); (2720141846337159,-58)]; [(4735836056370101,-55); (1104648798668115,-51); (5075853787162245,-57); (4735836056370101,-55); (2537926893581123,-56); (4735836056370101,-55); (2720141846337159,-58); (2537926893581123,-56)]; [(4735836056370101,-55); (5075853787162245,-57); (1104648798668115,-51); (4735836056370101,-55); (2537926893581123,-56); (2720141846337159,-58); (4735836056370101,-55); (2537926893581123,-56)]; [(5075853787162245,-57); (4735836056370101,-55); (4735836056370101,-55); (1104648798668115,-51); (2720141846337159,-58); (2537926893581123,-56); (2537926893581123,-56); (4735836056370101,-55)]; [(4735836056370101,-55); (2537926893581123,-56); (2537926893581123,-56); (2720141846337159,-58); (1104648798668115,-51); (4735836056370101,-55); (4735836056370101,-55); (5075853787162245,-57)]; [(2537926893581123,-56); (4735836056370101,-55); (2720141846337159,-58); (2537926893581123,-56); (4735836056370101,-55); (1104648798668115,-51); (5075853787162245,-57); (4735836056370101,-55)]; [(2537926893581123,-56); (2720141846337159,-58); (4735836056370101,-55); (2537926893581123,-56); (4735836056370101,-55); (5075853787162245,-57); (1104648798668115,-51); (4735836056370101,-55)]; [(2720141846337159,-58); (2537926893581123,-56); (2537926893581123,-56); (4735836056370101,-55); (5075853787162245,-57); (4735836056370101,-55); (4735836056370101,-55); (1104648798668115,-51)]].
Definition ggrad_tab : list (list (list (Z * Z))) :=
  [[[(-5602554208764985,-54); (-5602554208764985,-54); (-5602554208764985,-54)]; [(5602554208764985,-54); (-3002399751580331,-55); (-3002399751580331,-55)]; [(-3002399751580331,-55); (5602554208764985,-54); (-3002399751580331,-55)]; [(3002399751580331,-55); (3002399751580331,-55); (-6435924710330825,-58)]; [(-3002399751580331,-55); (-3002399751580331,-55); (5602554208764985,-54)]; [(3002399751580331,-55); (-6435924710330825,-58); (3002399751580331,-55)]; [(-6435924710330825,-58); (3002399751580331,-55); (3002399751580331,-55)]; [(6435924710330825,-58); (6435924710330825,-58); (6435924710330825,-58)]]; [[(-5602554208764985,-54); (-3002399751580331,-55); (-3002399751580331,-55)]; [(5602554208764985,-54); (-5602554208764985,-54); (-5602554208764985,-54)]; [(-3002399751580331,-55); (3002399751580331,-55); (-6435924710330825,-58)]; [(3002399751580331,-55); (5602554208764985,-54); (-3002399751580331,-55)]; [(-3002399751580331,-55); (-6435924710330825,-58); (3002399751580331,-55)]; [(3002399751580331,-55); (-3002399751580331,-55); (5602554208764985,-54)]; [(-6435924710330825,-58); (6435924710330825,-58); (6435924710330825,-58)]; [(6435924710330825,-58); (3002399751580331,-55); (3002399751580331,-55)]]; [[(-3002399751580331,-55); (-5602554208764985,-54); (-3002399751580331,-55)]; [(3002399751580331,-55); (-3002399751580331,-55); (-6435924710330825,-58)]; [(-5602554208764985,-54); (5602554208764985,-54); (-5602554208764985,-54)]; [(5602554208764985,-54); (3002399751580331,-55); (-3002399751580331,-55)]; [(-6435924710330825,-58); (-3002399751580331,-55); (3002399751580331,-55)]; [(6435924710330825,-58); (-6435924710330825,-58); (6435924710330825,-58)]; [(-3002399751580331,-55); (3002399751580331,-55); (5602554208764985,-54)]; [(3002399751580331,-55); (6435924710330825,-58); (3002399751580331,-55)]]; [[(-3002399751580331,-55); (-3002399751580331,-55); (-6435924710330825,-58)]; [(3002399751580331,-55); (-5602554208764985,-54); (-3002399751580331,-55)]; [(-5602554208764985,-54); (3002399751580331,-55); (-3002399751580331,-55)]; [(5602554208764985,-54); (5602554208764985,-54); (-5602554208764985,-54)]; [(-6435924710330825,-58); (-6435924710330825,-58); (6435924710330825,-58)]; [(6435924710330825,-58); (-3002399751580331,-55); (3002399751580331,-55)]; [(-3002399751580331,-55); (6435924710330825,-58); (3002399751580331,-55)]; [(3002399751580331,-55); (3002399751580331,-55); (5602554208764985,-54)]]; [[(-3002399751580331,-55); (-3002399751580331,-55); (-5602554208764985,-54)]; [(3002399751580331,-55); (-6435924710330825,-58); (-3002399751580331,-55)]; [(-6435924710330825,-58); (3002399751580331,-55); (-3002399751580331,-55)]; [(6435924710330825,-58); (6435924710330825,-58); (-6435924710330825,-58)]; [(-5602554208764985,-54); (-5602554208764985,-54); (5602554208764985,-54)]; [(5602554208764985,-54); (-3002399751580331,-55); (3002399751580331,-55)]; [(-3002399751580331,-55); (5602554208764985,-54); (3002399751580331,-55)]; [(3002399751580331,-55); (3002399751580331,-55); (6435924710330825,-58)]]; [[(-3002399751580331,-55); (-6435924710330825,-58); (-3002399751580331,-55)]; [(3002399751580331,-55); (-3002399751580331,-55); (-5602554208764985,-54)]; [(-6435924710330825,-58); (6435924710330825,-58); (-6435924710330825,-58)]; [(6435924710330825,-58); (3002399751580331,-55); (-3002399751580331,-55)]; [(-5602554208764985,-54); (-3002399751580331,-55); (3002399751580331,-55)]; [(5602554208764985,-54); (-5602554208764985,-54); (5602554208764985,-54)]; [(-3002399751580331,-55); (3002399751580331,-55); (6435924710330825,-58)]; [(3002399751580331,-55); (5602554208764985,-54); (3002399751580331,-55)]]; [[(-6435924710330825,-58); (-3002399751580331,-55); (-3002399751580331,-55)]; [(6435924710330825,-58); (-6435924710330825,-58); (-6435924710330825,-58)]; [(-3002399751580331,-55); (3002399751580331,-55); (-5602554208764985,-54)]; [(3002399751580331,-55); (6435924710330825,-58); (-3002399751580331,-55)]; [(-3002399751580331,-55); (-5602554208764985,-54); (3002399751580331,-55)]; [(3002399751580331,-55); (-3002399751580331,-55); (6435924710330825,-58)]; [(-5602554208764985,-54); (5602554208764985,-54); (5602554208764985,-54)]; [(5602554208764985,-54); (3002399751580331,-55); (3002399751580331,-55)]]; [[(-6435924710330825,-58); (-6435924710330825,-58); (-6435924710330825,-58)]; [(6435924710330825,-58); (-3002399751580331,-55); (-3002399751580331,-55)]; [(-3002399751580331,-55); (6435924710330825,-58); (-3002399751580331,-55)]; [(3002399751580331,-55); (3002399751580331,-55); (-5602554208764985,-54)]; [(-3002399751580331,-55); (-3002399751580331,-55); (6435924710330825,-58)]; [(3002399751580331,-55); (-5602554208764985,-54); (3002399751580331,-55)]; [(-5602554208764985,-54); (3002399751580331,-55); (3002399751580331,-55)]; [(5602554208764985,-54); (5602554208764985,-54); (5602554208764985,-54)]]].
Definition fgrad_tab : list (list (list (Z * Z))) :=
  [[[(-3551877042277575,-53); (-3551877042277575,-53)]; [(3551877042277575,-53); (-951722585092921,-53)]; [(-951722585092921,-53); (3551877042277575,-53)]; [(951722585092921,-53); (951722585092921,-53)]]; [[(-951722585092921,-53); (-3551877042277575,-53)]; [(951722585092921,-53); (-3806890340371685,-55)]; [(-3551877042277575,-53); (3551877042277575,-53)]; [(3551877042277575,-53); (3806890340371685,-55)]]; [[(-3551877042277575,-53); (-951722585092921,-53)]; [(3551877042277575,-53); (-3551877042277575,-53)]; [(-951722585092921,-53); (951722585092921,-53)]; [(951722585092921,-53); (3551877042277575,-53)]]; [[(-951722585092921,-53); (-951722585092921,-53)]; [(951722585092921,-53); (-3551877042277575,-53)]; [(-3551877042277575,-53); (951722585092921,-53)]; [(3551877042277575,-53); (3551877042277575,-53)]]].
Definition look2 (t : list (list (Z * Z))) (a b : Z) : d64 := lit (nth (Z.to_nat b) (nth (Z.to_nat a) t []) (0, 0)).
Definition look3 (t : list (list (list (Z * Z)))) (a b c : Z) : d64 := look2 (nth (Z.to_nat a) t []) b c.

Definition same_float (x y : d64) : bool :=
  match x, y with
  | B754_zero s, B754_zero s' => Bool.eqb s s'
  | B754_finite s m e _, B754_finite s' m' e' _ => Bool.eqb s s' && Pos.eqb m m' && Z.eqb e e'
  | _, _ => false
  end.
Lemma same_float_eq x y : same_float x y = true -> x = y.
Proof.
  destruct x, y; cbn; try discriminate.
  - intros H. apply Bool.eqb_prop in H. now subst.
  - intros H. apply andb_true_iff in H. destruct H as [H H3]. apply andb_true_iff in H. destruct H as [H1 H2].
    apply Bool.eqb_prop in H1. apply Pos.eqb_eq in H2. apply Z.eqb_eq in H3. apply B2SF_inj. cbn. now subst.
Qed.

Definition tables_match : bool :=
  forallb (fun iq => forallb (fun k => same_float (look2 gval_tab iq k) (gval iq k) &&
     forallb (fun d => same_float (look3 ggrad_tab iq k d) (ggrad iq k d)) (zseq 3)) (zseq 8)) (zseq 8) &&
  forallb (fun iq => forallb (fun k => forallb (fun d => same_float (look3 fgrad_tab iq k d) (fgrad iq k d)) (zseq 2)) (zseq 4)) (zseq 4).
Lemma tables_ok : tables_match = true.
Proof. vm_compute. reflexivity. Qed.

(** * Two boxes: x in [0,1] and [1,2], y in [0.2,0.3], z in [0,1] *)
Definition tenth (k : Z) : d64 := ddiv (dint k) (dint 10).
Definition boxes : gmesh d64 :=
  mkGMesh 3 2 12 1 8 [0;1;3;4;6;7;9;10; 1;2;4;5;7;8;10;11]
    (flat_map (fun z => flat_map (fun y => map (fun x => [dint x; y; dint z]) [0; 1; 2]) [tenth 2; tenth 3]) [0; 1])
    [[0;2;0;1;4;5]].

(** Order zero, gas at rest (density 1, energy 5/2), ratio of specific heats 1.4,
    Lax-Friedrichs, forward Euler with time step 1/8. *)
Definition vtab : vtable d64 :=
  mkVT d64 8 (fun _ => dint 1) (fun _ _ => dint 1) (fun _ _ _ => dint 0) (look2 gval_tab) (look3 ggrad_tab).
Definition box_case : kcase double :=
  mkKC double EHex 1 1 8 4 vtab vtab vtab (fun _ _ _ => dint 1) (fun _ => dint 1) (look3 fgrad_tab)
    (ddiv (dint 14) (dint 10)) LaxFriedrichs StepFE (ddiv (dint 1) (dint 8))
    (fun _ _ s => if s =? 0 then dint 1 else if s =? 4 then ddiv (dint 5) (dint 2) else dint 0).

(** ** Memo tables, so that the kernel computes each number once *)
Definition jac_tab : list (list (list (list (Z * Z)))) :=
  [[[[(4503599627370496, -53); (0, 0); (4503599627370496, -110)]; [(0, 0); (7205759403792794, -57); (7881299347898368, -109)]; [(0, 0); (4503599627370496, -110); (4503599627370496, -53)]];
   [[(4503599627370496, -53); (0, 0); (4503599627370496, -107)]; [(0, 0); (7205759403792794, -57); (4503599627370496, -109)]; [(0, 0); (0, 0); (4503599627370496, -53)]];
   [[(4503599627370496, -53); (0, 0); (0, 0)]; [(0, 0); (7205759403792794, -57); (-4503599627370496, -109)]; [(0, 0); (4503599627370496, -110); (4503599627370496, -53)]];
   [[(4503599627370496, -53); (0, 0); (4503599627370496, -106)]; [(0, 0); (7205759403792794, -57); (0, 0)]; [(0, 0); (0, 0); (4503599627370496, -53)]];
   [[(4503599627370496, -53); (0, 0); (4503599627370496, -110)]; [(0, 0); (7205759403792793, -57); (7881299347898368, -109)]; [(0, 0); (4503599627370496, -107); (4503599627370496, -53)]];
   [[(4503599627370496, -53); (0, 0); (4503599627370496, -107)]; [(0, 0); (7205759403792793, -57); (4503599627370496, -109)]; [(0, 0); (4503599627370496, -106); (4503599627370496, -53)]];
   [[(4503599627370496, -53); (0, 0); (0, 0)]; [(0, 0); (7205759403792793, -57); (-4503599627370496, -109)]; [(0, 0); (4503599627370496, -107); (4503599627370496, -53)]];
   [[(4503599627370496, -53); (0, 0); (4503599627370496, -106)]; [(0, 0); (7205759403792793, -57); (0, 0)]; [(0, 0); (4503599627370496, -106); (4503599627370496, -53)]]];
   [[[(9007199254740991, -54); (4503599627370496, -109); (-6192449487634432, -106)]; [(0, 0); (7205759403792794, -57); (7881299347898368, -109)]; [(0, 0); (4503599627370496, -110); (4503599627370496, -53)]];
   [[(9007199254740991, -54); (0, 0); (-4503599627370496, -107)]; [(0, 0); (7205759403792794, -57); (4503599627370496, -109)]; [(0, 0); (0, 0); (4503599627370496, -53)]];
   [[(9007199254740991, -54); (4503599627370496, -109); (-4503599627370496, -106)]; [(0, 0); (7205759403792794, -57); (-4503599627370496, -109)]; [(0, 0); (4503599627370496, -110); (4503599627370496, -53)]];
   [[(9007199254740991, -54); (0, 0); (0, 0)]; [(0, 0); (7205759403792794, -57); (0, 0)]; [(0, 0); (0, 0); (4503599627370496, -53)]];
   [[(4503599627370496, -53); (0, 0); (-6192449487634432, -106)]; [(0, 0); (7205759403792793, -57); (7881299347898368, -109)]; [(0, 0); (4503599627370496, -107); (4503599627370496, -53)]];
   [[(4503599627370496, -53); (0, 0); (-4503599627370496, -107)]; [(0, 0); (7205759403792793, -57); (4503599627370496, -109)]; [(0, 0); (4503599627370496, -106); (4503599627370496, -53)]];
   [[(4503599627370496, -53); (0, 0); (-4503599627370496, -106)]; [(0, 0); (7205759403792793, -57); (-4503599627370496, -109)]; [(0, 0); (4503599627370496, -107); (4503599627370496, -53)]];
   [[(4503599627370496, -53); (0, 0); (0, 0)]; [(0, 0); (7205759403792793, -57); (0, 0)]; [(0, 0); (4503599627370496, -106); (4503599627370496, -53)]]]].
Definition init_tab : list (list (Z * Z)) :=
  [[(9007199254740991, -53); (0, 0); (0, 0); (0, 0); (5629499534213120, -51)]; [(9007199254740991, -53); (0, 0); (0, 0); (0, 0); (5629499534213119, -51)]].

Definition box_jac (e : Z) : Z -> Z -> Z -> d64 := ref_jac double (kokkos double) vtab 3 8 (gnode double boxes e).
Definition box_jac' (e : Z) : Z -> Z -> Z -> d64 := fun q i j =>
  if (inb 2 e && inb 8 q && inb 3 i && inb 3 j)%bool then look3 (nth (Z.to_nat e) jac_tab []) q i j else box_jac e q i j.
Lemma box_jac_memo e : box_jac e = box_jac' e.
Proof.
  assert (H : forallb (fun e => forallb (fun q => forallb (fun i => forallb (fun j => same_float (box_jac e q i j) (look3 (nth (Z.to_nat e) jac_tab []) q i j)) (zseq 3)) (zseq 3)) (zseq 8)) (zseq 2) = true)
    by (vm_compute; reflexivity).
  apply functional_extensionality. intros q. apply functional_extensionality. intros i. apply functional_extensionality. intros j. unfold box_jac'.
  destruct (inb 2 e) eqn:E1; [|reflexivity]. destruct (inb 8 q) eqn:E2; [|reflexivity]. destruct (inb 3 i) eqn:E3; [|reflexivity]. destruct (inb 3 j) eqn:E4; [|reflexivity].
  cbn [andb]. apply inb_true in E1, E2, E3, E4. apply same_float_eq.
  rewrite forallb_forall in H. specialize (H e ltac:(now apply In_zseq)). cbv beta in H. rewrite forallb_forall in H. specialize (H q ltac:(now apply In_zseq)).
  cbv beta in H. rewrite forallb_forall in H. specialize (H i ltac:(now apply In_zseq)). cbv beta in H. rewrite forallb_forall in H. exact (H j ltac:(now apply In_zseq)).
Qed.

Definition init_of (e : Z) : Z -> Z -> d64 := ref_init double (kokkos double) boxes box_case (gnode double boxes e).
Definition init_of' (e : Z) : Z -> Z -> d64 := fun i s =>
  if (inb 2 e && inb 1 i && inb 5 s)%bool then look2 init_tab e s else init_of e i s.

Lemma init_check e : e = 0 \/ e = 1 -> forallb (fun s => same_float (init_of e 0 s) (look2 init_tab e s)) (zseq 5) = true.
Proof.
  intros H. unfold init_of, ref_init, ref_iMM, ref_djac. cbv zeta.
  cbn [c_shape c_TI c_TM c_nb c_gnb c_ic box_case space_dim gm_npe boxes].
  fold (box_jac e). rewrite box_jac_memo.
  destruct H as [-> | ->]; vm_compute; reflexivity.
Qed.
Lemma init_memo : init_of = init_of'.
Proof.
  apply functional_extensionality. intros e. apply functional_extensionality. intros i. apply functional_extensionality. intros s. unfold init_of'.
  destruct (inb 2 e) eqn:E1; [|reflexivity]. destruct (inb 1 i) eqn:E2; [|reflexivity]. destruct (inb 5 s) eqn:E3; [|reflexivity].
  cbn [andb]. apply inb_true in E1, E2, E3. assert (i = 0) as -> by lia. apply same_float_eq.
  pose proof (init_check e ltac:(lia)) as H. rewrite forallb_forall in H. exact (H s ltac:(now apply In_zseq)).
Qed.

(** One step of the right box: momentum along x, with the normals used by the
    assignment [ep]. *)
Definition after_step (ep : list Z) : d64 :=
  ref_march double (kokkos double) box_case boxes (used_normal double (kokkos double) box_case boxes ep) 1 (fun e => init_of e) 1 0 1.
(** One rank: (1 - 2^-52)/8; two ranks: (1 - 2^-51)/8. *)
Lemma one_rank_value : same_float (after_step [0; 0]) (lit (9007199254740990, -56)) = true.
Proof.
  unfold after_step. change (fun e => init_of e) with init_of. rewrite init_memo.
  cbn [ref_march]. unfold ref_step. cbn [c_kind box_case]. unfold ref_incr, ref_residual, ref_volume, ref_iMM, ref_ijac, ref_djac. cbv zeta.
  cbn [c_shape c_TV c_TI c_TM c_nb c_gnb c_ic box_case space_dim gm_npe boxes].
  fold (box_jac 1). rewrite box_jac_memo. vm_compute. reflexivity.
Qed.
Lemma two_rank_value : same_float (after_step [0; 1]) (lit (9007199254740988, -56)) = true.
Proof.
  unfold after_step. change (fun e => init_of e) with init_of. rewrite init_memo.
  cbn [ref_march]. unfold ref_step. cbn [c_kind box_case]. unfold ref_incr, ref_residual, ref_volume, ref_iMM, ref_ijac, ref_djac. cbv zeta.
  cbn [c_shape c_TV c_TI c_TM c_nb c_gnb c_ic box_case space_dim gm_npe boxes].
  fold (box_jac 1). rewrite box_jac_memo. vm_compute. reflexivity.
Qed.

(** * The hypotheses of C97 hold *)
Lemma box_sides f sd e k o : has_side boxes f sd e k o -> f = 0 /\ [e; k; o] = (if sd then [1; 4; 5] else [0; 2; 0]).
Proof.
  intros (H1 & H2 & H3). unfold rd2 in *. destruct (rd (gm_IF boxes) f) as [row|] eqn:E; [|discriminate].
  pose proof (rd_in_range _ _ _ E) as Rg. change (zlen (gm_IF boxes)) with 1%Z in Rg. assert (f = 0) as -> by lia. split; [reflexivity|].
  injection E as <-. destruct sd; injection H1 as <-; injection H2 as <-; injection H3 as <-; reflexivity.
Qed.
Lemma box_fits : case_fits double box_case boxes.
Proof.
  split; try reflexivity; try (cbn; lia).
  - intros f sd e k o H. apply box_sides in H. destruct H as (-> & H). destruct sd; injection H as -> -> ->; cbn; lia.
  - intros f sd e k o f' sd' o' H H'. apply box_sides in H, H'. destruct H as (-> & H), H' as (-> & H').
    destruct sd, sd'; injection H as -> -> ->; injection H'; intros; try discriminate; auto.
  - exists 2. cbn. lia.
  - intros x x' u u' _ i _. reflexivity.
Qed.
Lemma box_run n ep : assignment boxes n ep -> n = 1 \/ n = 2 -> run_wf (fun _ l => l) n boxes ep.
Proof.
  intros A Hn. constructor.
  - constructor; cbn [gm_dim gm_num_elems gm_num_nodes gm_nIF gm_npe gm_eind gm_coord gm_IF boxes]; try (unfold UINT_MAX; lia); try reflexivity.
    + repeat (constructor; [lia|]). constructor.
    + cbn [flat_map map app]. repeat (constructor; [reflexivity|]). constructor.
    + constructor; [|constructor]. do 6 eexists. split; [reflexivity|]. lia.
  - exact A.
  - intros r l. reflexivity.
Qed.

(** Two boxes with a common face, gas at rest, one step: every run on one rank and
    every run on two ranks differ in the bits of an element (and both exist). *)
Theorem C98_hexahedra_refuted : exists (C : kcase double) (m : gmesh d64),
  case_fits double C m /\ c_shape double C = EHex /\ c_g double C = 1 /\ c_flux double C = LaxFriedrichs /\
  (exists pm U, computes double (kokkos double) C (fun _ l => l) 1 m [0; 0] 1 pm U) /\
  (exists pm U, computes double (kokkos double) C (fun _ l => l) 2 m [0; 1] 1 pm U) /\
  forall iter1 pm1 U1 iter2 pm2 U2,
    computes double (kokkos double) C iter1 1 m [0; 0] 1 pm1 U1 -> computes double (kokkos double) C iter2 2 m [0; 1] 1 pm2 U2 ->
    ~ same_bits double C 1 2 pm1 pm2 U1 U2.
Proof.
  exists box_case, boxes. split; [exact box_fits|]. split; [reflexivity|]. split; [reflexivity|]. split; [reflexivity|].
  split; [|split].
  - apply (C97_runs double (kokkos double)); [reflexivity|]. apply box_run; [|now left]. split; [reflexivity|]. repeat constructor; lia.
  - apply (C97_runs double (kokkos double)); [reflexivity|]. apply box_run; [|now right]. split; [reflexivity|]. repeat constructor; lia.
  - intros iter1 pm1 U1 iter2 pm2 U2 R1 R2 SB.
    assert (VAL : forall iter n ep pm U r, 0 <= r < n -> owned_by ep 1 r -> computes double (kokkos double) box_case iter n boxes ep 1 pm U ->
       exists le, rd (pm_l2g_elem (pm r)) le = Ok 1 /\ U r le 0 1 = after_step ep).
    { intros iter n ep pm U r Hr OW R. pose proof R as (WF & PT & _).
      destruct (C01_element_ownership d64 (dint 0) iter n boxes ep pm WF PT) as (_ & Own & _).
      assert (IN : In 1 (pm_l2g_elem (pm r))) by (apply (Own r 1 Hr), OW).
      destruct (CommProof.In_rd _ _ IN) as (le & E). exists le. split; [exact E|].
      exact (run_ref double (kokkos double) (kokkos_reads double) box_case boxes box_fits iter n ep pm 1 U (used_normal double (kokkos double) box_case boxes ep) R
        ltac:(intros; apply same_flux_agree, agree_refl) r le 1 Hr E 0 1 ltac:(cbn; lia) ltac:(cbn; lia)). }
    destruct (VAL iter1 1 [0; 0] pm1 U1 0 ltac:(lia) eq_refl R1) as (le1 & E1 & V1).
    destruct (VAL iter2 2 [0; 1] pm2 U2 1 ltac:(lia) eq_refl R2) as (le2 & E2 & V2).
    pose proof (SB 1 0 le1 1 le2 ltac:(lia) ltac:(lia) E1 E2 0 1 ltac:(cbn; lia) ltac:(cbn; lia)) as EQ.
    rewrite V1, V2 in EQ. rewrite (same_float_eq _ _ one_rank_value), (same_float_eq _ _ two_rank_value) in EQ.
    apply (f_equal B2SF) in EQ. vm_compute in EQ. discriminate EQ.
Qed.
Print Assumptions C98_hexahedra_refuted.
