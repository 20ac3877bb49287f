(** PropCornerHex.v -- C106 for hexahedra: which corner and which axes of a
    hexahedron the mesh file lists first do not matter. *)
From Coq Require Import ZArith List Lia Reals Lra Psatz String Bool Permutation.
From Flocq Require Import BinarySingleNaN.
From Coquelicot Require Import Coquelicot.
From Verif Require Import Base RBase MeshModel MeshSpec MeshProof PropMesh IOModel PropIO PropOutput.
From Verif Require Import ReadModel PropRead PropCtor UtilModel TimeModel ProgramModel PropProgram.
From Verif Require Import LinAlgModel PropLinAlg BasisModel ShapeModel QuadProof ShapeProof PropShape SolverModel SolverSpec SolverMesh SolverFlux PhysModel PhysSpec PhysProof PropPhys PropBasis PropSolver PropNormals StepModel PropIntegral PropStep PropQuad SetupModel SetupSpec SetupProof SetupFaces PropSetup PropMeshRun PropInit PropPost DGSpec DGProof PropDG PropHex PropFree PropHexFree PropTime PropWhole PropTotal PropEnd PropRenumber PropCorner.
Import ListNotations.
Local Open Scope Z_scope.
Local Open Scope R_scope.
Open Scope res_scope.

(** * Specification *)

(** * Specification *)

(** The point of the reference cube [-1,1]^3 that a quarter turn about the third
    ([false]) or the first axis ([true]) takes [y] to; these turns generate the 24
    rotations of the cube. *)
Definition spin (b : bool) (y : Z -> R) : Z -> R := fun d =>
  if b then (if (d =? 1)%Z then - y 2%Z else if (d =? 2)%Z then y 1%Z else y d)
  else (if (d =? 0)%Z then - y 1%Z else if (d =? 1)%Z then y 0%Z else y d).
Fixpoint spins (l : list bool) (y : Z -> R) : Z -> R := match l with [] => y | b :: l => spins l (spin b y) end.

(** Corner [i] of the reference cube. *)
Definition cube_corner (i : Z) : Z -> R := fun d => 2 * IZR (digit 2 d i) - 1.

(** [m'] lists the corners of element [e] in another order, the order seen after the
    turns [r e] of the cube: a corner gets the number of the corner it is turned to, a
    face the number of the face it is turned to, and its orientation is counted from
    that face's own parameters; elements and faces keep their numbers. *)
Record relisted3 (m m' : gmesh R) (r : Z -> list bool) : Prop := {
  rh_elems : gm_num_elems m' = gm_num_elems m;
  rh_faces : gm_nIF m' = gm_nIF m;
  rh_nodes : forall e i i' d, (0 <= e < gm_num_elems m)%Z -> (0 <= i < 8)%Z -> (0 <= i' < 8)%Z -> (0 <= d < 3)%Z ->
    (forall d, (0 <= d < 3)%Z -> cube_corner i' d = spins (r e) (cube_corner i) d) -> elem_nodes m' e i' d = elem_nodes m e i d;
  rh_sides : forall f sd e k o, has_side m f sd e k o -> exists k' o' a, has_side m' f sd e k' o' /\ (0 <= k' < 6)%Z /\ (0 <= o' <= 7)%Z /\ (0 <= a < 4)%Z /\
    (forall s t d, (0 <= d < 3)%Z -> (let '(s', t') := hex_turn a s t in hex_face k' s' t' d) = spins (r e) (hex_face k s t) d) /\
    (forall s t, hex_turn o' s t = (let '(s', t') := hex_turn o s t in hex_turn a s' t')) }.

(** * Turned basis functions *)
Section Turn3.
Context (bt : basis_type) (p : Z) (Hbt : basis_for EHex bt) (Hp : (0 <= p)%Z).
Let n := (p + 1)%Z.

Definition d0 (i : Z) : Z := (i mod n)%Z.
Definition d1 (i : Z) : Z := ((i / n) mod n)%Z.
Definition d2 (i : Z) : Z := (i / n / n)%Z.
Definition glue (a b c : Z) : Z := (a + n * (b + n * c))%Z.
Definition moved (b : bool) (i : Z) : Z := if b then glue (d0 i) (d2 i) (reversed bt p (d1 i)) else glue (d1 i) (reversed bt p (d0 i)) (d2 i).
Definition moved_sign (b : bool) (i : Z) : R := if b then parity bt (d1 i) else parity bt (d0 i).
Fixpoint fn_spins (l : list bool) (i : Z) : Z := match l with [] => i | b :: l => moved b (fn_spins l i) end.
Fixpoint sign_spins (l : list bool) (i : Z) : R := match l with [] => 1 | b :: l => sign_spins l i * moved_sign b (fn_spins l i) end.

Lemma nfun3 : nfun bt p = (n * n * n)%Z.
Proof. destruct Hbt as [-> | ->]; unfold nfun, n; cbn; ring. Qed.

Lemma dim3h : dim bt = 3%Z.
Proof. destruct Hbt as [-> | ->]; reflexivity. Qed.

Lemma digs i : (0 <= i < n * n * n)%Z -> (0 <= d0 i < n)%Z /\ (0 <= d1 i < n)%Z /\ (0 <= d2 i < n)%Z /\ i = glue (d0 i) (d1 i) (d2 i).
Proof.
  intros Hi. assert (Hn : (0 < n)%Z) by (unfold n; lia). unfold d0, d1, d2, glue. repeat split.
  - apply Z.mod_pos_bound; lia.
  - apply Z.mod_pos_bound; lia.
  - apply Z.mod_pos_bound; lia.
  - apply Z.mod_pos_bound; lia.
  - apply Z.div_pos; [apply Z.div_pos; lia|lia].
  - apply Z.div_lt_upper_bound; [lia|]. apply Z.div_lt_upper_bound; [lia|]. nia.
  - pose proof (Z.div_mod i n ltac:(lia)). pose proof (Z.div_mod (i / n) n ltac:(lia)). nia.
Qed.

Lemma glued a b c : (0 <= a < n)%Z -> (0 <= b < n)%Z -> (0 <= c < n)%Z -> (d0 (glue a b c) = a /\ d1 (glue a b c) = b /\ d2 (glue a b c) = c /\ 0 <= glue a b c < n * n * n)%Z.
Proof.
  intros Ha Hb Hc. unfold d0, d1, d2, glue.
  assert (E : ((a + n * (b + n * c)) / n = b + n * c)%Z) by (symmetry; apply (Z.div_unique _ n _ a); lia).
  rewrite E. repeat split.
  - symmetry. apply (Z.mod_unique _ n (b + n * c)); lia.
  - symmetry. apply (Z.mod_unique _ n c); lia.
  - symmetry. apply (Z.div_unique _ n _ b); lia.
  - nia.
  - nia.
Qed.

Lemma basis_fn3 i y : (0 <= i < n * n * n)%Z -> basis_fn bt p i y = fn1 bt p (d0 i) (y 0%Z) * fn1 bt p (d1 i) (y 1%Z) * fn1 bt p (d2 i) (y 2%Z).
Proof.
  intros Hi. unfold basis_fn. rewrite dim3h. rewrite rprod_3. fold n. destruct (digs i Hi) as (A & B & C & _).
  replace (digit n 0 i) with (d0 i) by (unfold digit, d0; now rewrite Z.pow_0_r, Z.div_1_r).
  replace (digit n 1 i) with (d1 i) by (unfold digit, d1; now rewrite Z.pow_1_r).
  replace (digit n 2 i) with (d2 i) by (unfold digit; rewrite Z.pow_2_r, <- Z.div_div by (unfold n in *; lia); fold (d2 i); symmetry; now apply Z.mod_small).
  reflexivity.
Qed.

Lemma rev_range a : (0 <= a < n)%Z -> (0 <= reversed bt p a < n)%Z.
Proof. intros Ha. unfold reversed. destruct (is_lagrange bt); unfold n in *; lia. Qed.

Lemma moved_digs b i : (0 <= i < n * n * n)%Z -> (0 <= moved b i < n * n * n /\
  d0 (moved b i) = (if b then d0 i else d1 i) /\ d1 (moved b i) = (if b then d2 i else reversed bt p (d0 i)) /\ d2 (moved b i) = (if b then reversed bt p (d1 i) else d2 i))%Z.
Proof.
  intros Hi. destruct (digs i Hi) as (A & B & C & _). unfold moved. pose proof (rev_range _ A). pose proof (rev_range _ B).
  destruct b; [destruct (glued (d0 i) (d2 i) (reversed bt p (d1 i))) as (-> & -> & -> & ?)|destruct (glued (d1 i) (reversed bt p (d0 i)) (d2 i)) as (-> & -> & -> & ?)]; auto.
Qed.

Lemma basis_spin b i y : (0 <= i < n * n * n)%Z -> basis_fn bt p i (spin b y) = moved_sign b i * basis_fn bt p (moved b i) y.
Proof.
  intros Hi. destruct (digs i Hi) as (A & B & C & _). destruct (moved_digs b i Hi) as (M & M0 & M1 & M2). rewrite !basis_fn3 by assumption. rewrite M0, M1, M2.
  unfold spin, moved_sign. destruct b; cbn [Z.eqb Pos.eqb]; rewrite fn1_reversed by (unfold n in *; lia); ring.
Qed.

Lemma spins_range l i : (0 <= i < n * n * n)%Z -> (0 <= fn_spins l i < n * n * n)%Z.
Proof. intros Hi. induction l as [|b l IH]; [exact Hi|]. cbn [fn_spins]. now apply moved_digs. Qed.

Lemma basis_spins l : forall i y, (0 <= i < n * n * n)%Z -> basis_fn bt p i (spins l y) = sign_spins l i * basis_fn bt p (fn_spins l i) y.
Proof.
  induction l as [|b l IH]; intros i y Hi; cbn [spins sign_spins fn_spins]; [ring|]. rewrite IH, basis_spin by (assumption || now apply spins_range). ring.
Qed.

Lemma sign_square3 l i : sign_spins l i * sign_spins l i = 1.
Proof.
  induction l as [|b l IH]; cbn [sign_spins]; [ring|].
  assert (Q : forall a, parity bt a * parity bt a = 1) by (intros a; unfold parity; destruct (is_lagrange bt), (Z.even a); ring).
  assert (Q' : moved_sign b (fn_spins l i) * moved_sign b (fn_spins l i) = 1) by (unfold moved_sign; destruct b; apply Q).
  transitivity ((sign_spins l i * sign_spins l i) * (moved_sign b (fn_spins l i) * moved_sign b (fn_spins l i))); [ring|]. rewrite IH, Q'. ring.
Qed.

Lemma moved_inj b i j : (0 <= i < n * n * n)%Z -> (0 <= j < n * n * n)%Z -> moved b i = moved b j -> i = j.
Proof.
  intros Hi Hj E. destruct (digs i Hi) as (A & B & C & ->), (digs j Hj) as (A' & B' & C' & ->). 
  destruct (moved_digs b _ Hi) as (_ & M0 & M1 & M2), (moved_digs b _ Hj) as (_ & N0 & N1 & N2).
  rewrite <- E, M0 in N0. rewrite <- E, M1 in N1. rewrite <- E, M2 in N2.
  assert (RI : forall a a', reversed bt p a = reversed bt p a' -> a = a') by (intros a a' H; rewrite <- (reversed_twice bt p a), H; apply reversed_twice).
  destruct b; [apply RI in N2|apply RI in N1]; congruence.
Qed.

Lemma spins_permute l : permutes (n * n * n) (fn_spins l).
Proof.
  apply injective_permutes; [intros i; apply spins_range|]. induction l as [|b l IH]; intros i j Hi Hj; cbn [fn_spins]; [auto|]. intros E. apply moved_inj in E; try now apply spins_range. now apply IH.
Qed.
End Turn3.

(** The turns, coordinatewise. *)
Lemma spin_ext b u v : (forall d, (0 <= d < 3)%Z -> u d = v d) -> forall d, (0 <= d < 3)%Z -> spin b u d = spin b v d.
Proof. intros H d Hd. unfold spin. destruct b, (Z.eqb_spec d 0), (Z.eqb_spec d 1), (Z.eqb_spec d 2); rewrite ?H by lia; reflexivity. Qed.

Lemma spins_ext l : forall u v, (forall d, (0 <= d < 3)%Z -> u d = v d) -> forall d, (0 <= d < 3)%Z -> spins l u d = spins l v d.
Proof. induction l as [|b l IH]; intros u v H d Hd; cbn [spins]; [now apply H|]. apply IH; [|exact Hd]. now apply spin_ext. Qed.

Lemma spin_scal b a u d : spin b (fun d => a * u d) d = a * spin b u d.
Proof. unfold spin. destruct b, (d =? 0)%Z, (d =? 1)%Z, (d =? 2)%Z; ring. Qed.

Lemma spins_scal l : forall a u d, (0 <= d < 3)%Z -> spins l (fun d => a * u d) d = a * spins l u d.
Proof.
  induction l as [|b l IH]; intros a u d Hd; cbn [spins]; [reflexivity|]. rewrite <- IH by exact Hd. apply spins_ext; [|exact Hd]. intros i _. apply spin_scal.
Qed.

Lemma spin_sum b k (U : Z -> arr1) d : spin b (fun d => rsum k (fun i => U i d)) d = rsum k (fun i => spin b (U i) d).
Proof. unfold spin. destruct b, (d =? 0)%Z, (d =? 1)%Z, (d =? 2)%Z; try reflexivity; rewrite <- rsum_opp; reflexivity. Qed.

Lemma spins_sum l : forall k (U : Z -> arr1) d, (0 <= d < 3)%Z -> spins l (fun d => rsum k (fun i => U i d)) d = rsum k (fun i => spins l (U i) d).
Proof.
  induction l as [|b l IH]; intros k U d Hd; cbn [spins]; [reflexivity|]. rewrite <- IH by exact Hd. apply spins_ext; [|exact Hd]. intros i _. apply spin_sum.
Qed.

(** Triple products are invariant. *)
Definition dot3 (u v : arr1) : R := u 0%Z * v 0%Z + u 1%Z * v 1%Z + u 2%Z * v 2%Z.
Definition triple (u v w : arr1) : R := dot3 u (vprod v w).
Lemma triple_spins l : forall u v w, triple (spins l u) (spins l v) (spins l w) = triple u v w.
Proof.
  induction l as [|b l IH]; intros u v w; cbn [spins]; [reflexivity|]. rewrite IH. unfold triple, dot3, vprod, spin. destruct b; cbn [Z.eqb Pos.eqb]; ring.
Qed.
Lemma triple_ext u u' v v' w w' : (forall d, (0 <= d < 3)%Z -> u d = u' d) -> (forall d, (0 <= d < 3)%Z -> v d = v' d) -> (forall d, (0 <= d < 3)%Z -> w d = w' d) -> triple u v w = triple u' v' w'.
Proof. intros H H' H''. unfold triple, dot3, vprod. cbn [Z.eqb Pos.eqb]. rewrite !H, !H', !H'' by lia. reflexivity. Qed.

Lemma det_triple A : small_det 3 A = triple (A 0%Z) (A 1%Z) (A 2%Z).
Proof. unfold small_det, det3, minor2, triple, dot3, vprod. cbn [Z.eqb Pos.eqb]. ring. Qed.

Lemma gradient_triple (G : arr1) A j : (0 <= j < 3)%Z ->
  rsum 3 (fun d => G d * inverse3 A d j) = triple G (A ((j + 1) mod 3)%Z) (A ((j + 2) mod 3)%Z) / triple (A 0%Z) (A 1%Z) (A 2%Z).
Proof.
  intros Hj. rewrite <- det_triple. change (small_det 3 A) with (det3 A). rewrite rsum_3. unfold inverse3, triple, dot3, vprod. cbv zeta. cbn [Z.eqb Pos.eqb].
  change ((0 + 1) mod 3)%Z with 1%Z. change ((1 + 1) mod 3)%Z with 2%Z. change ((2 + 1) mod 3)%Z with 0%Z.
  change ((0 + 2) mod 3)%Z with 2%Z. change ((1 + 2) mod 3)%Z with 0%Z. change ((2 + 2) mod 3)%Z with 1%Z. unfold Rdiv. ring.
Qed.

(** ** Gradients of the basis functions *)
Section Gradient3.
Context (bt : basis_type) (p : Z) (Hbt : basis_for EHex bt) (Hp : (0 <= p)%Z) (Sup : supported bt p).
Let n := (p + 1)%Z.

Lemma gradient_point3 i y y' d : (0 <= d < 3)%Z -> (forall d, (0 <= d < 3)%Z -> y d = y' d) -> gradient bt p i y d = gradient bt p i y' d.
Proof.
  intros Hd H. unfold gradient. rewrite (H d Hd). apply Derive_ext. intros t. apply basis_fn_ext. rewrite (dim3h bt Hbt). intros d' Hd'. unfold with_coord. destruct (d' =? d)%Z; auto.
Qed.

Lemma ex_gradient3 i y d : (0 <= i < n * n * n)%Z -> (0 <= d < 3)%Z -> ex_derive (fun t => basis_fn bt p i (with_coord y d t)) (y d).
Proof.
  intros Hi Hd. destruct (C33_basis_gradients bt p 1 (fun _ => y) zero3 Hp Sup ltac:(intros; reflexivity)) as (H & _).
  eexists. apply (H 0%Z i d); [lia| |rewrite (dim3h bt Hbt); exact Hd]. rewrite (nfun3 bt p Hbt). exact Hi.
Qed.

(** Turning maps coordinate [to] to coordinate [from] with factor [sg]. *)
Lemma gradient_coord b i y d (fr : Z) (sg : R) : (0 <= i < n * n * n)%Z -> (0 <= d < 3)%Z -> (0 <= fr < 3)%Z -> (sg = 1 \/ sg = -1) -> spin b y d = sg * y fr ->
  (forall t d', (0 <= d' < 3)%Z -> with_coord (spin b y) d t d' = spin b (with_coord y fr (sg * t)) d') ->
  gradient bt p i (spin b y) d = moved_sign bt p b i * (sg * gradient bt p (moved bt p b i) y fr).
Proof.
  intros Hi Hd Hfr Hsg E W. unfold gradient. assert (Hi' : (0 <= moved bt p b i < n * n * n)%Z) by (now apply moved_digs).
  rewrite (Derive_ext _ (fun t => moved_sign bt p b i * basis_fn bt p (moved bt p b i) (with_coord y fr (sg * t)))).
  2:{ intros t. rewrite <- basis_spin by assumption. apply basis_fn_ext. rewrite (dim3h bt Hbt). intros d' Hd'. now apply W. }
  rewrite Derive_scal. f_equal. pose proof (ex_gradient3 (moved bt p b i) y fr Hi' Hfr) as EX. set (g := fun t => basis_fn bt p (moved bt p b i) (with_coord y fr t)) in *.
  change (Derive (fun t => g (sg * t)) (spin b y d) = sg * Derive g (y fr)). rewrite E.
  assert (SS : sg * (sg * y fr) = y fr) by (destruct Hsg as [-> | ->]; ring).
  rewrite (Derive_comp g (fun t => sg * t)).
  - rewrite SS, Derive_scal, Derive_id. ring.
  - rewrite SS. exact EX.
  - apply (ex_derive_scal (fun t => t) sg). apply ex_derive_id.
Qed.

Lemma gradient_spin b i y d : (0 <= i < n * n * n)%Z -> (0 <= d < 3)%Z -> gradient bt p i (spin b y) d = moved_sign bt p b i * spin b (gradient bt p (moved bt p b i) y) d.
Proof.
  intros Hi Hd. assert (C : (d = 0 \/ d = 1 \/ d = 2)%Z) by lia.
  destruct b, C as [-> | [-> | ->]];
  [rewrite (gradient_coord true i y 0 0 1)|rewrite (gradient_coord true i y 1 2 (-1))|rewrite (gradient_coord true i y 2 1 1)
  |rewrite (gradient_coord false i y 0 1 (-1))|rewrite (gradient_coord false i y 1 0 1)|rewrite (gradient_coord false i y 2 2 1)];
  try assumption; try lia; try (now left); try (now right);
  try (unfold spin; cbn [Z.eqb Pos.eqb]; ring);
  try (intros t d' Hd'; unfold with_coord, spin; assert (C : (d' = 0 \/ d' = 1 \/ d' = 2)%Z) by lia; destruct C as [-> | [-> | ->]]; cbn [Z.eqb Pos.eqb]; ring).
Qed.

Lemma gradient_spins l : forall i y d, (0 <= i < n * n * n)%Z -> (0 <= d < 3)%Z -> gradient bt p i (spins l y) d = sign_spins bt p l i * spins l (gradient bt p (fn_spins bt p l i) y) d.
Proof.
  induction l as [|b l IH]; intros i y d Hi Hd; [cbn; ring|]. cbn [spins sign_spins fn_spins]. rewrite IH by assumption. rewrite Rmult_assoc. f_equal.
  rewrite <- spins_scal by exact Hd. apply spins_ext; [|exact Hd]. intros j Hj. apply gradient_spin; [now apply spins_range|exact Hj].
Qed.
End Gradient3.

(** ** The element map *)
Lemma corner_spin b i d : (0 <= i < 8)%Z -> (0 <= d < 3)%Z -> spin b (cube_corner (moved LagrangeHex 1 b i)) d = cube_corner i d.
Proof.
  intros Hi Hd. assert (C : (i = 0 \/ i = 1 \/ i = 2 \/ i = 3 \/ i = 4 \/ i = 5 \/ i = 6 \/ i = 7)%Z) by lia. assert (D : (d = 0 \/ d = 1 \/ d = 2)%Z) by lia.
  destruct b, D as [-> | [-> | ->]], C as [-> | [-> | [-> | [-> | [-> | [-> | [-> | ->]]]]]]]; unfold spin, cube_corner; cbn [Z.eqb Pos.eqb];
  match goal with |- context [IZR (digit 2 ?a ?b)] => let x := eval vm_compute in (digit 2 a b) in change (digit 2 a b) with x end;
  try match goal with |- context [IZR (digit 2 ?a (moved ?x ?y ?z ?b))] => let x := eval vm_compute in (digit 2 a (moved x y z b)) in change (digit 2 a (moved x y z b)) with x end;
  try match goal with |- context [IZR (digit 2 ?a ?b)] => let x := eval vm_compute in (digit 2 a b) in change (digit 2 a b) with x end; lra.
Qed.

Lemma corner_spins l i d : (0 <= i < 8)%Z -> (0 <= d < 3)%Z -> spins l (cube_corner (fn_spins LagrangeHex 1 l i)) d = cube_corner i d.
Proof.
  intros Hi. revert d. induction l as [|b l IH]; intros d Hd; [reflexivity|]. cbn [spins fn_spins]. rewrite <- IH by assumption. apply spins_ext; [|exact Hd]. intros j Hj.
  apply corner_spin; [|exact Hj]. apply (spins_range LagrangeHex 1 ltac:(lia) l i). exact Hi.
Qed.

Section Geometry3.
Context (X X' : arr2) (l : list bool) (d : Z) (HX : forall i, (0 <= i < 8)%Z -> X' i d = X (fn_spins LagrangeHex 1 l i) d).

Lemma place_spins y : place EHex 1 X' (spins l y) d = place EHex 1 X y d.
Proof.
  unfold place, elem_map, geom_basis. change (nfun LagrangeHex 1) with 8%Z.
  rewrite <- (rsum_permutes 8 (fn_spins LagrangeHex 1 l) (fun k => basis_fn LagrangeHex 1 k y * X k d)) by (apply (spins_permute LagrangeHex 1 ltac:(lia))).
  apply rsum_ext. intros i Hi. rewrite HX by exact Hi. rewrite (basis_spins LagrangeHex 1 ltac:(now left) ltac:(lia)) by exact Hi.
  assert (S1 : sign_spins LagrangeHex 1 l i = 1). { clear. induction l as [|b l' IH]; [reflexivity|]. cbn [sign_spins]. rewrite IH. unfold moved_sign, parity. destruct b; cbn [is_lagrange]; ring. }
  rewrite S1. ring.
Qed.
End Geometry3.

Lemma lagrange_sign l i p : sign_spins LagrangeHex p l i = 1.
Proof. induction l as [|b l' IH]; [reflexivity|]. cbn [sign_spins]. rewrite IH. unfold moved_sign, parity. destruct b; cbn [is_lagrange]; ring. Qed.

Lemma jacobian_sum3 X y d j : (0 <= j < 3)%Z -> jacobian EHex 1 X y d j = rsum 8 (fun k => X k d * gradient LagrangeHex 1 k y j).
Proof.
  intros Hj. unfold jacobian. apply is_derive_unique. unfold place, elem_map. change (geom_basis EHex) with LagrangeHex. change (nfun LagrangeHex 1) with 8%Z.
  apply is_derive_rsum. intros k Hk. apply (is_derive_ext (fun t => X k d * basis_fn LagrangeHex 1 k (with_coord y j t))); [intros t; apply Rmult_comm|].
  apply is_derive_scal_R. apply Derive_correct. apply (ex_gradient3 LagrangeHex 1 ltac:(now left) ltac:(lia)); [destruct (geom_facts EHex 1) as (_ & _ & Sup); exact Sup|exact Hk|exact Hj].
Qed.

Lemma place_ext3 X y y' d : (forall d, (0 <= d < 3)%Z -> y d = y' d) -> place EHex 1 X y d = place EHex 1 X y' d.
Proof. intros H. unfold place, elem_map. apply rsum_ext. intros k Hk. f_equal. apply basis_fn_ext. exact H. Qed.

Lemma jacobian_spins X X' l d y j : (forall i, (0 <= i < 8)%Z -> X' i d = X (fn_spins LagrangeHex 1 l i) d) -> (0 <= j < 3)%Z ->
  jacobian EHex 1 X' (spins l y) d j = spins l (jacobian EHex 1 X y d) j.
Proof.
  intros HX Hj. rewrite jacobian_sum3 by exact Hj. destruct (geom_facts EHex 1) as (_ & _ & Sup). cbn [geom_basis] in Sup.
  transitivity (spins l (fun j => rsum 8 (fun k => X k d * gradient LagrangeHex 1 k y j)) j).
  2:{ apply spins_ext; [|exact Hj]. intros j' Hj'. symmetry. now apply jacobian_sum3. }
  rewrite spins_sum by exact Hj.
  rewrite <- (rsum_permutes 8 (fn_spins LagrangeHex 1 l) (fun k => spins l (fun j => X k d * gradient LagrangeHex 1 k y j) j)) by (apply (spins_permute LagrangeHex 1 ltac:(lia))).
  apply rsum_ext. intros k Hk. rewrite HX by exact Hk. rewrite spins_scal by exact Hj. rewrite (gradient_spins LagrangeHex 1 ltac:(now left) ltac:(lia) Sup) by assumption. rewrite lagrange_sign. ring.
Qed.

(** ** Quadrature points *)
Section Rule3.
Context (p : Z) (Hp : (0 <= p)%Z).
Let n := (p + 1)%Z.
Context (x w : arr1) (P : arr2) (W : arr1).
Context (SX : forall i, (0 <= i < n)%Z -> x (n - 1 - i)%Z = - x i) (SW : forall i, (0 <= i < n)%Z -> w (n - 1 - i)%Z = w i) (TR : tensor_rule 3 n x w P W).
Definition pt (b : bool) (i : Z) : Z := if b then glue p (d0 p i) (p - d2 p i) (d1 p i) else glue p (p - d1 p i) (d0 p i) (d2 p i).
Fixpoint pts (l : list bool) (i : Z) : Z := match l with [] => i | b :: l => pts l (pt b i) end.

Lemma pt_digs b i : (0 <= i < n * n * n)%Z -> (0 <= pt b i < n * n * n /\ d0 p (pt b i) = (if b then d0 p i else p - d1 p i) /\
  d1 p (pt b i) = (if b then p - d2 p i else d0 p i) /\ d2 p (pt b i) = (if b then d1 p i else d2 p i))%Z.
Proof.
  intros Hi. destruct (digs p Hp i Hi) as (A & B & C & _). unfold pt. 
  destruct b; [destruct (glued p Hp (d0 p i) (p - d2 p i) (d1 p i)) as (-> & -> & -> & ?)|destruct (glued p Hp (p - d1 p i) (d0 p i) (d2 p i)) as (-> & -> & -> & ?)]; auto; lia.
Qed.

Lemma rule_at3 q : (0 <= q < n * n * n)%Z -> P q 0%Z = x (d0 p q) /\ P q 1%Z = x (d1 p q) /\ P q 2%Z = x (d2 p q) /\ W q = w (d0 p q) * w (d1 p q) * w (d2 p q).
Proof.
  intros Hq. destruct (digs p Hp q Hq) as (A & B & C & _). destruct (TR q) as (PA & WA); [replace (n ^ 3)%Z with (n * n * n)%Z by ring; exact Hq|]. rewrite !PA, WA, rprod_3 by lia.
  replace (digit n 0 q) with (d0 p q) by (unfold digit, d0; now rewrite Z.pow_0_r, Z.div_1_r).
  replace (digit n 1 q) with (d1 p q) by (unfold digit, d1; now rewrite Z.pow_1_r).
  replace (digit n 2 q) with (d2 p q) by (unfold digit; rewrite Z.pow_2_r, <- Z.div_div by (unfold n in *; lia); fold (d2 p q); symmetry; now apply Z.mod_small).
  auto.
Qed.

Lemma pt_spin b q d : (0 <= q < n * n * n)%Z -> (0 <= d < 3)%Z -> P (pt b q) d = spin b (P q) d.
Proof.
  intros Hq Hd. destruct (digs p Hp q Hq) as (A & B & C & _). destruct (pt_digs b q Hq) as (R & M0 & M1 & M2).
  destruct (rule_at3 q Hq) as (P0 & P1 & P2 & _), (rule_at3 _ R) as (Q0 & Q1 & Q2 & _). rewrite M0 in Q0. rewrite M1 in Q1. rewrite M2 in Q2.
  assert (RX : forall i, (0 <= i < p + 1)%Z -> x (p - i)%Z = - x i) by (intros i Hi; rewrite <- (SX i Hi); f_equal; unfold n; lia).
  assert (D : (d = 0 \/ d = 1 \/ d = 2)%Z) by lia. destruct D as [-> | [-> | ->]], b; unfold spin; cbn [Z.eqb Pos.eqb]; rewrite ?Q0, ?Q1, ?Q2, ?P0, ?P1, ?P2, ?RX by assumption; reflexivity.
Qed.

Lemma pt_weight b q : (0 <= q < n * n * n)%Z -> W (pt b q) = W q.
Proof.
  intros Hq. destruct (digs p Hp q Hq) as (A & B & C & _). destruct (pt_digs b q Hq) as (R & M0 & M1 & M2).
  destruct (rule_at3 q Hq) as (_ & _ & _ & ->), (rule_at3 _ R) as (_ & _ & _ & ->). rewrite M0, M1, M2.
  assert (RX : forall i, (0 <= i < p + 1)%Z -> w (p - i)%Z = w i) by (intros i Hi; rewrite <- (SW i Hi); f_equal; unfold n; lia).
  destruct b; rewrite RX by assumption; ring.
Qed.

Lemma pts_range l : forall q, (0 <= q < n * n * n)%Z -> (0 <= pts l q < n * n * n)%Z.
Proof. induction l as [|b l IH]; intros q Hq; cbn [pts]; [exact Hq|]. apply IH. now apply pt_digs. Qed.

Lemma pts_spins l : forall q d, (0 <= q < n * n * n)%Z -> (0 <= d < 3)%Z -> P (pts l q) d = spins l (P q) d.
Proof.
  induction l as [|b l IH]; intros q d Hq Hd; cbn [pts spins]; [reflexivity|]. rewrite IH by (exact Hd || now apply pt_digs). apply spins_ext; [|exact Hd]. intros j Hj. now apply pt_spin.
Qed.

Lemma pts_weight l : forall q, (0 <= q < n * n * n)%Z -> W (pts l q) = W q.
Proof. induction l as [|b l IH]; intros q Hq; cbn [pts]; [reflexivity|]. rewrite IH by now apply pt_digs. now apply pt_weight. Qed.

Lemma pt_inj b i j : (0 <= i < n * n * n)%Z -> (0 <= j < n * n * n)%Z -> pt b i = pt b j -> i = j.
Proof.
  intros Hi Hj E. destruct (pt_digs b i Hi) as (_ & M0 & M1 & M2), (pt_digs b j Hj) as (_ & N0 & N1 & N2). rewrite <- E, M0 in N0. rewrite <- E, M1 in N1. rewrite <- E, M2 in N2.
  destruct (digs p Hp i Hi) as (_ & _ & _ & EI), (digs p Hp j Hj) as (_ & _ & _ & EJ). rewrite EI, EJ.
  assert (A : (d0 p i = d0 p j /\ d1 p i = d1 p j /\ d2 p i = d2 p j)%Z) by (destruct b; lia). destruct A as (-> & -> & ->). reflexivity.
Qed.

Lemma pts_permute l : permutes (n * n * n) (pts l).
Proof.
  apply injective_permutes; [intros q; apply pts_range|]. induction l as [|b l IH]; intros i j Hi Hj; cbn [pts]; [auto|]. intros E. apply IH in E; try now apply pt_digs. now apply pt_inj in E.
Qed.
End Rule3.

(** * The two schemes *)
Section Two3.
Context (m m' : gmesh R) (r : Z -> list bool) (MW : mesh_wf m) (MW' : mesh_wf m') (Dm : gm_dim m = 3%Z) (Dm' : gm_dim m' = 3%Z) (RL : relisted3 m m' r) (FV : faces_valid EHex m).
Context (FL : flat_hexes m).
Context (bt : basis_type) (p : Z) (Hbt : basis_for EHex bt) (Op : order_ok p) (Sup : supported bt p).

Lemma order_nonneg3 : (0 <= p)%Z.
Proof. unfold order_ok in Op. lia. Qed.

Lemma corner_moved3 e i d : (0 <= e < gm_num_elems m)%Z -> (0 <= i < 8)%Z -> elem_nodes m' e i d = elem_nodes m e (fn_spins LagrangeHex 1 (r e) i) d.
Proof.
  intros He Hi. destruct (Z_le_dec 0 d) as [H0|H0]; [destruct (Z_lt_dec d 3) as [H1|H1]|].
  - apply RL; auto; [apply (spins_range LagrangeHex 1 ltac:(lia) (r e) i); exact Hi|]. intros d' Hd'. symmetry. now apply corner_spins.
  - rewrite (nodes_outside m' EHex), (nodes_outside m EHex); try assumption; try reflexivity; cbn [space_dim]; intros [? ?]; contradiction.
  - rewrite (nodes_outside m' EHex), (nodes_outside m EHex); try assumption; try reflexivity; cbn [space_dim]; intros [? ?]; contradiction.
Qed.

Lemma det_moved3 e y : (0 <= e < gm_num_elems m)%Z -> jac_det EHex 1 (elem_nodes m' e) (spins (r e) y) = jac_det EHex 1 (elem_nodes m e) y.
Proof.
  intros He. unfold jac_det. change (space_dim EHex) with 3%Z. rewrite !det_triple. rewrite <- (triple_spins (r e) (jacobian EHex 1 (elem_nodes m e) y 0%Z)).
  apply triple_ext; intros d Hd; apply jacobian_spins; try exact Hd; intros k Hk; now apply corner_moved3.
Qed.

Lemma det_point3 e y y' : (forall d, (0 <= d < 3)%Z -> y d = y' d) -> jac_det EHex 1 (elem_nodes m' e) y = jac_det EHex 1 (elem_nodes m' e) y'.
Proof. intros H. unfold jac_det. apply small_det_ext; [cbn; lia|]. intros i j Hi Hj. apply jacobian_point; [exact Hj|exact H]. Qed.

Lemma sides_moved3 f sd : (0 <= f < gm_nIF m)%Z -> let k := side_face m f sd in let k' := side_face m' f sd in let o := face_entry m f (if sd then 5 else 2)%Z in let o' := face_entry m' f (if sd then 5 else 2)%Z in
  side_elem m' f sd = side_elem m f sd /\ (0 <= side_elem m f sd < gm_num_elems m)%Z /\ (0 <= k < 6)%Z /\ (0 <= o <= 7)%Z /\ (0 <= o' <= 7)%Z /\
  exists a, (0 <= a < 4)%Z /\ (forall s t d, (0 <= d < 3)%Z -> (let '(s', t') := hex_turn a s t in hex_face k' s' t' d) = spins (r (side_elem m f sd)) (hex_face k s t) d) /\
    (forall s t, hex_turn o' s t = (let '(s', t') := hex_turn o s t in hex_turn a s' t')).
Proof.
  intros Hf k k' o o'. pose proof (sides_of _ _ m _ (one_rank m MW) f sd Hf) as HS. destruct (rh_sides _ _ _ RL _ _ _ _ _ HS) as (k1 & o1 & a & (K1 & K2 & K3) & R1 & R2 & Ra & HA & HB).
  destruct (side_nonneg _ _ m _ (one_rank m MW) _ _ _ _ _ HS) as (A1 & A2 & A3). destruct (FV _ _ _ _ _ HS) as (B1 & B2). cbn [faces_per_elem face_orientations] in B1, B2.
  assert (E1 : side_elem m' f sd = side_elem m f sd) by (unfold side_elem at 1, face_entry; destruct sd; cbn [Z.add] in *; rewrite K1; reflexivity).
  assert (E2 : k' = k1) by (unfold k', side_face at 1, face_entry; destruct sd; cbn [Z.add Pos.add Pos.succ] in *; rewrite K2; reflexivity).
  assert (E3 : o' = o1) by (unfold o', face_entry at 1; destruct sd; cbn [Z.add Pos.add Pos.succ Pos.add_carry] in *; rewrite K3; reflexivity).
  rewrite E2, E3. fold k o in HA, HB, A1, A2, B1, B2. do 5 (split; [assumption || lia|]). exists a. auto.
Qed.

(** The outward normal stays. *)
Lemma normal_same f d : (0 <= f < gm_nIF m)%Z -> (0 <= d < 3)%Z -> flat_normal m' f d = flat_normal m f d.
Proof.
  intros Hf Hd. destruct (sides_moved3 f false Hf) as (E1 & He & _ & _ & _ & a & Ra & HA & _). cbv zeta in *.
  pose proof (sides_of _ _ m _ (one_rank m MW) f false Hf) as HS. destruct FL as (_ & _ & PF). destruct (PF _ _ _ _ _ HS) as (P & A & B & PG & _).
  unfold flat_normal. rewrite E1. set (e := side_elem m f false) in *. set (k := side_face m f false) in *. set (k' := side_face m' f false) in *.
  assert (T : forall s t d, (0 <= d < 3)%Z -> (let '(s', t') := hex_turn a s t in face_surface m' e k' s' t' d) = P d + s * A d + t * B d).
  { intros s t d0 Hd0. rewrite <- PG by exact Hd0. specialize (HA s t). destruct (hex_turn a s t) as (s', t'). unfold face_surface.
    rewrite (place_ext3 _ (hex_face k' s' t') (spins (r e) (hex_face k s t))) by exact HA. apply place_spins. intros i Hi. now apply corner_moved3. }
  cbv zeta. set (T' := face_surface m' e k') in *. clearbody T'.
  assert (EQ : forall d, (0 <= d < 3)%Z -> face_surface m e k 1 0 d - face_surface m e k 0 0 d = A d /\ face_surface m e k 0 1 d - face_surface m e k 0 0 d = B d) by (intros d0 Hd0; rewrite !PG by exact Hd0; split; ring).
  rewrite (vprod_ext (fun d => face_surface m e k 1 0 d - face_surface m e k 0 0 d) (fun d => face_surface m e k 0 1 d - face_surface m e k 0 0 d) A B d EQ).
  assert (C : (a = 0 \/ a = 1 \/ a = 2 \/ a = 3)%Z) by lia.
  assert (TT : forall s t s' t' d, (0 <= d < 3)%Z -> hex_turn a s' t' = (s, t) -> T' s t d = P d + s' * A d + t' * B d).
  { intros s t s' t' d0 Hd0 E. specialize (T s' t' d0 Hd0). rewrite E in T. exact T. }
  clear T. destruct C as [-> | [-> | [-> | ->]]].
  - rewrite (vprod_ext _ _ A B d); [reflexivity|]. intros d0 Hd0.
    rewrite (TT 1 0 1 0), (TT 0 0 0 0), (TT 0 1 0 1) by (exact Hd0 || (destruct (hex_turn_table 1 0) as (-> & _); reflexivity) || (destruct (hex_turn_table 0 0) as (-> & _); reflexivity) || (destruct (hex_turn_table 0 1) as (-> & _); reflexivity)). split; ring.
  - rewrite (vprod_ext _ _ (fun d => - B d) A d); [unfold vprod; destruct (d =? 0)%Z, (d =? 1)%Z; ring|]. intros d0 Hd0.
    rewrite (TT 1 0 0 (-1)), (TT 0 0 0 0), (TT 0 1 1 0) by (exact Hd0 || (destruct (hex_turn_table 0 (-1)) as (_ & -> & _); f_equal; ring) || (destruct (hex_turn_table 0 0) as (_ & -> & _); f_equal; ring) || (destruct (hex_turn_table 1 0) as (_ & -> & _); f_equal; ring)). split; ring.
  - rewrite (vprod_ext _ _ (fun d => - A d) (fun d => - B d) d); [unfold vprod; destruct (d =? 0)%Z, (d =? 1)%Z; ring|]. intros d0 Hd0.
    rewrite (TT 1 0 (-1) 0), (TT 0 0 0 0), (TT 0 1 0 (-1)) by (exact Hd0 || (destruct (hex_turn_table (-1) 0) as (_ & _ & -> & _); f_equal; ring) || (destruct (hex_turn_table 0 0) as (_ & _ & -> & _); f_equal; ring) || (destruct (hex_turn_table 0 (-1)) as (_ & _ & -> & _); f_equal; ring)). split; ring.
  - rewrite (vprod_ext _ _ B (fun d => - A d) d); [unfold vprod; destruct (d =? 0)%Z, (d =? 1)%Z; ring|]. intros d0 Hd0.
    rewrite (TT 1 0 0 1), (TT 0 0 0 0), (TT 0 1 (-1) 0) by (exact Hd0 || (destruct (hex_turn_table 0 1) as (_ & _ & _ & -> & _); f_equal; ring) || (destruct (hex_turn_table 0 0) as (_ & _ & _ & -> & _); f_equal; ring) || (destruct (hex_turn_table (-1) 0) as (_ & _ & _ & -> & _); f_equal; ring)). split; ring.
Qed.
End Two3.

(** The points of a face rule, in the order of an orientation. *)
Lemma oriented np x w fp fw o z q : (0 < np)%Z -> symmetric np x -> tensor_rule 2 np x w fp fw -> (0 <= o <= 7)%Z -> (0 <= q < np * np)%Z ->
  hex_turn o (fp q 0%Z) (fp q 1%Z) = (fp (face_pts_order_hex o (np * np) z q) 0%Z, fp (face_pts_order_hex o (np * np) z q) 1%Z).
Proof.
  intros Hn SX TR Ho Hq. rewrite face_pts_order_hex_spec by assumption. rewrite rng_true by lia.
  destruct (divmod_range np q Hn Hq) as (R1 & R2 & _). destruct (hex_src_pair o np (q mod np) (q / np) Ho R1 R2) as (i' & j' & -> & I1 & I2 & HT).
  assert (AT : forall q, (0 <= q < np * np)%Z -> fp q 0%Z = x (q mod np)%Z /\ fp q 1%Z = x (q / np)%Z).
  { intros q0 Hq0. destruct (TR q0) as (A & _); [rewrite Z.pow_2_r; exact Hq0|]. rewrite !A, digit0, digit1_top by lia. auto. }
  destruct (AT q Hq) as (-> & ->). destruct (AT (j' * np + i')%Z) as (-> & ->); [nia|]. rewrite idx2_mod, idx2_div by lia. now apply HT.
Qed.

Section Two3b.
Context (m m' : gmesh R) (r : Z -> list bool) (MW : mesh_wf m) (MW' : mesh_wf m') (Dm : gm_dim m = 3%Z) (Dm' : gm_dim m' = 3%Z) (RL : relisted3 m m' r) (FV : faces_valid EHex m).
Context (FL : flat_hexes m).
Context (bt : basis_type) (p : Z) (Hbt : basis_for EHex bt) (Op : order_ok p) (Sup : supported bt p).

Lemma mass_moved3 n0 x w P W e i l : (0 <= n0)%Z -> (forall i, (0 <= i < n0 + 1)%Z -> x (n0 + 1 - 1 - i)%Z = - x i) -> (forall i, (0 <= i < n0 + 1)%Z -> w (n0 + 1 - 1 - i)%Z = w i) -> tensor_rule 3 (n0 + 1) x w P W ->
  (0 <= e < gm_num_elems m)%Z -> (0 <= i < (p + 1) * (p + 1) * (p + 1))%Z -> (0 <= l < (p + 1) * (p + 1) * (p + 1))%Z ->
  mass_matrix3 bt p m' ((n0 + 1) * (n0 + 1) * (n0 + 1)) P W e i l =
  sign_spins bt p (r e) i * sign_spins bt p (r e) l * mass_matrix3 bt p m ((n0 + 1) * (n0 + 1) * (n0 + 1)) P W e (fn_spins bt p (r e) i) (fn_spins bt p (r e) l).
Proof.
  intros Hn SX SW TR He Hi Hl. assert (Hp : (0 <= p)%Z) by (unfold order_ok in Op; lia). unfold mass_matrix3. rewrite <- (rsum_permutes ((n0 + 1) * (n0 + 1) * (n0 + 1)) (pts n0 (r e))) by (now apply pts_permute). rewrite <- rsum_scal. apply rsum_ext. intros q Hq.
  assert (PE : forall d, (0 <= d < 3)%Z -> P (pts n0 (r e) q) d = spins (r e) (P q) d) by (intros d Hd; now apply (pts_spins n0 Hn x w P W)).
  rewrite (pts_weight n0 Hn x w P W SW TR (r e) q Hq), (det_point3 m' e _ _ PE), (det_moved3 m m' r MW MW' Dm Dm' RL) by exact He.
  rewrite !(basis_fn_ext bt p _ (P (pts n0 (r e) q)) (spins (r e) (P q))) by (rewrite (dim3h bt Hbt); exact PE).
  rewrite !(basis_spins bt p Hbt Hp) by assumption. ring.
Qed.

Lemma rule_of3 o nq P W : tabulated o -> volume_quadrature EHex o zero2 zero1 = Ok (nq, P, W) -> exists n0 x w, (0 <= n0)%Z /\ nq = ((n0 + 1) * (n0 + 1) * (n0 + 1))%Z /\
  (forall i, (0 <= i < n0 + 1)%Z -> x (n0 + 1 - 1 - i)%Z = - x i) /\ (forall i, (0 <= i < n0 + 1)%Z -> w (n0 + 1 - 1 - i)%Z = w i) /\ tensor_rule 3 (n0 + 1) x w P W.
Proof.
  intros T E. destruct (volume_rule EHex o T) as (x & w & (G & _) & A). destruct (A zero2 zero1) as (P0 & W0 & E0 & TR). rewrite E in E0. injection E0 as -> -> ->.
  exists (o + 1)%Z, x, w. destruct T as (T & _). replace (o + 1 + 1)%Z with (o + 2)%Z by lia. split; [lia|]. split; [change ((o + 2) ^ 3 = (o + 2) * (o + 2) * (o + 2))%Z; ring|]. split; [|split; [|exact TR]]; intros i Hi; now apply G.
Qed.

Lemma solutions_twisted3 gamma ft u steps c c' : hex_solution m bt p gamma ft u steps c -> hex_solution m' bt p gamma ft u steps c' ->
  forall e j k, (0 <= e < gm_num_elems m)%Z -> (0 <= j < (p + 1) * (p + 1) * (p + 1))%Z -> (0 <= k < 5)%Z -> c' e j k = sign_spins bt p (r e) j * c e (fn_spins bt p (r e) j) k.
Proof.
  intros (nq & P & W & fp & fw & nq2 & P2 & W2 & EQ & EF & EQ2 & (iM & c0 & I1 & (nq3 & P3 & W3 & EQ3 & PJ) & HC))
    (nq' & P' & W' & fp' & fw' & nq2' & P2' & W2' & EQ' & EF' & EQ2' & (iM' & c0' & I1' & (nq3' & P3' & W3' & EQ3' & PJ') & HC')).
  rewrite EQ in EQ'. injection EQ' as <- <- <-. rewrite EF in EF'. injection EF' as <- <-. rewrite EQ2 in EQ2'. injection EQ2' as <- <- <-. rewrite EQ3 in EQ3'. injection EQ3' as <- <- <-.
  pose proof Op as Op'. unfold order_ok in Op'. assert (Hp : (0 <= p)%Z) by lia.
  destruct (rule_of3 p nq P W ltac:(split; lia) EQ) as (n & x & w & Hn & -> & SX & SW & TR).
  destruct (rule_of3 (2 * p)%Z nq2 P2 W2 ltac:(split; lia) EQ2) as (n2 & x2 & w2 & Hn2 & -> & SX2 & SW2 & TR2).
  destruct (rule_of3 (2 * Z.max p 1)%Z nq3 P3 W3 ltac:(split; lia) EQ3) as (n3 & x3 & w3 & Hn3 & -> & SX3 & SW3 & TR3).
  destruct (face_rule EHex p ltac:(lia) ltac:(lia) ltac:(lia)) as (x1 & w1 & fp1 & fw1 & (GF & _) & TF & EF'). cbv zeta in *.
  rewrite hex_points in EF'. rewrite EF in EF'. injection EF' as <- <-. cbn [face_rule_points space_dim] in TF, GF. change (3 - 1)%Z with 2%Z in TF.
  assert (SX1 : symmetric (p + 2) x1) by (intros i Hi; now apply GF).
  assert (NB : nfun bt p = ((p + 1) * (p + 1) * (p + 1))%Z) by (now apply nfun3). rewrite NB in *.
  set (S := hex_scheme bt p m gamma ft ((n + 1) * (n + 1) * (n + 1)) P W ((p + 2) * (p + 2)) fp fw) in *. set (S' := hex_scheme bt p m' gamma ft ((n + 1) * (n + 1) * (n + 1)) P W ((p + 2) * (p + 2)) fp fw) in *.
  rewrite (rh_elems _ _ _ RL) in I1', PJ', HC'.
  assert (HMM : forall e i l, (0 <= e < gm_num_elems m)%Z -> (0 <= i < (p + 1) * (p + 1) * (p + 1))%Z -> (0 <= l < (p + 1) * (p + 1) * (p + 1))%Z ->
    iM' e i l = sign_spins bt p (r e) i * sign_spins bt p (r e) l * iM e (fn_spins bt p (r e) i) (fn_spins bt p (r e) l)).
  { intros e i l He. revert i l. apply (inverse_moved (mass_matrix3 bt p m ((n2 + 1) * (n2 + 1) * (n2 + 1)) P2 W2 e) (mass_matrix3 bt p m' ((n2 + 1) * (n2 + 1) * (n2 + 1)) P2 W2 e)); auto.
    - now apply spins_permute.
    - intros i. apply sign_square3.
    - intros i l Hi Hl. now apply (mass_moved3 n2 x2 w2). }
  assert (PT : forall e q d, (0 <= q < (n + 1) * (n + 1) * (n + 1))%Z -> (0 <= d < 3)%Z -> P (pts n (r e) q) d = spins (r e) (P q) d) by (intros e q d Hq Hd; now apply (pts_spins n Hn x w P W)).
  intros e j k He Hj Hk. rewrite HC, HC' by (try assumption; now apply spins_range).
  pose proof (march_twisted (fun _ l => l) 1 m _ (one_rank m MW) m' S S' (fun e => fn_spins bt p (r e)) (fun e => pts n (r e)) (fun e => sign_spins bt p (r e))) as MT.
  unfold twisted in MT. subst S S'. cbn [hex_scheme sc_shape sc_nb sc_gamma sc_flux sc_nq sc_val sc_grad sc_wts sc_nqf sc_fval sc_fwts sc_det sc_inv sc_normal space_dim] in MT. rewrite NB in MT.
  apply MT with (iM := iM) (iM' := iM'); auto; clear MT.
  - apply RL.
  - intros x0 _. now apply spins_permute.
  - intros x0 _. now apply pts_permute.
  - intros x0 i. apply sign_square3.
  - intros x0 q i Hx Hq Hi. rewrite (basis_fn_ext bt p i _ (spins (r x0) (P q))) by (rewrite (dim3h bt Hbt); intros d Hd; now apply PT). now apply basis_spins.
  - intros x0 q Hx Hq. rewrite (pts_weight n Hn x w P W SW TR (r x0) q Hq). f_equal. rewrite (det_point3 m' x0 _ (spins (r x0) (P q))) by (intros d Hd; now apply PT). now apply (det_moved3 m m' r).
  - intros x0 q i d Hx Hq Hi Hd. change (rsum 3 (fun d0 => gradient bt p i (P (pts n (r x0) q)) d0 * inverse3 (jacobian EHex 1 (elem_nodes m' x0) (P (pts n (r x0) q))) d0 d) =
      sign_spins bt p (r x0) i * rsum 3 (fun d0 => gradient bt p (fn_spins bt p (r x0) i) (P q) d0 * inverse3 (jacobian EHex 1 (elem_nodes m x0) (P q)) d0 d)).
    rewrite !gradient_triple by exact Hd. set (G := gradient bt p (fn_spins bt p (r x0) i) (P q)).
    assert (GE : forall d, (0 <= d < 3)%Z -> gradient bt p i (P (pts n (r x0) q)) d = spins (r x0) (fun d => sign_spins bt p (r x0) i * G d) d).
    { intros d0 Hd0. rewrite (gradient_point3 bt p Hbt i _ (spins (r x0) (P q)) d0 Hd0) by (intros d1 Hd1; now apply PT). rewrite (gradient_spins bt p Hbt Hp Sup (r x0) i (P q) d0 Hi Hd0), spins_scal by exact Hd0. reflexivity. }
    assert (JE : forall a d, (0 <= d < 3)%Z -> jacobian EHex 1 (elem_nodes m' x0) (P (pts n (r x0) q)) a d = spins (r x0) (jacobian EHex 1 (elem_nodes m x0) (P q) a) d).
    { intros a d0 Hd0. rewrite (jacobian_point EHex 1 _ _ (spins (r x0) (P q)) a d0 Hd0) by (intros d1 Hd1; now apply PT). apply jacobian_spins; [|exact Hd0]. intros k0 Hk0. now apply (corner_moved3 m m' r). }
    rewrite !(triple_ext _ _ _ _ _ _ GE (JE _) (JE _)), (triple_ext _ _ _ _ _ _ (JE 0%Z) (JE 1%Z) (JE 2%Z)), !triple_spins.
    assert (L : forall v v', triple (fun d => sign_spins bt p (r x0) i * G d) v v' = sign_spins bt p (r x0) i * triple G v v') by (intros v v'; unfold triple, dot3; ring). rewrite !L. unfold Rdiv; ring.
  - intros f sd iq i Hf Hq Hi. destruct (sides_moved3 m m' r MW RL FV f sd Hf) as (E1 & He1 & K & O & O' & a & Ra & HA & HB). cbv zeta in *. unfold side_point. cbn [sc_shape sc_nqf hex_scheme face_order].
    set (o := face_entry m f (if sd then 5%Z else 2%Z)) in *. set (o' := face_entry m' f (if sd then 5%Z else 2%Z)) in *.
    pose proof (oriented (p + 2) x1 w1 fp fw o (fun _ => 0%Z) iq ltac:(lia) SX1 TF O Hq) as T. pose proof (oriented (p + 2) x1 w1 fp fw o' (fun _ => 0%Z) iq ltac:(lia) SX1 TF O' Hq) as T'.
    rewrite HB, T in T'. cbn [face_at]. set (q1 := face_pts_order_hex o ((p + 2) * (p + 2)) (fun _ => 0%Z) iq) in *. set (q2 := face_pts_order_hex o' ((p + 2) * (p + 2)) (fun _ => 0%Z) iq) in *.
    specialize (HA (fp q1 0%Z) (fp q1 1%Z)). rewrite T' in HA.
    rewrite (basis_fn_ext bt p i _ (spins (r (side_elem m f sd)) (hex_face (side_face m f sd) (fp q1 0%Z) (fp q1 1%Z)))) by (rewrite (dim3h bt Hbt); intros d Hd; now apply HA).
    now apply basis_spins.
  - intros f sd Hf. now destruct (sides_moved3 m m' r MW RL FV f sd Hf).
  - intros f q d Hf _ Hd. now apply (normal_same m m' r).
  - intros x0 i y Hx Hi Hy. revert i Hi. apply (solves_unique ((p + 1) * (p + 1) * (p + 1)) (mass_matrix3 bt p m' ((n2 + 1) * (n2 + 1) * (n2 + 1)) P2 W2 x0) (iM' x0) (fun i => c0' x0 i y) (fun i => sign_spins bt p (r x0) i * c0 x0 (fn_spins bt p (r x0) i) y)); [now apply I1'|].
    intros i Hi. rewrite (PJ' x0 i y Hx Hi Hy).
    rewrite (rsum_ext ((p + 1) * (p + 1) * (p + 1)) _ (fun b => sign_spins bt p (r x0) i * (mass_matrix3 bt p m ((n2 + 1) * (n2 + 1) * (n2 + 1)) P2 W2 x0 (fn_spins bt p (r x0) i) (fn_spins bt p (r x0) b) * c0 x0 (fn_spins bt p (r x0) b) y))).
    2:{ intros b Hb. rewrite (mass_moved3 n2 x2 w2) by assumption. transitivity ((sign_spins bt p (r x0) b * sign_spins bt p (r x0) b) * (sign_spins bt p (r x0) i * (mass_matrix3 bt p m ((n2 + 1) * (n2 + 1) * (n2 + 1)) P2 W2 x0 (fn_spins bt p (r x0) i) (fn_spins bt p (r x0) b) * c0 x0 (fn_spins bt p (r x0) b) y))); [ring|]. rewrite sign_square3. ring. }
    rewrite rsum_scal, (rsum_permutes ((p + 1) * (p + 1) * (p + 1)) (fn_spins bt p (r x0)) (fun b => mass_matrix3 bt p m ((n2 + 1) * (n2 + 1) * (n2 + 1)) P2 W2 x0 (fn_spins bt p (r x0) i) b * c0 x0 b y)) by (now apply spins_permute).
    rewrite (PJ x0 (fn_spins bt p (r x0) i) y Hx (spins_range bt p Hp (r x0) i Hi) Hy).
    rewrite <- (rsum_permutes ((n3 + 1) * (n3 + 1) * (n3 + 1)) (pts n3 (r x0))) by (now apply pts_permute). rewrite <- rsum_scal. apply rsum_ext. intros q Hq.
    assert (PE : forall d, (0 <= d < 3)%Z -> P3 (pts n3 (r x0) q) d = spins (r x0) (P3 q) d) by (intros d Hd; now apply (pts_spins n3 Hn3 x3 w3 P3 W3)).
    rewrite (pts_weight n3 Hn3 x3 w3 P3 W3 SW3 TR3 (r x0) q Hq), (det_point3 m' x0 _ _ PE), (det_moved3 m m' r MW MW' Dm Dm' RL) by exact Hx.
    rewrite (basis_fn_ext bt p _ (P3 (pts n3 (r x0) q)) (spins (r x0) (P3 q))) by (rewrite (dim3h bt Hbt); exact PE). rewrite (basis_spins bt p Hbt Hp) by assumption.
    assert (UE : u (place EHex 1 (elem_nodes m' x0) (P3 (pts n3 (r x0) q))) y = u (place EHex 1 (elem_nodes m x0) (P3 q)) y).
    { apply (f_equal (fun v => u v y)). apply FunctionalExtensionality.functional_extensionality. intros d.
      rewrite (place_ext3 _ _ (spins (r x0) (P3 q)) d PE). apply place_spins. intros k0 Hk0. now apply (corner_moved3 m m' r). }
    rewrite UE. ring.
Qed.
End Two3b.

(** * C106 for hexahedra *)

(** The relisted mesh has the same solution: at the same point of an element -- the
    point turned with the corners -- it has the same value. *)
Theorem C106_solution_hexahedra : forall m m' r bt p gamma ft u steps c c',
  mesh_wf m -> mesh_wf m' -> good_hexes m -> gm_dim m' = 3%Z -> basis_for EHex bt -> supported bt p -> order_ok p -> relisted3 m m' r ->
  hex_solution m bt p gamma ft u steps c -> hex_solution m' bt p gamma ft u steps c' ->
  forall e y k, (0 <= e < gm_num_elems m)%Z -> (0 <= k < 5)%Z ->
    (forall d, place EHex 1 (elem_nodes m' e) (spins (r e) y) d = place EHex 1 (elem_nodes m e) y d) /\
    value bt p c' e (spins (r e) y) k = value bt p c e y k.
Proof.
  intros m m' r bt p gamma ft u steps c c' W W' [FV FD FL CF _ _] D' BF Sup Op RL Q Q' e y k He Hk. pose proof FL as ((D & _) & _ & _). cbn [space_dim] in D.
  assert (Hp : (0 <= p)%Z) by (unfold order_ok in Op; lia). split.
  - intros d. apply place_spins. intros k0 Hk0. now apply (corner_moved3 m m' r W W' D D' RL).
  - unfold value. rewrite nfun3 by exact BF. rewrite <- (rsum_permutes ((p + 1) * (p + 1) * (p + 1)) (fn_spins bt p (r e)) (fun j => c e j k * basis_fn bt p j y)) by (now apply spins_permute).
    apply rsum_ext. intros j Hj. rewrite (solutions_twisted3 m m' r W W' D D' RL FV FL bt p BF Op Sup gamma ft u steps c c' Q Q' e j k He Hj Hk), basis_spins by assumption.
    transitivity ((sign_spins bt p (r e) j * sign_spins bt p (r e) j) * (c e (fn_spins bt p (r e) j) k * basis_fn bt p (fn_spins bt p (r e) j) y)); [ring|]. rewrite sign_square3. ring.
Qed.
Print Assumptions C106_solution_hexahedra.

(** ** The relisted mesh is one the solver handles *)
Lemma turn_back a S T : (0 <= a < 4)%Z -> exists s t, hex_turn a s t = (S, T).
Proof.
  intros Ha. assert (C : (a = 0 \/ a = 1 \/ a = 2 \/ a = 3)%Z) by lia. destruct C as [-> | [-> | [-> | ->]]].
  - exists S, T. now destruct (hex_turn_table S T) as (-> & _).
  - exists T, (- S). destruct (hex_turn_table T (- S)) as (_ & -> & _). f_equal; ring.
  - exists (- S), (- T). destruct (hex_turn_table (- S) (- T)) as (_ & _ & -> & _). f_equal; ring.
  - exists (- T), S. destruct (hex_turn_table (- T) S) as (_ & _ & _ & -> & _). f_equal; ring.
Qed.

Ltac turned_pairs := repeat match goal with |- context [hex_turn ?a ?s ?t] => let T0 := fresh in let T1 := fresh in let T2 := fresh in let T3 := fresh in let T4 := fresh in let T5 := fresh in let T6 := fresh in let T7 := fresh in
  destruct (hex_turn_table s t) as (T0 & T1 & T2 & T3 & T4 & T5 & T6 & T7); first [rewrite T0|rewrite T1|rewrite T2|rewrite T3|rewrite T4|rewrite T5|rewrite T6|rewrite T7]; clear T0 T1 T2 T3 T4 T5 T6 T7; cbv beta iota end.

Lemma turn_compose a b : (0 <= a < 4)%Z -> (4 <= b <= 7)%Z -> exists c, (4 <= c <= 7)%Z /\ forall s t, (let '(s', t') := hex_turn b s t in hex_turn a s' t') = hex_turn c s t.
Proof.
  intros Ha Hb. assert (Ca : (a = 0 \/ a = 1 \/ a = 2 \/ a = 3)%Z) by lia. assert (Cb : (b = 4 \/ b = 5 \/ b = 6 \/ b = 7)%Z) by lia.
  destruct Ca as [-> | [-> | [-> | ->]]], Cb as [-> | [-> | [-> | ->]]];
  first [exists 4%Z; split; [lia|]; intros s t; turned_pairs; f_equal; ring | exists 5%Z; split; [lia|]; intros s t; turned_pairs; f_equal; ring
        |exists 6%Z; split; [lia|]; intros s t; turned_pairs; f_equal; ring | exists 7%Z; split; [lia|]; intros s t; turned_pairs; f_equal; ring].
Qed.

Lemma turn_divide a b : (0 <= a < 4)%Z -> (4 <= b <= 7)%Z -> exists c, (4 <= c <= 7)%Z /\ forall s t, hex_turn b s t = (let '(s', t') := hex_turn a s t in hex_turn c s' t').
Proof.
  intros Ha Hb. assert (Ca : (a = 0 \/ a = 1 \/ a = 2 \/ a = 3)%Z) by lia. assert (Cb : (b = 4 \/ b = 5 \/ b = 6 \/ b = 7)%Z) by lia.
  destruct Ca as [-> | [-> | [-> | ->]]], Cb as [-> | [-> | [-> | ->]]];
  first [exists 4%Z; split; [lia|]; intros s t; turned_pairs; f_equal; ring | exists 5%Z; split; [lia|]; intros s t; turned_pairs; f_equal; ring
        |exists 6%Z; split; [lia|]; intros s t; turned_pairs; f_equal; ring | exists 7%Z; split; [lia|]; intros s t; turned_pairs; f_equal; ring].
Qed.

Lemma spin_inj b u v : (forall d, (0 <= d < 3)%Z -> spin b u d = spin b v d) -> forall d, (0 <= d < 3)%Z -> u d = v d.
Proof.
  intros H d Hd. pose proof (H 0%Z ltac:(lia)) as H0. pose proof (H 1%Z ltac:(lia)) as H1. pose proof (H 2%Z ltac:(lia)) as H2. unfold spin in H0, H1, H2. 
  assert (C : (d = 0 \/ d = 1 \/ d = 2)%Z) by lia. destruct b, C as [-> | [-> | ->]]; cbn [Z.eqb Pos.eqb] in H0, H1, H2; lra.
Qed.
Lemma spins_inj l : forall u v, (forall d, (0 <= d < 3)%Z -> spins l u d = spins l v d) -> forall d, (0 <= d < 3)%Z -> u d = v d.
Proof. induction l as [|b l IH]; intros u v H; cbn [spins] in H; [exact H|]. apply (spin_inj b). apply IH. exact H. Qed.

Lemma spins_back l : forall y, inside EHex y -> exists z, inside EHex z /\ forall d, (0 <= d < 3)%Z -> y d = spins l z d.
Proof.
  induction l as [|b l IH]; intros y Hy; cbn [spins]; [exists y; auto|]. destruct (IH y Hy) as (z & Hz & E).
  pose proof (Hz 0%Z ltac:(cbn; lia)) as Z0. pose proof (Hz 1%Z ltac:(cbn; lia)) as Z1. pose proof (Hz 2%Z ltac:(cbn; lia)) as Z2.
  exists (fun d => if b then (if (d =? 1)%Z then z 2%Z else if (d =? 2)%Z then - z 1%Z else z d) else (if (d =? 0)%Z then z 1%Z else if (d =? 1)%Z then - z 0%Z else z d)). split.
  - intros d Hd. cbn [space_dim] in Hd. assert (C : (d = 0 \/ d = 1 \/ d = 2)%Z) by lia. destruct b, C as [-> | [-> | ->]]; cbn [Z.eqb Pos.eqb]; lra.
  - intros d Hd. rewrite E by exact Hd. apply spins_ext; [|exact Hd]. intros j Hj. assert (C : (j = 0 \/ j = 1 \/ j = 2)%Z) by lia. unfold spin. destruct b, C as [-> | [-> | ->]]; cbn [Z.eqb Pos.eqb]; ring.
Qed.

Lemma face_centres k k' : (0 <= k < 6)%Z -> (0 <= k' < 6)%Z -> (forall d, (0 <= d < 3)%Z -> hex_face k 0 0 d = hex_face k' 0 0 d) -> k = k'.
Proof.
  intros Hk Hk' H. pose proof (H 0%Z ltac:(lia)) as H0. pose proof (H 1%Z ltac:(lia)) as H1. pose proof (H 2%Z ltac:(lia)) as H2.
  assert (C : (k = 0 \/ k = 1 \/ k = 2 \/ k = 3 \/ k = 4 \/ k = 5)%Z) by lia. assert (C' : (k' = 0 \/ k' = 1 \/ k' = 2 \/ k' = 3 \/ k' = 4 \/ k' = 5)%Z) by lia.
  destruct C as [-> | [-> | [-> | [-> | [-> | ->]]]]], C' as [-> | [-> | [-> | [-> | [-> | ->]]]]]; try reflexivity; exfalso; cbn in H0, H1, H2; lra.
Qed.

Section Good3.
Context (m m' : gmesh R) (r : Z -> list bool) (W : mesh_wf m) (W' : mesh_wf m') (Dm : gm_dim m = 3%Z) (Dm' : gm_dim m' = 3%Z) (RL : relisted3 m m' r) (FV : faces_valid EHex m).

Lemma side_was3 f sd e k o : has_side m' f sd e k o -> exists k0 o0 a, has_side m f sd e k0 o0 /\ (0 <= k0 < 6)%Z /\ (0 <= e < gm_num_elems m)%Z /\ (0 <= k < 6)%Z /\ (0 <= o <= 7)%Z /\ (0 <= a < 4)%Z /\
  forall s t d, (0 <= d < 3)%Z -> (let '(s', t') := hex_turn a s t in hex_face k s' t' d) = spins (r e) (hex_face k0 s t) d.
Proof.
  intros H. destruct (face_of_side _ _ m' _ (one_rank m' W') (quad_scheme LagrangeQuad 1 m 2 HLLC 0 zero2 zero1 0 zero2 zero1) f sd e k o H) as (Hf & E1 & E2 & _). rewrite (rh_faces _ _ _ RL) in Hf.
  destruct (sides_moved3 m m' r W RL FV f sd Hf) as (M1 & M2 & M3 & _). cbv zeta in *. pose proof (sides_of _ _ m _ (one_rank m W) f sd Hf) as HS.
  destruct (rh_sides _ _ _ RL _ _ _ _ _ HS) as (k1 & o1 & a & HS' & R1 & R2 & Ra & HA & _). rewrite <- M1, E1 in HS', HS, HA. rewrite <- M1, E1 in M2.
  destruct H as (H1 & H2 & H3), HS' as (K1 & K2 & K3). rewrite H2 in K2. rewrite H3 in K3. injection K2 as ->. injection K3 as ->.
  exists (side_face m f sd), (face_entry m f (if sd then 5 else 2)%Z), a. auto 10.
Qed.

Lemma surface_was e k0 k a : (0 <= e < gm_num_elems m)%Z ->
  (forall s t d, (0 <= d < 3)%Z -> (let '(s', t') := hex_turn a s t in hex_face k s' t' d) = spins (r e) (hex_face k0 s t) d) ->
  forall S T s t d, hex_turn a s t = (S, T) -> face_surface m' e k S T d = face_surface m e k0 s t d.
Proof.
  intros He HA S T s t d E. unfold face_surface. rewrite (place_ext3 _ (hex_face k S T) (spins (r e) (hex_face k0 s t))) by (intros j Hj; rewrite <- HA by exact Hj; now rewrite E).
  apply place_spins. intros i Hi. now apply (corner_moved3 m m' r).
Qed.
End Good3.

Theorem C106_good_hexahedra : forall m m' r, mesh_wf m -> mesh_wf m' -> relisted3 m m' r -> good_hexes m ->
  mesh_fits EHex 1 m' -> (forall x, (0 <= x < gm_num_nodes m')%Z -> in_some_element m' x) -> good_hexes m'.
Proof.
  intros m m' r W W' RL [FV FD FL CF Hne Hall] MF' Hall'. destruct FL as ((Dm & Npe) & UT & PF). pose proof MF' as (Dm' & _). cbn [space_dim] in Dm, Dm'. constructor.
  - intros f sd e k o H. destruct (side_was3 m m' r W W' RL FV f sd e k o H) as (k0 & o0 & a & _ & _ & _ & Hk & Ho & _). cbn [faces_per_elem face_orientations]. lia.
  - intros f sd e k o f' sd' o' H H'. destruct (side_was3 m m' r W W' RL FV f sd e k o H) as (k0 & o0 & a & H0 & R0 & _ & _ & _ & Ra & HA).
    destruct (side_was3 m m' r W W' RL FV f' sd' e k o' H') as (k1 & o1 & a1 & H1 & R1 & _ & _ & _ & Ra1 & HA1).
    assert (E : k0 = k1).
    { apply face_centres; [exact R0|exact R1|]. apply (spins_inj (r e)). intros d Hd. rewrite <- HA, <- HA1 by exact Hd.
      assert (Z0 : forall a, (0 <= a < 4)%Z -> hex_turn a 0 0 = (0, 0)).
      { intros b Hb. assert (C : (b = 0 \/ b = 1 \/ b = 2 \/ b = 3)%Z) by lia. destruct C as [-> | [-> | [-> | ->]]]; turned_pairs; f_equal; ring. }
      rewrite !Z0 by assumption. reflexivity. }
    subst k1. exact (FD _ _ _ _ _ _ _ _ H0 H1).
  - split; [exact MF'|]. split.
    + intros e y He Hy. rewrite (rh_elems _ _ _ RL) in He. destruct (spins_back (r e) y Hy) as (z & Hz & E). rewrite (det_point3 m' e _ _ E), (det_moved3 m m' r W W' Dm Dm' RL) by exact He. now apply UT.
    + intros f sd e k o H. destruct (side_was3 m m' r W W' RL FV f sd e k o H) as (k0 & o0 & a & H0 & R0 & He & Hk & Ho & Ra & HA). destruct (PF _ _ _ _ _ H0) as (P & A & B & PG & d0 & Hd0 & NZ).
      pose proof (surface_was m m' r W W' Dm Dm' RL e k0 k a He HA) as T. assert (C : (a = 0 \/ a = 1 \/ a = 2 \/ a = 3)%Z) by lia.
      destruct C as [-> | [-> | [-> | ->]]]; [exists P, A, B|exists P, (fun d => - B d), A|exists P, (fun d => - A d), (fun d => - B d)|exists P, B, (fun d => - A d)]; (split; [intros s t d Hd|exists d0; split; [exact Hd0|]]).
      * rewrite (T s t s t) by (turned_pairs; reflexivity). now apply PG.
      * exact NZ.
      * rewrite (T s t t (- s)) by (turned_pairs; f_equal; ring). rewrite PG by exact Hd. ring.
      * intros Q. apply NZ. rewrite <- Q. unfold vprod. destruct (d0 =? 0)%Z, (d0 =? 1)%Z; ring.
      * rewrite (T s t (- s) (- t)) by (turned_pairs; f_equal; ring). rewrite PG by exact Hd. ring.
      * intros Q. apply NZ. rewrite <- Q. unfold vprod. destruct (d0 =? 0)%Z, (d0 =? 1)%Z; ring.
      * rewrite (T s t (- t) s) by (turned_pairs; f_equal; ring). rewrite PG by exact Hd. ring.
      * intros Q. apply NZ. rewrite <- Q. unfold vprod. destruct (d0 =? 0)%Z, (d0 =? 1)%Z; ring.
  - intros f eL kL oL eR kR oR HL HR. destruct (side_was3 m m' r W W' RL FV _ _ _ _ _ HL) as (k0 & o0 & a & H0 & _ & E0 & _ & _ & Ra & HA). destruct (side_was3 m m' r W W' RL FV _ _ _ _ _ HR) as (k1 & o1 & b & H1 & _ & E1 & _ & _ & Rb & HB).
    destruct (CF _ _ _ _ _ _ _ H0 H1) as (c & v & Hc & V). destruct (turn_compose b c Rb Hc) as (c1 & Hc1 & EC1). destruct (turn_divide a c1 Ra Hc1) as (c2 & Hc2 & EC2).
    exists c2, v. split; [exact Hc2|]. intros S T d Hd. destruct (turn_back a S T Ra) as (s & t & E). rewrite (surface_was m m' r W W' Dm Dm' RL eL k0 kL a E0 HA S T s t d E).
    rewrite <- V by exact Hd. specialize (EC1 s t). specialize (EC2 s t). rewrite E in EC2. rewrite <- EC2, <- EC1. destruct (hex_turn c s t) as (s1, t1).
    destruct (hex_turn b s1 t1) as (s2, t2) eqn:E2. exact (surface_was m m' r W W' Dm Dm' RL eR k1 kR b E1 HB s2 t2 s1 t1 d E2).
  - rewrite (rh_elems _ _ _ RL). exact Hne.
  - exact Hall'.
Qed.
Print Assumptions C106_good_hexahedra.

(** Two runs of the program, on any numbers of ranks, that read the two meshes. *)
Theorem C106_program_hexahedra : forall inputs meshes argv metis n inp m inputs' meshes' argv' metis' n' inp' m' cfg N u r g g',
  (1 <= n)%Z -> reads inputs meshes argv inp m -> asks_for inp cfg -> enough_data inp cfg -> parts_asked inp n -> metis_valid metis m n ->
  (1 <= n')%Z -> reads inputs' meshes' argv' inp' m' -> asks_for inp' cfg -> enough_data inp' cfg -> parts_asked inp' n' -> metis_valid metis' m' n' ->
  cf_dim cfg = 3%Z -> cf_physics cfg = Euler -> num_iterations (cf_end cfg) (cf_dt cfg) = Ok N ->
  let bt := cf_basis cfg in let p := cf_order cfg in let gamma := ph_gamma (cf_phys cfg) in let dt := B2R (cf_dt cfg) in
  good_hexes m -> mesh_fits EHex 1 m' -> (forall x, (0 <= x < gm_num_nodes m')%Z -> in_some_element m' x) -> basis_for EHex bt -> supported bt p -> order_ok p -> 1 < gamma ->
  starts_as 3 (cf_ic cfg) (cf_phys cfg) 0 u -> small m (nfun bt p) 5 -> small m' (nfun bt p) 5 ->
  relisted3 m m' r ->
  program inputs meshes argv metis n g -> program inputs' meshes' argv' metis' n' g' ->
  exists c c', g = Ok (solution_file m (nfun bt p) 5 (INR (Z.to_nat N) * dt) c) /\
    g' = Ok (solution_file m' (nfun bt p) 5 (INR (Z.to_nat N) * dt) c') /\
    forall e y k, (0 <= e < gm_num_elems m)%Z -> (0 <= k < 5)%Z ->
      (forall d, place EHex 1 (elem_nodes m' e) (spins (r e) y) d = place EHex 1 (elem_nodes m e) y d) /\
      value bt p c' e (spins (r e) y) k = value bt p c e y k.
Proof.
  intros inputs meshes argv metis n inp m inputs' meshes' argv' metis' n' inp' m' cfg N u r g g' Hn RE AF ED PA MV Hn' RE' AF' ED' PA' MV' D2 EU EN
    bt p gamma dt GQ MF' ND' BF Sup Op Gm SA SM SM' RL PR PR'.
  destruct (C84_solution_hexahedra inputs meshes argv metis n inp m cfg N u g Hn RE AF ED D2 EU PA MV EN GQ BF Sup Op Gm SA SM PR) as (c & Q & ->).
  pose proof (C106_good_hexahedra m m' r (reads_wf _ _ _ _ _ RE) (reads_wf _ _ _ _ _ RE') RL GQ MF' ND') as GQ'.
  destruct (C84_solution_hexahedra inputs' meshes' argv' metis' n' inp' m' cfg N u g' Hn' RE' AF' ED' D2 EU PA' MV' EN GQ' BF Sup Op Gm SA SM' PR') as (c' & Q' & ->).
  exists c, c'. split; [reflexivity|]. split; [reflexivity|].
  exact (C106_solution_hexahedra m m' r bt p gamma (cf_flux cfg) u (repeat (cf_stepper cfg, dt) (Z.to_nat N)) c c' (reads_wf _ _ _ _ _ RE) (reads_wf _ _ _ _ _ RE') GQ (proj1 MF') BF Sup Op RL Q Q').
Qed.
Print Assumptions C106_program_hexahedra.
