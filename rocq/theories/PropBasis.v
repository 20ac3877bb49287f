(** PropBasis.v -- property theorems C31-C35 (basis functions). *)
From Coq Require Import ZArith List Lia Reals Lra Bool Psatz.
From Coquelicot Require Import Coquelicot.
From Verif Require Import Base RBase QuadModel QuadProof PropQuad BasisModel BasisProof.
Import ListNotations.
Local Open Scope R_scope.

(** ** Specification *)

(** The nodes x_0 .. x_(n-1) are pairwise different. *)
Definition different (n : Z) (x : Z -> R) : Prop :=
  forall i j, (0 <= i < n)%Z -> (0 <= j < n)%Z -> x i = x j -> i = j.

(** The i-th Lagrange polynomial of the nodes x_0 .. x_(n-1). *)
Definition lagrange_poly (n : Z) (x : Z -> R) (i : Z) (t : R) : R :=
  rprod n (fun j => if (i =? j)%Z then 1 else (t - x j) / (x i - x j)).

(** The Legendre polynomials by their three-term recurrence
    (k+2) P_(k+2) = (2k+3) t P_(k+1) - (k+1) P_k. *)
Fixpoint legendre_pair (k : nat) (t : R) : R * R :=  (* (P_k, P_(k+1)) *)
  match k with
  | O => (1, t)
  | S k => let '(a, b) := legendre_pair k t in
           (b, ((2 * INR k + 3) * t * b - (INR k + 1) * a) / (INR k + 2))
  end.
Definition legendre_poly (i : Z) (t : R) : R := fst (legendre_pair (Z.to_nat i) t).

(** n evenly spaced points from -1 to 1 (order n-1 >= 1); the centre for order 0. *)
Definition even_node (order i : Z) : R := if (order =? 0)%Z then 0 else -1 + 2 * IZR i / IZR order.

Definition is_lagrange (bt : basis_type) : bool :=
  match bt with LagrangeSeg | LagrangeQuad | LagrangeHex => true | _ => false end.
Definition dim (bt : basis_type) : Z :=
  match bt with LagrangeSeg | LegendreSeg => 1 | LagrangeQuad | LegendreQuad => 2 | LagrangeHex | LegendreHex => 3 end%Z.

(** One-dimensional function number i of a basis of the given order. *)
Definition fn1 (bt : basis_type) (order i : Z) (t : R) : R :=
  if is_lagrange bt then lagrange_poly (order + 1) (even_node order) i t else legendre_poly i t.

(** Digit d of the number q in base n: the index in direction d of the q-th
    function (or node) of a tensor product, first direction fastest. *)
Definition digit (n d q : Z) : Z := ((q / n ^ d) mod n)%Z.

(** The q-th tensor-product function at the point y. *)
Definition basis_fn (bt : basis_type) (order q : Z) (y : Z -> R) : R :=
  rprod (dim bt) (fun d => fn1 bt order (digit (order + 1) d q) (y d)).

Definition nfun (bt : basis_type) (order : Z) : Z := ((order + 1) ^ dim bt)%Z.

(** Legendre functions are provided up to order 7 only (see C35). *)
Definition supported (bt : basis_type) (order : Z) : Prop := is_lagrange bt = true \/ (order <= 7)%Z.

(** ** C31: one-dimensional Lagrange functions *)

Lemma different_distinct n x : different n x -> distinct n x.
Proof. intros H i j Hi Hj N E. apply N. now apply H. Qed.

Lemma is_poly_poly n c : (0 <= n)%Z -> is_poly (n + 1) (poly n c).
Proof. intros H. exists c. reflexivity. Qed.

Theorem C31_lagrange_values : forall n xn phi, (0 < n)%Z -> different n xn ->
  let L i x := get_lagrange_basis_val_1D n xn x phi i in
  (forall i j, (0 <= i < n)%Z -> (0 <= j < n)%Z -> L i (xn j) = if (i =? j)%Z then 1 else 0) /\
  (forall x, rsum n (fun i => L i x) = 1) /\
  (forall c d x, (0 <= d < n)%Z -> rsum n (fun i => poly d c (xn i) * L i x) = poly d c x) /\
  (forall i x, (0 <= i < n)%Z -> L i x = lagrange_poly n xn i x) /\
  (forall i x, ~ (0 <= i < n)%Z -> L i x = phi i).
Proof.
  intros n xn phi Hn D L. apply different_distinct in D.
  assert (E : forall i x, (0 <= i < n)%Z -> L i x = lag n xn i x).
  { intros i x Hi. unfold L. rewrite lag_val by lia.
    destruct (Z.leb_spec 0 i), (Z.ltb_spec i n); cbn; auto; lia. }
  split; [|split; [|split; [|split]]].
  - intros i j Hi Hj. rewrite E by easy. now apply lag_nodal.
  - intros x. rewrite (rsum_ext n _ _ (fun i Hi => E i x Hi)). now apply lag_sum.
  - intros c d x Hd. rewrite (rsum_ext n _ (fun i => poly d c (xn i) * lag n xn i x)).
    + apply lag_interp; [lia|easy|]. apply (poly_weaken (d + 1)); try lia. apply is_poly_poly. lia.
    + intros i Hi. now rewrite E.
  - intros i x Hi. rewrite E by easy. reflexivity.
  - intros i x Hi. unfold L. rewrite lag_val by lia.
    destruct (Z.leb_spec 0 i), (Z.ltb_spec i n); cbn; auto; lia.
Qed.

(** ** C32: their gradients *)

Theorem C32_lagrange_gradients : forall n xn phi gphi, (0 < n)%Z -> different n xn ->
  (forall i x, (0 <= i < n)%Z ->
     is_derive (fun x => get_lagrange_basis_val_1D n xn x phi i) x (get_lagrange_basis_grad_1D n xn x gphi i)) /\
  (forall x, rsum n (fun i => get_lagrange_basis_grad_1D n xn x gphi i) = 0) /\
  (forall i x, ~ (0 <= i < n)%Z -> get_lagrange_basis_grad_1D n xn x gphi i = gphi i).
Proof.
  intros n xn phi gphi Hn D. apply different_distinct in D.
  assert (E : forall i x, (0 <= i < n)%Z -> get_lagrange_basis_grad_1D n xn x gphi i = dlag n xn i x).
  { intros i x Hi. rewrite lag_grad by lia. destruct (Z.leb_spec 0 i), (Z.ltb_spec i n); cbn; auto; lia. }
  split; [|split].
  - intros i x Hi. rewrite E by easy. apply (is_derive_ext (lag n xn i)); [|now apply lag_deriv].
    intros t. rewrite lag_val by lia. destruct (Z.leb_spec 0 i), (Z.ltb_spec i n); cbn; auto; lia.
  - intros x. rewrite (rsum_ext n _ (fun i => dlag n xn i x)) by (intros; now apply E). now apply dlag_sum.
  - intros i x Hi. rewrite lag_grad by lia. destruct (Z.leb_spec 0 i), (Z.ltb_spec i n); cbn; auto; lia.
Qed.

Lemma basis_nodes order i : (0 <= order)%Z -> (0 <= i <= order)%Z -> basis_xnodes order i = even_node order i.
Proof.
  intros Ho Hi. unfold basis_xnodes, equidistant_nodes_1D_range, even_node.
  destruct (Z.eqb_spec order 0) as [->|N]; cbn [Z.leb].
  - replace i with 0%Z by lia. reflexivity.
  - destruct (Z.leb_spec (order + 1) 1); [lia|]. rewrite zloop_fill1.
    destruct (Z.leb_spec 0 i), (Z.ltb_spec i (order + 1)); cbn; try lia.
    rewrite plus_IZR. assert (IZR order <> 0) by (apply not_0_IZR; lia). field. lra.
Qed.

Lemma even_different order : (0 <= order)%Z -> different (order + 1) (even_node order).
Proof.
  intros Ho i j Hi Hj E. unfold even_node in E. destruct (Z.eqb_spec order 0) as [->|N]; [lia|].
  assert (0 < IZR order) by (apply IZR_lt; lia).
  assert (E' : 2 * IZR i / IZR order = 2 * IZR j / IZR order) by lra.
  assert (IZR i = IZR j); [|now apply eq_IZR].
  apply (f_equal (fun z => z * IZR order / 2)) in E'. field_simplify in E'; lra.
Qed.

(** Non-vacuity: cubic basis, evaluated at 1/2 -- four different nodes, values
    -1/16 9/16 9/16 -1/16 at 0. *)
Example C31_example : different 4 (even_node 3) /\
  get_lagrange_basis_val_1D 4 (even_node 3) 0 (fun _ => 7) 1%Z = 9 / 16 /\
  get_lagrange_basis_val_1D 4 (even_node 3) 0 (fun _ => 7) 4%Z = 7.
Proof.
  split; [apply (even_different 3); lia|]. rewrite !lag_val by lia. cbn [Z.leb Z.ltb andb Z.compare Pos.compare Pos.compare_cont].
  split; [|reflexivity]. unfold lag, even_node. change (zseq 4) with [0;1;2;3]%Z. unfold rprod. change (zseq 4) with [0;1;2;3]%Z.
  cbn -[IZR]. lra.
Qed.

(** ** C34: Legendre functions *)

Lemma legendre_closed t :
  legendre_poly 0 t = 1 /\ legendre_poly 1 t = t /\ legendre_poly 2 t = 1/2 * (3 * t * t - 1) /\
  legendre_poly 3 t = 1/2 * (5 * t * t * t - 3 * t) /\
  legendre_poly 4 t = 1/8 * (35 * t * t * t * t - 30 * t * t + 3) /\
  legendre_poly 5 t = 1/8 * (63 * t * t * t * t * t - 70 * t * t * t + 15 * t) /\
  legendre_poly 6 t = 1/16 * (231 * t * t * t * t * t * t - 315 * t * t * t * t + 105 * t * t - 5) /\
  legendre_poly 7 t = 1/16 * (429 * t * t * t * t * t * t * t - 693 * t * t * t * t * t + 315 * t * t * t - 35 * t).
Proof.
  unfold legendre_poly.
  change (Z.to_nat 0) with 0%nat. change (Z.to_nat 1) with 1%nat. change (Z.to_nat 2) with 2%nat.
  change (Z.to_nat 3) with 3%nat. change (Z.to_nat 4) with 4%nat. change (Z.to_nat 5) with 5%nat.
  change (Z.to_nat 6) with 6%nat. change (Z.to_nat 7) with 7%nat.
  cbn -[IZR INR]. cbn [INR]. repeat split; field.
Qed.

Lemma upto7 i : (0 <= i <= 7)%Z -> (i = 0 \/ i = 1 \/ i = 2 \/ i = 3 \/ i = 4 \/ i = 5 \/ i = 6 \/ i = 7)%Z.
Proof. lia. Qed.

Lemma cond_upd (b : bool) (phi : arr1) k v i : (b = true -> i <> k) -> (if b then upd1 phi k v else phi) i = phi i.
Proof. intros H. destruct b; [rewrite upd1_neq; auto|easy]. Qed.

Lemma leg_val p x phi i : (0 <= p <= 7)%Z -> (0 <= i <= p)%Z ->
  get_legendre_basis_val_1D p x phi i = legendre_poly i x.
Proof.
  intros Hp Hi. destruct (legendre_closed x) as (E0 & E1 & E2 & E3 & E4 & E5 & E6 & E7).
  destruct (upto7 p Hp) as [-> | [-> | [-> | [-> | [-> | [-> | [-> | ->]]]]]]];
  destruct (upto7 i ltac:(lia)) as [-> | [-> | [-> | [-> | [-> | [-> | [-> | ->]]]]]]]; try (exfalso; lia);
  unfold get_legendre_basis_val_1D, upd1; cbn -[IZR legendre_poly]; symmetry; assumption.
Qed.

Lemma leg_val_out p x phi i : (0 <= p)%Z -> (i < 0 \/ p < i \/ 7 < i)%Z ->
  get_legendre_basis_val_1D p x phi i = phi i.
Proof.
  intros Hp Hi. unfold get_legendre_basis_val_1D. cbv zeta.
  rewrite !cond_upd by (intros H; rewrite ?Z.eqb_eq, ?Z.geb_le in H; lia). reflexivity.
Qed.

Lemma leg_grad_out p x phi i : (0 <= p)%Z -> (i < 0 \/ p < i \/ 7 < i)%Z ->
  get_legendre_basis_grad_1D p x phi i = phi i.
Proof.
  intros Hp Hi. unfold get_legendre_basis_grad_1D. cbv zeta.
  rewrite !cond_upd by (intros H; rewrite ?Z.eqb_eq, ?Z.geb_le in H; lia). reflexivity.
Qed.

Lemma leg_grad p x gphi i : (0 <= p <= 7)%Z -> (0 <= i <= p)%Z ->
  is_derive (legendre_poly i) x (get_legendre_basis_grad_1D p x gphi i).
Proof.
  intros Hp Hi.
  assert (G : get_legendre_basis_grad_1D p x gphi i = get_legendre_basis_grad_1D 7 x gphi i).
  { destruct (upto7 p Hp) as [-> | [-> | [-> | [-> | [-> | [-> | [-> | ->]]]]]]];
    destruct (upto7 i ltac:(lia)) as [-> | [-> | [-> | [-> | [-> | [-> | [-> | ->]]]]]]]; try (exfalso; lia);
    reflexivity. }
  rewrite G. clear G.
  destruct (upto7 i ltac:(lia)) as [-> | [-> | [-> | [-> | [-> | [-> | [-> | ->]]]]]]];
  unfold get_legendre_basis_grad_1D, upd1; cbn -[IZR legendre_poly];
  (eapply is_derive_ext; [intros t; symmetry; apply (legendre_closed t)|]; auto_derive; [trivial|]; lra).
Qed.

(** *** Integrals of polynomials given by coefficient lists *)
Fixpoint peval (l : list R) (x : R) : R := match l with [] => 0 | a :: l => a + x * peval l x end.
Fixpoint padd (l m : list R) : list R :=
  match l, m with [], m => m | l, [] => l | a :: l, b :: m => (a + b) :: padd l m end.
Definition pscal (a : R) (l : list R) : list R := map (Rmult a) l.
Fixpoint pmul (l m : list R) : list R :=
  match l with [] => [] | a :: l => padd (pscal a m) (0 :: pmul l m) end.
Fixpoint pint (k : Z) (l : list R) : R := match l with [] => 0 | a :: l => a * moment k + pint (k + 1) l end.

Lemma padd_eval l : forall m x, peval (padd l m) x = peval l x + peval m x.
Proof.
  induction l as [|a l IH]; intros [|b m] x; cbn -[IZR]; try lra. rewrite IH. lra.
Qed.
Lemma pscal_eval a l x : peval (pscal a l) x = a * peval l x.
Proof. unfold pscal. induction l as [|b l IH]; cbn -[IZR]; [lra|]. rewrite IH. lra. Qed.
Lemma pmul_eval l m x : peval (pmul l m) x = peval l x * peval m x.
Proof.
  induction l as [|a l IH]; cbn -[IZR]; [lra|]. rewrite padd_eval, pscal_eval. cbn -[IZR]. rewrite IH. lra.
Qed.
Lemma pint_spec l : forall k, (0 <= k)%Z -> is_RInt (fun x => x ^ Z.to_nat k * peval l x) (-1) 1 (pint k l).
Proof.
  induction l as [|a l IH]; intros k Hk; cbn -[IZR].
  - apply (is_RInt_ext (fun _ => 0)); [intros x _; symmetry; apply Rmult_0_r|]. evar_last; [apply (is_RInt_const (V := R_NormedModule))|].
    change ((1 - -1) * 0 = 0). ring.
  - apply (is_RInt_ext (fun x => a * x ^ Z.to_nat k + x ^ Z.to_nat (k + 1) * peval l x)).
    + intros x _. replace (Z.to_nat (k + 1)) with (S (Z.to_nat k)) by lia. cbn [pow]. cbn -[IZR pow peval]. ring.
    + apply (is_RInt_plus (V := R_NormedModule)); [|apply IH; lia].
      apply (is_RInt_scal (V := R_NormedModule) (fun t => t ^ Z.to_nat k)). now apply is_RInt_monomial.
Qed.

Definition legendre_coeffs (i : Z) : list R :=
  nth (Z.to_nat i)
  [ [1]; [0; 1]; [-1/2; 0; 3/2]; [0; -3/2; 0; 5/2]; [3/8; 0; -30/8; 0; 35/8]; [0; 15/8; 0; -70/8; 0; 63/8];
    [-5/16; 0; 105/16; 0; -315/16; 0; 231/16]; [0; -35/16; 0; 315/16; 0; -693/16; 0; 429/16] ] [].

Lemma legendre_coeffs_eval i x : (0 <= i <= 7)%Z -> legendre_poly i x = peval (legendre_coeffs i) x.
Proof.
  intros Hi. destruct (legendre_closed x) as (E0 & E1 & E2 & E3 & E4 & E5 & E6 & E7).
  assert (C : (i = 0 \/ i = 1 \/ i = 2 \/ i = 3 \/ i = 4 \/ i = 5 \/ i = 6 \/ i = 7)%Z) by lia.
  destruct C as [-> | [-> | [-> | [-> | [-> | [-> | [-> | ->]]]]]]];
  cbv [legendre_coeffs nth Z.to_nat Pos.to_nat Pos.iter_op Init.Nat.add]; rewrite ?E0, ?E1, ?E2, ?E3, ?E4, ?E5, ?E6, ?E7; cbn -[IZR]; lra.
Qed.

Lemma legendre_orthogonal i j : (0 <= i <= 7)%Z -> (0 <= j <= 7)%Z ->
  is_RInt (fun x => legendre_poly i x * legendre_poly j x) (-1) 1 (if (i =? j)%Z then 2 / (2 * IZR i + 1) else 0).
Proof.
  intros Hi Hj.
  apply (is_RInt_ext (fun x => x ^ Z.to_nat 0 * peval (pmul (legendre_coeffs i) (legendre_coeffs j)) x)).
  { intros x _. rewrite pmul_eval, <- !legendre_coeffs_eval by easy. cbn. ring. }
  evar_last; [apply pint_spec; lia|].
  assert (Ci : (i = 0 \/ i = 1 \/ i = 2 \/ i = 3 \/ i = 4 \/ i = 5 \/ i = 6 \/ i = 7)%Z) by lia.
  assert (Cj : (j = 0 \/ j = 1 \/ j = 2 \/ j = 3 \/ j = 4 \/ j = 5 \/ j = 6 \/ j = 7)%Z) by lia.
  clear Hi Hj. destruct Ci as [-> | [-> | [-> | [-> | [-> | [-> | [-> | ->]]]]]]];
  destruct Cj as [-> | [-> | [-> | [-> | [-> | [-> | [-> | ->]]]]]]];
  cbv [moment legendre_coeffs nth Z.to_nat Pos.to_nat Pos.iter_op Init.Nat.add]; cbn -[IZR]; lra.
Qed.

Theorem C34_legendre : forall p phi gphi, (0 <= p <= 7)%Z ->
  let P i x := get_legendre_basis_val_1D p x phi i in
  let G i x := get_legendre_basis_grad_1D p x gphi i in
  (forall i x, (0 <= i <= p)%Z -> P i x = legendre_poly i x) /\
  (forall x, P 0%Z x = 1) /\ (forall x, (1 <= p)%Z -> P 1%Z x = x) /\
  (forall k x, (0 <= k)%Z -> (k + 2 <= p)%Z ->
     (IZR k + 2) * P (k + 2)%Z x = (2 * IZR k + 3) * x * P (k + 1)%Z x - (IZR k + 1) * P k x) /\
  (forall i j, (0 <= i <= p)%Z -> (0 <= j <= p)%Z ->
     is_RInt (fun x => P i x * P j x) (-1) 1 (if (i =? j)%Z then 2 / (2 * IZR i + 1) else 0)) /\
  (forall i x, (0 <= i <= p)%Z -> is_derive (P i) x (G i x)) /\
  (forall i x, ~ (0 <= i <= p)%Z -> P i x = phi i /\ G i x = gphi i).
Proof.
  intros p phi gphi Hp P G. unfold P, G. split; [|split; [|split; [|split; [|split; [|split]]]]].
  - intros. now apply leg_val.
  - intros x. rewrite leg_val by lia. apply legendre_closed.
  - intros x H. rewrite leg_val by lia. apply legendre_closed.
  - intros k x H0 H1. rewrite !leg_val by lia.
    destruct (legendre_closed x) as (E0 & E1 & E2 & E3 & E4 & E5 & E6 & E7).
    assert (C : (k = 0 \/ k = 1 \/ k = 2 \/ k = 3 \/ k = 4 \/ k = 5)%Z) by lia.
    destruct C as [-> | [-> | [-> | [-> | [-> | ->]]]]]; cbn [Z.add Pos.add Pos.succ];
      rewrite ?E0, ?E1, ?E2, ?E3, ?E4, ?E5, ?E6, ?E7; lra.
  - intros i j Hi Hj. apply (is_RInt_ext (fun x => legendre_poly i x * legendre_poly j x)).
    + intros x _. now rewrite !leg_val by lia.
    + apply legendre_orthogonal; lia.
  - intros i x Hi. apply (is_derive_ext (legendre_poly i)); [intros t; now rewrite leg_val|]. now apply leg_grad.
  - intros i x Hi. split; [apply leg_val_out|apply leg_grad_out]; lia.
Qed.

(** The hypotheses of C34 are met by every order 0..7, and the result is not
    degenerate: P_7(1) = 1 and P_7(-1) = -1. *)
Example C34_example : get_legendre_basis_val_1D 7 1 (fun _ => 5) 7%Z = 1 /\ get_legendre_basis_val_1D 7 (-1) (fun _ => 5) 7%Z = -1.
Proof. unfold get_legendre_basis_val_1D, upd1; cbn -[IZR]. lra. Qed.

(** ** C35: orders above 7 *)

(** What holds: all p+1 values are set for p <= 7 (they do not depend on the
    previous contents).  Missing: orders above 7. *)
Theorem C35_legendre_complete_partial : forall p x phi phi' i, (0 <= p <= 7)%Z -> (0 <= i <= p)%Z ->
  get_legendre_basis_val_1D p x phi i = get_legendre_basis_val_1D p x phi' i.
Proof. intros. now rewrite !leg_val. Qed.

(** For every order p > 7 the values 7..p keep whatever was in the array: the
    routine prints a message and the program goes on. *)
Theorem C35_order_above_7_refuted : forall p, (7 < p)%Z -> forall i, (7 <= i <= p)%Z ->
  (forall x phi, get_legendre_basis_val_1D p x phi i = phi i /\ get_legendre_basis_grad_1D p x phi i = phi i) /\
  (forall nq nb pts val iq, (0 <= iq < nq)%Z -> get_values LegendreSeg p nq nb pts val iq i = val iq i).
Proof.
  intros p Hp i Hi.
  assert (A : forall x phi, get_legendre_basis_val_1D p x phi i = phi i /\ get_legendre_basis_grad_1D p x phi i = phi i).
  { intros x phi. unfold get_legendre_basis_val_1D, get_legendre_basis_grad_1D. cbv zeta.
    rewrite !cond_upd by (intros H; rewrite ?Z.eqb_eq, ?Z.geb_le in H; lia). auto. }
  split; [exact A|]. intros nq nb pts val iq Hq. unfold get_values. destruct (Z.eqb_spec p 0); [lia|].
  rewrite rows_spec by lia. destruct (Z.leb_spec 0 iq), (Z.ltb_spec iq nq); cbn; try lia. apply A.
Qed.

(** ** C33: tensor-product bases *)

Lemma fn1_lagrange order x phi i : (0 <= order)%Z -> (0 <= i <= order)%Z ->
  get_lagrange_basis_val_1D (order + 1) (basis_xnodes order) x phi i = lagrange_poly (order + 1) (even_node order) i x.
Proof.
  intros Ho Hi. rewrite lag_val by lia. destruct (Z.leb_spec 0 i), (Z.ltb_spec i (order + 1)); cbn; try lia.
  apply rprod_ext. intros j Hj. rewrite !basis_nodes by lia. reflexivity.
Qed.

Lemma xnodes_distinct order : (0 <= order)%Z -> distinct (order + 1) (basis_xnodes order).
Proof.
  intros Ho i j Hi Hj N. rewrite !basis_nodes by lia. intros E. apply N. apply (even_different order); auto.
Qed.

Lemma fn1_lagrange_deriv order x phi i : (0 <= order)%Z -> (0 <= i <= order)%Z ->
  is_derive (lagrange_poly (order + 1) (even_node order) i) x
    (get_lagrange_basis_grad_1D (order + 1) (basis_xnodes order) x phi i).
Proof.
  intros Ho Hi. rewrite lag_grad by lia. destruct (Z.leb_spec 0 i), (Z.ltb_spec i (order + 1)); cbn; try lia.
  apply (is_derive_ext (lag (order + 1) (basis_xnodes order) i)).
  - intros t. apply rprod_ext. intros j Hj. rewrite !basis_nodes by lia. reflexivity.
  - apply lag_deriv; [now apply xnodes_distinct|lia].
Qed.

(** The one-dimensional routines used by a basis. *)
Definition val1_of (bt : basis_type) (order : Z) : R -> arr1 -> arr1 :=
  if is_lagrange bt then get_lagrange_basis_val_1D (order + 1) (basis_xnodes order) else get_legendre_basis_val_1D order.
Definition grad1_of (bt : basis_type) (order : Z) : R -> arr1 -> arr1 :=
  if is_lagrange bt then get_lagrange_basis_grad_1D (order + 1) (basis_xnodes order) else get_legendre_basis_grad_1D order.

Lemma val1_spec bt order x phi i : (0 <= order)%Z -> supported bt order -> (0 <= i <= order)%Z ->
  val1_of bt order x phi i = fn1 bt order i x.
Proof.
  intros Ho S Hi. unfold val1_of, fn1. destruct (is_lagrange bt) eqn:E.
  - now apply fn1_lagrange.
  - apply leg_val; [destruct S; [congruence|lia]|lia].
Qed.

Lemma grad1_spec bt order x phi i : (0 <= order)%Z -> supported bt order -> (0 <= i <= order)%Z ->
  is_derive (fn1 bt order i) x (grad1_of bt order x phi i).
Proof.
  intros Ho S Hi. unfold grad1_of, fn1. destruct (is_lagrange bt) eqn:E.
  - apply fn1_lagrange_deriv; auto.
  - apply leg_grad; [destruct S; [congruence|lia]|lia].
Qed.

Lemma val1_out bt order x phi i : (0 <= order)%Z -> ~ (0 <= i <= order)%Z -> val1_of bt order x phi i = phi i.
Proof.
  intros Ho Hi. unfold val1_of. destruct (is_lagrange bt).
  - rewrite lag_val by lia. destruct (Z.leb_spec 0 i), (Z.ltb_spec i (order + 1)); cbn; auto; lia.
  - apply leg_val_out; lia.
Qed.
Lemma grad1_out bt order x phi i : (0 <= order)%Z -> ~ (0 <= i <= order)%Z -> grad1_of bt order x phi i = phi i.
Proof.
  intros Ho Hi. unfold grad1_of. destruct (is_lagrange bt).
  - rewrite lag_grad by lia. destruct (Z.leb_spec 0 i), (Z.ltb_spec i (order + 1)); cbn; auto; lia.
  - apply leg_grad_out; lia.
Qed.

Lemma digit_range n d q : (0 < n)%Z -> (0 <= digit n d q < n)%Z.
Proof. intros. apply Z.mod_pos_bound. lia. Qed.
Lemma digit0 n q : digit n 0 q = (q mod n)%Z.
Proof. unfold digit. now rewrite Z.pow_0_r, Z.div_1_r. Qed.
Lemma digit1 n q : digit n 1 q = ((q / n) mod n)%Z.
Proof. unfold digit. now rewrite Z.pow_1_r. Qed.
Lemma digit2 n q : digit n 2 q = ((q / (n * n)) mod n)%Z.
Proof. unfold digit. now rewrite Z.pow_2_r. Qed.
Lemma digit1_top n q : (0 < n)%Z -> (0 <= q < n * n)%Z -> digit n 1 q = (q / n)%Z.
Proof.
  intros. rewrite digit1. apply Z.mod_small. split; [apply Z.div_pos; lia|apply Z.div_lt_upper_bound; lia].
Qed.
Lemma digit2_top n q : (0 < n)%Z -> (0 <= q < n * n * n)%Z -> digit n 2 q = (q / (n * n))%Z.
Proof.
  intros. rewrite digit2. apply Z.mod_small. split; [apply Z.div_pos; nia|apply Z.div_lt_upper_bound; nia].
Qed.

Lemma rprod_1 f : rprod 1 f = f 0%Z.
Proof. unfold rprod. change (zseq 1) with [0%Z]. cbn -[IZR]. ring. Qed.
Lemma rprod_2 f : rprod 2 f = f 0%Z * f 1%Z.
Proof. unfold rprod. change (zseq 2) with [0;1]%Z. cbn -[IZR]. ring. Qed.
Lemma rprod_3 f : rprod 3 f = f 0%Z * f 1%Z * f 2%Z.
Proof. unfold rprod. change (zseq 3) with [0;1;2]%Z. cbn -[IZR]. ring. Qed.

Lemma arr2_ext (a b : arr2) : (forall i j, a i j = b i j) -> a = b.
Proof.
  intros H. apply FunctionalExtensionality.functional_extensionality. intros i.
  apply FunctionalExtensionality.functional_extensionality. auto.
Qed.
Lemma arr3_ext (a b : arr3) : (forall i j k, a i j k = b i j k) -> a = b.
Proof.
  intros H. apply FunctionalExtensionality.functional_extensionality. intros i. apply arr2_ext. auto.
Qed.

Lemma rng_true a b : (0 <= a < b)%Z -> ((0 <=? a) && (a <? b))%Z%bool = true.
Proof. intros. apply andb_true_iff. split; [apply Z.leb_le|apply Z.ltb_lt]; lia. Qed.
Lemma rng_false a b : ~ (0 <= a < b)%Z -> ((0 <=? a) && (a <? b))%Z%bool = false.
Proof. intros H. apply andb_false_iff. destruct (Z.leb_spec 0 a); [right|now left]. apply Z.ltb_ge. lia. Qed.

Lemma zloop_nil {S} n (b : Z -> S -> S) s : (n <= 0)%Z -> zloop n b s = s.
Proof. apply zloop_0. Qed.

(** get_values without the order-0 special case and without the repetition. *)
Definition values_core (bt : basis_type) (order nq : Z) (pts val : arr2) : arr2 :=
  match dim bt with
  | 1 => zloop nq (fun iq val => set_row val iq (val1_of bt order (pts iq 0%Z))) val
  | 2 => basis_val_2D (val1_of bt order) nq pts order val
  | _ => basis_val_3D (val1_of bt order) nq pts order val
  end%Z.

Lemma get_values_core bt order nq nb pts val : (0 < order)%Z -> (0 < nq)%Z ->
  get_values bt order nq nb pts val = values_core bt order nq pts val.
Proof.
  intros Ho Hq. unfold get_values, values_core. destruct (Z.eqb_spec order 0); [lia|].
  destruct bt; cbn [dim]; unfold val1_of; cbn [is_lagrange]; try reflexivity.
  - apply (repeat_fill nq (fun val => basis_val_2D _ nq pts order val)); [easy|]. intros s. apply arr2_ext. intros i q.
    rewrite !tensor_val_2D by lia. now destruct (_ && _)%bool.
  - apply (repeat_fill nq (fun val => basis_val_3D _ nq pts order val)); [easy|]. intros s. apply arr2_ext. intros i q.
    rewrite !tensor_val_3D by lia. now destruct (_ && _)%bool.
Qed.

Lemma nfun_cases bt order : (0 <= order)%Z -> nfun bt order = num_basis_coeff bt order.
Proof. intros. unfold nfun. destruct bt; cbn [dim num_basis_coeff]; lia. Qed.

Lemma values_core_spec bt order nq pts val iq q : (0 <= order)%Z -> (0 < nq)%Z -> supported bt order -> (0 <= iq < nq)%Z ->
  values_core bt order nq pts val iq q = if ((0 <=? q) && (q <? nfun bt order))%Z%bool then basis_fn bt order q (pts iq) else val iq q.
Proof.
  intros Ho Hq S Hi. unfold values_core. rewrite nfun_cases by easy. unfold basis_fn.
  assert (D : (dim bt = 1 \/ dim bt = 2 \/ dim bt = 3)%Z) by (destruct bt; cbn; lia).
  destruct D as [D | [D | D]]; rewrite D.
  - assert (E : num_basis_coeff bt order = (order + 1)%Z) by (destruct bt; cbn in *; lia). rewrite E.
    rewrite rows_spec, rng_true by lia. destruct (Z_le_dec 0 q) as [H0|H0]; [destruct (Z_lt_dec q (order + 1)) as [H1|H1]|].
    + rewrite rng_true by lia. rewrite rprod_1, digit0, Z.mod_small by lia. apply val1_spec; auto; lia.
    + rewrite rng_false by lia. apply val1_out; lia.
    + rewrite rng_false by lia. apply val1_out; lia.
  - assert (E : num_basis_coeff bt order = ((order + 1) * (order + 1))%Z) by (destruct bt; cbn in *; lia). rewrite E.
    rewrite tensor_val_2D, (rng_true iq) by lia. cbn [andb].
    destruct ((0 <=? q) && (q <? (order + 1) * (order + 1)))%Z%bool eqn:R; [|easy].
    apply andb_true_iff in R as [R0 R1]. apply Z.leb_le in R0. apply Z.ltb_lt in R1.
    rewrite rprod_2, <- digit0, <- digit1_top by lia.
    pose proof (digit_range (order + 1) 0 q ltac:(lia)). pose proof (digit_range (order + 1) 1 q ltac:(lia)).
    rewrite !val1_spec by (auto; lia). reflexivity.
  - assert (E : num_basis_coeff bt order = ((order + 1) * (order + 1) * (order + 1))%Z) by (destruct bt; cbn in *; lia). rewrite E.
    rewrite tensor_val_3D, (rng_true iq) by lia. cbn [andb].
    destruct ((0 <=? q) && (q <? (order + 1) * (order + 1) * (order + 1)))%Z%bool eqn:R; [|easy].
    apply andb_true_iff in R as [R0 R1]. apply Z.leb_le in R0. apply Z.ltb_lt in R1.
    rewrite rprod_3, <- digit0, <- digit1, <- digit2_top by lia.
    pose proof (digit_range (order + 1) 0 q ltac:(lia)). pose proof (digit_range (order + 1) 1 q ltac:(lia)).
    pose proof (digit_range (order + 1) 2 q ltac:(lia)).
    rewrite !val1_spec by (auto; lia). reflexivity.
Qed.

Lemma fn1_order0 bt i t : (0 <= i <= 0)%Z -> fn1 bt 0 i t = 1.
Proof.
  intros Hi. replace i with 0%Z by lia. unfold fn1. destruct (is_lagrange bt); [|apply legendre_closed].
  unfold lagrange_poly. apply rprod_one. intros j Hj. replace j with 0%Z by lia. reflexivity.
Qed.

(** Basis::get_values stores in column q of row iq the q-th tensor-product
    function at the iq-th point, for every basis, and touches nothing else. *)
Theorem C33_basis_values : forall bt order nq pts val, (0 <= order)%Z -> supported bt order ->
  let res := get_values bt order nq (num_basis_coeff bt order) pts val in
  num_basis_coeff bt order = nfun bt order /\
  (forall iq q, (0 <= iq < nq)%Z -> (0 <= q < nfun bt order)%Z -> res iq q = basis_fn bt order q (pts iq)) /\
  (forall iq q, ~ ((0 <= iq < nq)%Z /\ (0 <= q < nfun bt order)%Z) -> res iq q = val iq q).
Proof.
  intros bt order nq pts val Ho S res. split; [symmetry; now apply nfun_cases|].
  assert (X : forall iq q, res iq q = if (((0 <=? iq) && (iq <? nq)) && ((0 <=? q) && (q <? nfun bt order)))%Z%bool then basis_fn bt order q (pts iq) else val iq q).
  { intros iq q. unfold res. destruct (Z.eq_dec order 0) as [->|N].
    - unfold get_values. cbn [Z.eqb]. unfold fill_view. rewrite zloop_fill2, nfun_cases by lia.
      assert (E : num_basis_coeff bt 0 = 1%Z) by now destruct bt. rewrite E.
      destruct (Z.leb_spec 0 iq), (Z.ltb_spec iq nq), (Z.leb_spec 0 q), (Z.ltb_spec q 1); cbn; auto.
      symmetry. apply rprod_one. intros d _. apply fn1_order0. pose proof (digit_range (0 + 1) d q). lia.
    - destruct (Z_lt_dec 0 nq) as [Hq|Hq].
      2:{ unfold get_values. destruct (Z.eqb_spec order 0); [lia|].
          destruct (Z.leb_spec 0 iq), (Z.ltb_spec iq nq); cbn; try lia; destruct bt; unfold basis_val_2D, basis_val_3D; rewrite ?zloop_0 by lia; reflexivity. }
      rewrite get_values_core by lia.
      destruct (Z_le_dec 0 iq) as [H0|H0]; [destruct (Z_lt_dec iq nq) as [H1|H1]|].
      + rewrite values_core_spec by (auto; lia). now rewrite (rng_true iq) by lia.
      + rewrite (rng_false iq) by lia. cbn [andb]. unfold values_core. destruct bt; cbn [dim];
          rewrite ?rows_spec, ?tensor_val_2D, ?tensor_val_3D, (rng_false iq) by lia; reflexivity.
      + rewrite (rng_false iq) by lia. cbn [andb]. unfold values_core. destruct bt; cbn [dim];
          rewrite ?rows_spec, ?tensor_val_2D, ?tensor_val_3D, (rng_false iq) by lia; reflexivity. }
  split.
  - intros iq q Hi Hq. now rewrite X, !rng_true by lia.
  - intros iq q H. rewrite X. destruct (Z_le_dec 0 iq) as [H0|H0]; [destruct (Z_lt_dec iq nq) as [H1|H1]|];
      [|rewrite (rng_false iq) by lia; reflexivity|rewrite (rng_false iq) by lia; reflexivity].
    rewrite (rng_false q), andb_false_r by tauto. reflexivity.
Qed.

Definition grads_core (bt : basis_type) (order nq : Z) (pts : arr2) (grad : arr3) : arr3 :=
  match dim bt with
  | 1 => zloop nq (fun iq grad => set_row3 grad iq 0 (grad1_of bt order (pts iq 0%Z))) grad
  | 2 => basis_grad_2D (val1_of bt order) (grad1_of bt order) nq pts order grad
  | _ => basis_grad_3D (val1_of bt order) (grad1_of bt order) nq pts order grad
  end%Z.

Lemma get_grads_core bt order nq pts grad : (0 < order)%Z -> (0 < nq)%Z ->
  get_grads bt order nq pts grad = grads_core bt order nq pts grad.
Proof.
  intros Ho Hq. unfold get_grads, grads_core. destruct (Z.gtb_spec order 0); [|lia].
  destruct bt; cbn [dim]; unfold val1_of, grad1_of; cbn [is_lagrange]; try reflexivity.
  - apply (repeat_fill nq (fun grad => basis_grad_2D _ _ nq pts order grad)); [easy|]. intros s. apply arr3_ext. intros i q d.
    rewrite !tensor_grad_2D by lia. destruct (_ && _)%bool; [|easy]. destruct (d =? 0)%Z, (d =? 1)%Z; reflexivity.
  - apply (repeat_fill nq (fun grad => basis_grad_3D _ _ nq pts order grad)); [easy|]. intros s. apply arr3_ext. intros i q d.
    rewrite !tensor_grad_3D by lia. cbv zeta. destruct (_ && _)%bool; [|easy]. destruct (d =? 0)%Z, (d =? 1)%Z, (d =? 2)%Z; reflexivity.
Qed.

(** The point y with coordinate d replaced by t. *)
Definition with_coord (y : Z -> R) (d : Z) (t : R) : Z -> R := fun d' => if (d' =? d)%Z then t else y d'.

Lemma is_derive_scal_R (f : R -> R) x l a : is_derive f x l -> is_derive (fun x => a * f x) x (a * l).
Proof. intros H. apply (is_derive_scal f x a l H). Qed.

(** Basis::get_grads stores the partial derivatives of the same functions; the
    order-0 case relies on the zero-initialised view the callers allocate. *)
Theorem C33_basis_gradients : forall bt order nq pts grad, (0 <= order)%Z -> supported bt order ->
  (order = 0%Z -> forall iq q d, grad iq q d = 0) ->
  let res := get_grads bt order nq pts grad in
  (forall iq q d, (0 <= iq < nq)%Z -> (0 <= q < nfun bt order)%Z -> (0 <= d < dim bt)%Z ->
     is_derive (fun t => basis_fn bt order q (with_coord (pts iq) d t)) (pts iq d) (res iq q d)) /\
  (forall iq q d, ~ ((0 <= iq < nq)%Z /\ (0 <= q < nfun bt order)%Z /\ (0 <= d < dim bt)%Z) -> res iq q d = grad iq q d).
Proof.
  intros bt order nq pts grad Ho S Hz res. unfold res. destruct (Z.eq_dec order 0) as [->|N].
  - unfold get_grads. cbn [Z.gtb Z.compare]. split; [|easy]. intros iq q d Hi Hq Hd. rewrite Hz by easy.
    apply (is_derive_ext (fun _ => 1)); [|apply (is_derive_const (V := R_NormedModule))].
    intros t. symmetry. apply rprod_one. intros d' _. apply fn1_order0. pose proof (digit_range (0 + 1) d' q). lia.
  - destruct (Z_lt_dec 0 nq) as [Hq|Hq].
    2:{ unfold get_grads. destruct (Z.gtb_spec order 0); [|lia]. split; [intros; lia|]. intros iq q d _.
        destruct bt; unfold basis_grad_2D, basis_grad_3D; rewrite ?zloop_0 by lia; reflexivity. }
    rewrite get_grads_core by lia. unfold grads_core, basis_fn. rewrite nfun_cases by lia.
    assert (D : (dim bt = 1 \/ dim bt = 2 \/ dim bt = 3)%Z) by (destruct bt; cbn; lia).
    destruct D as [D | [D | D]]; rewrite D.
    + assert (E : num_basis_coeff bt order = (order + 1)%Z) by (destruct bt; cbn in *; lia). rewrite E.
      split; intros iq q d.
      * intros Hi Hq' Hd. replace d with 0%Z by lia. rewrite rows3_spec, rng_true by lia. cbn [andb Z.eqb].
        apply (is_derive_ext (fn1 bt order q)); [|apply grad1_spec; auto; lia].
        intros t. rewrite rprod_1, digit0, Z.mod_small by lia. reflexivity.
      * intros H. rewrite rows3_spec by lia. destruct (Z.eqb_spec d 0) as [->|]; [|now rewrite andb_false_r].
        destruct (Z_le_dec 0 iq) as [H0|H0]; [destruct (Z_lt_dec iq nq) as [H1|H1]|];
          [|rewrite (rng_false iq) by lia; reflexivity|rewrite (rng_false iq) by lia; reflexivity].
        rewrite rng_true by lia. cbn [andb]. rewrite grad1_out; [reflexivity|lia|lia].
    + assert (E : num_basis_coeff bt order = ((order + 1) * (order + 1))%Z) by (destruct bt; cbn in *; lia). rewrite E.
      split; intros iq q d.
      * intros Hi Hq' Hd. rewrite tensor_grad_2D, !rng_true by lia. cbn [andb].
        rewrite <- digit0, <- digit1_top by lia.
        pose proof (digit_range (order + 1) 0 q ltac:(lia)). pose proof (digit_range (order + 1) 1 q ltac:(lia)).
        rewrite !val1_spec by (auto; lia).
        assert (C : (d = 0 \/ d = 1)%Z) by lia. destruct C as [-> | ->]; cbn [Z.eqb].
        -- apply (is_derive_ext (fun t => fn1 bt order (digit (order + 1) 1 q) (pts iq 1%Z) * fn1 bt order (digit (order + 1) 0 q) t)).
           ++ intros t. rewrite rprod_2. unfold with_coord. cbn [Z.eqb]. apply Rmult_comm.
           ++ rewrite Rmult_comm. apply is_derive_scal_R. apply grad1_spec; auto; lia.
        -- apply (is_derive_ext (fun t => fn1 bt order (digit (order + 1) 0 q) (pts iq 0%Z) * fn1 bt order (digit (order + 1) 1 q) t)).
           ++ intros t. rewrite rprod_2. unfold with_coord. cbn [Z.eqb]. reflexivity.
           ++ apply is_derive_scal_R. apply grad1_spec; auto; lia.
      * intros H. rewrite tensor_grad_2D by lia. destruct (_ && _)%bool eqn:B; [|easy].
        rewrite !andb_true_iff, !Z.leb_le, !Z.ltb_lt in B. destruct (Z.eqb_spec d 0); [lia|]. destruct (Z.eqb_spec d 1); [lia|]. easy.
    + assert (E : num_basis_coeff bt order = ((order + 1) * (order + 1) * (order + 1))%Z) by (destruct bt; cbn in *; lia). rewrite E.
      split; intros iq q d.
      * intros Hi Hq' Hd. rewrite tensor_grad_3D, !rng_true by lia. cbn [andb]. cbv zeta.
        rewrite <- digit0, <- digit1, <- digit2_top by lia.
        pose proof (digit_range (order + 1) 0 q ltac:(lia)). pose proof (digit_range (order + 1) 1 q ltac:(lia)).
        pose proof (digit_range (order + 1) 2 q ltac:(lia)).
        rewrite !val1_spec by (auto; lia).
        set (f0 := fn1 bt order (digit (order + 1) 0 q)). set (f1 := fn1 bt order (digit (order + 1) 1 q)). set (f2 := fn1 bt order (digit (order + 1) 2 q)).
        assert (C : (d = 0 \/ d = 1 \/ d = 2)%Z) by lia. destruct C as [-> | [-> | ->]]; cbn [Z.eqb].
        -- apply (is_derive_ext (fun t => (f1 (pts iq 1%Z) * f2 (pts iq 2%Z)) * f0 t)).
           ++ intros t. rewrite rprod_3. unfold with_coord. cbn [Z.eqb Pos.eqb]. fold f0 f1 f2. cbn -[IZR]. ring.
           ++ rewrite Rmult_assoc, (Rmult_comm (grad1_of _ _ _ _ _)). apply is_derive_scal_R. apply grad1_spec; auto; lia.
        -- apply (is_derive_ext (fun t => (f0 (pts iq 0%Z) * f2 (pts iq 2%Z)) * f1 t)).
           ++ intros t. rewrite rprod_3. unfold with_coord. cbn [Z.eqb Pos.eqb]. fold f0 f1 f2. cbn -[IZR]. ring.
           ++ replace (f0 (pts iq 0%Z) * grad1_of bt order (pts iq 1%Z) z1 (digit (order + 1) 1 q) * f2 (pts iq 2%Z))
                with (f0 (pts iq 0%Z) * f2 (pts iq 2%Z) * grad1_of bt order (pts iq 1%Z) z1 (digit (order + 1) 1 q)) by ring.
              apply is_derive_scal_R. apply grad1_spec; auto; lia.
        -- apply (is_derive_ext (fun t => (f0 (pts iq 0%Z) * f1 (pts iq 1%Z)) * f2 t)).
           ++ intros t. rewrite rprod_3. unfold with_coord. cbn [Z.eqb Pos.eqb]. fold f0 f1 f2. cbn -[IZR]. ring.
           ++ apply is_derive_scal_R. apply grad1_spec; auto; lia.
      * intros H. rewrite tensor_grad_3D by lia. cbv zeta. destruct (_ && _)%bool eqn:B; [|easy].
        rewrite !andb_true_iff, !Z.leb_le, !Z.ltb_lt in B. destruct (Z.eqb_spec d 0); [lia|]. destruct (Z.eqb_spec d 1); [lia|].
        destruct (Z.eqb_spec d 2); [lia|]. easy.
Qed.

(** The reference nodes nodes.cpp lists for the element shape of a basis. *)
Definition element_nodes (bt : basis_type) (order : Z) (P : arr2) : arr2 :=
  match dim bt with
  | 1 => fun q d => if (d =? 0)%Z then get_equidistant_nodes_segment order (fun i => P i 0%Z) q else P q d
  | 2 => get_equidistant_nodes_quadrilateral order P
  | _ => get_equidistant_nodes_hexahedron order P
  end%Z.

Lemma equi_even order x i : (0 <= order)%Z -> (0 <= i <= order)%Z -> get_equidistant_nodes_segment order x i = even_node order i.
Proof.
  intros Ho Hi. unfold even_node. destruct (Z.eqb_spec order 0) as [->|N].
  - replace i with 0%Z by lia. reflexivity.
  - rewrite equi_segment, rng_true by lia. reflexivity.
Qed.

Lemma element_nodes_spec bt order P q d : (0 <= order)%Z -> (0 <= q < nfun bt order)%Z -> (0 <= d < dim bt)%Z ->
  element_nodes bt order P q d = even_node order (digit (order + 1) d q).
Proof.
  intros Ho Hq Hd. rewrite nfun_cases in Hq by easy. unfold element_nodes.
  assert (D : (dim bt = 1 \/ dim bt = 2 \/ dim bt = 3)%Z) by (destruct bt; cbn; lia).
  destruct D as [D | [D | D]]; rewrite D in *.
  - assert (E : num_basis_coeff bt order = (order + 1)%Z) by (destruct bt; cbn in *; lia). rewrite E in Hq.
    replace d with 0%Z by lia. cbn [Z.eqb]. rewrite digit0, Z.mod_small by lia. apply equi_even; lia.
  - assert (E : num_basis_coeff bt order = ((order + 1) * (order + 1))%Z) by (destruct bt; cbn in *; lia). rewrite E in Hq.
    pose proof (equi_quad order P q Ho) as X. cbv zeta in X. rewrite rng_true in X by lia. injection X as X0 X1.
    pose proof (digit_range (order + 1) 0 q ltac:(lia)). pose proof (digit_range (order + 1) 1 q ltac:(lia)).
    assert (C : (d = 0 \/ d = 1)%Z) by lia. destruct C as [-> | ->].
    + rewrite X0, <- digit0. apply equi_even; lia.
    + rewrite X1, <- digit1_top by lia. apply equi_even; lia.
  - assert (E : num_basis_coeff bt order = ((order + 1) * (order + 1) * (order + 1))%Z) by (destruct bt; cbn in *; lia). rewrite E in Hq.
    pose proof (equi_hex order P q Ho) as X. cbv zeta in X. rewrite rng_true in X by lia. injection X as X0 X1 X2.
    pose proof (digit_range (order + 1) 0 q ltac:(lia)). pose proof (digit_range (order + 1) 1 q ltac:(lia)). pose proof (digit_range (order + 1) 2 q ltac:(lia)).
    assert (C : (d = 0 \/ d = 1 \/ d = 2)%Z) by lia. destruct C as [-> | [-> | ->]].
    + rewrite X0, <- digit0. apply equi_even; lia.
    + rewrite X1, <- digit1. apply equi_even; lia.
    + rewrite X2, <- digit2_top by lia. apply equi_even; lia.
Qed.

(** The digits of a function number determine it. *)
Lemma digits_inj bt order q q' : (0 <= order)%Z -> (0 <= q < nfun bt order)%Z -> (0 <= q' < nfun bt order)%Z ->
  (forall d, (0 <= d < dim bt)%Z -> digit (order + 1) d q = digit (order + 1) d q') -> q = q'.
Proof.
  intros Ho Hq Hq' H. rewrite nfun_cases in Hq, Hq' by easy.
  assert (D : (dim bt = 1 \/ dim bt = 2 \/ dim bt = 3)%Z) by (destruct bt; cbn; lia).
  destruct D as [D | [D | D]]; rewrite D in *.
  - assert (E : num_basis_coeff bt order = (order + 1)%Z) by (destruct bt; cbn in *; lia). rewrite E in Hq, Hq'.
    specialize (H 0%Z ltac:(lia)). rewrite !digit0, !Z.mod_small in H by lia. exact H.
  - assert (E : num_basis_coeff bt order = ((order + 1) * (order + 1))%Z) by (destruct bt; cbn in *; lia). rewrite E in Hq, Hq'.
    pose proof (H 0%Z ltac:(lia)) as A. pose proof (H 1%Z ltac:(lia)) as B.
    rewrite !digit0 in A. rewrite !digit1_top in B by lia.
    rewrite (Z.div_mod q (order + 1)), (Z.div_mod q' (order + 1)) by lia. now rewrite A, B.
  - assert (E : num_basis_coeff bt order = ((order + 1) * (order + 1) * (order + 1))%Z) by (destruct bt; cbn in *; lia). rewrite E in Hq, Hq'.
    pose proof (H 0%Z ltac:(lia)) as A. pose proof (H 1%Z ltac:(lia)) as B. pose proof (H 2%Z ltac:(lia)) as C.
    rewrite !digit0 in A. rewrite digit1 in B. rewrite (digit1 _ q') in B. rewrite !digit2_top in C by lia.
    rewrite <- !Z.div_div in C by lia.
    rewrite (Z.div_mod q (order + 1)), (Z.div_mod q' (order + 1)) by lia.
    rewrite (Z.div_mod (q / (order + 1)) (order + 1)), (Z.div_mod (q' / (order + 1)) (order + 1)) by lia.
    now rewrite A, B, C.
Qed.

Lemma fn1_nodal bt order i j : is_lagrange bt = true -> (0 <= order)%Z -> (0 <= i <= order)%Z -> (0 <= j <= order)%Z ->
  fn1 bt order i (even_node order j) = if (i =? j)%Z then 1 else 0.
Proof.
  intros L Ho Hi Hj. unfold fn1. rewrite L.
  apply lag_nodal; [apply different_distinct, even_different; lia|lia|lia].
Qed.

(** A sum over all function numbers of a product is the product of the sums. *)
Lemma tensor_sum bt order (g : Z -> Z -> R) : (0 <= order)%Z ->
  rsum (nfun bt order) (fun q => rprod (dim bt) (fun d => g d (digit (order + 1) d q))) =
  rprod (dim bt) (fun d => rsum (order + 1) (g d)).
Proof.
  intros Ho. rewrite nfun_cases by easy. set (n := (order + 1)%Z).
  assert (D : (dim bt = 1 \/ dim bt = 2 \/ dim bt = 3)%Z) by (destruct bt; cbn; lia).
  destruct D as [D | [D | D]]; rewrite D.
  - replace (num_basis_coeff bt order) with n by (unfold n; destruct bt; cbn in *; lia).
    rewrite rprod_1. apply rsum_ext. intros i Hi. rewrite rprod_1, digit0, Z.mod_small by lia. reflexivity.
  - replace (num_basis_coeff bt order) with (n * n)%Z by (unfold n; destruct bt; cbn in *; lia).
    rewrite rprod_2. rewrite (rsum_ext (n * n) _ (fun q => (fun i j => g 0%Z i * g 1%Z j) (q mod n)%Z (q / n)%Z)).
    + rewrite (rsum_flat n n (fun i j => g 0%Z i * g 1%Z j)) by lia. rewrite <- rsum_scal. apply rsum_ext. intros j Hj.
      now rewrite rsum_scal_r.
    + intros q Hq. rewrite rprod_2, digit0, digit1_top by lia. reflexivity.
  - replace (num_basis_coeff bt order) with (n * n * n)%Z by (unfold n; destruct bt; cbn in *; lia).
    rewrite rprod_3. rewrite (rsum_ext (n * n * n) _ (fun q => (fun i j k => g 0%Z i * g 1%Z j * g 2%Z k) (q mod n)%Z ((q / n) mod n)%Z (q / (n * n))%Z)).
    + rewrite (rsum_flat3 n (fun i j k => g 0%Z i * g 1%Z j * g 2%Z k)) by lia.
      rewrite <- rsum_scal. apply rsum_ext. intros k Hk. 
      rewrite (rsum_ext n _ (fun j => rsum n (g 0%Z) * g 1%Z j * g 2%Z k)).
      * rewrite rsum_scal_r, rsum_scal. reflexivity.
      * intros j Hj. now rewrite !rsum_scal_r.
    + intros q Hq. rewrite rprod_3, digit0, digit1, digit2_top by lia. reflexivity.
Qed.

Lemma rprod_mult n f g : rprod n (fun i => f i * g i) = rprod n f * rprod n g.
Proof.
  induction n as [n H|n H IH] using zind; [rewrite !rprod_0 by easy; ring|].
  rewrite !rprod_S, IH by easy. ring.
Qed.

(** Lagrange bases of every dimension: nodal at the element nodes, partition of
    unity, and reproduction of every tensor-product polynomial
    sum_m c_m prod_d y_d^(digit d of m) of degree <= order in each variable. *)
Theorem C33_lagrange_nodal : forall bt order nq pts val P, (0 <= order)%Z -> is_lagrange bt = true ->
  let nb := num_basis_coeff bt order in
  let nodes := element_nodes bt order P in
  let at_nodes := get_values bt order nb nb nodes val in
  let res := get_values bt order nq nb pts val in
  (forall q q', (0 <= q < nb)%Z -> (0 <= q' < nb)%Z -> at_nodes q q' = if (q =? q')%Z then 1 else 0) /\
  (forall iq, (0 <= iq < nq)%Z -> rsum nb (fun q => res iq q) = 1) /\
  (forall c, let f y := rsum nb (fun m => c m * rprod (dim bt) (fun d => y d ^ Z.to_nat (digit (order + 1) d m))) in
     forall iq, (0 <= iq < nq)%Z -> rsum nb (fun q => f (nodes q) * res iq q) = f (pts iq)).
Proof.
  intros bt order nq pts val P Ho L nb nodes at_nodes res.
  assert (S : supported bt order) by now left.
  assert (En : nb = nfun bt order) by (unfold nb; symmetry; now apply nfun_cases).
  assert (Hres : forall iq q, (0 <= iq < nq)%Z -> (0 <= q < nb)%Z -> res iq q = basis_fn bt order q (pts iq)).
  { intros iq q Hi Hq. apply (C33_basis_values bt order nq pts val Ho S); auto. now rewrite <- En. }
  assert (Hcard : forall (m : Z) (y : Z -> R),
    rsum nb (fun q => rprod (dim bt) (fun d => nodes q d ^ Z.to_nat (digit (order + 1) d m)) * basis_fn bt order q y) =
    rprod (dim bt) (fun d => y d ^ Z.to_nat (digit (order + 1) d m))).
  { intros m y. rewrite En.
    rewrite (rsum_ext _ _ (fun q => rprod (dim bt) (fun d =>
       (fun d i => even_node order i ^ Z.to_nat (digit (order + 1) d m) * fn1 bt order i (y d)) d (digit (order + 1) d q)))).
    - rewrite (tensor_sum bt order (fun d i => even_node order i ^ Z.to_nat (digit (order + 1) d m) * fn1 bt order i (y d))) by easy. apply rprod_ext. intros d Hd. cbn beta.
      pose proof (digit_range (order + 1) d m ltac:(lia)).
      rewrite (rsum_ext (order + 1) _ (fun i => (even_node order i) ^ Z.to_nat (digit (order + 1) d m) * lag (order + 1) (even_node order) i (y d))).
      2:{ intros i Hi. unfold fn1. now rewrite L. }
      apply (lag_interp (order + 1) (even_node order) (fun t => t ^ Z.to_nat (digit (order + 1) d m))); [lia| |].
      + apply different_distinct, even_different; lia.
      + apply poly_mono. lia.
    - intros q Hq. unfold basis_fn. rewrite <- rprod_mult. apply rprod_ext. intros d Hd. cbn beta.
      unfold nodes. rewrite element_nodes_spec by auto. reflexivity. }
  split; [|split].
  - intros q q' Hq Hq'. unfold at_nodes.
    destruct (C33_basis_values bt order nb nodes val Ho S) as (_ & V & _). rewrite En in Hq, Hq'.
    unfold nb. rewrite V; [|fold nb; now rewrite En|easy]. unfold basis_fn.
    destruct (Z.eqb_spec q q') as [->|N].
    + apply rprod_one. intros d Hd. unfold nodes. rewrite element_nodes_spec by auto.
      pose proof (digit_range (order + 1) d q' ltac:(lia)). rewrite fn1_nodal by (auto; lia). now rewrite Z.eqb_refl.
    + assert (X : ~ forall d, (0 <= d < dim bt)%Z -> digit (order + 1) d q = digit (order + 1) d q').
      { intros X. apply N. now apply (digits_inj bt order). }
      assert (Y : exists d, (0 <= d < dim bt)%Z /\ digit (order + 1) d q <> digit (order + 1) d q').
      { assert (F : forall m : nat, (forall d, (0 <= d < Z.of_nat m)%Z -> digit (order + 1) d q = digit (order + 1) d q') \/
           exists d, (0 <= d < Z.of_nat m)%Z /\ digit (order + 1) d q <> digit (order + 1) d q').
        { induction m as [|m [IH|(d & Hd & Nd)]]; [left; intros; lia| |right; exists d; split; [lia|easy]].
          destruct (Z.eq_dec (digit (order + 1) (Z.of_nat m) q) (digit (order + 1) (Z.of_nat m) q')) as [E|E].
          - left. intros d Hd. destruct (Z.eq_dec d (Z.of_nat m)) as [->|]; [easy|]. apply IH. lia.
          - right. exists (Z.of_nat m). split; [lia|easy]. }
        assert (Dp : (0 <= dim bt)%Z) by (destruct bt; cbn; lia).
        destruct (F (Z.to_nat (dim bt))) as [A|A]; rewrite Z2Nat.id in A by easy; [now apply X in A|exact A]. }
      destruct Y as (d & Hd & Nd). apply (rprod_zero _ _ d Hd). unfold nodes. rewrite element_nodes_spec by auto.
      pose proof (digit_range (order + 1) d q ltac:(lia)). pose proof (digit_range (order + 1) d q' ltac:(lia)).
      rewrite fn1_nodal by (auto; lia). destruct (Z.eqb_spec (digit (order + 1) d q') (digit (order + 1) d q)); [lia|easy].
  - intros iq Hi. rewrite (rsum_ext _ _ (fun q => rprod (dim bt) (fun d => nodes q d ^ Z.to_nat (digit (order + 1) d 0)) * basis_fn bt order q (pts iq))).
    + rewrite Hcard. apply rprod_one. intros d Hd. unfold digit. rewrite Z.div_0_l, Z.mod_0_l by (try apply Z.pow_nonzero; lia). reflexivity.
    + intros q Hq. rewrite Hres by auto. rewrite rprod_one; [ring|].
      intros d Hd. unfold digit. rewrite Z.div_0_l, Z.mod_0_l by (try apply Z.pow_nonzero; lia). reflexivity.
  - intros c f iq Hi. unfold f.
    rewrite (rsum_ext nb _ (fun q => rsum nb (fun m => c m * (rprod (dim bt) (fun d => nodes q d ^ Z.to_nat (digit (order + 1) d m)) * basis_fn bt order q (pts iq))))).
    + rewrite rsum_swap. apply rsum_ext. intros m Hm. rewrite rsum_scal, Hcard. reflexivity.
    + intros q Hq. rewrite Hres by auto. rewrite <- rsum_scal_r. apply rsum_ext. intros; ring.
Qed.

(** A concrete case: the bilinear quadrilateral at the centre. *)
Example C33_example :
  get_values LagrangeQuad 1 1 (num_basis_coeff LagrangeQuad 1) (fun _ _ => 0) (fun _ _ => 9) 0%Z 3%Z = 1 / 4.
Proof.
  destruct (C33_basis_values LagrangeQuad 1 1 (fun _ _ => 0) (fun _ _ => 9) ltac:(lia) ltac:(now left)) as (_ & V & _).
  rewrite V by (cbn; lia). unfold basis_fn. cbn [dim]. rewrite rprod_2. unfold fn1, lagrange_poly. cbn [is_lagrange].
  change (1 + 1)%Z with 2%Z. rewrite !rprod_2. unfold digit, even_node. cbn -[IZR]. lra.
Qed.

Print Assumptions C31_lagrange_values.
Print Assumptions C32_lagrange_gradients.
Print Assumptions C33_basis_values.
Print Assumptions C33_basis_gradients.
Print Assumptions C33_lagrange_nodal.
Print Assumptions C34_legendre.
Print Assumptions C35_order_above_7_refuted.
