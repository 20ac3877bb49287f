(** PropSizeTri.v -- C58 for every element the parameters are defined for: lines,
    quadrilaterals, hexahedra and triangles. *)
From Coq Require Import ZArith List Lia Bool.
From Verif Require Import Base RBase QuadModel BasisModel PropQuad PropBasis SizeModel PropSize.
Import ListNotations.
Local Open Scope Z_scope.

(** The element a set of functions lives on: a line, square or cube, or a triangle. *)
Inductive element := Box (dim : Z) | Triangle.
Definition element_of (t : BasisType) : option element :=
  match t with
  | LagrangeSeg | LagrangeGLL1D => Some (Box 1)
  | LagrangeQuad | LagrangeGLL2D | LagrangeGL2D | LegendreQuad => Some (Box 2)
  | LagrangeHex | LagrangeGLL3D | LagrangeGL3D | LegendreHex => Some (Box 3)
  | TriangleLagrange => Some Triangle
  | _ => None
  end.

(** Pairs of exponents (i, j) of the monomials x^i y^j with i + j at most p. *)
Fixpoint pairs_upto (n : nat) : list (Z * Z) :=
  map (fun i => (Z.of_nat i, Z.of_nat (n - i))) (seq 0 (S n)) ++ match n with O => [] | S m => pairs_upto m end.

Lemma pairs_upto_in n i j : In (i, j) (pairs_upto n) <-> 0 <= i /\ 0 <= j /\ i + j <= Z.of_nat n.
Proof.
  revert i j. induction n as [|n IH]; intros i j.
  - cbn. split; [intros [H|[]]; injection H as <- <-; lia|]. intros H. left. f_equal; lia.
  - change (pairs_upto (S n)) with (map (fun i => (Z.of_nat i, Z.of_nat (S n - i))) (seq 0 (S (S n))) ++ pairs_upto n).
    rewrite in_app_iff, IH, in_map_iff. split.
    + intros [(k & H & K)|H]; [|lia]. apply in_seq in K. apply pair_equal_spec in H. lia.
    + intros H. destruct (Z.eq_dec (i + j) (Z.of_nat (S n))) as [E|E]; [left|right; lia].
      exists (Z.to_nat i). rewrite in_seq. split; [f_equal; lia|lia].
Qed.

Lemma pairs_upto_NoDup n : NoDup (pairs_upto n).
Proof.
  assert (M : forall a l, NoDup l -> NoDup (map (fun i => (Z.of_nat i, Z.of_nat (a - i))) l)).
  { intros a l H. induction H as [|x l N H IH]; cbn; constructor; [|exact IH].
    rewrite in_map_iff. intros (y & E & I). injection E as E _. apply Nat2Z.inj in E. now subst. }
  assert (A : forall (l l' : list (Z * Z)), NoDup l -> NoDup l' -> (forall x, In x l -> ~ In x l') -> NoDup (l ++ l')).
  { induction l as [|x l IH]; intros l' H H' D; [exact H'|]. inversion H; subst. cbn. constructor.
    - rewrite in_app_iff. intros [I|I]; [contradiction|]. exact (D x (or_introl eq_refl) I).
    - apply IH; auto. intros y Iy. apply D. now right. }
  induction n as [|n IH].
  - constructor; [cbn; tauto|constructor].
  - change (pairs_upto (S n)) with (map (fun i => (Z.of_nat i, Z.of_nat (S n - i))) (seq 0 (S (S n))) ++ pairs_upto n).
    apply A; [apply M, seq_NoDup|exact IH|]. intros (i & j) I J. apply pairs_upto_in in J. apply in_map_iff in I.
    destruct I as (k & E & K). apply in_seq in K. apply pair_equal_spec in E. lia.
Qed.

Lemma pairs_upto_length n : 2 * Z.of_nat (length (pairs_upto n)) = (Z.of_nat n + 1) * (Z.of_nat n + 2).
Proof.
  induction n as [|n IH]; [reflexivity|].
  change (pairs_upto (S n)) with (map (fun i => (Z.of_nat i, Z.of_nat (S n - i))) (seq 0 (S (S n))) ++ pairs_upto n).
  rewrite app_length, map_length, seq_length. nia.
Qed.

(** On boxes the functions are products of one-dimensional ones. On a triangle
    they are no products: none are set aside for one dimension, and there are as
    many as monomials of degree at most [p]. Types with no element are rejected,
    and only those. The shape functions live on the same element. *)
Theorem C58_every_element : forall t p g, 0 <= p -> 0 <= g ->
  match element_of t with
  | Some (Box d) => exists np, NumericsParams t p g = Ok np /\ np_order np = p /\ np_nb1d np = p + 1 /\ np_nb np = (p + 1) ^ d /\ np_gnb np = (g + 1) ^ d /\
      element_of (np_gbasis np) = Some (Box d) /\ np_nface np = 2 * d /\ np_norient np = (if d =? 3 then 8 else d)
  | Some Triangle => exists np, NumericsParams t p g = Ok np /\ np_order np = p /\ np_nb1d np = 0 /\
      (exists l, NoDup l /\ (forall i j, In (i, j) l <-> 0 <= i /\ 0 <= j /\ i + j <= p) /\ np_nb np = Z.of_nat (length l)) /\
      (exists l, NoDup l /\ (forall i j, In (i, j) l <-> 0 <= i /\ 0 <= j /\ i + j <= g) /\ np_gnb np = Z.of_nat (length l)) /\
      element_of (np_gbasis np) = Some Triangle /\ np_nface np = 3 /\ np_norient np = 2
  | None => NumericsParams t p g = Fail Thrown
  end.
Proof.
  assert (K : forall q, 0 <= q -> exists l, NoDup l /\ (forall i j, In (i, j) l <-> 0 <= i /\ 0 <= j /\ i + j <= q) /\ (q + 1) * (q + 2) / 2 = Z.of_nat (length l)).
  { intros q Hq. exists (pairs_upto (Z.to_nat q)). split; [apply pairs_upto_NoDup|]. split.
    - intros i j. rewrite pairs_upto_in, Z2Nat.id by exact Hq. reflexivity.
    - pose proof (pairs_upto_length (Z.to_nat q)) as L. rewrite Z2Nat.id in L by exact Hq. rewrite <- L, Z.mul_comm. apply Z.div_mul. lia. }
  intros t p g Hp Hg. destruct t; cbn [element_of]; try reflexivity; eexists; (split; [reflexivity|]); cbn [np_order np_nb np_nb1d np_gbasis np_nface np_norient np_gnb];
    repeat split; try reflexivity; try ring; try (apply K; assumption).
Qed.
Print Assumptions C58_every_element.
Example C58_every_element_demo : exists np, NumericsParams TriangleLagrange 3 1 = Ok np /\ np_nb np = 10 /\ np_nb1d np = 0 /\ np_gnb np = 3.
Proof. eexists. repeat split. Qed.

(** Plot points and sub-cells of a refined element, order at least one: on a box
    the points are those of a grid of [q + 1] per direction and the sub-cells the
    boxes between them; on a triangle the points are the (i, j) with i + j at most
    q and the sub-cells are the triangles (i, j), (i + 1, j), (i, j + 1) and
    (i + 1, j), (i, j + 1), (i + 1, j + 1) that fit, three corners each. There are
    no plots of lines. *)
Theorem C58_plots_every_element : forall t p, 0 <= p -> let q := Z.max p 1 in
  match element_of t with
  | Some (Box 1) | None => get_solfile_params t p = Fail Thrown
  | Some (Box d) => get_solfile_params t p = Ok ((q + 1) ^ d, q ^ d, 2 ^ d)
  | Some Triangle => exists points up down, get_solfile_params t p = Ok (Z.of_nat (length points), Z.of_nat (length up + length down), 3) /\
      NoDup points /\ (forall i j, In (i, j) points <-> 0 <= i /\ 0 <= j /\ i + j <= q) /\
      NoDup up /\ (forall i j, In (i, j) up <-> In (i, j) points /\ In (i + 1, j) points /\ In (i, j + 1) points) /\
      NoDup down /\ (forall i j, In (i, j) down <-> In (i, j) points /\ In (i + 1, j) points /\ In (i, j + 1) points /\ In (i + 1, j + 1) points)
  end.
Proof.
  intros t p Hp q. assert (Hq : 1 <= q) by (unfold q; lia).
  destruct t; cbn [element_of]; try reflexivity.
  assert (U : forall i j, In (i, j) (pairs_upto (Z.to_nat (q - 1))) <-> 0 <= i /\ 0 <= j /\ i + j <= q - 1).
  { intros i j. rewrite pairs_upto_in, Z2Nat.id by lia. reflexivity. }
  assert (P : forall i j, In (i, j) (pairs_upto (Z.to_nat q)) <-> 0 <= i /\ 0 <= j /\ i + j <= q).
  { intros i j. rewrite pairs_upto_in, Z2Nat.id by lia. reflexivity. }
  set (dn := if q =? 1 then [] else pairs_upto (Z.to_nat (q - 2))).
  assert (D : forall i j, In (i, j) dn <-> 0 <= i /\ 0 <= j /\ i + j <= q - 2).
  { intros i j. unfold dn. destruct (q =? 1) eqn:E; [cbn; lia|]. rewrite pairs_upto_in, Z2Nat.id by lia. reflexivity. }
  exists (pairs_upto (Z.to_nat q)), (pairs_upto (Z.to_nat (q - 1))), dn. split; [|split; [|split; [|split; [|split; [|split]]]]].
  - cbn [get_solfile_params]. fold q.
    pose proof (pairs_upto_length (Z.to_nat q)) as L1. rewrite Z2Nat.id in L1 by lia.
    pose proof (pairs_upto_length (Z.to_nat (q - 1))) as L2. rewrite Z2Nat.id in L2 by lia.
    assert (L3 : 2 * Z.of_nat (length dn) = (q - 1) * q).
    { unfold dn. destruct (q =? 1) eqn:E; [cbn [length]; lia|]. pose proof (pairs_upto_length (Z.to_nat (q - 2))) as L3. rewrite Z2Nat.id in L3 by lia. nia. }
    rewrite <- L1, Z.mul_comm, Z.div_mul by lia. do 2 f_equal. f_equal. rewrite Nat2Z.inj_add. nia.
  - apply pairs_upto_NoDup.
  - exact P.
  - apply pairs_upto_NoDup.
  - intros i j. rewrite U, !P. lia.
  - unfold dn. destruct (q =? 1); [constructor|apply pairs_upto_NoDup].
  - intros i j. rewrite D, !P. lia.
Qed.
Print Assumptions C58_plots_every_element.
Example C58_plots_demo : get_solfile_params TriangleLagrange 2 = Ok (6, 4, 3) /\ get_solfile_params LegendreHex 2 = Ok (27, 8, 8).
Proof. split; reflexivity. Qed.
