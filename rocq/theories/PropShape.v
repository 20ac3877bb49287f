(** PropShape.v -- property theorems C17-C22 and C60 (element faces). *)
From Coq Require Import ZArith List Lia Reals Lra Bool Psatz Permutation.
From Coquelicot Require Import Coquelicot.
From Verif Require Import Base RBase LinAlgModel LinAlgProof PropLinAlg QuadModel QuadProof PropQuad BasisModel BasisProof PropBasis ShapeModel ShapeProof.
Import ListNotations.
Local Open Scope R_scope.

(** ** Specification *)

Definition vec2 (a b : R) : Z -> R := fun d => if (d =? 0)%Z then a else b.
Definition vec3 (a b c : R) : Z -> R := fun d => if (d =? 0)%Z then a else if (d =? 1)%Z then b else c.

(** The edges of the reference square [-1,1]^2, travelled counter-clockwise
    (bottom, right, top, left), parameter t in [-1,1]. *)
Definition quad_face (face : Z) (t : R) : Z -> R :=
  match face with
  | 0 => vec2 t (-1) | 1 => vec2 1 t | 2 => vec2 (- t) 1 | _ => vec2 (-1) (- t)
  end%Z.

(** The faces of the reference cube [-1,1]^3 with parameters (s, t), such that
    (d/ds) x (d/dt) points outward: z = -1, y = -1, x = 1, y = 1, x = -1, z = 1. *)
Definition hex_face (face : Z) (s t : R) : Z -> R :=
  match face with
  | 0 => vec3 t s (-1) | 1 => vec3 s (-1) t | 2 => vec3 1 s t
  | 3 => vec3 (- s) 1 t | 4 => vec3 (-1) (- s) t | _ => vec3 s t 1
  end%Z.

(** Orientation 1 of an edge: the other direction. *)
Definition quad_turn (orient : Z) (t : R) : R := if (orient =? 0)%Z then t else - t.

(** The eight symmetries of the square: orient mod 4 quarter turns, preceded by
    the exchange of s and t for orientations 4-7. *)
Definition quarter (p : R * R) : R * R := (- snd p, fst p).
Definition turns (k : Z) (p : R * R) : R * R := zloop k (fun _ p => quarter p) p.
Definition hex_turn (orient : Z) (s t : R) : R * R :=
  if (orient <? 4)%Z then turns orient (s, t) else turns (orient - 4) (t, s).

(** Corner number k of the square [-1,1]^2, counter-clockwise from (-1,-1). *)
Definition corner (k : Z) : R * R :=
  match k with 0%Z => (-1, -1) | 1%Z => (1, -1) | 2%Z => (1, 1) | _ => (-1, 1) end.

(** A symmetric set of n points on [-1,1]: point n-1-i is minus point i. *)
Definition symmetric (n : Z) (x : Z -> R) : Prop := forall i, (0 <= i < n)%Z -> x (n - 1 - i)%Z = - x i.

(** [o] lists 0 .. n-1, each once. *)
Definition permutes (n : Z) (o : Z -> Z) : Prop := Permutation (map o (zseq n)) (zseq n).

(** ** Closed forms of the points on a face *)

Lemma rows_loop2 np m (body : Z -> arr2 -> arr2) (V : Z -> Z -> R) e : (0 <= np)%Z ->
  (forall i e i' d, (0 <= i < np)%Z -> body i e i' d = if ((i' =? i) && ((0 <=? d) && (d <? m)))%Z%bool then V i d else e i' d) ->
  forall i d, zloop np body e i d = if (((0 <=? i) && (i <? np)) && ((0 <=? d) && (d <? m)))%Z%bool then V i d else e i d.
Proof.
  intros Hn. induction np as [np H|np H IH] using zind; intros HB i d.
  - rewrite zloop_0 by easy. rewrite rng_false by lia. reflexivity.
  - rewrite zloop_S, HB, IH by (auto; lia || intros; apply HB; lia).
    destruct (Z.eqb_spec i np) as [->|N]; cbn [andb].
    + rewrite (rng_true np (np + 1)), (rng_false np np) by lia. cbn [andb]. reflexivity.
    + destruct (Z.leb_spec 0 i), (Z.ltb_spec i np), (Z.ltb_spec i (np + 1)); cbn; auto; lia.
Qed.

Ltac case_eqb := repeat match goal with |- context [(?a =? ?b)%Z] => destruct (Z.eqb_spec a b); [subst|] end.

Lemma points_quad_spec face orient np fp e : (0 <= np)%Z -> (0 <= face <= 3)%Z -> (0 <= orient <= 1)%Z ->
  exists P, points_on_face_quad face orient np fp e = Some P /\
  forall i d, P i d = if (((0 <=? i) && (i <? np)) && ((0 <=? d) && (d <? 2)))%Z%bool
                      then quad_face face (quad_turn orient (fp i 0%Z)) d else e i d.
Proof.
  intros Hn Hf Ho. unfold points_on_face_quad.
  assert (C : (face = 0 \/ face = 1 \/ face = 2 \/ face = 3)%Z) by lia.
  assert (D : (orient = 0 \/ orient = 1)%Z) by lia.
  destruct D as [-> | ->]; destruct C as [-> | [-> | [-> | ->]]]; cbn [face_nodes_quad nth Z.eqb];
    eexists; (split; [reflexivity|]); apply rows_loop2; auto; intros i e' i' d Hi; unfold upd2, quad_face, quad_turn, vec2, nthR, xref_quad, yref_quad;
    cbn [nth Z.eqb Pos.eqb]; destruct (Z.eqb_spec i' i) as [->|]; cbn [andb]; auto;
    (destruct (Z.eqb_spec d 1) as [->|]; [cbn -[IZR]; lra|]); (destruct (Z.eqb_spec d 0) as [->|]; [cbn -[IZR]; lra|]);
    destruct (Z.leb_spec 0 d), (Z.ltb_spec d 2); cbn; auto; lia.
Qed.

Lemma zloop_4 {S} (b : Z -> S -> S) s : zloop 4 b s = b 3%Z (b 2%Z (b 1%Z (b 0%Z s))).
Proof. reflexivity. Qed.

Lemma hex_turn_table s t :
  hex_turn 0 s t = (s, t) /\ hex_turn 1 s t = (- t, s) /\ hex_turn 2 s t = (- s, - t) /\ hex_turn 3 s t = (t, - s) /\
  hex_turn 4 s t = (t, s) /\ hex_turn 5 s t = (- s, t) /\ hex_turn 6 s t = (- t, - s) /\ hex_turn 7 s t = (s, - t).
Proof.
  assert (Q : forall p, quarter (quarter p) = (- fst p, - snd p)) by reflexivity.
  change (hex_turn 0 s t) with (s, t). change (hex_turn 1 s t) with (quarter (s, t)).
  change (hex_turn 2 s t) with (quarter (quarter (s, t))). change (hex_turn 3 s t) with (quarter (quarter (quarter (s, t)))).
  change (hex_turn 4 s t) with (t, s). change (hex_turn 5 s t) with (quarter (t, s)).
  change (hex_turn 6 s t) with (quarter (quarter (t, s))). change (hex_turn 7 s t) with (quarter (quarter (quarter (t, s)))).
  repeat split; unfold quarter; cbn [fst snd]; rewrite ?Ropp_involutive; reflexivity.
Qed.

Lemma points_hex_spec face orient np fp e : (0 <= np)%Z -> (0 <= face <= 5)%Z -> (0 <= orient <= 7)%Z ->
  exists P, points_on_face_hex face orient np fp e = Some P /\
  forall i d, P i d = if (((0 <=? i) && (i <? np)) && ((0 <=? d) && (d <? 3)))%Z%bool
                      then let '(s, t) := hex_turn orient (fp i 0%Z) (fp i 1%Z) in hex_face face s t d else e i d.
Proof.
  intros Hn Hf Ho. unfold points_on_face_hex.
  assert (F : exists l, face_nodes_hex face = Some l).
  { assert (C : (face = 0 \/ face = 1 \/ face = 2 \/ face = 3 \/ face = 4 \/ face = 5)%Z) by lia.
    destruct C as [-> | [-> | [-> | [-> | [-> | ->]]]]]; eexists; reflexivity. }
  destruct F as (l & F). rewrite F. eexists. split; [reflexivity|].
  assert (Sb : forall xs ys zs : nat -> R, forall bj : nat -> R, forall i (e' : arr2) i' d,
     zloop 4 (fun j e =>
        let e := upd2 e i 0 (e i 0%Z + bj (Z.to_nat j) * xs (Z.to_nat j)) in
        let e := upd2 e i 1 (e i 1%Z + bj (Z.to_nat j) * ys (Z.to_nat j)) in
        upd2 e i 2 (e i 2%Z + bj (Z.to_nat j) * zs (Z.to_nat j))) (upd2 (upd2 (upd2 e' i 0 0) i 1 0) i 2 0) i' d =
     if ((i' =? i) && ((0 <=? d) && (d <? 3)))%Z%bool then
        (let f := if (d =? 0)%Z then xs else if (d =? 1)%Z then ys else zs in
         bj 0%nat * f 0%nat + bj 1%nat * f 1%nat + bj 2%nat * f 2%nat + bj 3%nat * f 3%nat) else e' i' d).
  { intros xs ys zs bj i e' i' d.
    set (st := fun (j : Z) (e : arr2) =>
        let e := upd2 e i 0 (e i 0%Z + bj (Z.to_nat j) * xs (Z.to_nat j)) in
        let e := upd2 e i 1 (e i 1%Z + bj (Z.to_nat j) * ys (Z.to_nat j)) in
        upd2 e i 2 (e i 2%Z + bj (Z.to_nat j) * zs (Z.to_nat j))).
    set (f := if (d =? 0)%Z then xs else if (d =? 1)%Z then ys else zs).
    assert (ST : forall j e, st j e i' d = if ((i' =? i) && ((0 <=? d) && (d <? 3)))%Z%bool then e i' d + bj (Z.to_nat j) * f (Z.to_nat j) else e i' d).
    { intros j e1. unfold st, f, upd2. clear st f. destruct (Z.eqb_spec i' i) as [->|]; cbn [andb]; [|reflexivity]. rewrite !Z.eqb_refl. cbn [andb Z.eqb].
      destruct (Z.eqb_spec d 2) as [->|N2]; [reflexivity|].
      destruct (Z.eqb_spec d 1) as [->|N1]; [reflexivity|].
      destruct (Z.eqb_spec d 0) as [->|N0]; [reflexivity|].
      destruct (Z.leb_spec 0 d), (Z.ltb_spec d 3); cbn; auto; lia. }
    rewrite zloop_4, !ST. clearbody st f. cbv zeta. change (Z.to_nat 0) with 0%nat. change (Z.to_nat 1) with 1%nat. change (Z.to_nat 2) with 2%nat. change (Z.to_nat 3) with 3%nat.
    unfold upd2. destruct (Z.eqb_spec i' i) as [->|]; cbn [andb]; [|reflexivity].
    destruct (Z.eqb_spec d 2) as [->|N2]; [cbn -[IZR]; ring|].
    destruct (Z.eqb_spec d 1) as [->|N1]; [cbn -[IZR]; ring|].
    destruct (Z.eqb_spec d 0) as [->|N0]; [cbn -[IZR]; ring|].
    destruct (Z.leb_spec 0 d), (Z.ltb_spec d 3); cbn; auto; lia. }
  apply (rows_loop2 np 3 _ (fun i d => let '(s, t) := hex_turn orient (fp i 0%Z) (fp i 1%Z) in hex_face face s t d)); auto.
  intros i e' i' d Hi.
  set (xb := (fp i 0%Z + 1) / 2). set (yb := (fp i 1%Z + 1) / 2).
  etransitivity; [refine (Sb (nthR (map (nthR xref_hex) (oriented_nodes_hex l orient))) (nthR (map (nthR yref_hex) (oriented_nodes_hex l orient)))
     (nthR (map (nthR zref_hex) (oriented_nodes_hex l orient))) (nthR [(1 - xb) * (1 - yb); xb * (1 - yb); xb * yb; (1 - xb) * yb]) i e' i' d)|].
  destruct (Z.eqb_spec i' i) as [->|]; cbn [andb]; [|reflexivity].
  destruct (Z.leb_spec 0 d); [|reflexivity]. destruct (Z.ltb_spec d 3); [|reflexivity]. cbn [andb].
  assert (Cd : (d = 0 \/ d = 1 \/ d = 2)%Z) by lia.
  assert (C : (face = 0 \/ face = 1 \/ face = 2 \/ face = 3 \/ face = 4 \/ face = 5)%Z) by lia.
  assert (D : (orient = 0 \/ orient = 1 \/ orient = 2 \/ orient = 3 \/ orient = 4 \/ orient = 5 \/ orient = 6 \/ orient = 7)%Z) by lia.
  unfold xb, yb. clear Sb xb yb. generalize (fp i 0%Z) (fp i 1%Z). intros u v.
  destruct (hex_turn_table u v) as (T0 & T1 & T2 & T3 & T4 & T5 & T6 & T7).
  destruct C as [-> | [-> | [-> | [-> | [-> | ->]]]]]; injection F as <-;
  (destruct D as [-> | [-> | [-> | [-> | [-> | [-> | [-> | ->]]]]]]];
   [rewrite T0|rewrite T1|rewrite T2|rewrite T3|rewrite T4|rewrite T5|rewrite T6|rewrite T7]);
  (destruct Cd as [-> | [-> | ->]]; 
   match goal with |- context [oriented_nodes_hex ?l ?o] => let v := eval vm_compute in (oriented_nodes_hex l o) in change (oriented_nodes_hex l o) with v end;
   unfold hex_face, vec3, nthR, xref_hex, yref_hex, zref_hex; cbn -[IZR]; field).
Qed.

(** ** C17, C18: order of the points of an oriented face *)

Lemma permutes_intro n o : (forall i, (0 <= i < n)%Z -> (0 <= o i < n)%Z) ->
  (forall i j, (0 <= i < n)%Z -> (0 <= j < n)%Z -> o i = o j -> i = j) -> permutes n o.
Proof.
  intros R I. unfold permutes. apply NoDup_Permutation_bis.
  - assert (X : forall l, NoDup l -> (forall i, In i l -> (0 <= i < n)%Z) -> NoDup (map o l)).
    { induction l as [|a l IH]; intros N H; cbn; [constructor|]. inversion N as [|? ? N1 N2]; subst. constructor.
      - intros Hin. apply in_map_iff in Hin. destruct Hin as (b & Hb & Hin). apply N1.
        replace a with b; [easy|]. apply I; auto; apply H; [now right|now left].
      - apply IH; auto. intros i Hi. apply H. now right. }
    apply X; [apply NoDup_zseq|]. intros i Hi. now apply In_zseq.
  - now rewrite map_length.
  - intros x Hx. apply in_map_iff in Hx. destruct Hx as (i & <- & Hi). apply In_zseq. apply R. now apply In_zseq.
Qed.

Theorem C17_quad_face_point_order : forall face orient n fp e o0,
  (0 <= n)%Z -> (0 <= face <= 3)%Z -> symmetric n (fun i => fp i 0%Z) ->
  let order := face_pts_order_quad orient n o0 in
  ((0 <= orient <= 1)%Z ->
   permutes n order /\
   exists P0 P, points_on_face_quad face 0 n fp e = Some P0 /\ points_on_face_quad face orient n fp e = Some P /\
     forall i d, (0 <= i < n)%Z -> (0 <= d < 2)%Z ->
       P i d = P0 (order i) d /\ P i d = quad_face face (quad_turn orient (fp i 0%Z)) d) /\
  (~ (0 <= orient <= 1)%Z -> order = o0).
Proof.
  intros face orient n fp e o0 Hn Hf S order. split.
  - intros Ho.
    assert (E : forall i, (0 <= i < n)%Z -> order i = if (orient =? 0)%Z then i else (n - 1 - i)%Z).
    { intros i Hi. unfold order. rewrite face_pts_order_quad_spec, rng_true by lia. reflexivity. }
    split.
    + apply permutes_intro.
      * intros i Hi. rewrite E by easy. destruct (orient =? 0)%Z; lia.
      * intros i j Hi Hj. rewrite !E by easy. destruct (orient =? 0)%Z; lia.
    + destruct (points_quad_spec face 0 n fp e Hn Hf ltac:(lia)) as (P0 & E0 & F0).
      destruct (points_quad_spec face orient n fp e Hn Hf Ho) as (P & E1 & F1).
      exists P0, P. split; [easy|]. split; [easy|]. intros i d Hi Hd.
      rewrite F1, F0, E by easy. rewrite (rng_true i), (rng_true d) by lia. cbn [andb]. split; [|reflexivity].
      unfold quad_turn at 2. cbn [Z.eqb]. destruct (Z.eqb_spec orient 0) as [->|N].
      * now rewrite rng_true by lia.
      * rewrite rng_true by lia. cbn [andb]. rewrite S by easy. unfold quad_turn. destruct (Z.eqb_spec orient 0); [lia|reflexivity].
  - intros Ho. unfold order, face_pts_order_quad. destruct orient as [|[p|p|]|p]; try reflexivity; lia.
Qed.
Print Assumptions C17_quad_face_point_order.

(** Tensor-product points (x_i, x_j) at position j n + i. *)
Definition tensor_points (n : Z) (x : Z -> R) (fp : Z -> Z -> R) : Prop :=
  forall i j, (0 <= i < n)%Z -> (0 <= j < n)%Z -> fp (j * n + i)%Z 0%Z = x i /\ fp (j * n + i)%Z 1%Z = x j.

Lemma divmod_range n k : (0 < n)%Z -> (0 <= k < n * n)%Z -> (0 <= k mod n < n /\ 0 <= k / n < n /\ k = (k / n) * n + k mod n)%Z.
Proof.
  intros Hn Hk. split; [apply Z.mod_pos_bound; lia|]. split; [split; [apply Z.div_pos; lia|apply Z.div_lt_upper_bound; lia]|].
  rewrite Z.mul_comm. apply Z.div_mod. lia.
Qed.

(** The source pair: hex_src is j' n + i' with i', j' in range. *)
Lemma hex_src_pair orient n i j : (0 <= orient <= 7)%Z -> (0 <= i < n)%Z -> (0 <= j < n)%Z ->
  exists i' j', hex_src orient n i j = (j' * n + i')%Z /\ (0 <= i' < n)%Z /\ (0 <= j' < n)%Z /\
   forall x, symmetric n x -> hex_turn orient (x i) (x j) = (x i', x j').
Proof.
  intros Ho Hi Hj. unfold hex_src.
  assert (D : (orient = 0 \/ orient = 1 \/ orient = 2 \/ orient = 3 \/ orient = 4 \/ orient = 5 \/ orient = 6 \/ orient = 7)%Z) by lia.
  destruct D as [-> | [-> | [-> | [-> | [-> | [-> | [-> | ->]]]]]]]; cbn [Z.eqb Pos.eqb];
    do 2 eexists; (split; [reflexivity|]); (split; [lia|]); (split; [lia|]); intros x S;
    rewrite ?S by lia; destruct (hex_turn_table (x i) (x j)) as (T0 & T1 & T2 & T3 & T4 & T5 & T6 & T7); auto.
Qed.

Lemma hex_src_inj orient n i j i' j' : (0 <= orient <= 7)%Z -> (0 <= i < n)%Z -> (0 <= j < n)%Z -> (0 <= i' < n)%Z -> (0 <= j' < n)%Z ->
  hex_src orient n i j = hex_src orient n i' j' -> i = i' /\ j = j'.
Proof.
  intros Ho Hi Hj Hi' Hj'. unfold hex_src.
  assert (D : (orient = 0 \/ orient = 1 \/ orient = 2 \/ orient = 3 \/ orient = 4 \/ orient = 5 \/ orient = 6 \/ orient = 7)%Z) by lia.
  destruct D as [-> | [-> | [-> | [-> | [-> | [-> | [-> | ->]]]]]]]; cbn [Z.eqb Pos.eqb]; intros E; apply idx2_inj in E; lia.
Qed.

Theorem C18_hex_face_point_order : forall face orient n x fp e o0,
  (0 < n)%Z -> (0 <= face <= 5)%Z -> (0 <= orient <= 7)%Z -> symmetric n x -> tensor_points n x fp ->
  let order := face_pts_order_hex orient (n * n) o0 in
  permutes (n * n) order /\
  exists P0 P, points_on_face_hex face 0 (n * n) fp e = Some P0 /\ points_on_face_hex face orient (n * n) fp e = Some P /\
    forall i j d, (0 <= i < n)%Z -> (0 <= j < n)%Z -> (0 <= d < 3)%Z ->
      P (j * n + i)%Z d = P0 (order (j * n + i)%Z) d /\
      P (j * n + i)%Z d = (let '(s, t) := hex_turn orient (x i) (x j) in hex_face face s t d).
Proof.
  intros face orient n x fp e o0 Hn Hf Ho S T order.
  assert (E : forall i j, (0 <= i < n)%Z -> (0 <= j < n)%Z -> order (j * n + i)%Z = hex_src orient n i j).
  { intros i j Hi Hj. unfold order. rewrite face_pts_order_hex_spec, rng_true, idx2_mod, idx2_div by nia. reflexivity. }
  split.
  - apply permutes_intro.
    + intros k Hk. destruct (divmod_range n k Hn Hk) as (R1 & R2 & ->). rewrite E by easy.
      destruct (hex_src_pair orient n (k mod n) (k / n) Ho R1 R2) as (i' & j' & -> & I1 & I2 & _). nia.
    + intros k k' Hk Hk'. destruct (divmod_range n k Hn Hk) as (R1 & R2 & ->). destruct (divmod_range n k' Hn Hk') as (R1' & R2' & ->).
      rewrite !E by easy. intros H. apply hex_src_inj in H; auto. destruct H as [-> ->]. reflexivity.
  - destruct (points_hex_spec face 0 (n * n) fp e ltac:(nia) Hf ltac:(lia)) as (P0 & E0 & F0).
    destruct (points_hex_spec face orient (n * n) fp e ltac:(nia) Hf Ho) as (P & E1 & F1).
    exists P0, P. split; [easy|]. split; [easy|]. intros i j d Hi Hj Hd. rewrite E by easy.
    destruct (hex_src_pair orient n i j Ho Hi Hj) as (i' & j' & -> & I1 & I2 & TR).
    rewrite F1, F0. rewrite (rng_true (j * n + i)), (rng_true d), (rng_true (j' * n + i')) by nia. cbn [andb].
    destruct (T i j Hi Hj) as [-> ->]. destruct (T i' j' I1 I2) as [-> ->]. rewrite TR by easy.
    destruct (hex_turn_table (x i') (x j')) as (-> & _). split; reflexivity.
Qed.
Print Assumptions C18_hex_face_point_order.

(** ** C19: where the points of an oriented face are *)

Definition on_quad_face (face : Z) (y : Z -> R) : Prop :=
  match face with 0%Z => y 1%Z = -1 | 1%Z => y 0%Z = 1 | 2%Z => y 1%Z = 1 | _ => y 0%Z = -1 end.
Definition on_hex_face (face : Z) (y : Z -> R) : Prop :=
  match face with 0%Z => y 2%Z = -1 | 1%Z => y 1%Z = -1 | 2%Z => y 0%Z = 1 | 3%Z => y 1%Z = 1 | 4%Z => y 0%Z = -1 | _ => y 2%Z = 1 end.

(** Points of [-1,1] go to points of the reference square's edge; the parameter
    runs counter-clockwise around the square (rotating the edge direction by
    -90 degrees gives the outward unit vector, which is the edge's midpoint);
    orientation 1 runs backwards. *)
Theorem C19_quad_points_on_face : forall face orient np fp e,
  (0 <= np)%Z -> (0 <= face <= 3)%Z -> (0 <= orient <= 1)%Z ->
  (forall i, (0 <= i < np)%Z -> -1 <= fp i 0%Z <= 1) ->
  (exists P, points_on_face_quad face orient np fp e = Some P /\
   (forall i, (0 <= i < np)%Z -> on_quad_face face (P i) /\ (forall d, (0 <= d < 2)%Z -> -1 <= P i d <= 1) /\
      (forall d, (0 <= d < 2)%Z -> P i d = quad_face face (if (orient =? 0)%Z then fp i 0%Z else - fp i 0%Z) d)) /\
   (forall i d, ~ ((0 <= i < np)%Z /\ (0 <= d < 2)%Z) -> P i d = e i d)) /\
  (quad_face face 1 1%Z - quad_face face 0 1%Z = quad_face face 0 0%Z /\
   - (quad_face face 1 0%Z - quad_face face 0 0%Z) = quad_face face 0 1%Z) /\
  (forall d, quad_face face 1 d = quad_face ((face + 1) mod 4) (-1) d).
Proof.
  intros face orient np fp e Hn Hf Ho B. split.
  - destruct (points_quad_spec face orient np fp e Hn Hf Ho) as (P & E & F). exists P. split; [easy|]. split.
    + intros i Hi. assert (V : forall d, (0 <= d < 2)%Z -> P i d = quad_face face (quad_turn orient (fp i 0%Z)) d).
      { intros d Hd. rewrite F, (rng_true i), (rng_true d) by lia. reflexivity. }
      specialize (B i Hi). assert (T : -1 <= quad_turn orient (fp i 0%Z) <= 1) by (unfold quad_turn; destruct (orient =? 0)%Z; lra).
      split; [|split; [|exact V]].
      * assert (C : (face = 0 \/ face = 1 \/ face = 2 \/ face = 3)%Z) by lia.
        destruct C as [-> | [-> | [-> | ->]]]; cbn [on_quad_face]; rewrite V by lia; reflexivity.
      * intros d Hd. rewrite V by easy. assert (C : (face = 0 \/ face = 1 \/ face = 2 \/ face = 3)%Z) by lia.
        assert (Cd : (d = 0 \/ d = 1)%Z) by lia.
        destruct C as [-> | [-> | [-> | ->]]]; destruct Cd as [-> | ->]; cbn -[IZR]; lra.
    + intros i d H. rewrite F. destruct (Z_le_dec 0 i), (Z_lt_dec i np); [rewrite (rng_false d), andb_false_r by lia|rewrite (rng_false i) by lia..]; reflexivity.
  - assert (C : (face = 0 \/ face = 1 \/ face = 2 \/ face = 3)%Z) by lia.
    destruct C as [-> | [-> | [-> | ->]]]; cbn -[IZR]; unfold vec2; (split; [cbn -[IZR]; lra|]); intros d; destruct (d =? 0)%Z; lra.
Qed.
Print Assumptions C19_quad_points_on_face.

(** The same for the cube: (d/ds) x (d/dt) of the parametrisation is the outward
    unit vector (= the face's centre); orientation o < 4 sends corner k of the
    square to corner k + o, orientation o >= 4 to corner o - k (mod 4). *)
Theorem C19_hex_points_on_face : forall face orient np fp e,
  (0 <= np)%Z -> (0 <= face <= 5)%Z -> (0 <= orient <= 7)%Z ->
  (forall i d, (0 <= i < np)%Z -> (0 <= d < 2)%Z -> -1 <= fp i d <= 1) ->
  (exists P, points_on_face_hex face orient np fp e = Some P /\
   (forall i, (0 <= i < np)%Z -> on_hex_face face (P i) /\ (forall d, (0 <= d < 3)%Z -> -1 <= P i d <= 1) /\
      (forall d, (0 <= d < 3)%Z -> P i d = (let '(s, t) := hex_turn orient (fp i 0%Z) (fp i 1%Z) in hex_face face s t d))) /\
   (forall i d, ~ ((0 <= i < np)%Z /\ (0 <= d < 3)%Z) -> P i d = e i d)) /\
  (let h := hex_face face in
   forall c d, (0 <= d < 3)%Z -> cross (fun d => h 1 0 d - h 0 0 d) (fun d => h 0 1 d - h 0 0 d) c d = h 0 0 d) /\
  (forall k, (0 <= k < 4)%Z ->
     hex_turn orient (fst (corner k)) (snd (corner k)) = corner ((if (orient <? 4)%Z then orient + k else orient - k) mod 4)).
Proof.
  intros face orient np fp e Hn Hf Ho B. split; [|split].
  - destruct (points_hex_spec face orient np fp e Hn Hf Ho) as (P & E & F). exists P. split; [easy|]. split.
    + intros i Hi. assert (V : forall d, (0 <= d < 3)%Z -> P i d = (let '(s, t) := hex_turn orient (fp i 0%Z) (fp i 1%Z) in hex_face face s t d)).
      { intros d Hd. rewrite F, (rng_true i), (rng_true d) by lia. reflexivity. }
      pose proof (B i 0%Z Hi ltac:(lia)) as B0. pose proof (B i 1%Z Hi ltac:(lia)) as B1.
      destruct (hex_turn orient (fp i 0%Z) (fp i 1%Z)) as [s t] eqn:TE.
      assert (T : -1 <= s <= 1 /\ -1 <= t <= 1).
      { assert (D : (orient = 0 \/ orient = 1 \/ orient = 2 \/ orient = 3 \/ orient = 4 \/ orient = 5 \/ orient = 6 \/ orient = 7)%Z) by lia.
        destruct (hex_turn_table (fp i 0%Z) (fp i 1%Z)) as (T0 & T1 & T2 & T3 & T4 & T5 & T6 & T7).
        destruct D as [-> | [-> | [-> | [-> | [-> | [-> | [-> | ->]]]]]]];
        [rewrite T0 in TE|rewrite T1 in TE|rewrite T2 in TE|rewrite T3 in TE|rewrite T4 in TE|rewrite T5 in TE|rewrite T6 in TE|rewrite T7 in TE];
        injection TE as <- <-; lra. }
      split; [|split; [|exact V]].
      * assert (C : (face = 0 \/ face = 1 \/ face = 2 \/ face = 3 \/ face = 4 \/ face = 5)%Z) by lia.
        destruct C as [-> | [-> | [-> | [-> | [-> | ->]]]]]; cbn [on_hex_face]; rewrite V by lia; reflexivity.
      * intros d Hd. rewrite V by easy. assert (C : (face = 0 \/ face = 1 \/ face = 2 \/ face = 3 \/ face = 4 \/ face = 5)%Z) by lia.
        assert (Cd : (d = 0 \/ d = 1 \/ d = 2)%Z) by lia.
        destruct C as [-> | [-> | [-> | [-> | [-> | ->]]]]]; destruct Cd as [-> | [-> | ->]]; cbn -[IZR]; lra.
    + intros i d H. rewrite F. destruct (Z_le_dec 0 i), (Z_lt_dec i np); [rewrite (rng_false d), andb_false_r by lia|rewrite (rng_false i) by lia..]; reflexivity.
  - intros h c d Hd. assert (C : (face = 0 \/ face = 1 \/ face = 2 \/ face = 3 \/ face = 4 \/ face = 5)%Z) by lia.
    assert (Cd : (d = 0 \/ d = 1 \/ d = 2)%Z) by lia. unfold h, cross, upd1.
    destruct C as [-> | [-> | [-> | [-> | [-> | ->]]]]]; destruct Cd as [-> | [-> | ->]]; cbn -[IZR]; unfold vec3; cbn -[IZR]; lra.
  - intros k Hk. assert (D : (orient = 0 \/ orient = 1 \/ orient = 2 \/ orient = 3 \/ orient = 4 \/ orient = 5 \/ orient = 6 \/ orient = 7)%Z) by lia.
    assert (Ck : (k = 0 \/ k = 1 \/ k = 2 \/ k = 3)%Z) by lia.
    destruct (hex_turn_table (fst (corner k)) (snd (corner k))) as (T0 & T1 & T2 & T3 & T4 & T5 & T6 & T7).
    destruct D as [-> | [-> | [-> | [-> | [-> | [-> | [-> | ->]]]]]]];
    [rewrite T0|rewrite T1|rewrite T2|rewrite T3|rewrite T4|rewrite T5|rewrite T6|rewrite T7]; clear T0 T1 T2 T3 T4 T5 T6 T7;
    destruct Ck as [-> | [-> | [-> | ->]]]; cbn -[IZR]; rewrite ?Ropp_involutive; f_equal; lra.
Qed.
Print Assumptions C19_hex_points_on_face.

(** The Gauss-Legendre points the code uses on a face are symmetric, and the
    tensor-product rule stores them the way C18 expects (orders as in C36). *)
Lemma gl_symmetric : forall order nq0, (0 <= order <= 49)%Z -> order <> 36%Z -> order <> 37%Z ->
  let n := fst (get_number_of_quadrature_points order 1 nq0) in
  exists X W, zlen X = n /\ segment_quadrature order (repeat 0%Z (Z.to_nat n)) (repeat 0%Z (Z.to_nat n)) = Ok (X, W) /\
    symmetric n (arr_of X) /\ (forall i, (0 <= i < n)%Z -> -1 <= arr_of X i <= 1) /\
    forall P W', tensor_points n (arr_of X) (fst (quad_tensor n (arr_of X) (arr_of W) P W')).
Proof.
  intros order nq0 Ho H36 H37 n.
  destruct (C36_gl_rules_partial order nq0 Ho H36 H37) as (Hn & X & W & LX & LW & E & G). fold n in Hn, LX, LW, E, G.
  destruct G as [G _]. exists X, W.
  assert (Hp : (0 < n)%Z) by lia.
  split; [easy|]. split; [apply E; unfold zlen; rewrite repeat_length; lia|]. split; [|split].
  - intros i Hi. destruct (G i Hi) as (_ & _ & S & _). rewrite S. ring.
  - intros i Hi. destruct (G i Hi) as (B & _). lra.
  - intros P W' i j Hi Hj. pose proof (quad_tensor_spec n (arr_of X) (arr_of W) P W' (j * n + i)%Z ltac:(lia)) as Q.
    rewrite rng_true in Q by nia. rewrite idx2_mod, idx2_div in Q by easy.
    destruct (quad_tensor n (arr_of X) (arr_of W) P W') as [P' W'']. cbn [fst snd] in *. injection Q. intros. split; assumption.
Qed.

(** Non-vacuity of C17-C19: the five-point rule of order 8 on face 2, orientation 1. *)
Example C17_example : exists X W, segment_quadrature 8 (repeat 0%Z 5) (repeat 0%Z 5) = Ok (X, W) /\
  let fp := fun i (_ : Z) => arr_of X i in
  permutes 5 (face_pts_order_quad 1 5 (fun _ => 9%Z)) /\
  exists P0 P, points_on_face_quad 2 0 5 fp (fun _ _ => 0) = Some P0 /\ points_on_face_quad 2 1 5 fp (fun _ _ => 0) = Some P /\
    forall i d, (0 <= i < 5)%Z -> (0 <= d < 2)%Z -> P i d = P0 (4 - i)%Z d.
Proof.
  destruct (gl_symmetric 8 0 ltac:(lia) ltac:(lia) ltac:(lia)) as (X & W & LX & E & S & B & _). exists X, W. split; [exact E|]. intros fp.
  destruct (C17_quad_face_point_order 2 1 5 fp (fun _ _ => 0) (fun _ => 9%Z) ltac:(lia) ltac:(lia) S) as [H _].
  destruct (H ltac:(lia)) as (Pm & P0 & P & E0 & E1 & F). split; [exact Pm|]. exists P0, P. split; [easy|]. split; [easy|].
  intros i d Hi Hd. destruct (F i d Hi Hd) as [-> _]. rewrite face_pts_order_quad_spec, rng_true by lia. reflexivity.
Qed.

Example C18_example : exists X W, segment_quadrature 8 (repeat 0%Z 5) (repeat 0%Z 5) = Ok (X, W) /\
  symmetric 5 (arr_of X) /\ tensor_points 5 (arr_of X) (fst (quad_tensor 5 (arr_of X) (arr_of W) (fun _ _ => 0) (fun _ => 0))) /\
  map (face_pts_order_hex 1 9 (fun _ => 9%Z)) (zseq 9) = [2; 5; 8; 1; 4; 7; 0; 3; 6]%Z /\
  map (face_pts_order_hex 6 9 (fun _ => 9%Z)) (zseq 9) = [8; 5; 2; 7; 4; 1; 6; 3; 0]%Z.
Proof.
  destruct (gl_symmetric 8 0 ltac:(lia) ltac:(lia) ltac:(lia)) as (X & W & LX & E & S & B & T). exists X, W.
  split; [exact E|]. split; [exact S|]. split; [apply T|]. split; vm_compute; reflexivity.
Qed.

(** ** C20: local nodes of a face *)

Lemma even_node_neg g i : (0 < g)%Z -> even_node g (g - i) = - even_node g i.
Proof.
  intros Hg. unfold even_node. destruct (Z.eqb_spec g 0); [lia|]. assert (0 < IZR g) by (apply IZR_lt; lia).
  rewrite minus_IZR. field. lra.
Qed.
Lemma even_node_first g i : (0 < g)%Z -> (0 <= i <= g)%Z -> (even_node g i = -1 <-> i = 0%Z).
Proof.
  intros Hg Hi. unfold even_node. destruct (Z.eqb_spec g 0); [lia|]. assert (0 < IZR g) by (apply IZR_lt; lia). split.
  - intros E. assert (E' : 2 * IZR i / IZR g = 0) by lra. apply (f_equal (fun z => z * IZR g / 2)) in E'. field_simplify in E'; [|lra].
    apply eq_IZR. lra.
  - intros ->. field. lra.
Qed.
Lemma even_node_last g i : (0 < g)%Z -> (0 <= i <= g)%Z -> (even_node g i = 1 <-> i = g).
Proof.
  intros Hg Hi. replace i with (g - (g - i))%Z at 1 by lia. rewrite even_node_neg by easy.
  pose proof (even_node_first g (g - i) Hg ltac:(lia)). split; intros; [|assert (g - i = 0)%Z by lia]; [assert (even_node g (g - i) = -1) by lra|assert (even_node g (g - i) = -1) by tauto]; [assert (g - i = 0)%Z by tauto; lia|lra].
Qed.

Lemma nfun_quad g : nfun LagrangeQuad g = ((g + 1) * (g + 1))%Z.
Proof. unfold nfun, dim. ring. Qed.
Lemma nfun_hex g : nfun LagrangeHex g = ((g + 1) * (g + 1) * (g + 1))%Z.
Proof. unfold nfun, dim. ring. Qed.

Lemma quad_node_pos g P a b : (0 <= g)%Z -> (0 <= a <= g)%Z -> (0 <= b <= g)%Z ->
  forall d, (0 <= d < 2)%Z -> element_nodes LagrangeQuad g P (b * (g + 1) + a)%Z d = vec2 (even_node g a) (even_node g b) d.
Proof.
  intros Hg Ha Hb d Hd. rewrite element_nodes_spec; [|easy|rewrite nfun_quad; nia|cbn; lia].
  assert (C : (d = 0 \/ d = 1)%Z) by lia. destruct C as [-> | ->]; unfold vec2; cbn [Z.eqb].
  - rewrite digit0, idx2_mod by lia. reflexivity.
  - rewrite digit1_top, idx2_div by nia. reflexivity.
Qed.

Lemma hex_node_pos g P a b c : (0 <= g)%Z -> (0 <= a <= g)%Z -> (0 <= b <= g)%Z -> (0 <= c <= g)%Z ->
  forall d, (0 <= d < 3)%Z -> element_nodes LagrangeHex g P (c * (g + 1) * (g + 1) + b * (g + 1) + a)%Z d = vec3 (even_node g a) (even_node g b) (even_node g c) d.
Proof.
  intros Hg Ha Hb Hc d Hd. rewrite element_nodes_spec; [|easy|rewrite nfun_hex; nia|cbn; lia].
  replace (c * (g + 1) * (g + 1) + b * (g + 1) + a)%Z with ((c * (g + 1) + b) * (g + 1) + a)%Z by ring.
  assert (C : (d = 0 \/ d = 1 \/ d = 2)%Z) by lia. destruct C as [-> | [-> | ->]]; unfold vec3; cbn [Z.eqb Pos.eqb].
  - rewrite digit0, idx2_mod by lia. reflexivity.
  - rewrite digit1, idx2_div, idx2_mod by lia. reflexivity.
  - rewrite digit2_top by nia. rewrite <- Z.div_div, !idx2_div by lia. reflexivity.
Qed.

Theorem C20_quad_local_nodes : forall g face lf P, (1 <= g)%Z -> (0 <= face <= 3)%Z ->
  let L := local_nodes_on_face_quad face g lf in
  let nodes := element_nodes LagrangeQuad g P in
  (forall k, (0 <= k <= g)%Z -> (0 <= L k < (g + 1) * (g + 1))%Z) /\
  (forall k k', (0 <= k <= g)%Z -> (0 <= k' <= g)%Z -> L k = L k' -> k = k') /\
  (forall q, (0 <= q < (g + 1) * (g + 1))%Z -> ((exists k, (0 <= k <= g)%Z /\ L k = q) <-> on_quad_face face (nodes q))) /\
  (forall k d, (0 <= k <= g)%Z -> (0 <= d < 2)%Z -> nodes (L k) d = quad_face face (even_node g k) d) /\
  (forall k, ~ (0 <= k <= g)%Z -> L k = lf k).
Proof.
  intros g face lf P Hg Hf L nodes.
  assert (V : exists A B, (forall k, (0 <= k <= g)%Z -> L k = (B k * (g + 1) + A k)%Z /\ (0 <= A k <= g)%Z /\ (0 <= B k <= g)%Z /\
        (forall d, (0 <= d < 2)%Z -> vec2 (even_node g (A k)) (even_node g (B k)) d = quad_face face (even_node g k) d)) /\
      (forall k k', A k = A k' -> B k = B k' -> k = k') /\
      (forall a b, (0 <= a <= g)%Z -> (0 <= b <= g)%Z -> on_quad_face face (vec2 (even_node g a) (even_node g b)) -> exists k, (0 <= k <= g)%Z /\ A k = a /\ B k = b)).
  { assert (LE : forall k, (0 <= k <= g)%Z -> L k = (if (face =? 0)%Z then k else if (face =? 1)%Z then k * (g + 1) + g else
     if (face =? 2)%Z then g * (g + 1) + (g - k) else (g - k) * (g + 1))%Z).
    { intros k Hk. unfold L. rewrite local_nodes_quad_spec, rng_true by lia. reflexivity. }
    assert (F0 : even_node g 0 = -1) by (apply even_node_first; lia). assert (F1 : even_node g g = 1) by (apply even_node_last; lia).
    assert (C : (face = 0 \/ face = 1 \/ face = 2 \/ face = 3)%Z) by lia.
    destruct C as [-> | [-> | [-> | ->]]]; cbn [Z.eqb Pos.eqb] in LE.
    - exists (fun k => k), (fun _ => 0%Z). split; [|split].
      + intros k Hk. rewrite LE by easy. split; [ring|]. split; [lia|]. split; [lia|]. intros d Hd. unfold quad_face. now rewrite F0.
      + auto.
      + intros a b Ha Hb H. unfold vec2 in H; cbn in H. apply even_node_first in H; [|lia|lia]. subst. now exists a.
    - exists (fun k => g), (fun k => k). split; [|split].
      + intros k Hk. rewrite LE by easy. split; [ring|]. split; [lia|]. split; [lia|]. intros d Hd. unfold quad_face. now rewrite F1.
      + auto.
      + intros a b Ha Hb H. unfold vec2 in H; cbn in H. apply even_node_last in H; [|lia|lia]. subst. now exists b.
    - exists (fun k => (g - k)%Z), (fun k => g). split; [|split].
      + intros k Hk. rewrite LE by easy. split; [ring|]. split; [lia|]. split; [lia|]. intros d Hd. unfold quad_face. now rewrite F1, even_node_neg by lia.
      + intros; lia.
      + intros a b Ha Hb H. unfold vec2 in H; cbn in H. apply even_node_last in H; [|lia|lia]. subst. exists (g - a)%Z. lia.
    - exists (fun k => 0%Z), (fun k => (g - k)%Z). split; [|split].
      + intros k Hk. rewrite LE by easy. split; [ring|]. split; [lia|]. split; [lia|]. intros d Hd. unfold quad_face. now rewrite F0, even_node_neg by lia.
      + intros; lia.
      + intros a b Ha Hb H. unfold vec2 in H; cbn in H. apply even_node_first in H; [|lia|lia]. subst. exists (g - b)%Z. lia. }
  destruct V as (A & B & V1 & V2 & V3). split; [|split; [|split; [|split]]].
  - intros k Hk. destruct (V1 k Hk) as (-> & ? & ? & _). nia.
  - intros k k' Hk Hk' E. destruct (V1 k Hk) as (E1 & ? & ? & _). destruct (V1 k' Hk') as (E2 & ? & ? & _).
    rewrite E1, E2 in E. apply idx2_inj in E; [|lia|lia]. apply V2; tauto.
  - intros q Hq. destruct (divmod_range (g + 1) q ltac:(lia) Hq) as (R1 & R2 & R3).
    assert (NQ : forall a b, (0 <= a <= g)%Z -> (0 <= b <= g)%Z -> (on_quad_face face (nodes (b * (g + 1) + a)%Z) <-> on_quad_face face (vec2 (even_node g a) (even_node g b)))).
    { intros a b Ha Hb. unfold nodes. assert (C : (face = 0 \/ face = 1 \/ face = 2 \/ face = 3)%Z) by lia.
      destruct C as [-> | [-> | [-> | ->]]]; unfold on_quad_face; rewrite quad_node_pos by lia; tauto. }
    split.
    + intros (k & Hk & E). destruct (V1 k Hk) as (E1 & ? & ? & VE). rewrite <- E, E1. apply NQ; auto.
      assert (C : (face = 0 \/ face = 1 \/ face = 2 \/ face = 3)%Z) by lia.
      destruct C as [-> | [-> | [-> | ->]]]; cbn [on_quad_face]; rewrite VE by lia; reflexivity.
    + intros H. rewrite R3 in H. apply NQ in H; [|lia|lia]. destruct (V3 (q mod (g + 1))%Z (q / (g + 1))%Z ltac:(lia) ltac:(lia) H) as (k & Hk & EA & EB).
      exists k. split; [easy|]. destruct (V1 k Hk) as (-> & _). rewrite EA, EB. symmetry. exact R3.
  - intros k d Hk Hd. destruct (V1 k Hk) as (-> & ? & ? & VE). unfold nodes. rewrite quad_node_pos by lia. now apply VE.
  - intros k Hk. unfold L. rewrite local_nodes_quad_spec, rng_false by lia. reflexivity.
Qed.
Print Assumptions C20_quad_local_nodes.

Theorem C20_hex_local_nodes : forall g face lf P, (1 <= g)%Z -> (0 <= face <= 5)%Z ->
  let N := (g + 1)%Z in
  let L := local_nodes_on_face_hex face g lf in
  let nodes := element_nodes LagrangeHex g P in
  (forall k, (0 <= k < N * N)%Z -> (0 <= L k < N * N * N)%Z) /\
  (forall k k', (0 <= k < N * N)%Z -> (0 <= k' < N * N)%Z -> L k = L k' -> k = k') /\
  (forall q, (0 <= q < N * N * N)%Z -> ((exists k, (0 <= k < N * N)%Z /\ L k = q) <-> on_hex_face face (nodes q))) /\
  (forall i j d, (0 <= i <= g)%Z -> (0 <= j <= g)%Z -> (0 <= d < 3)%Z ->
     nodes (L (j * N + i)%Z) d = hex_face face (even_node g i) (even_node g j) d) /\
  (forall k, ~ (0 <= k < N * N)%Z -> L k = lf k).
Proof.
  intros g face lf P Hg Hf N L nodes. assert (HN : N = (g + 1)%Z) by reflexivity.
  assert (V : exists A B C, (forall i j, (0 <= i <= g)%Z -> (0 <= j <= g)%Z ->
        L (j * N + i)%Z = (C i j * N * N + B i j * N + A i j)%Z /\ (0 <= A i j <= g)%Z /\ (0 <= B i j <= g)%Z /\ (0 <= C i j <= g)%Z /\
        (forall d, (0 <= d < 3)%Z -> vec3 (even_node g (A i j)) (even_node g (B i j)) (even_node g (C i j)) d = hex_face face (even_node g i) (even_node g j) d)) /\
      (forall i j i' j', A i j = A i' j' -> B i j = B i' j' -> C i j = C i' j' -> i = i' /\ j = j') /\
      (forall a b c, (0 <= a <= g)%Z -> (0 <= b <= g)%Z -> (0 <= c <= g)%Z -> on_hex_face face (vec3 (even_node g a) (even_node g b) (even_node g c)) ->
         exists i j, (0 <= i <= g)%Z /\ (0 <= j <= g)%Z /\ A i j = a /\ B i j = b /\ C i j = c)).
  { assert (LE : forall i j, (0 <= i <= g)%Z -> (0 <= j <= g)%Z -> L (j * N + i)%Z = (if (face =? 0)%Z then i * N + j else if (face =? 1)%Z then j * N * N + i else
     if (face =? 2)%Z then j * N * N + i * N + g else if (face =? 3)%Z then j * N * N + g * N + (g - i) else
     if (face =? 4)%Z then j * N * N + (g - i) * N else g * N * N + j * N + i)%Z).
    { intros i j Hi Hj. unfold L. rewrite local_nodes_hex_spec by lia. fold N. rewrite rng_true by nia.
      rewrite idx2_mod, idx2_div by lia. reflexivity. }
    assert (F0 : even_node g 0 = -1) by (apply even_node_first; lia). assert (F1 : even_node g g = 1) by (apply even_node_last; lia).
    assert (C : (face = 0 \/ face = 1 \/ face = 2 \/ face = 3 \/ face = 4 \/ face = 5)%Z) by lia.
    destruct C as [-> | [-> | [-> | [-> | [-> | ->]]]]]; cbn [Z.eqb Pos.eqb] in LE.
    - exists (fun i j => j), (fun i j => i), (fun i j => 0%Z). split; [|split].
      + intros i j Hi Hj. rewrite LE by easy. split; [ring|]. repeat (split; [lia|]). intros d Hd. unfold hex_face. now rewrite F0.
      + auto.
      + intros a b c Ha Hb Hc H. unfold vec3 in H; cbn in H. apply even_node_first in H; [|lia|lia]. subst. now exists b, a.
    - exists (fun i j => i), (fun i j => 0%Z), (fun i j => j). split; [|split].
      + intros i j Hi Hj. rewrite LE by easy. split; [ring|]. repeat (split; [lia|]). intros d Hd. unfold hex_face. now rewrite F0.
      + auto.
      + intros a b c Ha Hb Hc H. unfold vec3 in H; cbn in H. apply even_node_first in H; [|lia|lia]. subst. now exists a, c.
    - exists (fun i j => g), (fun i j => i), (fun i j => j). split; [|split].
      + intros i j Hi Hj. rewrite LE by easy. split; [ring|]. repeat (split; [lia|]). intros d Hd. unfold hex_face. now rewrite F1.
      + auto.
      + intros a b c Ha Hb Hc H. unfold vec3 in H; cbn in H. apply even_node_last in H; [|lia|lia]. subst. now exists b, c.
    - exists (fun i j => (g - i)%Z), (fun i j => g), (fun i j => j). split; [|split].
      + intros i j Hi Hj. rewrite LE by easy. split; [ring|]. repeat (split; [lia|]). intros d Hd. unfold hex_face. now rewrite F1, even_node_neg by lia.
      + intros; lia.
      + intros a b c Ha Hb Hc H. unfold vec3 in H; cbn in H. apply even_node_last in H; [|lia|lia]. subst. exists (g - a)%Z, c. lia.
    - exists (fun i j => 0%Z), (fun i j => (g - i)%Z), (fun i j => j). split; [|split].
      + intros i j Hi Hj. rewrite LE by easy. split; [ring|]. repeat (split; [lia|]). intros d Hd. unfold hex_face. now rewrite F0, even_node_neg by lia.
      + intros; lia.
      + intros a b c Ha Hb Hc H. unfold vec3 in H; cbn in H. apply even_node_first in H; [|lia|lia]. subst. exists (g - b)%Z, c. lia.
    - exists (fun i j => i), (fun i j => j), (fun i j => g). split; [|split].
      + intros i j Hi Hj. rewrite LE by easy. split; [ring|]. repeat (split; [lia|]). intros d Hd. unfold hex_face. now rewrite F1.
      + auto.
      + intros a b c Ha Hb Hc H. unfold vec3 in H; cbn in H. apply even_node_last in H; [|lia|lia]. subst. now exists a, b. }
  destruct V as (A & B & C & V1 & V2 & V3).
  assert (DM : forall k, (0 <= k < N * N)%Z -> (0 <= k mod N <= g /\ 0 <= k / N <= g /\ k = (k / N) * N + k mod N)%Z).
  { intros k Hk. pose proof (divmod_range N k ltac:(lia) Hk). lia. }
  assert (I3 : forall a b c a' b' c', (0 <= a <= g)%Z -> (0 <= b <= g)%Z -> (0 <= a' <= g)%Z -> (0 <= b' <= g)%Z ->
     (c * N * N + b * N + a = c' * N * N + b' * N + a')%Z -> a = a' /\ b = b' /\ c = c').
  { intros a b c a' b' c' ? ? ? ? E. replace (c * N * N + b * N + a)%Z with ((c * N + b) * N + a)%Z in E by ring.
    replace (c' * N * N + b' * N + a')%Z with ((c' * N + b') * N + a')%Z in E by ring.
    apply idx2_inj in E; [|lia|lia]. destruct E as [-> E]. apply idx2_inj in E; [|lia|lia]. destruct E as [-> ->]. auto. }
  split; [|split; [|split; [|split]]].
  - intros k Hk. destruct (DM k Hk) as (D1 & D2 & ->). destruct (V1 _ _ D1 D2) as (-> & ? & ? & ? & _). nia.
  - intros k k' Hk Hk'. destruct (DM k Hk) as (D1 & D2 & ->). destruct (DM k' Hk') as (D1' & D2' & ->).
    destruct (V1 _ _ D1 D2) as (-> & ? & ? & ? & _). destruct (V1 _ _ D1' D2') as (-> & ? & ? & ? & _). intros E.
    apply I3 in E; try easy. destruct E as (EA & EB & EC). destruct (V2 _ _ _ _ EA EB EC) as [-> ->]. reflexivity.
  - intros q Hq.
    assert (NQ : forall a b c, (0 <= a <= g)%Z -> (0 <= b <= g)%Z -> (0 <= c <= g)%Z ->
       (on_hex_face face (nodes (c * N * N + b * N + a)%Z) <-> on_hex_face face (vec3 (even_node g a) (even_node g b) (even_node g c)))).
    { intros a b c Ha Hb Hc. unfold nodes, N.
      assert (Cf : (face = 0 \/ face = 1 \/ face = 2 \/ face = 3 \/ face = 4 \/ face = 5)%Z) by lia.
      destruct Cf as [-> | [-> | [-> | [-> | [-> | ->]]]]]; unfold on_hex_face; rewrite hex_node_pos by lia; tauto. }
    split.
    + intros (k & Hk & E). destruct (DM k Hk) as (D1 & D2 & E'). rewrite E' in E. destruct (V1 _ _ D1 D2) as (E1 & ? & ? & ? & VE).
      rewrite <- E, E1. apply NQ; auto.
      assert (Cf : (face = 0 \/ face = 1 \/ face = 2 \/ face = 3 \/ face = 4 \/ face = 5)%Z) by lia.
      destruct Cf as [-> | [-> | [-> | [-> | [-> | ->]]]]]; cbn [on_hex_face]; rewrite VE by lia; reflexivity.
    + intros H. pose proof (Z.mod_pos_bound q N ltac:(lia)) as Q1. pose proof (Z.div_mod q N ltac:(lia)) as Q2.
      assert (Q3 : (0 <= q / N < N * N)%Z) by (split; [apply Z.div_pos; lia|apply Z.div_lt_upper_bound; lia]).
      destruct (DM _ Q3) as (D1 & D2 & D3).
      assert (QE : q = ((q / N / N) * N * N + ((q / N) mod N) * N + q mod N)%Z) by nia.
      rewrite QE in H. apply NQ in H; [|lia|lia|lia]. destruct (V3 (q mod N)%Z ((q / N) mod N)%Z (q / N / N)%Z ltac:(lia) ltac:(lia) ltac:(lia) H) as (i & j & Hi & Hj & EA & EB & EC).
      exists (j * N + i)%Z. split; [nia|]. destruct (V1 i j Hi Hj) as (-> & _). rewrite EA, EB, EC. symmetry. exact QE.
  - intros i j d Hi Hj Hd. destruct (V1 i j Hi Hj) as (-> & ? & ? & ? & VE). unfold nodes, N. rewrite hex_node_pos by lia. now apply VE.
  - intros k Hk. unfold L. rewrite local_nodes_hex_spec by lia. fold N. rewrite rng_false by lia. reflexivity.
Qed.
Print Assumptions C20_hex_local_nodes.

(** Non-vacuity: quadratic elements. *)
Example C20_example :
  map (local_nodes_on_face_quad 3 2 (fun _ => 0%Z)) (zseq 3) = [6; 3; 0]%Z /\
  map (local_nodes_on_face_hex 4 2 (fun _ => 0%Z)) (zseq 9) = [6; 3; 0; 15; 12; 9; 24; 21; 18]%Z.
Proof. split; vm_compute; reflexivity. Qed.
