(** PropNormals.v -- property theorems C21, C22, C60 (face normals). *)
From Coq Require Import ZArith List Lia Reals Lra Bool Psatz Permutation.
From Coquelicot Require Import Coquelicot.
From Verif Require Import Base RBase LinAlgModel LinAlgProof PropLinAlg QuadModel QuadProof PropQuad BasisModel BasisProof PropBasis ShapeModel ShapeProof PropShape.
Import ListNotations.
Local Open Scope R_scope.

(** ** Specification *)

(** The geometric map of an element: node coordinates X(q, d) interpolated with
    the Lagrange basis of order g. *)
Definition elem_map (bt : basis_type) (g : Z) (X : Z -> Z -> R) (y : Z -> R) (d : Z) : R :=
  rsum (nfun bt g) (fun q => basis_fn bt g q y * X q d).

(** ** The trace of the map on a face *)

Lemma fold_perm {A} (op : A -> A -> A) e l l' :
  (forall x y, op x y = op y x) -> (forall x y z, op x (op y z) = op (op x y) z) ->
  Permutation l l' -> fold_right op e l = fold_right op e l'.
Proof.
  intros C A' H. induction H; cbn; [easy|now rewrite IHPermutation| |congruence].
  rewrite !A'. f_equal. apply C.
Qed.

Lemma rsum_permutes n o f : permutes n o -> rsum n (fun i => f (o i)) = rsum n f.
Proof.
  intros H. unfold rsum. rewrite <- (map_map o f). apply fold_perm; [apply Rplus_comm|intros; ring|]. now apply Permutation_map.
Qed.
Lemma rprod_permutes n o f : permutes n o -> rprod n (fun i => f (o i)) = rprod n f.
Proof.
  intros H. unfold rprod. rewrite <- (map_map o f). apply fold_perm; [apply Rmult_comm|intros; ring|]. now apply Permutation_map.
Qed.

Lemma permutes_rev n : permutes n (fun i => (n - 1 - i)%Z).
Proof. apply permutes_intro; intros; lia. Qed.

Definition LL (g : Z) (i : Z) (t : R) : R := lagrange_poly (g + 1) (even_node g) i t.

Lemma LL_neg g i t : (0 < g)%Z -> (0 <= i <= g)%Z -> LL g i (- t) = LL g (g - i) t.
Proof.
  intros Hg Hi. unfold LL, lagrange_poly. rewrite <- (rprod_permutes (g + 1) (fun j => g + 1 - 1 - j)%Z) by apply permutes_rev.
  apply rprod_ext. intros j Hj. replace (g + 1 - 1 - j)%Z with (g - j)%Z by lia.
  destruct (Z.eqb_spec i (g - j)), (Z.eqb_spec (g - i) j); try lia; [reflexivity|].
  rewrite even_node_neg by easy. replace i with (g - (g - i))%Z at 1 by lia. rewrite (even_node_neg g (g - i)) by easy.
  assert (D : even_node g (g - i) - even_node g j <> 0).
  { intros E. assert (g - i = j)%Z; [|lia]. apply (even_different g ltac:(lia)); try lia. lra. }
  field. split; lra.
Qed.

Lemma LL_first g i : (0 < g)%Z -> (0 <= i <= g)%Z -> LL g i (-1) = if (i =? 0)%Z then 1 else 0.
Proof.
  intros Hg Hi. rewrite <- (proj2 (even_node_first g 0 Hg ltac:(lia)) eq_refl). apply (fn1_nodal LagrangeSeg); auto; lia.
Qed.
Lemma LL_last g i : (0 < g)%Z -> (0 <= i <= g)%Z -> LL g i 1 = if (i =? g)%Z then 1 else 0.
Proof.
  intros Hg Hi. pose proof (fn1_nodal LagrangeSeg g i g eq_refl ltac:(lia) Hi ltac:(lia)) as F.
  rewrite (proj2 (even_node_last g g Hg ltac:(lia)) eq_refl) in F. exact F.
Qed.

Lemma map_quad g X y d : (0 <= g)%Z ->
  elem_map LagrangeQuad g X y d = rsum (g + 1) (fun b => rsum (g + 1) (fun a => LL g a (y 0%Z) * LL g b (y 1%Z) * X (b * (g + 1) + a)%Z d)).
Proof.
  intros Hg. unfold elem_map. rewrite nfun_quad.
  rewrite (rsum_ext _ _ (fun q => (fun a b => LL g a (y 0%Z) * LL g b (y 1%Z) * X (b * (g + 1) + a)%Z d) (q mod (g + 1))%Z (q / (g + 1))%Z)).
  - rewrite (rsum_flat (g + 1) (g + 1) (fun a b => LL g a (y 0%Z) * LL g b (y 1%Z) * X (b * (g + 1) + a)%Z d)) by lia. reflexivity.
  - intros q Hq. unfold basis_fn. cbn [dim]. rewrite rprod_2, digit0, digit1_top by lia.
    destruct (divmod_range (g + 1) q ltac:(lia) Hq) as (_ & _ & <-). reflexivity.
Qed.

Lemma map_hex g X y d : (0 <= g)%Z -> let N := (g + 1)%Z in
  elem_map LagrangeHex g X y d = rsum N (fun c => rsum N (fun b => rsum N (fun a =>
     LL g a (y 0%Z) * LL g b (y 1%Z) * LL g c (y 2%Z) * X (c * N * N + b * N + a)%Z d))).
Proof.
  intros Hg N. unfold elem_map. rewrite nfun_hex. fold N.
  rewrite (rsum_ext _ _ (fun q => (fun a b c => LL g a (y 0%Z) * LL g b (y 1%Z) * LL g c (y 2%Z) * X (c * N * N + b * N + a)%Z d) (q mod N)%Z ((q / N) mod N)%Z (q / (N * N))%Z)).
  - rewrite (rsum_flat3 N (fun a b c => LL g a (y 0%Z) * LL g b (y 1%Z) * LL g c (y 2%Z) * X (c * N * N + b * N + a)%Z d)) by lia. reflexivity.
  - intros q Hq. unfold basis_fn. cbn [dim]. fold N. rewrite rprod_3, digit0, digit1, digit2_top by lia.
    assert (E : (q / (N * N) * N * N + (q / N) mod N * N + q mod N = q)%Z).
    { rewrite <- Z.div_div by lia. pose proof (Z.div_mod q N ltac:(lia)). pose proof (Z.div_mod (q / N) N ltac:(lia)). nia. }
    rewrite E. reflexivity.
Qed.

Lemma rsum_pick n k (f : Z -> R) (w : Z -> R) : (0 <= k < n)%Z -> (forall i, (0 <= i < n)%Z -> w i = if (i =? k)%Z then 1 else 0) ->
  rsum n (fun i => w i * f i) = f k.
Proof.
  intros Hk H. rewrite (rsum_ext n _ (fun i => if (i =? k)%Z then f i else 0)).
  - apply rsum_delta. easy.
  - intros i Hi. rewrite H by easy. destruct (i =? k)%Z; ring.
Qed.

Lemma trace_quad g face X lf t d : (1 <= g)%Z -> (0 <= face <= 3)%Z ->
  elem_map LagrangeQuad g X (quad_face face t) d = rsum (g + 1) (fun k => LL g k t * X (local_nodes_on_face_quad face g lf k) d).
Proof.
  intros Hg Hf. rewrite map_quad by lia.
  rewrite (rsum_ext (g + 1) (fun k => LL g k t * _) (fun k => LL g k t * X (if (face =? 0)%Z then k else if (face =? 1)%Z then k * (g + 1) + g else
     if (face =? 2)%Z then g * (g + 1) + (g - k) else (g - k) * (g + 1))%Z d)).
  2:{ intros k Hk. rewrite local_nodes_quad_spec, rng_true by lia. reflexivity. }
  assert (C : (face = 0 \/ face = 1 \/ face = 2 \/ face = 3)%Z) by lia.
  destruct C as [-> | [-> | [-> | ->]]]; cbn [Z.eqb Pos.eqb quad_face]; unfold vec2; cbn [Z.eqb].
  - rewrite (rsum_ext _ _ (fun b => LL g b (-1) * rsum (g + 1) (fun a => LL g a t * X (b * (g + 1) + a)%Z d))).
    + rewrite (rsum_pick (g + 1) 0) by (try lia; intros; apply LL_first; lia). reflexivity.
    + intros b Hb. rewrite <- rsum_scal. apply rsum_ext. intros; ring.
  - apply rsum_ext. intros b Hb.
    rewrite (rsum_ext _ _ (fun a => LL g a 1 * (LL g b t * X (b * (g + 1) + a)%Z d))) by (intros; ring).
    rewrite (rsum_pick (g + 1) g) by (try lia; intros; apply LL_last; lia). reflexivity.
  - rewrite (rsum_ext _ _ (fun b => LL g b 1 * rsum (g + 1) (fun a => LL g a (- t) * X (b * (g + 1) + a)%Z d))).
    + rewrite (rsum_pick (g + 1) g) by (try lia; intros; apply LL_last; lia).
      rewrite <- (rsum_permutes (g + 1) (fun j => g + 1 - 1 - j)%Z) by apply permutes_rev.
      apply rsum_ext. intros k Hk. rewrite LL_neg by lia. f_equal; [f_equal; lia|]. f_equal. lia.
    + intros b Hb. rewrite <- rsum_scal. apply rsum_ext. intros; ring.
  - rewrite <- (rsum_permutes (g + 1) (fun j => g + 1 - 1 - j)%Z) by apply permutes_rev.
    apply rsum_ext. intros b Hb.
    rewrite (rsum_ext _ _ (fun a => LL g a (-1) * (LL g b t * X ((g - b) * (g + 1) + a)%Z d))).
    2:{ intros a Ha. rewrite LL_neg by lia. replace (g - (g + 1 - 1 - b))%Z with b by lia. replace (g + 1 - 1 - b)%Z with (g - b)%Z by lia. ring. }
    rewrite (rsum_pick (g + 1) 0) by (try lia; intros; apply LL_first; lia). f_equal. f_equal. lia.
Qed.

Ltac idxeq := match goal with |- _ * ?X ?a ?d = _ * ?X ?b ?d => replace a with b by ring; reflexivity end.

Lemma trace_hex g face X lf s t d : (1 <= g)%Z -> (0 <= face <= 5)%Z -> let N := (g + 1)%Z in
  elem_map LagrangeHex g X (hex_face face s t) d =
  rsum N (fun j => rsum N (fun i => LL g i s * LL g j t * X (local_nodes_on_face_hex face g lf (j * N + i)%Z) d)).
Proof.
  intros Hg Hf N. rewrite map_hex by lia. fold N.
  symmetry. rewrite (rsum_ext N _ (fun j => rsum N (fun i => LL g i s * LL g j t * X (if (face =? 0)%Z then i * N + j else if (face =? 1)%Z then j * N * N + i else
     if (face =? 2)%Z then j * N * N + i * N + g else if (face =? 3)%Z then j * N * N + g * N + (g - i) else
     if (face =? 4)%Z then j * N * N + (g - i) * N else g * N * N + j * N + i)%Z d))).
  2:{ intros j Hj. apply rsum_ext. intros i Hi. rewrite local_nodes_hex_spec by lia. fold N. rewrite rng_true by nia.
      rewrite idx2_mod, idx2_div by lia. reflexivity. }
  symmetry.
  assert (HN : N = (g + 1)%Z) by reflexivity. clearbody N.
  assert (P0 : forall f, rsum N (fun a => LL g a (-1) * f a) = f 0%Z) by (intros; apply rsum_pick; [lia|intros; apply LL_first; lia]).
  assert (P1 : forall f, rsum N (fun a => LL g a 1 * f a) = f g) by (intros; apply rsum_pick; [lia|intros; apply LL_last; lia]).
  assert (PR : forall f t, rsum N (fun a => LL g a (- t) * f a) = rsum N (fun a => LL g a t * f (g - a)%Z)).
  { intros f u. rewrite <- (rsum_permutes N (fun j => N - 1 - j)%Z) by apply permutes_rev.
    apply rsum_ext. intros k Hk. rewrite LL_neg by lia. replace (g - (N - 1 - k))%Z with k by lia. f_equal. f_equal. lia. }
  assert (C : (face = 0 \/ face = 1 \/ face = 2 \/ face = 3 \/ face = 4 \/ face = 5)%Z) by lia.
  destruct C as [-> | [-> | [-> | [-> | [-> | ->]]]]]; cbn [Z.eqb Pos.eqb hex_face]; unfold vec3; cbn [Z.eqb Pos.eqb].
  - rewrite (rsum_ext N _ (fun c => LL g c (-1) * rsum N (fun b => rsum N (fun a => LL g a t * LL g b s * X (c * N * N + b * N + a)%Z d)))).
    2:{ intros c Hc. rewrite <- rsum_scal. apply rsum_ext. intros b Hb. rewrite <- rsum_scal. apply rsum_ext. intros; ring. }
    rewrite P0. rewrite rsum_swap. apply rsum_ext. intros j Hj. apply rsum_ext. intros i Hi. rewrite (Rmult_comm (LL g j t)). idxeq.
  - apply rsum_ext. intros c Hc.
    rewrite (rsum_ext N _ (fun b => LL g b (-1) * rsum N (fun a => LL g a s * LL g c t * X (c * N * N + b * N + a)%Z d))).
    2:{ intros b Hb. rewrite <- rsum_scal. apply rsum_ext. intros; ring. }
    rewrite P0. apply rsum_ext. intros a Ha. idxeq.
  - apply rsum_ext. intros c Hc. apply rsum_ext. intros b Hb.
    rewrite (rsum_ext N _ (fun a => LL g a 1 * (LL g b s * LL g c t * X (c * N * N + b * N + a)%Z d))) by (intros; ring).
    rewrite P1. reflexivity.
  - apply rsum_ext. intros c Hc.
    rewrite (rsum_ext N _ (fun b => LL g b 1 * rsum N (fun a => LL g a (- s) * (LL g c t * X (c * N * N + b * N + a)%Z d)))).
    2:{ intros b Hb. rewrite <- rsum_scal. apply rsum_ext. intros; ring. }
    rewrite P1, PR. apply rsum_ext. intros a Ha. ring.
  - apply rsum_ext. intros c Hc.
    rewrite (rsum_ext N _ (fun b => LL g b (- s) * (LL g c t * X (c * N * N + b * N)%Z d))).
    2:{ intros b Hb. rewrite (rsum_ext N _ (fun a => LL g a (-1) * (LL g b (- s) * LL g c t * X (c * N * N + b * N + a)%Z d))) by (intros; ring).
        rewrite P0, Z.add_0_r. ring. }
    rewrite PR. apply rsum_ext. intros a Ha. ring.
  - rewrite (rsum_ext N _ (fun c => LL g c 1 * rsum N (fun b => rsum N (fun a => LL g a s * LL g b t * X (c * N * N + b * N + a)%Z d)))).
    2:{ intros c Hc. rewrite <- rsum_scal. apply rsum_ext. intros b Hb. rewrite <- rsum_scal. apply rsum_ext. intros; ring. }
    rewrite P1. reflexivity.
Qed.

(** ** The stored normal in terms of the face's parametrisation *)

Lemma extract_entry dm nn X f out i d : (0 <= i < nn)%Z -> (0 <= d < dm)%Z ->
  extract_node_coordinates dm nn X f out i d = X (f i) d.
Proof.
  intros Hi Hd. unfold extract_node_coordinates.
  assert (A : forall m (b : arr2) k, (0 <= m)%Z -> forall i d, zloop m (fun inode out => upd2 out inode k (X (f inode) k)) b i d =
     if ((d =? k) && ((0 <=? i) && (i <? m)))%Z%bool then X (f i) d else b i d).
  { intros m b k Hm. revert Hm. induction m as [m H|m H IH] using zind; intros Hm i' d'.
    - rewrite zloop_0 by easy. rewrite rng_false, andb_false_r by lia. reflexivity.
    - rewrite zloop_S by easy. unfold upd2 at 1. rewrite IH by easy.
      destruct (Z.eqb_spec d' k) as [->|], (Z.eqb_spec i' m) as [->|]; cbn [andb]; auto.
      + now rewrite rng_true by lia.
      + destruct (Z.leb_spec 0 i'), (Z.ltb_spec i' m), (Z.ltb_spec i' (m + 1)); cbn; auto; lia. }
  assert (B : forall m, (0 <= m)%Z -> zloop m (fun idim out => zloop nn (fun inode out => upd2 out inode idim (X (f inode) idim)) out) out i d =
     if ((0 <=? d) && (d <? m))%Z%bool then X (f i) d else out i d).
  { intros m Hm. induction m as [m H|m H IH] using zind.
    - rewrite zloop_0, rng_false by lia. reflexivity.
    - rewrite zloop_S, A by lia. rewrite IH by easy. rewrite (rng_true i) by lia. rewrite andb_true_r.
      destruct (Z.eqb_spec d m) as [->|].
      + rewrite rng_true by lia. reflexivity.
      + destruct (Z.leb_spec 0 d), (Z.ltb_spec d m), (Z.ltb_spec d (m + 1)); cbn; auto; lia. }
  rewrite B, rng_true by lia. reflexivity.
Qed.

Lemma face_grad_seg g nqf pts ip k : (1 <= g)%Z -> (0 <= ip < nqf)%Z -> (0 <= k <= g)%Z ->
  is_derive (LL g k) (pts ip 0%Z) (face_grad_for_normals_quad g nqf pts ip k 0%Z).
Proof.
  intros Hg Hi Hk. unfold face_grad_for_normals_quad.
  destruct (C33_basis_gradients LagrangeSeg g nqf pts (fun _ _ _ => 0) ltac:(lia) (or_introl eq_refl) ltac:(auto)) as [D _].
  specialize (D ip k 0%Z Hi). eapply is_derive_ext; [|apply D].
  - intros t. unfold basis_fn. cbn [dim]. rewrite rprod_1, digit0, Z.mod_small by lia. reflexivity.
  - unfold nfun; cbn [dim]. lia.
  - cbn; lia.
Qed.

Lemma face_grad_quad g nqf pts ip i j : (1 <= g)%Z -> (0 <= ip < nqf)%Z -> (0 <= i <= g)%Z -> (0 <= j <= g)%Z ->
  let G := face_grad_for_normals_hex g nqf pts ip (j * (g + 1) + i)%Z in
  is_derive (fun s => LL g i s * LL g j (pts ip 1%Z)) (pts ip 0%Z) (G 0%Z) /\
  is_derive (fun t => LL g i (pts ip 0%Z) * LL g j t) (pts ip 1%Z) (G 1%Z).
Proof.
  intros Hg Hi Hii Hj G. unfold G, face_grad_for_normals_hex.
  destruct (C33_basis_gradients LagrangeQuad g nqf pts (fun _ _ _ => 0) ltac:(lia) (or_introl eq_refl) ltac:(auto)) as [D _].
  assert (Hq : (0 <= j * (g + 1) + i < nfun LagrangeQuad g)%Z) by (rewrite nfun_quad; nia).
  assert (DG0 : digit (g + 1) 0 (j * (g + 1) + i) = i) by (rewrite digit0; apply idx2_mod; lia).
  assert (DG1 : digit (g + 1) 1 (j * (g + 1) + i) = j) by (rewrite digit1_top by nia; apply idx2_div; lia).
  split.
  - eapply is_derive_ext; [|apply (D ip (j * (g + 1) + i)%Z 0%Z Hi Hq ltac:(cbn; lia))].
    intros t. unfold basis_fn. cbn [dim]. rewrite rprod_2, DG0, DG1. reflexivity.
  - eapply is_derive_ext; [|apply (D ip (j * (g + 1) + i)%Z 1%Z Hi Hq ltac:(cbn; lia))].
    intros t. unfold basis_fn. cbn [dim]. rewrite rprod_2, DG0, DG1. reflexivity.
Qed.

Lemma quad_face0_pts nqf fp e qp0 ip : points_on_face_quad 0 0 nqf fp e = Some qp0 -> (0 <= ip < nqf)%Z -> qp0 ip 0%Z = fp ip 0%Z.
Proof.
  intros E Hi. destruct (points_quad_spec 0 0 nqf fp e ltac:(lia) ltac:(lia) ltac:(lia)) as (P & E' & F).
  rewrite E in E'. injection E' as <-. rewrite F, !rng_true by lia. reflexivity.
Qed.
Lemma hex_face0_pts nqf fp e qp0 ip : points_on_face_hex 0 0 nqf fp e = Some qp0 -> (0 <= ip < nqf)%Z -> qp0 ip 0%Z = fp ip 1%Z /\ qp0 ip 1%Z = fp ip 0%Z.
Proof.
  intros E Hi. destruct (points_hex_spec 0 0 nqf fp e ltac:(lia) ltac:(lia) ltac:(lia)) as (P & E' & F).
  rewrite E in E'. injection E' as <-. rewrite !F, !rng_true by lia. cbn [andb]. split; reflexivity.
Qed.

(** ** C21 *)

(** Any geometric order: with c(t) the curve traced by the element map along
    the edge in counter-clockwise direction, the normal stored for face point ip
    is sign (c_y', -c_x') at the parameter of that point: perpendicular to the
    curve, of its length element, on the right of the direction of travel.  *)
Theorem C21_curved_quad_normals : forall g face sign nqf X fp e qp0 ip,
  (1 <= g)%Z -> (0 <= face <= 3)%Z -> (0 <= ip < nqf)%Z ->
  points_on_face_quad 0 0 nqf fp e = Some qp0 ->
  let c d t := elem_map LagrangeQuad g X (quad_face face t) d in
  let n := face_normal_quad sign face g nqf X qp0 ip in
  exists dx dy, is_derive (c 0%Z) (fp ip 0%Z) dx /\ is_derive (c 1%Z) (fp ip 0%Z) dy /\
    n 0%Z = sign * dy /\ n 1%Z = - sign * dx.
Proof.
  intros g face sign nqf X fp e qp0 ip Hg Hf Hi E c n.
  set (L := local_nodes_on_face_quad face g (fun _ => 0%Z)).
  set (G := face_grad_for_normals_quad g nqf qp0 ip).
  set (D d := rsum (g + 1) (fun k => X (L k) d * G k 0%Z)).
  assert (HD : forall d, is_derive (c d) (fp ip 0%Z) (D d)).
  { intros d. eapply is_derive_ext.
    - intros t. symmetry. apply (trace_quad g face X (fun _ => 0%Z) t d Hg Hf).
    - rewrite <- (quad_face0_pts nqf fp e qp0 ip E Hi). unfold D.
      apply (rsum_deriv (g + 1) (fun k t => LL g k t * X (L k) d)). intros k Hk.
      apply (is_derive_ext (fun t => X (L k) d * LL g k t)); [intros; apply Rmult_comm|].
      apply is_derive_scal_R. apply face_grad_seg; auto; lia. }
  exists (D 0%Z), (D 1%Z). split; [apply HD|]. split; [apply HD|].
  assert (XG : forall d, (0 <= d < 2)%Z -> cATxB_to_C 2 1 (g + 1) 1 (extract_node_coordinates 2 (g + 1) X L (fun _ _ => 0)) (fun k d => G k d) (fun _ _ => 0) d 0%Z = D d).
  { intros d Hd. unfold cATxB_to_C. rewrite gemm_entry. rewrite (proj2 (inb_true 2 d)), (proj2 (inb_true 1 0)) by lia. cbn [andb].
    unfold D. rewrite Rmult_0_l, Rplus_0_l, Rmult_1_l. apply rsum_ext. intros p Hp. now rewrite extract_entry by lia. }
  unfold n, face_normal_quad, normal_quad. fold L. unfold upd1. cbn [Z.eqb Pos.eqb]. fold G.
  rewrite (XG 0%Z), (XG 1%Z) by lia. split; ring.
Qed.
Print Assumptions C21_curved_quad_normals.

(** Corners of a straight-sided quadrilateral in counter-clockwise order. *)
Definition ccw (k : Z) : Z := nth (Z.to_nat (k mod 4)) [0; 1; 3; 2]%Z 0%Z.
Definition cross2 (a b a' b' : R) : R := a * b' - b * a'.
Definition convex_ccw (X : Z -> Z -> R) : Prop := forall k, (0 <= k < 4)%Z ->
  let x k := X (ccw k) 0%Z in let y k := X (ccw k) 1%Z in
  0 < cross2 (x (k + 1)%Z - x k) (y (k + 1)%Z - y k) (x (k + 2)%Z - x (k + 1)%Z) (y (k + 2)%Z - y (k + 1)%Z).

Lemma LL1 k t : (0 <= k <= 1)%Z -> LL 1 k t = if (k =? 0)%Z then (1 - t) / 2 else (1 + t) / 2.
Proof.
  intros Hk. assert (C : (k = 0 \/ k = 1)%Z) by lia. destruct C as [-> | ->]; unfold LL, lagrange_poly, even_node; change (1 + 1)%Z with 2%Z;
  rewrite rprod_2; cbn -[IZR]; field; lra.
Qed.

Lemma straight_normal sign face nqf X fp e qp0 ip : (0 <= face <= 3)%Z -> (0 <= ip < nqf)%Z ->
  points_on_face_quad 0 0 nqf fp e = Some qp0 ->
  let n := face_normal_quad sign face 1 nqf X qp0 ip in
  n 0%Z = sign * (X (ccw (face + 1)) 1%Z - X (ccw face) 1%Z) / 2 /\ n 1%Z = - sign * (X (ccw (face + 1)) 0%Z - X (ccw face) 0%Z) / 2.
Proof.
  intros Hf Hi E n.
  destruct (C21_curved_quad_normals 1 face sign nqf X fp e qp0 ip ltac:(lia) Hf Hi E) as (dx & dy & D0 & D1 & N0 & N1).
  assert (V : forall d l, is_derive (fun t => elem_map LagrangeQuad 1 X (quad_face face t) d) (fp ip 0%Z) l ->
     l = (X (ccw (face + 1)) d - X (ccw face) d) / 2).
  { intros d l Hl. apply is_derive_unique in Hl. rewrite <- Hl. apply is_derive_unique.
    apply (is_derive_ext (fun t => (1 - t) / 2 * X (ccw face) d + (1 + t) / 2 * X (ccw (face + 1)) d)).
    - intros t. rewrite (trace_quad 1 face X (fun _ => 0%Z) t d) by lia. change (1 + 1)%Z with 2%Z. rewrite rsum_2. rewrite !LL1 by lia. cbn [Z.eqb].
      rewrite !local_nodes_quad_spec by lia. 
      assert (C : (face = 0 \/ face = 1 \/ face = 2 \/ face = 3)%Z) by lia. destruct C as [-> | [-> | [-> | ->]]]; cbn -[IZR]; reflexivity.
    - auto_derive; [easy|]. field. }
  apply V in D0, D1. subst dx dy. fold n in N0, N1. rewrite N0, N1. split; field.
Qed.

Theorem C21_straight_quad_normals : forall nqf X fp e qp0 w,
  points_on_face_quad 0 0 nqf fp e = Some qp0 -> rsum nqf w = 2 ->
  let x k := X (ccw k) 0%Z in let y k := X (ccw k) 1%Z in
  let n face := face_normal_quad 1 face 1 nqf X qp0 in
  let I face d := rsum nqf (fun ip => w ip * n face ip d) in
  (* the integrated normal is the edge rotated by -90 degrees *)
  (forall face, (0 <= face <= 3)%Z -> I face 0%Z = y (face + 1)%Z - y face /\ I face 1%Z = - (x (face + 1)%Z - x face)) /\
  (* the four edges close up *)
  (forall d, (0 <= d < 2)%Z -> I 0%Z d + I 1%Z d + I 2%Z d + I 3%Z d = 0) /\
  (* at every point: perpendicular to the edge, and outward for convex elements *)
  (forall face ip, (0 <= face <= 3)%Z -> (0 <= ip < nqf)%Z ->
     n face ip 0%Z * (x (face + 1)%Z - x face) + n face ip 1%Z * (y (face + 1)%Z - y face) = 0 /\
     (convex_ccw X -> forall k, (2 <= k <= 3)%Z ->
        n face ip 0%Z * (x (face + k)%Z - x face) + n face ip 1%Z * (y (face + k)%Z - y face) < 0)) /\
  (* a neighbour that sees the edge in the opposite direction, with the sign of
     the right side, gets the same normal *)
  (forall face face' X' ip ip' d, (0 <= face <= 3)%Z -> (0 <= face' <= 3)%Z -> (0 <= ip < nqf)%Z -> (0 <= ip' < nqf)%Z -> (0 <= d < 2)%Z ->
     (forall d, (0 <= d < 2)%Z -> X' (ccw face') d = X (ccw (face + 1)) d /\ X' (ccw (face' + 1)) d = X (ccw face) d) ->
     face_normal_quad (-1) face' 1 nqf X' qp0 ip' d = n face ip d).
Proof.
  intros nqf X fp e qp0 w E Hw x y n I.
  assert (P : forall face ip, (0 <= face <= 3)%Z -> (0 <= ip < nqf)%Z -> n face ip 0%Z = (y (face + 1)%Z - y face) / 2 /\ n face ip 1%Z = - (x (face + 1)%Z - x face) / 2).
  { intros face ip Hf Hi. destruct (straight_normal 1 face nqf X fp e qp0 ip Hf Hi E) as [A B]. unfold n, x, y. rewrite A, B. split; field. }
  assert (PI : forall face, (0 <= face <= 3)%Z -> I face 0%Z = y (face + 1)%Z - y face /\ I face 1%Z = - (x (face + 1)%Z - x face)).
  { intros face Hf. unfold I. split.
    - rewrite (rsum_ext nqf _ (fun ip => w ip * ((y (face + 1)%Z - y face) / 2))) by (intros ip Hi; now rewrite (proj1 (P face ip Hf Hi))).
      rewrite rsum_scal_r, Hw. field.
    - rewrite (rsum_ext nqf _ (fun ip => w ip * (- (x (face + 1)%Z - x face) / 2))) by (intros ip Hi; now rewrite (proj2 (P face ip Hf Hi))).
      rewrite rsum_scal_r, Hw. field. }
  split; [exact PI|]. split; [|split].
  - intros d Hd. destruct (PI 0%Z ltac:(lia)), (PI 1%Z ltac:(lia)), (PI 2%Z ltac:(lia)), (PI 3%Z ltac:(lia)).
    assert (Y4 : y (3 + 1)%Z = y 0%Z) by reflexivity. assert (X4 : x (3 + 1)%Z = x 0%Z) by reflexivity.
    assert (Cd : (d = 0 \/ d = 1)%Z) by lia. destruct Cd as [-> | ->]; [rewrite H, H1, H3, H5, Y4|rewrite H0, H2, H4, H6, X4];
    change (0 + 1)%Z with 1%Z; change (1 + 1)%Z with 2%Z; change (2 + 1)%Z with 3%Z; lra.
  - intros face ip Hf Hi. destruct (P face ip Hf Hi) as [-> ->]. split; [lra|].
    intros CV k Hk. assert (Ck : (k = 2 \/ k = 3)%Z) by lia. destruct Ck as [-> | ->].
    + pose proof (CV face ltac:(lia)) as C1. unfold cross2 in C1. cbv zeta in C1. fold (x (face + 1)%Z) (x face) (y (face + 1)%Z) (y face) (x (face + 2)%Z) (y (face + 2)%Z) in C1. nra.
    + pose proof (CV ((face + 3) mod 4)%Z ltac:(apply Z.mod_pos_bound; lia)) as C1. unfold cross2 in C1. cbv zeta in C1.
      assert (M : forall m, ccw ((face + 3) mod 4 + m) = ccw (face + 3 + m)) by (intros m; unfold ccw; now rewrite Z.add_mod_idemp_l by lia).
      assert (M0 : ccw ((face + 3) mod 4) = ccw (face + 3)) by (unfold ccw; now rewrite Z.mod_mod by lia).
      assert (M1 : ccw (face + 3 + 1) = ccw face) by (unfold ccw; replace (face + 3 + 1)%Z with (face + 1 * 4)%Z by ring; now rewrite Z.mod_add by lia).
      assert (M2 : ccw (face + 3 + 2) = ccw (face + 1)) by (unfold ccw; replace (face + 3 + 2)%Z with (face + 1 + 1 * 4)%Z by ring; now rewrite Z.mod_add by lia).
      rewrite !M, M0, M1, M2 in C1. fold (x (face + 1)%Z) (x face) (y (face + 1)%Z) (y face) (x (face + 3)%Z) (y (face + 3)%Z) in C1. nra.
  - intros face face' X' ip ip' d Hf Hf' Hi Hi' Hd H.
    destruct (straight_normal (-1) face' nqf X' fp e qp0 ip' Hf' Hi' E) as [A B].
    destruct (H 0%Z ltac:(lia)) as [G1 G2]. destruct (H 1%Z ltac:(lia)) as [G3 G4]. rewrite G1, G2 in B. rewrite G3, G4 in A.
    destruct (P face ip Hf Hi) as [Q1 Q2]. unfold x, y in Q1, Q2.
    assert (Cd : (d = 0 \/ d = 1)%Z) by lia. destruct Cd as [-> | ->]; [rewrite A, Q1|rewrite B, Q2]; lra.
Qed.
Print Assumptions C21_straight_quad_normals.

(** ** C22 *)

Theorem C22_hex_normals_partial : forall g face sign nqf X fp e qp0 ip,
  (1 <= g)%Z -> (0 <= face <= 5)%Z -> (0 <= ip < nqf)%Z ->
  points_on_face_hex 0 0 nqf fp e = Some qp0 ->
  let S s t d := elem_map LagrangeHex g X (hex_face face s t) d in
  let n := face_normal_hex sign face g nqf X qp0 ip in
  let s := fp ip 0%Z in let t := fp ip 1%Z in
  (* in general: the normal of the surface at the point with s and t exchanged *)
  (exists A B, (forall d, is_derive (fun s' => S s' s d) t (A d) /\ is_derive (fun t' => S t t' d) s (B d)) /\
     forall d, (0 <= d < 3)%Z -> n d = sign * cross A B (fun _ => 0) d) /\
  (* a parallelogram face: the normal of the face *)
  (forall P U V, (forall s t d, (0 <= d < 3)%Z -> S s t d = P d + s * U d + t * V d) ->
     forall d, (0 <= d < 3)%Z -> n d = sign * cross U V (fun _ => 0) d).
Proof.
  intros g face sign nqf X fp e qp0 ip Hg Hf Hi E S n s t.
  set (L := local_nodes_on_face_hex face g (fun _ => 0%Z)). set (N := (g + 1)%Z).
  set (G := face_grad_for_normals_hex g nqf qp0 ip).
  set (D m d := rsum (N * N) (fun k => X (L k) d * G k m)).
  destruct (hex_face0_pts nqf fp e qp0 ip E Hi) as [Q0 Q1]. fold s in Q1. fold t in Q0.
  assert (HD : forall d, is_derive (fun s' => S s' s d) t (D 0%Z d) /\ is_derive (fun t' => S t t' d) s (D 1%Z d)).
  { intros d. assert (FL : forall m, D m d = rsum N (fun j => rsum N (fun i => X (L (j * N + i)%Z) d * G (j * N + i)%Z m))).
    { intros m. unfold D. rewrite <- (rsum_flat N N (fun i j => X (L (j * N + i)%Z) d * G (j * N + i)%Z m)) by (unfold N; lia).
      apply rsum_ext. intros k Hk. destruct (divmod_range N k ltac:(unfold N; lia) Hk) as (_ & _ & <-). reflexivity. }
    rewrite !FL. split.
    - eapply is_derive_ext; [intros s'; symmetry; apply (trace_hex g face X (fun _ => 0%Z) s' s d Hg Hf)|]. fold L N.
      apply (rsum_deriv N (fun j s' => rsum N (fun i => LL g i s' * LL g j s * X (L (j * N + i)%Z) d))). intros j Hj.
      apply (rsum_deriv N (fun i s' => LL g i s' * LL g j s * X (L (j * N + i)%Z) d)). intros i Hii.
      apply (is_derive_ext (fun s' => X (L (j * N + i)%Z) d * (LL g i s' * LL g j s))); [intros; apply Rmult_comm|].
      apply is_derive_scal_R. rewrite <- Q0. rewrite <- Q1. apply (face_grad_quad g nqf qp0 ip i j); unfold N in *; lia.
    - eapply is_derive_ext; [intros s'; symmetry; apply (trace_hex g face X (fun _ => 0%Z) t s' d Hg Hf)|]. fold L N.
      apply (rsum_deriv N (fun j s' => rsum N (fun i => LL g i t * LL g j s' * X (L (j * N + i)%Z) d))). intros j Hj.
      apply (rsum_deriv N (fun i s' => LL g i t * LL g j s' * X (L (j * N + i)%Z) d)). intros i Hii.
      apply (is_derive_ext (fun s' => X (L (j * N + i)%Z) d * (LL g i t * LL g j s'))); [intros; apply Rmult_comm|].
      apply is_derive_scal_R. rewrite <- Q1. rewrite <- Q0. apply (face_grad_quad g nqf qp0 ip i j); unfold N in *; lia. }
  assert (NV : forall d, (0 <= d < 3)%Z -> n d = sign * cross (D 0%Z) (D 1%Z) (fun _ => 0) d).
  { assert (XG : forall d m, (0 <= d < 3)%Z -> (0 <= m < 2)%Z -> cATxB_to_C 3 2 (N * N) 1 (extract_node_coordinates 3 (N * N) X L (fun _ _ => 0)) (fun k d => G k d) (fun _ _ => 0) d m = D m d).
    { intros d m Hd Hm. unfold cATxB_to_C. rewrite gemm_entry. rewrite (proj2 (inb_true 3 d)), (proj2 (inb_true 2 m)) by lia. cbn [andb].
      unfold D. rewrite Rmult_0_l, Rplus_0_l, Rmult_1_l. apply rsum_ext. intros p Hp. now rewrite extract_entry by lia. }
    intros d Hd. unfold n, face_normal_hex, normal_hex. fold L N. rewrite cA_to_A1_entry.
    rewrite (proj2 (inb_true 3 d)) by lia.
    unfold cross, upd1. fold G. rewrite !XG by lia. reflexivity. }
  split; [exists (D 0%Z), (D 1%Z); split; [exact HD|exact NV]|].
  intros P U V HS d Hd. rewrite NV by easy.
  assert (DU : forall d, (0 <= d < 3)%Z -> D 0%Z d = U d /\ D 1%Z d = V d).
  { intros d' Hd'. destruct (HD d') as [H1 H2]. split.
    - apply is_derive_unique in H1. rewrite <- H1. apply is_derive_unique.
      apply (is_derive_ext (fun s' => P d' + s' * U d' + s * V d')); [intros; now rewrite HS|]. auto_derive; [easy|]. ring.
    - apply is_derive_unique in H2. rewrite <- H2. apply is_derive_unique.
      apply (is_derive_ext (fun t' => P d' + t * U d' + t' * V d')); [intros; now rewrite HS|]. auto_derive; [easy|]. ring. }
  f_equal. destruct (DU 0%Z ltac:(lia)), (DU 1%Z ltac:(lia)), (DU 2%Z ltac:(lia)). unfold cross, upd1.
  assert (Cd : (d = 0 \/ d = 1 \/ d = 2)%Z) by lia. destruct Cd as [-> | [-> | ->]]; cbn [Z.eqb Pos.eqb]; congruence.
Qed.
Print Assumptions C22_hex_normals_partial.

(** The property as stated is false of the code: a cube whose upper face is
    bilinear (one corner lifted), the 2 x 2 points (+-1/2, +-1/2): at the point
    (1/2, -1/2) the stored normal is not the normal of the face there. *)
Definition lifted (q d : Z) : R :=
  vec3 (2 * IZR (q mod 2) - 1) (2 * IZR ((q / 2) mod 2) - 1)
       (if (q =? 7)%Z then 2 else 2 * IZR (q / 4) - 1) d.
Definition four_points (q d : Z) : R := vec2 (IZR (q mod 2) - 1/2) (IZR (q / 2) - 1/2) d.

Lemma lifted_top s t d : elem_map LagrangeHex 1 lifted (hex_face 5 s t) d = vec3 s t (1 + (1 + s) * (1 + t) / 4) d.
Proof.
  rewrite (trace_hex 1 5 lifted (fun _ => 0%Z) s t d) by lia. change (1 + 1)%Z with 2%Z. rewrite rsum_2, !rsum_2. rewrite !LL1 by lia.
  rewrite !local_nodes_hex_spec by lia. unfold lifted, vec3. cbn -[IZR Z.div Z.modulo].
  change (4 mod 2)%Z with 0%Z. change (4 / 2)%Z with 2%Z. change (2 mod 2)%Z with 0%Z. change (4 / 4)%Z with 1%Z.
  cbv [Z.div Z.modulo Z.div_eucl Z.pos_div_eucl Z.mul Z.add Z.leb Z.ltb Z.compare Pos.compare Pos.compare_cont Pos.mul Pos.add Z.sub Z.opp Z.pos_sub Pos.succ Pos.pred_double Z.double Z.succ_double Z.pred_double].
  destruct (d =? 0)%Z, (d =? 1)%Z; cbn -[IZR]; field.
Qed.

Theorem C22_hex_normals_refuted :
  exists qp0, points_on_face_hex 0 0 4 four_points (fun _ _ => 0) = Some qp0 /\
  tensor_points 2 (fun i => IZR i - 1/2) four_points /\ symmetric 2 (fun i => IZR i - 1/2) /\
  let S s t d := elem_map LagrangeHex 1 lifted (hex_face 5 s t) d in
  let s := four_points 1 0 in let t := four_points 1 1 in
  let n := face_normal_hex 1 5 1 4 lifted qp0 1 in
  exists A B, (forall d, is_derive (fun s' => S s' t d) s (A d) /\ is_derive (fun t' => S s t' d) t (B d)) /\
    n 0%Z <> cross A B (fun _ => 0) 0%Z.
Proof.
  destruct (points_hex_spec 0 0 4 four_points (fun _ _ => 0) ltac:(lia) ltac:(lia) ltac:(lia)) as (qp0 & E & _).
  exists qp0. split; [exact E|]. split; [|split].
  - intros i j Hi Hj. assert (Ci : (i = 0 \/ i = 1)%Z) by lia. assert (Cj : (j = 0 \/ j = 1)%Z) by lia.
    destruct Ci as [-> | ->]; destruct Cj as [-> | ->]; split; reflexivity.
  - intros i Hi. assert (Ci : (i = 0 \/ i = 1)%Z) by lia. destruct Ci as [-> | ->]; cbn -[IZR]; lra.
  - intros S s t n.
    assert (Es : s = 1/2) by (unfold s, four_points, vec2; change (1 mod 2)%Z with 1%Z; cbn -[IZR]; lra).
    assert (Et : t = -1/2) by (unfold t, four_points, vec2; change (1 / 2)%Z with 0%Z; cbn -[IZR]; lra).
    assert (DS : forall u v d, is_derive (fun s' => S s' v d) u (vec3 1 0 ((1 + v) / 4) d) /\ is_derive (fun t' => S u t' d) v (vec3 0 1 ((1 + u) / 4) d)).
    { intros u v d. split.
      - apply (is_derive_ext (fun s' => vec3 s' v (1 + (1 + s') * (1 + v) / 4) d)); [intros; symmetry; apply lifted_top|].
        unfold vec3. destruct (d =? 0)%Z; [|destruct (d =? 1)%Z]; auto_derive; auto; field.
      - apply (is_derive_ext (fun t' => vec3 u t' (1 + (1 + u) * (1 + t') / 4) d)); [intros; symmetry; apply lifted_top|].
        unfold vec3. destruct (d =? 0)%Z; [|destruct (d =? 1)%Z]; auto_derive; auto; field. }
    exists (vec3 1 0 ((1 + t) / 4)), (vec3 0 1 ((1 + s) / 4)). split; [intros d; apply DS|].
    destruct (C22_hex_normals_partial 1 5 1 4 lifted four_points (fun _ _ => 0) qp0 1 ltac:(lia) ltac:(lia) ltac:(lia) E) as [(A & B & HAB & HN) _].
    fold S s t n in HAB, HN. rewrite HN by lia.
    assert (EA : forall d, A d = vec3 1 0 ((1 + s) / 4) d).
    { intros d. destruct (HAB d) as [H _]. apply is_derive_unique in H. rewrite <- H. apply is_derive_unique. exact (proj1 (DS t s d)). }
    assert (EB : forall d, B d = vec3 0 1 ((1 + t) / 4) d).
    { intros d. destruct (HAB d) as [_ H]. apply is_derive_unique in H. rewrite <- H. apply is_derive_unique. exact (proj2 (DS t s d)). }
    unfold cross, upd1. cbn [Z.eqb Pos.eqb]. rewrite !EA, !EB. unfold vec3. cbn [Z.eqb Pos.eqb]. rewrite Es, Et. lra.
Qed.
Print Assumptions C22_hex_normals_refuted.

(** ** C61: both sides of a face evaluate their states at the same physical points *)

(** Point ip of a face is evaluated, on a side that sees the face with
    orientation o, at the orientation-0 point number order(ip) of that side
    (construct_face_states), that is at parameter turn_o (C17, C18). *)

Lemma turned_quad g face o X d : (1 <= g)%Z -> (0 <= face <= 3)%Z ->
  exists c, forall t, elem_map LagrangeQuad g X (quad_face face (quad_turn o t)) d = rsum (g + 1) (fun k => LL g k t * c k).
Proof.
  intros Hg Hf. set (L := local_nodes_on_face_quad face g (fun _ => 0%Z)). unfold quad_turn. destruct (Z.eqb_spec o 0) as [->|N].
  - exists (fun k => X (L k) d). intros t. now apply trace_quad.
  - exists (fun k => X (L (g - k)%Z) d). intros t. rewrite (trace_quad g face X (fun _ => 0%Z)) by easy. fold L.
    rewrite <- (rsum_permutes (g + 1) (fun j => g + 1 - 1 - j)%Z) by apply permutes_rev.
    apply rsum_ext. intros k Hk. rewrite LL_neg by lia. replace (g - (g + 1 - 1 - k))%Z with k by lia. replace (g + 1 - 1 - k)%Z with (g - k)%Z by lia. reflexivity.
Qed.

Lemma turned_hex g face o X d : (1 <= g)%Z -> (0 <= face <= 5)%Z -> (0 <= o <= 7)%Z ->
  exists c, forall s t, (let '(s', t') := hex_turn o s t in elem_map LagrangeHex g X (hex_face face s' t') d) =
     rsum (g + 1) (fun j => rsum (g + 1) (fun i => LL g i s * LL g j t * c i j)).
Proof.
  intros Hg Hf Ho. set (L := local_nodes_on_face_hex face g (fun _ => 0%Z)). set (N := (g + 1)%Z).
  assert (PR : forall f t, rsum N (fun a => LL g a (- t) * f a) = rsum N (fun a => LL g a t * f (g - a)%Z)).
  { intros f u. rewrite <- (rsum_permutes N (fun j => N - 1 - j)%Z) by apply permutes_rev. unfold N.
    apply rsum_ext. intros k Hk. rewrite LL_neg by lia. replace (g - (g + 1 - 1 - k))%Z with k by lia. f_equal. f_equal. lia. }
  assert (NS : forall c s t, rsum N (fun j => rsum N (fun i => LL g i (- s) * LL g j t * c i j)) = rsum N (fun j => rsum N (fun i => LL g i s * LL g j t * c (g - i)%Z j))).
  { intros c s t. apply rsum_ext. intros j Hj. rewrite (rsum_ext N _ (fun i => LL g i (- s) * (LL g j t * c i j))) by (intros; ring).
    rewrite PR. apply rsum_ext. intros; ring. }
  assert (SW : forall c s t, rsum N (fun j => rsum N (fun i => LL g i t * LL g j s * c i j)) = rsum N (fun j => rsum N (fun i => LL g i s * LL g j t * c j i))).
  { intros c s t. rewrite rsum_swap. apply rsum_ext. intros j Hj. apply rsum_ext. intros i Hi. ring. }
  assert (NT : forall c s t, rsum N (fun j => rsum N (fun i => LL g i s * LL g j (- t) * c i j)) = rsum N (fun j => rsum N (fun i => LL g i s * LL g j t * c i (g - j)%Z))).
  { intros c s t. rewrite SW, NS, SW. reflexivity. }
  pose (c := fun i j => X (L (j * N + i)%Z) d).
  assert (T : forall s t, elem_map LagrangeHex g X (hex_face face s t) d = rsum N (fun j => rsum N (fun i => LL g i s * LL g j t * c i j)))
    by (intros; now apply trace_hex).
  assert (D : (o = 0 \/ o = 1 \/ o = 2 \/ o = 3 \/ o = 4 \/ o = 5 \/ o = 6 \/ o = 7)%Z) by lia.
  destruct D as [-> | [-> | [-> | [-> | [-> | [-> | [-> | ->]]]]]]].
  - exists c. intros s t. destruct (hex_turn_table s t) as (-> & _). apply T.
  - exists (fun i j => c (g - j)%Z i). intros s t. destruct (hex_turn_table s t) as (_ & -> & _). rewrite T, NS, SW. reflexivity.
  - exists (fun i j => c (g - i)%Z (g - j)%Z). intros s t. destruct (hex_turn_table s t) as (_ & _ & -> & _). rewrite T, NS, (NT (fun i j => c (g - i)%Z j)). reflexivity.
  - exists (fun i j => c j (g - i)%Z). intros s t. destruct (hex_turn_table s t) as (_ & _ & _ & -> & _). rewrite T, NT, (SW (fun i j => c i (g - j)%Z)). reflexivity.
  - exists (fun i j => c j i). intros s t. destruct (hex_turn_table s t) as (_ & _ & _ & _ & -> & _). rewrite T, SW. reflexivity.
  - exists (fun i j => c (g - i)%Z j). intros s t. destruct (hex_turn_table s t) as (_ & _ & _ & _ & _ & -> & _). rewrite T, NS. reflexivity.
  - exists (fun i j => c (g - j)%Z (g - i)%Z). intros s t. destruct (hex_turn_table s t) as (_ & _ & _ & _ & _ & _ & -> & _).
    rewrite T, NS, (NT (fun i j => c (g - i)%Z j)), (SW (fun i j => c (g - i)%Z (g - j)%Z)). reflexivity.
  - exists (fun i j => c i (g - j)%Z). intros s t. destruct (hex_turn_table s t) as (_ & _ & _ & _ & _ & _ & _ & ->). rewrite T, NT. reflexivity.
Qed.

Lemma LL_nodal g i j : (0 <= g)%Z -> (0 <= i <= g)%Z -> (0 <= j <= g)%Z -> LL g i (even_node g j) = if (i =? j)%Z then 1 else 0.
Proof. intros. now apply (fn1_nodal LagrangeSeg). Qed.

(** Quadrilaterals of geometric order g.  If the two elements place the g+1
    nodes of the shared edge (equidistant parameters, each side in its own
    orientation) at the same positions, then every face point ip is evaluated by
    both sides at the same position. *)
Theorem C61_quad_states_coincide : forall g n fp e XL XR fL fR oL oR PL PR ordL ordR o0,
  (1 <= g)%Z -> (0 <= n)%Z -> symmetric n (fun i => fp i 0%Z) ->
  (0 <= fL <= 3)%Z -> (0 <= fR <= 3)%Z -> (0 <= oL <= 1)%Z -> (0 <= oR <= 1)%Z ->
  points_on_face_quad fL 0 n fp e = Some PL -> points_on_face_quad fR 0 n fp e = Some PR ->
  ordL = face_pts_order_quad oL n o0 -> ordR = face_pts_order_quad oR n o0 ->
  (forall k d, (0 <= k <= g)%Z -> (0 <= d < 2)%Z ->
     elem_map LagrangeQuad g XL (quad_face fL (quad_turn oL (even_node g k))) d =
     elem_map LagrangeQuad g XR (quad_face fR (quad_turn oR (even_node g k))) d) ->
  forall ip d, (0 <= ip < n)%Z -> (0 <= d < 2)%Z ->
    elem_map LagrangeQuad g XL (PL (ordL ip)) d = elem_map LagrangeQuad g XR (PR (ordR ip)) d.
Proof.
  intros g n fp e XL XR fL fR oL oR PL PR ordL ordR o0 Hg Hn Sy HfL HfR HoL HoR EL ER -> -> H ip d Hi Hd.
  destruct (C17_quad_face_point_order fL oL n fp e o0 Hn HfL Sy) as [A _]. destruct (A HoL) as (_ & P0 & P & E0 & _ & F).
  destruct (C17_quad_face_point_order fR oR n fp e o0 Hn HfR Sy) as [A' _]. destruct (A' HoR) as (_ & P0' & P' & E0' & _ & F').
  rewrite EL in E0. injection E0 as <-. rewrite ER in E0'. injection E0' as <-.
  assert (EM : forall X y y', (forall d, (0 <= d < 2)%Z -> y d = y' d) -> elem_map LagrangeQuad g X y d = elem_map LagrangeQuad g X y' d).
  { intros X y y' Hy. rewrite !map_quad by lia. apply rsum_ext. intros b Hb. apply rsum_ext. intros a Ha. now rewrite (Hy 0%Z), (Hy 1%Z) by lia. }
  rewrite (EM XL _ (quad_face fL (quad_turn oL (fp ip 0%Z)))). 2:{ intros d' Hd'. destruct (F ip d' Hi Hd') as [<- <-]. reflexivity. }
  rewrite (EM XR _ (quad_face fR (quad_turn oR (fp ip 0%Z)))). 2:{ intros d' Hd'. destruct (F' ip d' Hi Hd') as [<- <-]. reflexivity. }
  destruct (turned_quad g fL oL XL d Hg HfL) as (cL & TL). destruct (turned_quad g fR oR XR d Hg HfR) as (cR & TR).
  rewrite TL, TR. apply rsum_ext. intros k Hk. f_equal. specialize (H k d ltac:(lia) Hd). rewrite TL, TR in H.
  rewrite !(rsum_pick (g + 1) k) in H by (try lia; intros i Hii; rewrite LL_nodal by lia; reflexivity). exact H.
Qed.
Print Assumptions C61_quad_states_coincide.

Theorem C61_hex_states_coincide : forall g n x fp e XL XR fL fR oL oR PL PR ordL ordR o0,
  (1 <= g)%Z -> (0 < n)%Z -> symmetric n x -> tensor_points n x fp ->
  (0 <= fL <= 5)%Z -> (0 <= fR <= 5)%Z -> (0 <= oL <= 7)%Z -> (0 <= oR <= 7)%Z ->
  points_on_face_hex fL 0 (n * n) fp e = Some PL -> points_on_face_hex fR 0 (n * n) fp e = Some PR ->
  ordL = face_pts_order_hex oL (n * n) o0 -> ordR = face_pts_order_hex oR (n * n) o0 ->
  (forall i j d, (0 <= i <= g)%Z -> (0 <= j <= g)%Z -> (0 <= d < 3)%Z ->
     (let '(s, t) := hex_turn oL (even_node g i) (even_node g j) in elem_map LagrangeHex g XL (hex_face fL s t) d) =
     (let '(s, t) := hex_turn oR (even_node g i) (even_node g j) in elem_map LagrangeHex g XR (hex_face fR s t) d)) ->
  forall ip d, (0 <= ip < n * n)%Z -> (0 <= d < 3)%Z ->
    elem_map LagrangeHex g XL (PL (ordL ip)) d = elem_map LagrangeHex g XR (PR (ordR ip)) d.
Proof.
  intros g n x fp e XL XR fL fR oL oR PL PR ordL ordR o0 Hg Hn Sy T HfL HfR HoL HoR EL ER -> -> H ip d Hip Hd.
  destruct (C18_hex_face_point_order fL oL n x fp e o0 Hn HfL HoL Sy T) as (_ & P0 & P & E0 & _ & F).
  destruct (C18_hex_face_point_order fR oR n x fp e o0 Hn HfR HoR Sy T) as (_ & P0' & P' & E0' & _ & F').
  rewrite EL in E0. injection E0 as <-. rewrite ER in E0'. injection E0' as <-.
  assert (EM : forall X y y', (forall d, (0 <= d < 3)%Z -> y d = y' d) -> elem_map LagrangeHex g X y d = elem_map LagrangeHex g X y' d).
  { intros X y y' Hy. rewrite !map_hex by lia. apply rsum_ext. intros c Hc. apply rsum_ext. intros b Hb. apply rsum_ext. intros a Ha. now rewrite (Hy 0%Z), (Hy 1%Z), (Hy 2%Z) by lia. }
  destruct (divmod_range n ip Hn Hip) as (R1 & R2 & ->). set (i0 := (ip mod n)%Z) in *. set (j0 := (ip / n)%Z) in *.
  rewrite (EM XL _ (let '(s, t) := hex_turn oL (x i0) (x j0) in hex_face fL s t)).
  2:{ intros d' Hd'. destruct (F i0 j0 d' R1 R2 Hd') as [<- G]. rewrite G. now destruct (hex_turn oL (x i0) (x j0)). }
  rewrite (EM XR _ (let '(s, t) := hex_turn oR (x i0) (x j0) in hex_face fR s t)).
  2:{ intros d' Hd'. destruct (F' i0 j0 d' R1 R2 Hd') as [<- G]. rewrite G. now destruct (hex_turn oR (x i0) (x j0)). }
  destruct (turned_hex g fL oL XL d Hg HfL HoL) as (cL & TL). destruct (turned_hex g fR oR XR d Hg HfR HoR) as (cR & TR).
  transitivity (rsum (g + 1) (fun j => rsum (g + 1) (fun i => LL g i (x i0) * LL g j (x j0) * cL i j))).
  { rewrite <- TL. now destruct (hex_turn oL (x i0) (x j0)). }
  transitivity (rsum (g + 1) (fun j => rsum (g + 1) (fun i => LL g i (x i0) * LL g j (x j0) * cR i j))).
  2:{ rewrite <- TR. now destruct (hex_turn oR (x i0) (x j0)). }
  apply rsum_ext. intros j Hj. apply rsum_ext. intros i Hi. f_equal. specialize (H i j d ltac:(lia) ltac:(lia) Hd). rewrite TL, TR in H.
  assert (PK : forall c : Z -> Z -> R, rsum (g + 1) (fun j' => rsum (g + 1) (fun i' => LL g i' (even_node g i) * LL g j' (even_node g j) * c i' j')) = c i j).
  { intros c. rewrite (rsum_ext (g + 1) _ (fun j' => LL g j' (even_node g j) * c i j')).
    - apply (rsum_pick (g + 1) j (fun j' => c i j')); [lia|]. intros k Hk. rewrite LL_nodal by lia. reflexivity.
    - intros j' Hj'. rewrite (rsum_ext (g + 1) _ (fun i' => LL g i' (even_node g i) * (LL g j' (even_node g j) * c i' j'))) by (intros; ring).
      apply (rsum_pick (g + 1) i (fun i' => LL g j' (even_node g j) * c i' j')); [lia|]. intros k Hk. rewrite LL_nodal by lia. reflexivity. }
  rewrite !PK in H. exact H.
Qed.
Print Assumptions C61_hex_states_coincide.

(** ** C60: the normal stored for a point is that of the point the states are taken at *)

(** True for orientation 0 and for straight edges.  Missing: curved edges seen
    with orientation 1 -- false there, see the refutation below. *)
Theorem C60_normal_at_state_point_partial : forall g face o sign n X fp e qp0 ip o0,
  (1 <= g)%Z -> (0 <= face <= 3)%Z -> (0 <= o <= 1)%Z -> (0 <= ip < n)%Z -> symmetric n (fun i => fp i 0%Z) ->
  points_on_face_quad 0 0 n fp e = Some qp0 -> o = 0%Z \/ g = 1%Z ->
  let c d t := elem_map LagrangeQuad g X (quad_face face t) d in
  let nv := face_normal_quad sign face g n X qp0 ip in
  let t := fp (face_pts_order_quad o n o0 ip) 0%Z in  (* where the state is taken *)
  exists dx dy, is_derive (c 0%Z) t dx /\ is_derive (c 1%Z) t dy /\ nv 0%Z = sign * dy /\ nv 1%Z = - sign * dx.
Proof.
  intros g face o sign n X fp e qp0 ip o0 Hg Hf Ho Hi Sy E H c nv t.
  set (jp := face_pts_order_quad o n o0 ip) in *.
  assert (Hj : jp = if (o =? 0)%Z then ip else (n - 1 - ip)%Z) by (unfold jp; rewrite face_pts_order_quad_spec, rng_true by lia; reflexivity).
  destruct H as [-> | ->].
  - rewrite Z.eqb_refl in Hj. unfold t. rewrite Hj. now apply (C21_curved_quad_normals g face sign n X fp e qp0 ip).
  - assert (Hjr : (0 <= jp < n)%Z) by (rewrite Hj; destruct (o =? 0)%Z; lia).
    destruct (C21_curved_quad_normals 1 face sign n X fp e qp0 jp Hg Hf Hjr E) as (dx & dy & D0 & D1 & N0 & N1).
    exists dx, dy. split; [exact D0|]. split; [exact D1|].
    destruct (straight_normal sign face n X fp e qp0 ip Hf Hi E) as [A B]. destruct (straight_normal sign face n X fp e qp0 jp Hf Hjr E) as [A' B'].
    unfold nv. rewrite A, B, <- A', <- B'. split; assumption.
Qed.
Print Assumptions C60_normal_at_state_point_partial.

(** Two quadratic elements sharing a curved edge (x = 1 + (1 - y^2)/2), left
    element with orientation 0, right element with orientation 1, as in every
    conforming mesh; two symmetric points.  Both sides evaluate point 0 at the
    same position, but the rank that owns the left element stores the normal
    (1, -1/2) there and the rank that owns the right element (1, 1/2). *)
Definition curvedL (q d : Z) : R := vec2 (if (q =? 5)%Z then 3/2 else IZR (q mod 3) - 1) (IZR (q / 3) - 1) d.
Definition curvedR (q d : Z) : R := vec2 (if (q =? 3)%Z then 3/2 else IZR (q mod 3) + 1) (IZR (q / 3) - 1) d.
Definition two_points (q d : Z) : R := IZR q - 1/2.

Lemma LL2 k t : (0 <= k <= 2)%Z -> LL 2 k t = if (k =? 0)%Z then t * (t - 1) / 2 else if (k =? 1)%Z then 1 - t * t else t * (t + 1) / 2.
Proof.
  intros Hk. assert (C : (k = 0 \/ k = 1 \/ k = 2)%Z) by lia. destruct C as [-> | [-> | ->]]; unfold LL, lagrange_poly, even_node; change (2 + 1)%Z with 3%Z;
  rewrite rprod_3; cbn -[IZR]; field; lra.
Qed.

Lemma curvedL_edge t d : elem_map LagrangeQuad 2 curvedL (quad_face 1 t) d = vec2 (1 + (1 - t * t) / 2) t d.
Proof.
  rewrite (trace_quad 2 1 curvedL (fun _ => 0%Z) t d) by lia. change (2 + 1)%Z with 3%Z. rewrite rsum_3, !LL2 by lia.
  rewrite !local_nodes_quad_spec by lia. unfold curvedL, vec2. cbn -[IZR Z.div Z.modulo].
  change (2 mod 3)%Z with 2%Z. change (8 mod 3)%Z with 2%Z. change (5 / 3)%Z with 1%Z. change (2 / 3)%Z with 0%Z. change (8 / 3)%Z with 2%Z.
  destruct (d =? 0)%Z; field.
Qed.
Lemma curvedR_edge t d : elem_map LagrangeQuad 2 curvedR (quad_face 3 t) d = vec2 (1 + (1 - t * t) / 2) (- t) d.
Proof.
  rewrite (trace_quad 2 3 curvedR (fun _ => 0%Z) t d) by lia. change (2 + 1)%Z with 3%Z. rewrite rsum_3, !LL2 by lia.
  rewrite !local_nodes_quad_spec by lia. unfold curvedR, vec2. cbn -[IZR Z.div Z.modulo].
  change (6 mod 3)%Z with 0%Z. change (0 mod 3)%Z with 0%Z. change (3 / 3)%Z with 1%Z. change (6 / 3)%Z with 2%Z. change (0 / 3)%Z with 0%Z.
  destruct (d =? 0)%Z; field.
Qed.

Theorem C60_curved_normals_refuted :
  exists qp0 PL PR,
  points_on_face_quad 0 0 2 two_points (fun _ _ => 0) = Some qp0 /\
  points_on_face_quad 1 0 2 two_points (fun _ _ => 0) = Some PL /\
  points_on_face_quad 3 0 2 two_points (fun _ _ => 0) = Some PR /\
  symmetric 2 (fun i => two_points i 0) /\
  (forall ip d, (0 <= ip < 2)%Z -> (0 <= d < 2)%Z ->
     elem_map LagrangeQuad 2 curvedL (PL (face_pts_order_quad 0 2 (fun _ => 0%Z) ip)) d =
     elem_map LagrangeQuad 2 curvedR (PR (face_pts_order_quad 1 2 (fun _ => 0%Z) ip)) d) /\
  (face_normal_quad 1 1 2 2 curvedL qp0 0 0%Z, face_normal_quad 1 1 2 2 curvedL qp0 0 1%Z) = (1, -1/2) /\
  (face_normal_quad (-1) 3 2 2 curvedR qp0 0 0%Z, face_normal_quad (-1) 3 2 2 curvedR qp0 0 1%Z) = (1, 1/2).
Proof.
  destruct (points_quad_spec 0 0 2 two_points (fun _ _ => 0) ltac:(lia) ltac:(lia) ltac:(lia)) as (qp0 & E & _).
  destruct (points_quad_spec 1 0 2 two_points (fun _ _ => 0) ltac:(lia) ltac:(lia) ltac:(lia)) as (PL & EL & _).
  destruct (points_quad_spec 3 0 2 two_points (fun _ _ => 0) ltac:(lia) ltac:(lia) ltac:(lia)) as (PR & ER & _).
  assert (Sy : symmetric 2 (fun i => two_points i 0)).
  { intros i Hi. unfold two_points. assert (Ci : (i = 0 \/ i = 1)%Z) by lia. destruct Ci as [-> | ->]; cbn -[IZR]; lra. }
  exists qp0, PL, PR. do 3 (split; [assumption|]). split; [exact Sy|]. split; [|split].
  - eapply (C61_quad_states_coincide 2 2 two_points (fun _ _ => 0) curvedL curvedR 1 3 0 1); eauto; try lia.
    intros k d Hk Hd. rewrite curvedL_edge, curvedR_edge. unfold quad_turn. cbn [Z.eqb]. rewrite Ropp_involutive.
    f_equal. field.
  - destruct (C21_curved_quad_normals 2 1 1 2 curvedL two_points (fun _ _ => 0) qp0 0 ltac:(lia) ltac:(lia) ltac:(lia) E) as (dx & dy & D0 & D1 & N0 & N1).
    rewrite N0, N1. apply is_derive_unique in D0, D1. rewrite <- D0, <- D1.
    rewrite (Derive_ext _ _ _ (fun t => curvedL_edge t 0)), (Derive_ext _ _ _ (fun t => curvedL_edge t 1)). unfold vec2. cbn [Z.eqb].
    rewrite (is_derive_unique (fun t => 1 + (1 - t * t) / 2) _ (- two_points 0 0)) by (auto_derive; [easy|field]).
    rewrite (is_derive_unique (fun t => t) _ 1) by (auto_derive; [easy|field]). unfold two_points. f_equal; lra.
  - destruct (C21_curved_quad_normals 2 3 (-1) 2 curvedR two_points (fun _ _ => 0) qp0 0 ltac:(lia) ltac:(lia) ltac:(lia) E) as (dx & dy & D0 & D1 & N0 & N1).
    rewrite N0, N1. apply is_derive_unique in D0, D1. rewrite <- D0, <- D1.
    rewrite (Derive_ext _ _ _ (fun t => curvedR_edge t 0)), (Derive_ext _ _ _ (fun t => curvedR_edge t 1)). unfold vec2. cbn [Z.eqb].
    rewrite (is_derive_unique (fun t => 1 + (1 - t * t) / 2) _ (- two_points 0 0)) by (auto_derive; [easy|field]).
    rewrite (is_derive_unique (fun t => - t) _ (-1)) by (auto_derive; [easy|field]). unfold two_points. f_equal; lra.
Qed.
Print Assumptions C60_curved_normals_refuted.

(** Non-vacuity of C21: the unit-square-like element with corners (0,0), (3,0),
    (0,2), (4,3) is convex. *)
Example C21_example : convex_ccw (fun q d => nthR (if (d =? 0)%Z then [0; 3; 0; 4] else [0; 0; 2; 3]) (Z.to_nat q)).
Proof.
  intros k Hk. assert (C : (k = 0 \/ k = 1 \/ k = 2 \/ k = 3)%Z) by lia.
  assert (E0 : ccw 0 = 0%Z) by (vm_compute; reflexivity). assert (E1 : ccw 1 = 1%Z) by (vm_compute; reflexivity).
  assert (E2 : ccw 2 = 3%Z) by (vm_compute; reflexivity). assert (E3 : ccw 3 = 2%Z) by (vm_compute; reflexivity).
  assert (E4 : ccw 4 = 0%Z) by (vm_compute; reflexivity). assert (E5 : ccw 5 = 1%Z) by (vm_compute; reflexivity).
  unfold cross2, nthR. destruct C as [-> | [-> | [-> | ->]]]; cbn [Z.add Pos.add Pos.succ];
  rewrite ?E0, ?E1, ?E2, ?E3, ?E4, ?E5; cbn [Z.eqb]; change (Z.to_nat 0) with 0%nat; change (Z.to_nat 1) with 1%nat;
  change (Z.to_nat 2) with 2%nat; change (Z.to_nat 3) with 3%nat; cbn [nth]; lra.
Qed.
