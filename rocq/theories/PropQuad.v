(** PropQuad.v -- property theorems C36-C39 (quadrature rules and nodes). *)
From Coq Require Import ZArith List Lia Reals Lra Bool Psatz.
From Coquelicot Require Import Coquelicot.
From Verif Require Import Base RBase QuadTables QuadModel QuadProof QuadCheck.
Import ListNotations.
Local Open Scope R_scope.
Open Scope res_scope.

(** ** Specification *)

(** The polynomial c_0 + c_1 t + ... + c_d t^d. *)
Definition poly (d : Z) (c : Z -> R) (t : R) : R := rsum (d + 1) (fun k => c k * t ^ Z.to_nat k).

(** The n-point rule (x, w) on [-1,1]: points increasing and inside, symmetric,
    positive weights, and every polynomial of degree at most d is integrated with
    an error of at most eps times the sum of its absolute coefficients. *)
Definition good_rule (n d : Z) (eps : R) (x w : arr1) : Prop :=
  (forall i, (0 <= i < n)%Z -> -1 < x i < 1 /\ 0 < w i /\ x (n - 1 - i)%Z = - x i /\ w (n - 1 - i)%Z = w i) /\
  (forall i j, (0 <= i < j)%Z -> (j < n)%Z -> x i < x j) /\
  (forall c e, (0 <= e <= d)%Z -> exists I, is_RInt (poly e c) (-1) 1 I /\
     Rabs (rsum n (fun i => w i * poly e c (x i)) - I) <= eps * rsum (e + 1) (fun k => Rabs (c k))).

Lemma moment_bound k : (0 <= k)%Z -> Rabs (moment k) <= 2.
Proof.
  intros H. apply IZR_le in H as H'. unfold moment. destruct (Z.even k); [|rewrite Rabs_R0; lra].
  unfold Rdiv. rewrite Rabs_mult, (Rabs_pos_eq 2) by lra.
  rewrite Rabs_pos_eq by (left; apply Rinv_0_lt_compat; lra).
  assert (/ (IZR k + 1) <= 1) by (rewrite <- Rinv_1; apply Rinv_le_contravar; lra). lra.
Qed.

Lemma poly_error n x w d eps : 
  (forall k, (0 <= k <= d)%Z -> Rabs (rsum n (fun i => w i * x i ^ Z.to_nat k) - moment k) <= eps) ->
  forall c e, (0 <= e <= d)%Z -> exists I, is_RInt (poly e c) (-1) 1 I /\
     Rabs (rsum n (fun i => w i * poly e c (x i)) - I) <= eps * rsum (e + 1) (fun k => Rabs (c k)).
Proof.
  intros H c e He. exists (rsum (e + 1) (fun k => c k * moment k)). split.
  - unfold poly. apply (is_RInt_rsum (e + 1) (fun k t => c k * t ^ Z.to_nat k) (fun k => c k * moment k)).
    intros k Hk. apply (is_RInt_scal (fun t => t ^ Z.to_nat k) (-1) 1 (c k) (moment k)). apply is_RInt_monomial; lia.
  - unfold poly.
    rewrite (rsum_ext n _ (fun i => rsum (e + 1) (fun k => c k * (w i * x i ^ Z.to_nat k)))).
    2:{ intros i Hi. rewrite <- rsum_scal. apply rsum_ext. intros; ring. }
    rewrite rsum_swap. rewrite (rsum_ext (e + 1) _ (fun k => c k * rsum n (fun i => w i * x i ^ Z.to_nat k))).
    2:{ intros k Hk. now rewrite rsum_scal. }
    rewrite <- rsum_minus. eapply Rle_trans; [apply rsum_Rabs|]. rewrite <- rsum_scal. apply rsum_le.
    intros k Hk. rewrite <- Rmult_minus_distr_l, Rabs_mult, Rmult_comm.
    apply Rmult_le_compat_r; [apply Rabs_pos|]. apply H. lia.
Qed.

(** ** C36: the tabulated rules. *)

Lemma npts order nq0 : (0 <= order)%Z ->
  fst (get_number_of_quadrature_points order 1 nq0) = (order / 2 + 1)%Z.
Proof.
  intros H. unfold get_number_of_quadrature_points. cbn [fst].
  rewrite !Z.rem_mod_nonneg, !Z.quot_div_nonneg by lia.
  assert (E : (order = 2 * (order / 2) + order mod 2)%Z) by (apply Z.div_mod; lia).
  pose proof (Z.mod_pos_bound order 2 ltac:(lia)) as Hb.
  set (h := (order / 2)%Z) in *. assert (order mod 2 = 0 \/ order mod 2 = 1)%Z as [R|R] by lia; rewrite R in E.
  - replace (order + 2)%Z with ((h + 1) * 2)%Z by lia. replace (order + 1)%Z with (1 + h * 2)%Z by lia.
    rewrite Z.mod_mul, Z.div_mul, Z.mod_add by lia. reflexivity.
  - replace (order + 1)%Z with ((h + 1) * 2)%Z by lia. rewrite Z.mod_mul, Z.div_mul by lia. reflexivity.
Qed.

(** Every order 0..49 except 36 and 37, whatever the arrays contained; the
    number of points is the one the program computes.  Missing: orders 36, 37. *)
Theorem C36_gl_rules_partial : forall order nq0,
  (0 <= order <= 49)%Z -> order <> 36%Z -> order <> 37%Z ->
  let n := fst (get_number_of_quadrature_points order 1 nq0) in
  (order <= 2 * n - 1 <= order + 1)%Z /\
  exists X W, zlen X = n /\ zlen W = n /\
    (forall pts wts, zlen pts = n -> zlen wts = n -> segment_quadrature order pts wts = Ok (X, W)) /\
    good_rule n (2 * n - 1) (/ 10 ^ 30) (arr_of X) (arr_of W).
Proof.
  intros order nq0 Ho H36 H37 n. unfold n. rewrite npts by lia. clear n. set (n := (order / 2 + 1)%Z).
  assert (E : (order = 2 * (order / 2) + order mod 2)%Z) by (apply Z.div_mod; lia).
  pose proof (Z.mod_pos_bound order 2 ltac:(lia)) as Hb.
  split; [unfold n; lia|].
  pose proof (rule_ok_order order ltac:(lia) H36 H37) as HR. unfold rule_ok in HR. fold n in HR.
  destruct (assigned_values (gl_node_assignments order) (zseq n)) as [X|] eqn:EX; [|discriminate].
  destruct (assigned_values (gl_weight_assignments order) (zseq n)) as [W|] eqn:EW; [|discriminate].
  rewrite !andb_true_iff in HR. destruct HR as ((((((R1 & R2) & R3) & R4) & R5) & R6) & R7).
  assert (Hn : (0 < n)%Z) by (unfold n; lia).
  assert (LX : zlen X = n).
  { destruct (assigned_nth _ _ _ EX) as [L _]. unfold zlen. rewrite L. apply (zlen_zseq n); lia. }
  assert (LW : zlen W = n).
  { destruct (assigned_nth _ _ _ EW) as [L _]. unfold zlen. rewrite L. apply (zlen_zseq n); lia. }
  exists X, W. split; [exact LX|]. split; [exact LW|]. split; [|split; [|split]].
  - intros pts wts Lp Lw. unfold segment_quadrature, get_gauss_legendre_segment_nodes, get_segment_weights_gl.
    rewrite (assign_full _ n X pts ltac:(lia) R1 EX Lp). cbn [bind].
    rewrite (assign_full _ n W wts ltac:(lia) R2 EW Lw). reflexivity.
  - intros i Hi. rewrite forallb_forall in R3, R5, R6.
    assert (HXi : In (nth (Z.to_nat i) X 0%Z) X) by (apply nth_In_Z; lia).
    assert (HWi : In (nth (Z.to_nat i) W 0%Z) W) by (apply nth_In_Z; lia).
    specialize (R3 _ HXi). specialize (R6 _ HWi). rewrite andb_true_iff, !Z.ltb_lt in R3. rewrite andb_true_iff, Z.ltb_lt in R6.
    specialize (R5 i (proj2 (In_zseq n i) Hi)). rewrite andb_true_iff, !Z.eqb_eq in R5. destruct R5 as [S1 S2].
    pose proof SC_pos as HS.
    assert (L1 : lit SC = 1) by (rewrite lit_pow; field; lra).
    assert (Lm1 : lit (- SC) = -1) by (rewrite lit_pow, opp_IZR; field; lra).
    assert (L0 : lit 0 = 0) by (rewrite lit_pow; unfold Rdiv; lra).
    unfold arr_of. split; [split; [rewrite <- Lm1|rewrite <- L1]; apply lit_lt; lia|].
    split; [rewrite <- L0; apply lit_lt; lia|].
    split; [|now rewrite S2]. rewrite S1. rewrite !lit_pow, opp_IZR. field. lra.
  - intros i j Hij Hj. unfold arr_of. apply lit_lt. apply increasing_lt; [exact R4|].
    unfold zlen in LX. lia.
  - apply poly_error. intros k Hk. rewrite <- LX.
    apply (moments_ok_spec X W ltac:(unfold zlen in *; lia)) with (d := Z.to_nat (2 * n)) (k := 0%Z) (P := map fx W);
      [unfold n in *; lia| |lia|unfold n in *; lia|rewrite map_length; unfold zlen in *; lia| |exact R7|lia].
    + intros i Hi. rewrite forallb_forall in R3, R6.
      assert (HXi : In (nth (Z.to_nat i) X 0%Z) X) by (apply nth_In_Z; lia).
      assert (HWi : In (nth (Z.to_nat i) W 0%Z) W) by (apply nth_In_Z; lia).
      specialize (R3 _ HXi). specialize (R6 _ HWi). rewrite andb_true_iff, !Z.ltb_lt in R3.
      rewrite andb_true_iff, Z.ltb_lt, Z.leb_le in R6. destruct R3 as [U1 U2], R6 as [U3 U4].
      apply lit_lt in U1, U2, U3. pose proof SC_pos as HS.
      assert (L1 : lit SC = 1) by (rewrite lit_pow; set (sc := IZR SC) in *; clearbody sc; field; lra).
      assert (Lm1 : lit (- SC) = -1) by (rewrite lit_pow, opp_IZR; set (sc := IZR SC) in *; clearbody sc; field; lra).
      assert (L0 : lit 0 = 0) by (rewrite lit_pow; unfold Rdiv; lra).
      assert (L2 : lit (nth (Z.to_nat i) W 0%Z) <= 2).
      { apply IZR_le in U4. rewrite mult_IZR in U4. rewrite lit_pow. set (sc := IZR SC) in *. clearbody sc.
        apply (Rmult_le_reg_r sc); [exact HS|]. unfold Rdiv. rewrite Rmult_assoc, Rinv_l by lra. lra. }
      unfold arr_of. split; apply Rabs_le; lra.
    + intros i Hi. rewrite (nth_indep _ 0%Z (fx 0%Z)) by (rewrite map_length; unfold zlen in *; lia).
      rewrite map_nth. cbn [Z.to_nat pow]. rewrite Rmult_1_r. rewrite Rmult_0_r, Rplus_0_l, Rmult_1_l. apply fx_err.
Qed.
Print Assumptions C36_gl_rules_partial.

(** Orders 36 and 37: entry 15 of the points is never assigned (entry 16 is
    assigned twice).  Its old content stays; in a fresh (zero-filled) array the
    point 0 appears twice, the points are neither increasing nor symmetric, and
    the integral of t^2 is off by more than 0.06. *)
Theorem C36_order_36_37_refuted : forall order, order = 36%Z \/ order = 37%Z ->
  fst (get_number_of_quadrature_points order 1 0) = 19%Z /\
  (forall pts wts, zlen pts = 19%Z -> zlen wts = 19%Z -> exists X W, segment_quadrature order pts wts = Ok (X, W) /\
     rd X 15 = rd pts 15) /\
  (exists X W, segment_quadrature order (vec 19 0%Z) (vec 19 0%Z) = Ok (X, W) /\
     arr_of X 15%Z = 0 /\ arr_of X 9%Z = 0 /\
     exists I, is_RInt (fun t => t ^ 2) (-1) 1 I /\
     rsum 19 (fun i => arr_of W i * arr_of X i ^ 2) - I < - (6 / 100)) /\
  ~ exists X W, segment_quadrature order (vec 19 0%Z) (vec 19 0%Z) = Ok (X, W) /\
      good_rule 19 order (/ 10 ^ 30) (arr_of X) (arr_of W).
Proof.
  intros order Ho.
  assert (Hn : forall k x, In (k, x) (gl_node_assignments order) -> (0 <= k < 19)%Z).
  { assert (HR : in_range (gl_node_assignments order) 19 = true) by (destruct Ho as [->| ->]; vm_compute; reflexivity).
    unfold in_range in HR. rewrite forallb_forall in HR. intros k x Hk. specialize (HR _ Hk). cbn in HR.
    rewrite andb_true_iff, Z.leb_le, Z.ltb_lt in HR. lia. }
  assert (Hw : forall k x, In (k, x) (gl_weight_assignments order) -> (0 <= k < 19)%Z).
  { assert (HR : in_range (gl_weight_assignments order) 19 = true) by (destruct Ho as [->| ->]; vm_compute; reflexivity).
    unfold in_range in HR. rewrite forallb_forall in HR. intros k x Hk. specialize (HR _ Hk). cbn in HR.
    rewrite andb_true_iff, Z.leb_le, Z.ltb_lt in HR. lia. }
  assert (Hz : exists X W, segment_quadrature order (vec 19 0%Z) (vec 19 0%Z) = Ok (X, W) /\
     nth 15 X 1%Z = 0%Z /\ nth 9 X 1%Z = 0%Z /\ zlen X = 19%Z /\ zlen W = 19%Z /\
     (300 * zsum (map (fun xw => fst xw * (fst xw * snd xw)) (combine X W)) < 182 * (SC * (SC * SC)))%Z).
  { destruct Ho as [->| ->]; eexists; eexists; (split; [vm_compute; reflexivity|]); vm_compute; repeat split; reflexivity. }
  split; [destruct Ho as [->| ->]; vm_compute; reflexivity|]. split; [|split].
  - intros pts wts Lp Lw. unfold segment_quadrature, get_gauss_legendre_segment_nodes, get_segment_weights_gl.
    destruct (assign_spec _ pts (fun k x Hk => ltac:(rewrite Lp; exact (Hn k x Hk)))) as (X & -> & LX & RX).
    destruct (assign_spec _ wts (fun k x Hk => ltac:(rewrite Lw; exact (Hw k x Hk)))) as (W & -> & LW & RW).
    cbn [bind]. exists X, W. split; [reflexivity|]. rewrite RX.
    replace (last_assigned (gl_node_assignments order) 15) with (@None Z); [reflexivity|].
    destruct Ho as [->| ->]; vm_compute; reflexivity.
  - destruct Hz as (X & W & E & H15 & H9 & LX & LW & HI). exists X, W. split; [exact E|].
    unfold zlen in LX, LW.
    assert (L0 : lit 0 = 0) by (unfold lit, Rdiv; lra).
    split; [|split].
    + unfold arr_of. replace (Z.to_nat 15) with 15%nat by lia. rewrite (nth_indep X 0%Z 1%Z) by lia. now rewrite H15.
    + unfold arr_of. replace (Z.to_nat 9) with 9%nat by lia. rewrite (nth_indep X 0%Z 1%Z) by lia. now rewrite H9.
    + exists (2 / 3). split.
      * pose proof (is_RInt_monomial 2 ltac:(lia)) as Q. unfold moment in Q. cbn -[IZR pow] in Q.
        replace (2 / (2 + 1)) with (2 / 3) in Q by lra. exact Q.
      * apply IZR_lt in HI. rewrite !mult_IZR in HI.
        rewrite zsum_rsum in HI.
        replace (zlen (map (fun xw : Z * Z => (fst xw * (fst xw * snd xw))%Z) (combine X W))) with 19%Z in HI.
        2:{ unfold zlen. rewrite map_length, combine_length. lia. }
        pose proof SC_pos as HS.
        rewrite (rsum_ext 19 _ (fun i => IZR SC * (IZR SC * IZR SC) * (arr_of W i * arr_of X i ^ 2))) in HI.
        2:{ intros i Hi. change 0%Z with ((fun xw => fst xw * (fst xw * snd xw))%Z (0%Z, 0%Z)) at 1.
            rewrite map_nth, combine_nth by lia. cbn [fst snd]. rewrite !mult_IZR. unfold arr_of.
            rewrite !lit_pow. set (sc := IZR SC) in *. clearbody sc. field. lra. }
        rewrite rsum_scal in HI. set (S := rsum 19 _) in *. clearbody S.
        assert (P : 0 < IZR SC * (IZR SC * IZR SC)) by (apply Rmult_lt_0_compat; [exact HS|apply Rmult_lt_0_compat; exact HS]).
        set (C := IZR SC * (IZR SC * IZR SC)) in *. clearbody C.
        apply (Rmult_lt_reg_l (300 * C)); [lra|]. lra.
  - intros (X & W & E & _ & HI & _). destruct Hz as (X' & W' & E' & H15 & H9 & LX & LW & _).
    rewrite E in E'. injection E' as -> ->. unfold zlen in LX, LW.
    specialize (HI 9%Z 15%Z ltac:(lia) ltac:(lia)). unfold arr_of in HI.
    replace (Z.to_nat 9) with 9%nat in HI by lia. replace (Z.to_nat 15) with 15%nat in HI by lia.
    rewrite !(nth_indep X' 0%Z 1%Z) in HI by lia. rewrite H9, H15 in HI. lra.
Qed.
Print Assumptions C36_order_36_37_refuted.

(** ** C37: orders used by the program. *)

(** Solution orders 0..23 except 17: every point and weight is assigned. *)
Theorem C37_orders_tabulated_partial : forall p nq0, (0 <= p <= 23)%Z -> p <> 17%Z ->
  let order := get_gausslegendre_quadrature_order p in
  let n := fst (get_number_of_quadrature_points order 1 nq0) in
  n = (p + 2)%Z /\
  exists X W, zlen X = n /\ zlen W = n /\
    (forall pts wts, zlen pts = n -> zlen wts = n -> segment_quadrature order pts wts = Ok (X, W)) /\
    good_rule n order (/ 10 ^ 30) (arr_of X) (arr_of W).
Proof.
  intros p nq0 Hp H17 order n.
  assert (Eo : order = (2 * p + 3)%Z) by (unfold order, get_gausslegendre_quadrature_order; lia).
  assert (En : n = (p + 2)%Z).
  { unfold n. rewrite npts by lia. rewrite Eo. replace (2 * p + 3)%Z with ((p + 1) * 2 + 1)%Z by lia.
    rewrite Z.div_add_l by lia. change (1 / 2)%Z with 0%Z. lia. }
  split; [exact En|].
  destruct (C36_gl_rules_partial order nq0 ltac:(lia) ltac:(lia) ltac:(lia)) as (_ & X & W & LX & LW & HQ & G1 & G2 & G3).
  exists X, W. split; [exact LX|]. split; [exact LW|]. split; [exact HQ|]. split; [exact G1|]. split; [exact G2|].
  intros c e He. apply G3. fold n. rewrite En. lia.
Qed.
Print Assumptions C37_orders_tabulated_partial.

(** Solution orders 24 and above: nothing is assigned, so the points and weights
    keep what the arrays held; with the fresh arrays of the quadrilateral and
    hexahedron rules all weights are zero and every integral vanishes. *)
Theorem C37_orders_beyond_table_refuted : forall p, (24 <= p)%Z ->
  let order := get_gausslegendre_quadrature_order p in
  (forall pts wts, segment_quadrature order pts wts = Ok (pts, wts)) /\
  (forall n P W, (0 <= n)%Z -> exists P' W', quadrilateral_quadrature order n P W = Ok (P', W') /\
     forall f, rsum (n * n) (fun q => W' q * f (P' q 0%Z) (P' q 1%Z)) = 0) /\
  (forall n P W, (0 <= n)%Z -> exists P' W', hexahedron_quadrature order n P W = Ok (P', W') /\
     forall f, rsum (n * n * n) (fun q => W' q * f (P' q 0%Z) (P' q 1%Z) (P' q 2%Z)) = 0).
Proof.
  intros p Hp order.
  assert (E : gl_node_assignments order = [] /\ gl_weight_assignments order = []).
  { assert (H : (51 <= order)%Z) by (unfold order, get_gausslegendre_quadrature_order; lia).
    destruct order as [|q|q]; [lia| |lia].
    do 6 (destruct q as [q|q|]; try (split; reflexivity); try lia). }
  assert (Q : forall pts wts, segment_quadrature order pts wts = Ok (pts, wts)).
  { intros. unfold segment_quadrature, get_gauss_legendre_segment_nodes, get_segment_weights_gl.
    destruct E as [-> ->]. reflexivity. }
  assert (V0 : forall n i, arr_of (vec n 0%Z) i = 0).
  { intros n i. unfold arr_of, vec. rewrite nth_repeat. unfold lit, Rdiv. lra. }
  split; [exact Q|]. split.
  - intros n P W Hn. unfold quadrilateral_quadrature. rewrite Q. cbn [bind fst snd].
    set (s := quad_tensor _ _ _ _ _). exists (fst s), (snd s). split; [now destruct s|].
    intros f. apply rsum_zero. intros q Hq.
    pose proof (quad_tensor_spec n (arr_of (vec n 0%Z)) (arr_of (vec n 0%Z)) P W q Hn) as S. cbn zeta in S. fold s in S.
    replace ((0 <=? q) && (q <? n * n))%Z%bool with true in S
      by (symmetry; apply andb_true_iff; rewrite Z.leb_le, Z.ltb_lt; lia).
    injection S as _ _ ->. rewrite V0. ring.
  - intros n P W Hn. unfold hexahedron_quadrature. rewrite Q. cbn [bind fst snd].
    set (s := hex_tensor _ _ _ _ _). exists (fst s), (snd s). split; [now destruct s|].
    intros f. apply rsum_zero. intros q Hq.
    pose proof (hex_tensor_spec n (arr_of (vec n 0%Z)) (arr_of (vec n 0%Z)) P W q Hn) as S. cbn zeta in S. fold s in S.
    replace ((0 <=? q) && (q <? n * n * n))%Z%bool with true in S
      by (symmetry; apply andb_true_iff; rewrite Z.leb_le, Z.ltb_lt; lia).
    injection S as _ _ _ ->. rewrite V0. ring.
Qed.
Print Assumptions C37_orders_beyond_table_refuted.

(** ** C38: tensor-product rules. *)
Theorem C38_quadrilateral_rule : forall n x w P W, (0 < n)%Z ->
  let P' := fst (quad_tensor n x w P W) in let W' := snd (quad_tensor n x w P W) in
  (forall i j, (0 <= i < n)%Z -> (0 <= j < n)%Z ->
     P' (j * n + i)%Z 0%Z = x i /\ P' (j * n + i)%Z 1%Z = x j /\ W' (j * n + i)%Z = w i * w j) /\
  (forall q, (0 <= q < n * n)%Z -> exists! ij, (0 <= fst ij < n)%Z /\ (0 <= snd ij < n)%Z /\ q = (snd ij * n + fst ij)%Z) /\
  (forall q, ~ (0 <= q < n * n)%Z -> P' q 0%Z = P q 0%Z /\ P' q 1%Z = P q 1%Z /\ W' q = W q) /\
  (forall F, rsum (n * n) (fun q => W' q * F (P' q 0%Z) (P' q 1%Z)) =
             rsum n (fun j => w j * rsum n (fun i => w i * F (x i) (x j)))) /\
  (forall f g, rsum (n * n) (fun q => W' q * (f (P' q 0%Z) * g (P' q 1%Z))) =
               rsum n (fun i => w i * f (x i)) * rsum n (fun j => w j * g (x j))).
Proof.
  intros n x w P W Hn P' W'.
  assert (S : forall q, (P' q 0%Z, P' q 1%Z, W' q) = if ((0 <=? q) && (q <? n * n))%Z%bool
    then (x (q mod n)%Z, x (q / n)%Z, w (q mod n)%Z * w (q / n)%Z) else (P q 0%Z, P q 1%Z, W q)).
  { intros q. apply quad_tensor_spec. lia. }
  assert (Sin : forall q, (0 <= q < n * n)%Z -> P' q 0%Z = x (q mod n)%Z /\ P' q 1%Z = x (q / n)%Z /\ W' q = w (q mod n)%Z * w (q / n)%Z).
  { intros q Hq. specialize (S q). replace ((0 <=? q) && (q <? n * n))%Z%bool with true in S
      by (symmetry; apply andb_true_iff; rewrite Z.leb_le, Z.ltb_lt; lia). injection S as -> -> ->. auto. }
  assert (HF : forall F, rsum (n * n) (fun q => W' q * F (P' q 0%Z) (P' q 1%Z)) =
             rsum n (fun j => w j * rsum n (fun i => w i * F (x i) (x j)))).
  { intros F. rewrite (rsum_ext _ _ (fun q => (fun i j => w i * w j * F (x i) (x j)) (q mod n)%Z (q / n)%Z)).
    2:{ intros q Hq. destruct (Sin q Hq) as (-> & -> & ->). reflexivity. }
    rewrite (rsum_flat n n (fun i j => w i * w j * F (x i) (x j))) by lia.
    apply rsum_ext. intros j Hj. rewrite <- rsum_scal. apply rsum_ext. intros; ring. }
  split; [|split; [|split; [|split]]].
  - intros i j Hi Hj. destruct (Sin (j * n + i)%Z ltac:(nia)) as (-> & -> & ->).
    rewrite idx2_mod, idx2_div by lia. auto.
  - intros q Hq. exists (q mod n, q / n)%Z. split.
    + cbn [fst snd]. pose proof (Z.mod_pos_bound q n ltac:(lia)). pose proof (Z.div_mod q n ltac:(lia)).
      assert (0 <= q / n < n)%Z by (split; [apply Z.div_pos; lia|apply Z.div_lt_upper_bound; lia]).
      split; [lia|]. split; [lia|]. lia.
    + intros [i j] (Hi & Hj & ->). cbn [fst snd] in *. rewrite idx2_mod, idx2_div by lia. reflexivity.
  - intros q Hq. specialize (S q). replace ((0 <=? q) && (q <? n * n))%Z%bool with false in S.
    + injection S as -> -> ->. auto.
    + symmetry. apply not_true_is_false. rewrite andb_true_iff, Z.leb_le, Z.ltb_lt. lia.
  - exact HF.
  - intros f g. rewrite (HF (fun a b => f a * g b)).
    rewrite (rsum_ext n _ (fun j => rsum n (fun i => w i * f (x i)) * (w j * g (x j)))).
    + now rewrite rsum_scal.
    + intros j Hj. rewrite (rsum_ext n _ (fun i => w i * f (x i) * g (x j))) by (intros; ring). rewrite rsum_scal_r. ring.
Qed.
Print Assumptions C38_quadrilateral_rule.

Theorem C38_hexahedron_rule : forall n x w P W, (0 < n)%Z ->
  let P' := fst (hex_tensor n x w P W) in let W' := snd (hex_tensor n x w P W) in
  (forall i j k, (0 <= i < n)%Z -> (0 <= j < n)%Z -> (0 <= k < n)%Z ->
     let q := (k * n * n + j * n + i)%Z in
     (0 <= q < n * n * n)%Z /\
     P' q 0%Z = x i /\ P' q 1%Z = x j /\ P' q 2%Z = x k /\ W' q = w i * w j * w k) /\
  (forall q, (0 <= q < n * n * n)%Z -> exists! ijk, let '(i, j, k) := ijk in
     (0 <= i < n)%Z /\ (0 <= j < n)%Z /\ (0 <= k < n)%Z /\ q = (k * n * n + j * n + i)%Z) /\
  (forall q, ~ (0 <= q < n * n * n)%Z -> P' q 0%Z = P q 0%Z /\ P' q 1%Z = P q 1%Z /\ P' q 2%Z = P q 2%Z /\ W' q = W q) /\
  (forall F, rsum (n * n * n) (fun q => W' q * F (P' q 0%Z) (P' q 1%Z) (P' q 2%Z)) =
     rsum n (fun k => w k * rsum n (fun j => w j * rsum n (fun i => w i * F (x i) (x j) (x k))))) /\
  (forall f g h, rsum (n * n * n) (fun q => W' q * (f (P' q 0%Z) * g (P' q 1%Z) * h (P' q 2%Z))) =
     rsum n (fun i => w i * f (x i)) * rsum n (fun j => w j * g (x j)) * rsum n (fun k => w k * h (x k))).
Proof.
  intros n x w P W Hn P' W'.
  assert (S : forall q, (P' q 0%Z, P' q 1%Z, P' q 2%Z, W' q) = if ((0 <=? q) && (q <? n * n * n))%Z%bool
    then (x (q mod n)%Z, x ((q / n) mod n)%Z, x (q / (n * n))%Z, w (q mod n)%Z * w ((q / n) mod n)%Z * w (q / (n * n))%Z)
    else (P q 0%Z, P q 1%Z, P q 2%Z, W q)).
  { intros q. apply hex_tensor_spec. lia. }
  assert (Sin : forall q, (0 <= q < n * n * n)%Z -> P' q 0%Z = x (q mod n)%Z /\ P' q 1%Z = x ((q / n) mod n)%Z /\
      P' q 2%Z = x (q / (n * n))%Z /\ W' q = w (q mod n)%Z * w ((q / n) mod n)%Z * w (q / (n * n))%Z).
  { intros q Hq. specialize (S q). replace ((0 <=? q) && (q <? n * n * n))%Z%bool with true in S
      by (symmetry; apply andb_true_iff; rewrite Z.leb_le, Z.ltb_lt; lia). injection S as -> -> -> ->. auto. }
  assert (HF : forall F, rsum (n * n * n) (fun q => W' q * F (P' q 0%Z) (P' q 1%Z) (P' q 2%Z)) =
     rsum n (fun k => w k * rsum n (fun j => w j * rsum n (fun i => w i * F (x i) (x j) (x k))))).
  { intros F. rewrite (rsum_ext _ _ (fun q => (fun i j k => w i * w j * w k * F (x i) (x j) (x k))
       (q mod n)%Z ((q / n) mod n)%Z (q / (n * n))%Z)).
    2:{ intros q Hq. destruct (Sin q Hq) as (-> & -> & -> & ->). reflexivity. }
    rewrite (rsum_flat3 n (fun i j k => w i * w j * w k * F (x i) (x j) (x k))) by lia.
    apply rsum_ext. intros k Hk. rewrite <- rsum_scal. apply rsum_ext. intros j Hj.
    rewrite <- !rsum_scal. apply rsum_ext. intros; ring. }
  assert (Inq : forall i j k, (0 <= i < n)%Z -> (0 <= j < n)%Z -> (0 <= k < n)%Z -> (0 <= k * n * n + j * n + i < n * n * n)%Z).
  { intros i j k Hi Hj Hk. assert (k * n + j <= (n - 1) * n + (n - 1))%Z by nia. assert (0 <= k * n + j)%Z by nia. nia. }
  split; [|split; [|split; [|split]]].
  - intros i j k Hi Hj Hk q. split; [apply Inq; auto|].
    destruct (Sin q (Inq i j k Hi Hj Hk)) as (-> & -> & -> & ->).
    destruct (idx3_spec n i j k Hi Hj) as (E1 & E2 & E3). fold q in E1, E2, E3. rewrite E1, E2, E3. auto.
  - intros q Hq. exists (q mod n, (q / n) mod n, q / (n * n))%Z. split.
    + pose proof (Z.mod_pos_bound q n ltac:(lia)). pose proof (Z.div_mod q n ltac:(lia)).
      pose proof (Z.mod_pos_bound (q / n) n ltac:(lia)). pose proof (Z.div_mod (q / n) n ltac:(lia)) as E.
      rewrite Z.div_div in E by lia.
      assert (0 <= q / (n * n) < n)%Z by (split; [apply Z.div_pos; nia|apply Z.div_lt_upper_bound; nia]).
      split; [lia|]. split; [lia|]. split; [lia|]. rewrite E in H0. lia.
    + intros [[i j] k] (Hi & Hj & Hk & ->).
      destruct (idx3_spec n i j k Hi Hj) as (-> & -> & ->). reflexivity.
  - intros q Hq. specialize (S q). replace ((0 <=? q) && (q <? n * n * n))%Z%bool with false in S.
    + injection S as -> -> -> ->. auto.
    + symmetry. apply not_true_is_false. rewrite andb_true_iff, Z.leb_le, Z.ltb_lt. lia.
  - exact HF.
  - intros f g h. rewrite (HF (fun a b c => f a * g b * h c)).
    rewrite (rsum_ext n _ (fun k => rsum n (fun i => w i * f (x i)) * rsum n (fun j => w j * g (x j)) * (w k * h (x k)))).
    + now rewrite rsum_scal.
    + intros k Hk.
      rewrite (rsum_ext n _ (fun j => rsum n (fun i => w i * f (x i)) * (w j * g (x j)) * h (x k))).
      * rewrite rsum_scal_r, rsum_scal. ring.
      * intros j Hj. rewrite (rsum_ext n _ (fun i => w i * f (x i) * (g (x j) * h (x k)))) by (intros; ring). rewrite rsum_scal_r. ring.
Qed.
Print Assumptions C38_hexahedron_rule.

(** Together with C37: the quadrilateral rule of solution order p integrates
    every polynomial of degree at most 2p+3 in each variable over the square, up
    to 5e-30 times the sum of its absolute coefficients (iterated integral). *)
Theorem C38_quadrilateral_exactness : forall p nq0 P W c, (0 <= p <= 23)%Z -> p <> 17%Z ->
  let order := get_gausslegendre_quadrature_order p in
  let n := fst (get_number_of_quadrature_points order 2 nq0) in
  let F := fun a b => rsum (order + 1) (fun k => rsum (order + 1) (fun l => c k l * (a ^ Z.to_nat k * b ^ Z.to_nat l))) in
  exists P' W' (J : R -> R) I, quadrilateral_quadrature order n P W = Ok (P', W') /\
    snd (get_number_of_quadrature_points order 2 nq0) = (n * n)%Z /\
    (forall b, is_RInt (fun a => F a b) (-1) 1 (J b)) /\ is_RInt J (-1) 1 I /\
    Rabs (rsum (n * n) (fun q => W' q * F (P' q 0%Z) (P' q 1%Z)) - I) <=
      5 * / 10 ^ 30 * rsum (order + 1) (fun k => rsum (order + 1) (fun l => Rabs (c k l))).
Proof.
  intros p nq0 P W c Hp H17 order n F.
  assert (Hn1 : n = fst (get_number_of_quadrature_points order 1 nq0)) by reflexivity.
  destruct (C37_orders_tabulated_partial p nq0 Hp H17) as (En & X & Y & LX & LY & HQ & G1 & G2 & G3).
  fold order in En, LX, LY, HQ, G1, G2, G3. rewrite <- Hn1 in *.
  assert (Ho : order = (2 * p + 3)%Z) by (unfold order, get_gausslegendre_quadrature_order; lia).
  set (x := arr_of X) in *. set (w := arr_of Y) in *.
  set (m := fun k => rsum n (fun i => w i * x i ^ Z.to_nat k)).
  assert (Hm : forall k, (0 <= k <= order)%Z -> Rabs (m k - moment k) <= / 10 ^ 30).
  { intros k Hk. destruct (G3 (fun l => if (l =? k)%Z then 1 else 0) k ltac:(lia)) as (I & HI & HE).
    assert (EP : forall t, poly k (fun l => if (l =? k)%Z then 1 else 0) t = t ^ Z.to_nat k).
    { intros t. unfold poly. rewrite (rsum_ext (k + 1) _ (fun l => if (l =? k)%Z then t ^ Z.to_nat l else 0)).
      - now rewrite (rsum_delta (k + 1) k (fun l => t ^ Z.to_nat l)) by lia.
      - intros l Hl. destruct (Z.eqb_spec l k); ring. }
    assert (EI : I = moment k).
    { pose proof (is_RInt_unique (V := R_CompleteNormedModule) _ _ _ _ HI) as HU. rewrite <- HU.
      apply (is_RInt_unique (V := R_CompleteNormedModule)).
      apply is_RInt_ext with (f := fun t => t ^ Z.to_nat k); [intros; now rewrite EP|]. apply is_RInt_monomial; lia. }
    rewrite (rsum_ext n _ (fun i => w i * x i ^ Z.to_nat k)) in HE by (intros; now rewrite EP).
    rewrite EI in HE. unfold m.
    replace (rsum (k + 1) (fun l => Rabs (if (l =? k)%Z then 1 else 0))) with 1 in HE; [lra|].
    rewrite (rsum_ext (k + 1) _ (fun l => if (l =? k)%Z then 1 else 0)).
    + now rewrite (rsum_delta (k + 1) k (fun _ => 1)) by lia.
    + intros l Hl. destruct (l =? k)%Z; [apply Rabs_R1|apply Rabs_R0]. }
  unfold quadrilateral_quadrature. rewrite HQ by (apply zlen_vec; lia). cbn [bind fst snd].
  fold x w. set (s := quad_tensor n x w P W).
  exists (fst s), (snd s),
    (fun b => rsum (order + 1) (fun k => rsum (order + 1) (fun l => c k l * (moment k * b ^ Z.to_nat l)))),
    (rsum (order + 1) (fun k => rsum (order + 1) (fun l => c k l * (moment k * moment l)))).
  split; [now destruct s|]. split.
  { unfold n, get_number_of_quadrature_points. cbn [fst snd]. rewrite Z.pow_2_r. reflexivity. }
  split; [|split].
  - intros b. unfold F.
    apply (is_RInt_rsum (order + 1) (fun k a => rsum (order + 1) (fun l => c k l * (a ^ Z.to_nat k * b ^ Z.to_nat l)))).
    intros k Hk. apply (is_RInt_rsum (order + 1) (fun l a => c k l * (a ^ Z.to_nat k * b ^ Z.to_nat l))).
    intros l Hl. replace (c k l * (moment k * b ^ Z.to_nat l)) with (scal (c k l * b ^ Z.to_nat l) (moment k))
      by (unfold scal; cbn; unfold mult; cbn; ring).
    apply is_RInt_ext with (f := fun a => scal (c k l * b ^ Z.to_nat l) (a ^ Z.to_nat k)).
    { intros; unfold scal; cbn; unfold mult; cbn; ring. }
    apply (is_RInt_scal (fun a => a ^ Z.to_nat k)). apply is_RInt_monomial; lia.
  - apply (is_RInt_rsum (order + 1) (fun k b => rsum (order + 1) (fun l => c k l * (moment k * b ^ Z.to_nat l)))).
    intros k Hk. apply (is_RInt_rsum (order + 1) (fun l b => c k l * (moment k * b ^ Z.to_nat l))).
    intros l Hl. replace (c k l * (moment k * moment l)) with (scal (c k l * moment k) (moment l))
      by (unfold scal; cbn; unfold mult; cbn; ring).
    apply is_RInt_ext with (f := fun b => scal (c k l * moment k) (b ^ Z.to_nat l)).
    { intros; unfold scal; cbn; unfold mult; cbn; ring. }
    apply (is_RInt_scal (fun b => b ^ Z.to_nat l)). apply is_RInt_monomial; lia.
  - destruct (C38_quadrilateral_rule n x w P W ltac:(lia)) as (_ & _ & _ & _ & HT). fold s in HT.
    unfold F.
    rewrite (rsum_ext (n * n) _ (fun q => rsum (order + 1) (fun k => rsum (order + 1) (fun l =>
      c k l * (snd s q * (fst s q 0%Z ^ Z.to_nat k * fst s q 1%Z ^ Z.to_nat l)))))).
    2:{ intros q Hq. rewrite <- rsum_scal. apply rsum_ext. intros k Hk. rewrite <- rsum_scal. apply rsum_ext. intros; ring. }
    rewrite rsum_swap.
    rewrite (rsum_ext (order + 1) _ (fun k => rsum (order + 1) (fun l => c k l * (m k * m l)))).
    2:{ intros k Hk. rewrite rsum_swap. apply rsum_ext. intros l Hl. rewrite rsum_scal.
        rewrite (HT (fun a => a ^ Z.to_nat k) (fun b => b ^ Z.to_nat l)). reflexivity. }
    rewrite <- rsum_minus. eapply Rle_trans; [apply rsum_Rabs|]. rewrite <- rsum_scal. apply rsum_le. intros k Hk.
    rewrite <- rsum_minus. eapply Rle_trans; [apply rsum_Rabs|]. rewrite <- rsum_scal. apply rsum_le. intros l Hl.
    rewrite <- Rmult_minus_distr_l, Rabs_mult, Rmult_comm. apply Rmult_le_compat_r; [apply Rabs_pos|].
    pose proof (Hm k ltac:(lia)) as H1. pose proof (Hm l ltac:(lia)) as H2.
    pose proof (moment_bound k ltac:(lia)) as B1. pose proof (moment_bound l ltac:(lia)) as B2.
    set (e := / 10 ^ 30) in *.
    assert (He : 0 < e <= 1).
    { unfold e. assert (1 < 10 ^ 30) by (apply Rlt_pow_R1; [lra|lia]). split; [apply Rinv_0_lt_compat; lra|].
      rewrite <- Rinv_1. apply Rinv_le_contravar; lra. }
    replace (m k * m l - moment k * moment l) with ((m k - moment k) * (m l - moment l) + (m k - moment k) * moment l + moment k * (m l - moment l)) by ring.
    eapply Rle_trans; [apply Rabs_triang|]. eapply Rle_trans; [apply Rplus_le_compat_r, Rabs_triang|].
    rewrite !Rabs_mult.
    pose proof (Rabs_pos (m k - moment k)). pose proof (Rabs_pos (m l - moment l)).
    pose proof (Rabs_pos (moment k)). pose proof (Rabs_pos (moment l)). nra.
Qed.
Print Assumptions C38_quadrilateral_exactness.

(** ** C39: equidistant nodes. *)
Theorem C39_equidistant_segment : forall order x0,
  (get_equidistant_nodes_segment 0 x0 0%Z = 0) /\
  ((0 < order)%Z ->
   let x := get_equidistant_nodes_segment order x0 in
   x 0%Z = -1 /\ x order = 1 /\
   (forall i, (0 <= i < order)%Z -> x (i + 1)%Z - x i = 2 / IZR order) /\
   (forall i j, (0 <= i < j)%Z -> (j <= order)%Z -> x i < x j) /\
   (forall i, (0 <= i <= order)%Z -> x (order - i)%Z = - x i) /\
   (forall i, ~ (0 <= i <= order)%Z -> x i = x0 i)) /\
  (forall i, (0 <= i <= order)%Z -> forall y0,
     equidistant_nodes_1D_range (-1) 1 (order + 1) y0 i = get_equidistant_nodes_segment order x0 i).
Proof.
  intros order x0. split; [reflexivity|].
  assert (In : forall i, (0 < order)%Z -> (0 <= i <= order)%Z -> get_equidistant_nodes_segment order x0 i = -1 + 2 * IZR i / IZR order).
  { intros i Ho Hi. rewrite equi_segment by easy. replace ((0 <=? i) && (i <? order + 1))%Z%bool with true; [reflexivity|].
    symmetry. apply andb_true_iff. rewrite Z.leb_le, Z.ltb_lt. lia. }
  split.
  - intros Ho x. assert (P : 0 < IZR order) by (apply IZR_lt; lia). unfold x.
    split; [rewrite In by lia; field; lra|]. split; [rewrite In by lia; field; lra|]. split; [|split; [|split]].
    + intros i Hi. rewrite !In by lia. rewrite plus_IZR. field. lra.
    + intros i j Hij Hj. rewrite !In by lia. apply Rplus_lt_compat_l. apply Rmult_lt_compat_r; [now apply Rinv_0_lt_compat|].
      apply Rmult_lt_compat_l; [lra|]. apply IZR_lt. lia.
    + intros i Hi. rewrite !In by lia. rewrite minus_IZR. field. lra.
    + intros i Hi. rewrite equi_segment by easy. replace ((0 <=? i) && (i <? order + 1))%Z%bool with false; [reflexivity|].
      symmetry. apply not_true_is_false. rewrite andb_true_iff, Z.leb_le, Z.ltb_lt. lia.
  - intros i Hi y0. unfold equidistant_nodes_1D_range.
    destruct (Z.leb_spec (order + 1) 1).
    + assert (order = 0)%Z as -> by lia. assert (i = 0)%Z as -> by lia. reflexivity.
    + rewrite zloop_fill1. replace ((0 <=? i) && (i <? order + 1))%Z%bool with true
        by (symmetry; apply andb_true_iff; rewrite Z.leb_le, Z.ltb_lt; lia).
      rewrite In by lia. assert (P : 0 < IZR order) by (apply IZR_lt; lia). rewrite plus_IZR. field. lra.
Qed.
Print Assumptions C39_equidistant_segment.

Theorem C39_equidistant_tensor : forall order P, (0 <= order)%Z ->
  let n := (order + 1)%Z in
  let x := get_equidistant_nodes_segment order (fun _ => 0) in
  let Q := get_equidistant_nodes_quadrilateral order P in
  let H := get_equidistant_nodes_hexahedron order P in
  (forall i j, (0 <= i < n)%Z -> (0 <= j < n)%Z ->
     Q (j * n + i)%Z 0%Z = x i /\ Q (j * n + i)%Z 1%Z = x j) /\
  (forall i j k, (0 <= i < n)%Z -> (0 <= j < n)%Z -> (0 <= k < n)%Z ->
     let q := (k * n * n + j * n + i)%Z in H q 0%Z = x i /\ H q 1%Z = x j /\ H q 2%Z = x k) /\
  (forall q q', (0 <= q < n * n)%Z -> (0 <= q' < n * n)%Z ->
     Q q 0%Z = Q q' 0%Z -> Q q 1%Z = Q q' 1%Z -> q = q') /\
  (forall q q', (0 <= q < n * n * n)%Z -> (0 <= q' < n * n * n)%Z ->
     H q 0%Z = H q' 0%Z -> H q 1%Z = H q' 1%Z -> H q 2%Z = H q' 2%Z -> q = q').
Proof.
  intros order P Ho n x Q H.
  assert (Hn : (0 < n)%Z) by (unfold n; lia).
  assert (SQ : forall q, (0 <= q < n * n)%Z -> Q q 0%Z = x (q mod n)%Z /\ Q q 1%Z = x (q / n)%Z).
  { intros q Hq. pose proof (equi_quad order P q Ho) as S. cbn zeta in S. fold n x Q in S.
    replace ((0 <=? q) && (q <? n * n))%Z%bool with true in S
      by (symmetry; apply andb_true_iff; rewrite Z.leb_le, Z.ltb_lt; lia). injection S as -> ->. auto. }
  assert (SH : forall q, (0 <= q < n * n * n)%Z -> H q 0%Z = x (q mod n)%Z /\ H q 1%Z = x ((q / n) mod n)%Z /\ H q 2%Z = x (q / (n * n))%Z).
  { intros q Hq. pose proof (equi_hex order P q Ho) as S. cbn zeta in S. fold n x H in S.
    replace ((0 <=? q) && (q <? n * n * n))%Z%bool with true in S
      by (symmetry; apply andb_true_iff; rewrite Z.leb_le, Z.ltb_lt; lia). injection S as -> -> ->. auto. }
  assert (inj : forall i j, (0 <= i < n)%Z -> (0 <= j < n)%Z -> x i = x j -> i = j).
  { intros i j Hi Hj E. destruct (Z.eq_dec order 0) as [E0|]; [unfold n in *; lia|].
    destruct (C39_equidistant_segment order (fun _ => 0)) as (_ & S & _). destruct (S ltac:(lia)) as (_ & _ & _ & M & _). fold x in M.
    destruct (Z.lt_trichotomy i j) as [L|[L|L]]; [|exact L|].
    - specialize (M i j ltac:(lia) ltac:(unfold n in *; lia)). lra.
    - specialize (M j i ltac:(lia) ltac:(unfold n in *; lia)). lra. }
  split; [|split; [|split]].
  - intros i j Hi Hj. destruct (SQ (j * n + i)%Z ltac:(nia)) as [-> ->]. rewrite idx2_mod, idx2_div by lia. auto.
  - intros i j k Hi Hj Hk q.
    assert (Hq : (0 <= q < n * n * n)%Z).
    { unfold q. assert (k * n + j <= (n - 1) * n + (n - 1))%Z by nia. assert (0 <= k * n + j)%Z by nia. nia. }
    destruct (SH q Hq) as (-> & -> & ->). destruct (idx3_spec n i j k Hi Hj) as (E1 & E2 & E3). fold q in E1, E2, E3.
    rewrite E1, E2, E3. auto.
  - intros q q' Hq Hq' E1 E2. destruct (SQ q Hq) as [A1 A2], (SQ q' Hq') as [B1 B2].
    rewrite A1, B1 in E1. rewrite A2, B2 in E2.
    apply inj in E1; [|apply Z.mod_pos_bound; lia|apply Z.mod_pos_bound; lia].
    apply inj in E2; [|split; [apply Z.div_pos; lia|apply Z.div_lt_upper_bound; lia]|split; [apply Z.div_pos; lia|apply Z.div_lt_upper_bound; lia]].
    rewrite (Z.div_mod q n), (Z.div_mod q' n) by lia. congruence.
  - intros q q' Hq Hq' E1 E2 E3. destruct (SH q Hq) as (A1 & A2 & A3), (SH q' Hq') as (B1 & B2 & B3).
    rewrite A1, B1 in E1. rewrite A2, B2 in E2. rewrite A3, B3 in E3.
    apply inj in E1; [|apply Z.mod_pos_bound; lia|apply Z.mod_pos_bound; lia].
    apply inj in E2; [|apply Z.mod_pos_bound; lia|apply Z.mod_pos_bound; lia].
    apply inj in E3; [|split; [apply Z.div_pos; nia|apply Z.div_lt_upper_bound; nia]|split; [apply Z.div_pos; nia|apply Z.div_lt_upper_bound; nia]].
    rewrite <- !Z.div_div in E3 by lia.
    assert (E : (q / n = q' / n)%Z) by (rewrite (Z.div_mod (q / n) n), (Z.div_mod (q' / n) n) by lia; congruence).
    rewrite (Z.div_mod q n), (Z.div_mod q' n) by lia. congruence.
Qed.
Print Assumptions C39_equidistant_tensor.

Example C39_order2 : get_equidistant_nodes_segment 2 (fun _ => 7) 1%Z = 0.
Proof.
  destruct (C39_equidistant_segment 2 (fun _ => 7)) as (_ & S & _). destruct (S ltac:(lia)) as (A & B & C & _).
  pose proof (C 0%Z ltac:(lia)) as C0. cbn -[IZR get_equidistant_nodes_segment] in *. lra.
Qed.
