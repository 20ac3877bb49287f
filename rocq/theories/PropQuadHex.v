(** PropQuadHex.v -- property C38, exactness of the hexahedral rule. *)
From Coq Require Import ZArith List Lia Reals Lra Bool Psatz.
From Coquelicot Require Import Coquelicot.
From Verif Require Import Base RBase QuadTables QuadModel QuadProof QuadCheck PropQuad.
Import ListNotations.
Local Open Scope R_scope.
Open Scope res_scope.

Lemma moment_exact (p nq0 : Z) : (0 <= p <= 23)%Z -> p <> 17%Z ->
  let order := get_gausslegendre_quadrature_order p in
  let n := fst (get_number_of_quadrature_points order 1 nq0) in
  exists X Y, (0 < n)%Z /\ (0 <= order)%Z /\
    segment_quadrature order (vec n 0%Z) (vec n 0%Z) = Ok (X, Y) /\
    forall k, (0 <= k <= order)%Z ->
      Rabs (rsum n (fun i => arr_of Y i * arr_of X i ^ Z.to_nat k) - moment k) <= / 10 ^ 30.
Proof.
  intros Hp H17 order n.
  destruct (C37_orders_tabulated_partial p nq0 Hp H17) as (En & X & Y & LX & LY & HQ & G1 & G2 & G3).
  fold order in En, LX, LY, HQ, G1, G2, G3. fold n in En, LX, LY, HQ, G1, G2, G3.
  assert (Ho : order = (2 * p + 3)%Z) by (unfold order, get_gausslegendre_quadrature_order; lia).
  exists X, Y. split; [lia|]. split; [lia|]. split; [apply HQ; apply zlen_vec; lia|].
  set (x := arr_of X) in *. set (w := arr_of Y) in *.
  intros k Hk. destruct (G3 (fun l => if (l =? k)%Z then 1 else 0) k ltac:(lia)) as (I & HI & HE).
  assert (EP : forall t, poly k (fun l => if (l =? k)%Z then 1 else 0) t = t ^ Z.to_nat k).
  { intros t. unfold poly. rewrite (rsum_ext (k + 1) _ (fun l => if (l =? k)%Z then t ^ Z.to_nat l else 0)).
    - now rewrite (rsum_delta (k + 1) k (fun l => t ^ Z.to_nat l)) by lia.
    - intros l Hl. destruct (Z.eqb_spec l k); ring. }
  assert (EI : I = moment k).
  { pose proof (is_RInt_unique (V := R_CompleteNormedModule) _ _ _ _ HI) as HU. rewrite <- HU.
    apply (is_RInt_unique (V := R_CompleteNormedModule)).
    apply is_RInt_ext with (f := fun t => t ^ Z.to_nat k); [intros; now rewrite EP|]. apply is_RInt_monomial; lia. }
  rewrite (rsum_ext n _ (fun i => w i * x i ^ Z.to_nat k)) in HE by (intros; now rewrite EP).
  rewrite EI in HE.
  replace (rsum (k + 1) (fun l => Rabs (if (l =? k)%Z then 1 else 0))) with 1 in HE; [lra|].
  rewrite (rsum_ext (k + 1) _ (fun l => if (l =? k)%Z then 1 else 0)).
  + now rewrite (rsum_delta (k + 1) k (fun _ => 1)) by lia.
  + intros l Hl. destruct (l =? k)%Z; [apply Rabs_R1|apply Rabs_R0].
Qed.

Lemma is_RInt_scaled s k (f : R -> R) : (0 <= k)%Z -> (forall t, f t = s * t ^ Z.to_nat k) ->
  is_RInt f (-1) 1 (s * moment k).
Proof.
  intros Hk E. apply is_RInt_ext with (f := fun a => scal s (a ^ Z.to_nat k)).
  { intros t _. rewrite E. unfold scal; cbn; unfold mult; cbn. ring. }
  exact (is_RInt_scal (V := R_NormedModule) (fun a => a ^ Z.to_nat k) (-1) 1 s (moment k) (is_RInt_monomial k Hk)).
Qed.

Lemma product3 e a b c A B C : 0 < e <= / 10 ->
  Rabs (a - A) <= e -> Rabs (b - B) <= e -> Rabs (c - C) <= e -> Rabs A <= 2 -> Rabs B <= 2 -> Rabs C <= 2 ->
  Rabs (a * b * c - A * B * C) <= 13 * e.
Proof.
  intros He Ha Hb Hc HA HB HC.
  set (u := a - A) in *. set (v := b - B) in *. set (w := c - C) in *.
  assert (D : Rabs (a * b - A * B) <= 4 * e + e * e).
  { replace (a * b - A * B) with (u * v + u * B + A * v) by (unfold u, v; ring).
    eapply Rle_trans; [apply Rabs_triang|]. eapply Rle_trans; [apply Rplus_le_compat_r, Rabs_triang|].
    rewrite !Rabs_mult. pose proof (Rabs_pos u). pose proof (Rabs_pos v). pose proof (Rabs_pos A). pose proof (Rabs_pos B).
    assert (Rabs u * Rabs v <= e * e) by (apply Rmult_le_compat; lra).
    assert (Rabs u * Rabs B <= e * 2) by (apply Rmult_le_compat; lra).
    assert (Rabs A * Rabs v <= 2 * e) by (apply Rmult_le_compat; lra). lra. }
  assert (AB : Rabs (A * B) <= 4).
  { rewrite Rabs_mult. replace 4 with (2 * 2) by lra. apply Rmult_le_compat; auto using Rabs_pos. }
  replace (a * b * c - A * B * C) with ((a * b - A * B) * w + (a * b - A * B) * C + A * B * w) by (unfold w; ring).
  eapply Rle_trans; [apply Rabs_triang|]. eapply Rle_trans; [apply Rplus_le_compat_r, Rabs_triang|].
  set (z := a * b - A * B) in *. set (m := A * B) in *. rewrite !Rabs_mult.
  pose proof (Rabs_pos z). pose proof (Rabs_pos w). pose proof (Rabs_pos C). pose proof (Rabs_pos m).
  assert (Rabs z * Rabs w <= (4 * e + e * e) * e) by (apply Rmult_le_compat; lra).
  assert (Rabs z * Rabs C <= (4 * e + e * e) * 2) by (apply Rmult_le_compat; lra).
  assert (Rabs m * Rabs w <= 4 * e) by (apply Rmult_le_compat; lra). nra.
Qed.

(** Together with C37: the hexahedral rule of solution order p integrates every
    polynomial of degree at most 2p+3 in each variable over the cube, up to
    1.3e-29 times the sum of its absolute coefficients (iterated integral). *)
Theorem C38_hexahedron_exactness : forall p nq0 P W c, (0 <= p <= 23)%Z -> p <> 17%Z ->
  let order := get_gausslegendre_quadrature_order p in
  let n := fst (get_number_of_quadrature_points order 3 nq0) in
  let F := fun a b d => rsum (order + 1) (fun k => rsum (order + 1) (fun l => rsum (order + 1) (fun r =>
             c k l r * (a ^ Z.to_nat k * b ^ Z.to_nat l * d ^ Z.to_nat r)))) in
  exists P' W' (J : R -> R -> R) (K : R -> R) I, hexahedron_quadrature order n P W = Ok (P', W') /\
    snd (get_number_of_quadrature_points order 3 nq0) = (n * n * n)%Z /\
    (forall b d, is_RInt (fun a => F a b d) (-1) 1 (J b d)) /\
    (forall d, is_RInt (fun b => J b d) (-1) 1 (K d)) /\
    is_RInt K (-1) 1 I /\
    Rabs (rsum (n * n * n) (fun q => W' q * F (P' q 0%Z) (P' q 1%Z) (P' q 2%Z)) - I) <=
      13 * / 10 ^ 30 * rsum (order + 1) (fun k => rsum (order + 1) (fun l => rsum (order + 1) (fun r => Rabs (c k l r)))).
Proof.
  intros p nq0 P W c Hp H17 order n F.
  assert (Hn1 : n = fst (get_number_of_quadrature_points order 1 nq0)) by reflexivity.
  destruct (moment_exact p nq0 Hp H17) as (X & Y & Hn & Ho & HQ & Hm).
  fold order in Hn, Ho, HQ, Hm. rewrite <- Hn1 in Hn, HQ, Hm.
  set (x := arr_of X) in *. set (w := arr_of Y) in *.
  set (m := fun k => rsum n (fun i => w i * x i ^ Z.to_nat k)).
  unfold hexahedron_quadrature. rewrite HQ. cbn [bind fst snd].
  fold x w. set (s := hex_tensor n x w P W).
  exists (fst s), (snd s),
    (fun b d => rsum (order + 1) (fun k => rsum (order + 1) (fun l => rsum (order + 1) (fun r =>
       c k l r * b ^ Z.to_nat l * d ^ Z.to_nat r * moment k)))),
    (fun d => rsum (order + 1) (fun k => rsum (order + 1) (fun l => rsum (order + 1) (fun r =>
       c k l r * moment k * d ^ Z.to_nat r * moment l)))),
    (rsum (order + 1) (fun k => rsum (order + 1) (fun l => rsum (order + 1) (fun r =>
       c k l r * moment k * moment l * moment r)))).
  split; [now destruct s|]. split.
  { unfold n, get_number_of_quadrature_points. cbn [fst snd]. ring. }
  split; [|split; [|split]].
  - intros b d. unfold F.
    apply (is_RInt_rsum (order + 1) (fun k a => rsum (order + 1) (fun l => rsum (order + 1) (fun r => c k l r * (a ^ Z.to_nat k * b ^ Z.to_nat l * d ^ Z.to_nat r))))).
    intros k Hk. apply (is_RInt_rsum (order + 1) (fun l a => rsum (order + 1) (fun r => c k l r * (a ^ Z.to_nat k * b ^ Z.to_nat l * d ^ Z.to_nat r)))).
    intros l Hl. apply (is_RInt_rsum (order + 1) (fun r a => c k l r * (a ^ Z.to_nat k * b ^ Z.to_nat l * d ^ Z.to_nat r))).
    intros r Hr. apply is_RInt_scaled; [lia|]. intros; ring.
  - intros d.
    apply (is_RInt_rsum (order + 1) (fun k b => rsum (order + 1) (fun l => rsum (order + 1) (fun r => c k l r * b ^ Z.to_nat l * d ^ Z.to_nat r * moment k)))).
    intros k Hk. apply (is_RInt_rsum (order + 1) (fun l b => rsum (order + 1) (fun r => c k l r * b ^ Z.to_nat l * d ^ Z.to_nat r * moment k))).
    intros l Hl. apply (is_RInt_rsum (order + 1) (fun r b => c k l r * b ^ Z.to_nat l * d ^ Z.to_nat r * moment k)).
    intros r Hr. apply is_RInt_scaled; [lia|]. intros; ring.
  - apply (is_RInt_rsum (order + 1) (fun k d => rsum (order + 1) (fun l => rsum (order + 1) (fun r => c k l r * moment k * d ^ Z.to_nat r * moment l)))).
    intros k Hk. apply (is_RInt_rsum (order + 1) (fun l d => rsum (order + 1) (fun r => c k l r * moment k * d ^ Z.to_nat r * moment l))).
    intros l Hl. apply (is_RInt_rsum (order + 1) (fun r d => c k l r * moment k * d ^ Z.to_nat r * moment l)).
    intros r Hr. apply is_RInt_scaled; [lia|]. intros; ring.
  - destruct (C38_hexahedron_rule n x w P W Hn) as (_ & _ & _ & _ & HT). fold s in HT.
    unfold F.
    rewrite (rsum_ext (n * n * n) _ (fun q => rsum (order + 1) (fun k => rsum (order + 1) (fun l => rsum (order + 1) (fun r =>
      c k l r * (snd s q * (fst s q 0%Z ^ Z.to_nat k * fst s q 1%Z ^ Z.to_nat l * fst s q 2%Z ^ Z.to_nat r))))))).
    2:{ intros q Hq. rewrite <- rsum_scal. apply rsum_ext. intros k Hk. rewrite <- rsum_scal. apply rsum_ext.
        intros l Hl. rewrite <- rsum_scal. apply rsum_ext. intros; ring. }
    rewrite rsum_swap.
    rewrite (rsum_ext (order + 1) _ (fun k => rsum (order + 1) (fun l => rsum (order + 1) (fun r => c k l r * (m k * m l * m r))))).
    2:{ intros k Hk. rewrite rsum_swap. apply rsum_ext. intros l Hl. rewrite rsum_swap. apply rsum_ext. intros r Hr. rewrite rsum_scal.
        rewrite (HT (fun a => a ^ Z.to_nat k) (fun b => b ^ Z.to_nat l) (fun d => d ^ Z.to_nat r)). reflexivity. }
    assert (He : 0 < / 10 ^ 30 <= / 10).
    { assert (10 < 10 ^ 30) by (apply Rle_lt_trans with (10 ^ 1); [lra|apply Rlt_pow; [lra|lia]]).
      split; [apply Rinv_0_lt_compat; lra|]. apply Rinv_le_contravar; lra. }
    set (e := / 10 ^ 30) in *.
    rewrite <- rsum_minus. eapply Rle_trans; [apply rsum_Rabs|]. rewrite <- rsum_scal. apply rsum_le. intros k Hk.
    rewrite <- rsum_minus. eapply Rle_trans; [apply rsum_Rabs|]. rewrite <- rsum_scal. apply rsum_le. intros l Hl.
    rewrite <- rsum_minus. eapply Rle_trans; [apply rsum_Rabs|]. rewrite <- rsum_scal. apply rsum_le. intros r Hr.
    replace (c k l r * (m k * m l * m r) - c k l r * moment k * moment l * moment r)
      with ((m k * m l * m r - moment k * moment l * moment r) * c k l r) by ring.
    rewrite Rabs_mult. apply Rmult_le_compat_r; [apply Rabs_pos|].
    apply product3; auto; try (apply moment_bound; lia); apply Hm; lia.
Qed.
Print Assumptions C38_hexahedron_exactness.

(** Not vacuous: order 1 is in range, and the degree the rule is exact to is 5. *)
Example C38_hexahedron_order1 : get_gausslegendre_quadrature_order 1 = 5%Z /\
  fst (get_number_of_quadrature_points (get_gausslegendre_quadrature_order 1) 3 0) = 3%Z.
Proof. split; reflexivity. Qed.
