(** MassProof.v -- unisolvence of the tensor-product bases on tensor grids and
    positive definiteness of quadrature mass matrices. *)
From Coq Require Import ZArith List Lia Reals Lra Bool Psatz.
From Coquelicot Require Import Coquelicot.
From Verif Require Import Base RBase LinAlgModel LinAlgProof PropLinAlg QuadModel QuadProof PropQuad BasisModel BasisProof PropBasis ShapeModel ShapeProof PropShape PropSolver.
Import ListNotations.
Local Open Scope R_scope.

Lemma peval_poly l : is_poly (zlen l) (peval l).
Proof.
  induction l as [|a l IH].
  - exists (fun _ => 0). intros x. rewrite rsum_0 by (unfold zlen; cbn; lia). reflexivity.
  - apply (poly_ext _ (fun x => a + x * peval l x)); [intros; reflexivity|].
    replace (zlen (a :: l)) with (zlen l + 1)%Z by (unfold zlen; cbn [length]; lia).
    apply poly_plus; [apply poly_const; unfold zlen; lia|]. apply poly_mulx; [unfold zlen; lia|exact IH].
Qed.

Lemma fn1_poly bt p i : (0 <= p)%Z -> supported bt p -> (0 <= i <= p)%Z -> is_poly (p + 1) (fn1 bt p i).
Proof.
  intros Hp S Hi. unfold fn1. destruct (is_lagrange bt) eqn:L.
  - apply (lag_poly (p + 1) (even_node p) i); [apply different_distinct, even_different; lia|lia].
  - assert (p <= 7)%Z by (destruct S as [S|S]; [congruence|exact S]).
    apply (poly_ext _ (peval (legendre_coeffs i))); [intros; symmetry; apply legendre_coeffs_eval; lia|].
    apply (poly_weaken (zlen (legendre_coeffs i))); [unfold zlen; lia| |apply peval_poly].
    assert (C : (i = 0 \/ i = 1 \/ i = 2 \/ i = 3 \/ i = 4 \/ i = 5 \/ i = 6 \/ i = 7)%Z) by lia.
    destruct C as [-> | [-> | [-> | [-> | [-> | [-> | [-> | ->]]]]]]]; unfold zlen; cbv [legendre_coeffs nth Z.to_nat Pos.to_nat Pos.iter_op Init.Nat.add length]; lia.
Qed.

Lemma fn1_independent bt p (c : Z -> R) : (0 <= p)%Z -> supported bt p ->
  (forall t, rsum (p + 1) (fun i => c i * fn1 bt p i t) = 0) -> forall i, (0 <= i <= p)%Z -> c i = 0.
Proof.
  intros Hp S H i Hi. destruct (is_lagrange bt) eqn:L.
  - specialize (H (even_node p i)). rewrite (rsum_ext _ _ (fun j => if (j =? i)%Z then c j else 0)) in H.
    + rewrite rsum_delta in H by lia. exact H.
    + intros j Hj. rewrite fn1_nodal by (auto; lia). destruct (j =? i)%Z; ring.
  - assert (p <= 7)%Z by (destruct S as [S|S]; [congruence|exact S]).
    assert (E : is_RInt (fun t => rsum (p + 1) (fun j => c j * (fn1 bt p j t * fn1 bt p i t))) (-1) 1
       (rsum (p + 1) (fun j => c j * (if (j =? i)%Z then 2 / (2 * IZR j + 1) else 0)))).
    { apply (is_RInt_rsum (p + 1) (fun j t => c j * (fn1 bt p j t * fn1 bt p i t)) (fun j => c j * (if (j =? i)%Z then 2 / (2 * IZR j + 1) else 0))).
      intros j Hj. apply (is_RInt_scal (V := R_NormedModule) (fun t => fn1 bt p j t * fn1 bt p i t)). unfold fn1. rewrite L.
      apply legendre_orthogonal; lia. }
    assert (E0 : is_RInt (fun t => rsum (p + 1) (fun j => c j * (fn1 bt p j t * fn1 bt p i t))) (-1) 1 0).
    { apply (is_RInt_ext (fun _ => 0)).
      - intros t _. rewrite (rsum_ext _ _ (fun j => c j * fn1 bt p j t * fn1 bt p i t)) by (intros; ring). rewrite rsum_scal_r, H. symmetry. apply Rmult_0_l.
      - evar_last; [apply (is_RInt_const (V := R_NormedModule))|]. change ((1 - -1) * 0 = 0). ring. }
    apply (is_RInt_unique (V := R_CompleteNormedModule)) in E. apply (is_RInt_unique (V := R_CompleteNormedModule)) in E0. rewrite E in E0.
    rewrite (rsum_ext _ _ (fun j => if (j =? i)%Z then c j * (2 / (2 * IZR j + 1)) else 0)) in E0 by (intros j _; destruct (j =? i)%Z; ring).
    rewrite rsum_delta in E0 by lia. assert (0 <= IZR i) by (apply IZR_le; lia).
    assert (2 / (2 * IZR i + 1) <> 0) by (unfold Rdiv; apply Rmult_integral_contrapositive_currified; [lra|apply Rinv_neq_0_compat; lra]).
    apply Rmult_integral in E0. tauto.
Qed.

(** One direction: zero at more than p distinct points. *)
Lemma fn1_unisolvent bt p n x (c : Z -> R) : (0 <= p < n)%Z -> supported bt p -> different n x ->
  (forall j, (0 <= j < n)%Z -> rsum (p + 1) (fun i => c i * fn1 bt p i (x j)) = 0) -> forall i, (0 <= i <= p)%Z -> c i = 0.
Proof.
  intros Hp S D H. apply (fn1_independent bt p c); [lia|exact S|].
  apply (poly_roots (p + 1) x).
  - intros i j Hi Hj N E. apply N, D; auto; lia.
  - apply (poly_sum (p + 1) (p + 1) (fun i t => c i * fn1 bt p i t)). intros i Hi. apply poly_scal. apply fn1_poly; auto; lia.
  - intros i Hi. apply H. lia.
Qed.

(** All directions: the sum vanishes on the tensor grid. *)
Lemma unisolvent bt p n x P (c : Z -> R) : (0 <= p < n)%Z -> supported bt p -> different n x ->
  (forall q d, (0 <= q < n ^ dim bt)%Z -> (0 <= d < dim bt)%Z -> P q d = x (digit n d q)) ->
  (forall q, (0 <= q < n ^ dim bt)%Z -> rsum (nfun bt p) (fun i => basis_fn bt p i (P q) * c i) = 0) ->
  forall i, (0 <= i < nfun bt p)%Z -> c i = 0.
Proof.
  intros Hp S D HP H. set (N := (p + 1)%Z).
  assert (HN : (0 < N)%Z) by (unfold N; lia). assert (Hn : (0 < n)%Z) by lia.
  assert (C : (dim bt = 1 \/ dim bt = 2 \/ dim bt = 3)%Z) by (destruct bt; cbn; lia).
  unfold basis_fn, nfun in *. fold N in H |- *. destruct C as [C | [C | C]]; rewrite C in *.
  - rewrite !Z.pow_1_r in *. intros i Hi. apply (fn1_unisolvent bt p n x c Hp S D); [|unfold N in Hi; lia].
    intros j Hj. rewrite <- (H j Hj). apply rsum_ext. intros k Hk. rewrite rprod_1, digit0, Z.mod_small, HP, digit0, Z.mod_small by lia. ring.
  - assert (E : forall i j, (0 <= i < n)%Z -> (0 <= j < n)%Z ->
      rsum N (fun b => rsum N (fun a => c (b * N + a)%Z * fn1 bt p a (x i)) * fn1 bt p b (x j)) = 0).
    { intros i j Hi Hj. rewrite <- (H (j * n + i)%Z) by (rewrite Z.pow_2_r; nia).
      rewrite Z.pow_2_r.
      rewrite (rsum_ext (N * N) _ (fun q => (fun a b => fn1 bt p a (x i) * fn1 bt p b (x j) * c (b * N + a)%Z) (q mod N)%Z (q / N)%Z)).
      - rewrite (rsum_flat N N (fun a b => fn1 bt p a (x i) * fn1 bt p b (x j) * c (b * N + a)%Z)) by lia.
        apply rsum_ext. intros b Hb. rewrite <- rsum_scal_r. apply rsum_ext. intros a Ha. ring.
      - intros q Hq. rewrite rprod_2, digit0, digit1_top by lia. rewrite !HP by (rewrite ?Z.pow_2_r; nia).
        rewrite digit0, digit1_top by nia.
        replace ((j * n + i) mod n)%Z with i by (rewrite Z.add_comm, Z.mod_add, Z.mod_small by lia; reflexivity).
        replace ((j * n + i) / n)%Z with j by (rewrite Z.add_comm, Z.div_add, Z.div_small by lia; lia).
        rewrite (Z.mul_comm (q / N)), <- (Z.div_mod q N) by lia. reflexivity. }
    intros q Hq. rewrite Z.pow_2_r in Hq.
    destruct (divmod_range N q HN Hq) as (R1 & R2 & ->). set (a := (q mod N)%Z) in *. set (b := (q / N)%Z) in *.
    apply (fn1_unisolvent bt p n x (fun a => c (b * N + a)%Z) Hp S D); [|unfold N in *; lia].
    intros i Hi. fold N.
    apply (fn1_unisolvent bt p n x (fun b => rsum N (fun a => c (b * N + a)%Z * fn1 bt p a (x i))) Hp S D); [|unfold N in *; lia].
    intros j Hj. exact (E i j Hi Hj).
  - assert (E : forall i j k, (0 <= i < n)%Z -> (0 <= j < n)%Z -> (0 <= k < n)%Z ->
      rsum N (fun z => rsum N (fun b => rsum N (fun a => c (z * N * N + b * N + a)%Z * fn1 bt p a (x i)) * fn1 bt p b (x j)) * fn1 bt p z (x k)) = 0).
    { intros i j k Hi Hj Hk.
      assert (N3 : forall m, (m ^ 3 = m * m * m)%Z) by (intros; ring).
      assert (Q : (0 <= k * n * n + j * n + i < n ^ 3)%Z) by (rewrite N3; nia).
      rewrite <- (H (k * n * n + j * n + i)%Z Q).
      rewrite (N3 N).
      rewrite (rsum_ext (N * N * N) _ (fun q => (fun a b z => fn1 bt p a (x i) * fn1 bt p b (x j) * fn1 bt p z (x k) * c (z * N * N + b * N + a)%Z) (q mod N)%Z ((q / N) mod N)%Z (q / (N * N))%Z)).
      - rewrite (rsum_flat3 N (fun a b z => fn1 bt p a (x i) * fn1 bt p b (x j) * fn1 bt p z (x k) * c (z * N * N + b * N + a)%Z)) by lia.
        apply rsum_ext. intros z Hz. rewrite <- rsum_scal_r. apply rsum_ext. intros b Hb. rewrite <- rsum_scal_r, <- rsum_scal_r.
        apply rsum_ext. intros a Ha. ring.
      - intros q Hq. rewrite rprod_3, digit0, digit1, digit2_top by lia. rewrite !HP by lia.
        rewrite digit0, digit1, digit2_top by (try rewrite N3 in Q; lia).
        destruct (idx3_spec n i j k Hi Hj) as (-> & -> & ->).
        assert (EE : (q / (N * N) * N * N + (q / N) mod N * N + q mod N = q)%Z).
        { rewrite <- Z.div_div by lia. pose proof (Z.div_mod q N ltac:(lia)). pose proof (Z.div_mod (q / N) N ltac:(lia)). nia. }
        rewrite EE. reflexivity. }
    intros q Hq. replace (N ^ 3)%Z with (N * N * N)%Z in Hq by ring.
    pose proof (Z.div_mod q N ltac:(lia)) as D1. pose proof (Z.div_mod (q / N) N ltac:(lia)) as D2.
    assert (R1 := Z.mod_pos_bound q N HN). assert (R2 := Z.mod_pos_bound (q / N) N HN).
    assert (R3 : (0 <= q / N / N < N)%Z) by (split; [repeat apply Z.div_pos; lia|do 2 (apply Z.div_lt_upper_bound; [lia|]); lia]).
    set (a := (q mod N)%Z) in *. set (b := ((q / N) mod N)%Z) in *. set (z := (q / N / N)%Z) in *.
    replace q with (z * N * N + b * N + a)%Z by nia. clearbody a b z. clear D1 D2 Hq q.
    apply (fn1_unisolvent bt p n x (fun a => c (z * N * N + b * N + a)%Z) Hp S D); [|unfold N in *; lia].
    intros i Hi. fold N.
    apply (fn1_unisolvent bt p n x (fun b => rsum N (fun a => c (z * N * N + b * N + a)%Z * fn1 bt p a (x i))) Hp S D); [|unfold N in *; lia].
    intros j Hj. fold N.
    apply (fn1_unisolvent bt p n x (fun z => rsum N (fun b => rsum N (fun a => c (z * N * N + b * N + a)%Z * fn1 bt p a (x i)) * fn1 bt p b (x j))) Hp S D); [|unfold N in *; lia].
    intros k Hk. exact (E i j k Hi Hj Hk).
Qed.

(** ** Quadrature mass matrices *)

Lemma rsum_nonneg_zero n (f : Z -> R) : (forall i, (0 <= i < n)%Z -> 0 <= f i) -> rsum n f = 0 -> forall i, (0 <= i < n)%Z -> f i = 0.
Proof.
  induction n as [n H|n H IH] using zind; intros P E i Hi; [lia|].
  rewrite rsum_S in E by lia.
  assert (0 <= rsum n f).
  { rewrite <- (rsum_zero n (fun _ => 0)) by reflexivity. apply rsum_le. intros. apply P. lia. }
  assert (0 <= f n) by (apply P; lia).
  destruct (Z.eq_dec i n) as [->|]; [lra|]. apply IH; [intros; apply P; lia|lra|lia].
Qed.

Lemma mass_form nq nb B w dj x :
  rsum nb (fun i => rsum nb (fun j => x i * (mass nq B w dj i j * x j))) =
  rsum nq (fun q => w q * dj q * (rsum nb (fun i => B q i * x i)) ^ 2).
Proof.
  transitivity (rsum nq (fun q => rsum nb (fun i => rsum nb (fun j => x i * (w q * dj q * B q i * B q j * x j))))).
  - symmetry. rewrite (rsum_swap nq nb). apply rsum_ext. intros i Hi. rewrite (rsum_swap nq nb). apply rsum_ext. intros j Hj. unfold mass.
    rewrite <- rsum_scal_r, <- rsum_scal. reflexivity.
  - apply rsum_ext. intros q Hq.
    transitivity (rsum nb (fun i => (w q * dj q * (B q i * x i)) * rsum nb (fun j => B q j * x j))).
    + apply rsum_ext. intros i Hi. rewrite <- rsum_scal. apply rsum_ext. intros j Hj. ring.
    + rewrite rsum_scal_r, rsum_scal. ring.
Qed.

Lemma mass_pos_def nq nb B w dj :
  (forall q, (0 <= q < nq)%Z -> 0 < w q * dj q) ->
  (forall x, (forall q, (0 <= q < nq)%Z -> rsum nb (fun i => B q i * x i) = 0) -> forall i, (0 <= i < nb)%Z -> x i = 0) ->
  (forall i j, mass nq B w dj i j = mass nq B w dj j i) /\
  (forall x, (exists i, (0 <= i < nb)%Z /\ x i <> 0) -> 0 < rsum nb (fun i => rsum nb (fun j => x i * (mass nq B w dj i j * x j)))).
Proof.
  intros W U. split.
  - intros i j. unfold mass. apply rsum_ext. intros; ring.
  - intros x (i & Hi & Hx). rewrite mass_form.
    assert (NN : forall q, (0 <= q < nq)%Z -> 0 <= w q * dj q * rsum nb (fun i => B q i * x i) ^ 2).
    { intros q Hq. apply Rmult_le_pos; [left; now apply W|apply pow2_ge_0]. }
    destruct (Rle_lt_or_eq_dec 0 (rsum nq (fun q => w q * dj q * rsum nb (fun i => B q i * x i) ^ 2))) as [L|E].
    + rewrite <- (rsum_zero nq (fun _ => 0)) at 1 by reflexivity. apply rsum_le. exact NN.
    + exact L.
    + exfalso. apply Hx. apply (U x); [|exact Hi]. intros q Hq.
      pose proof (rsum_nonneg_zero nq _ NN (eq_sym E) q Hq) as Z0. cbn beta in Z0. specialize (W q Hq).
      apply Rmult_integral in Z0. destruct Z0 as [Z0|Z0]; [lra|]. 
      destruct (Req_dec (rsum nb (fun i => B q i * x i)) 0) as [?|N]; [assumption|]. exfalso. apply (pow_nonzero _ 2 N Z0).
Qed.
