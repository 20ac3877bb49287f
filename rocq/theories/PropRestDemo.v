(** PropRestDemo.v -- C102: with the Lax-Friedrichs flux density diffuses through a
    gas at rest; a case of C102. *)
From Coq Require Import ZArith List Lia Reals Lra Bool Permutation.
From Coquelicot Require Import Coquelicot.
From Verif Require Import Base RBase LinAlgModel LinAlgProof PropLinAlg QuadModel QuadProof PropQuad BasisModel BasisProof PropBasis PropSolver PropNormals.
From Verif Require Import ShapeModel ShapeProof PropShape MeshModel MeshSpec MeshProof PropMesh PhysModel PhysSpec PhysProof PropPhys SolverModel SolverSpec SolverProof SolverMesh.
From Verif Require Import StepModel StepProof PropStep PropConserve PropResidual PropIntegral.
From Verif Require CommProof.
From Verif Require Import SetupModel SetupSpec MassProof SetupProof SetupPass SetupFaces PropSetup PropVortex PropMeshRun PropInit PropPost DGSpec DGProof PropDG PolySize PropHex PropFree PropHexFree PropTotal PropRest.
Import ListNotations.
Local Open Scope R_scope.
Open Scope res_scope.

(** Density of element [e] at the reference point [y]. *)
Definition density_at (bt : basis_type) (p : Z) (c : arr3) (e : Z) (y : Z -> R) : R := rsum (nfun bt p) (fun j => basis_fn bt p j y * c e j 0%Z).

(** Element [e] has density at most [A], all its neighbours at least [B]. *)
Definition lighter (s : eshape) (bt : basis_type) (p : Z) (m : gmesh R) (c : arr3) (e : Z) (A B : R) : Prop :=
  (forall y, (forall d, (0 <= d < space_dim s)%Z -> -1 <= y d <= 1) -> density_at bt p c e y <= A) /\
  (forall f sd e' k o k' o' y, has_side m f sd e k o -> has_side m f (negb sd) e' k' o' ->
     (forall d, (0 <= d < space_dim s)%Z -> -1 <= y d <= 1) -> B <= density_at bt p c e' y).

Lemma still_speed dim g E u : 1 < g -> 0 < E -> still dim E u -> 0 < max_speed dim g u.
Proof.
  intros Gm Ep SU. unfold max_speed. pose proof (sound_pos dim g u Gm (still_admissible dim g E Gm Ep u SU)).
  assert (0 <= vlen dim (velocity u)) by apply sqrt_pos. lra.
Qed.

Lemma shape_dim s : dim23 (space_dim s).
Proof. destruct s; unfold dim23; cbn; lia. Qed.

Section Diffuse.
Context (iter : Z -> list Z -> list Z) (n : Z) (m : gmesh R) (ep : list Z) (WF : run_wf iter n m ep).
Context (S : scheme) (bt : basis_type) (p : Z) (P fp : arr2).
Let s := sc_shape S.
Let dim := space_dim s.
Context (E2 : sc_nb S = nfun bt p) (E3 : sc_val S = (fun q i => basis_fn bt p i (P q))) (E4 : sc_fval S = (fun k q i => basis_fn bt p i (face_at s k (fp q)))).
Context (FV : faces_valid s m) (FP : face_points s (sc_nqf S)).
Context (PI : forall q, (0 <= q < sc_nq S)%Z -> forall d, (0 <= d < dim)%Z -> -1 <= P q d <= 1).
Context (FI : forall q, (0 <= q < sc_nqf S)%Z -> forall k d, (0 <= d < dim)%Z -> -1 <= face_at s k (fp q) d <= 1).
Context (NZ : forall f q, (0 <= f < gm_nIF m)%Z -> (0 <= q < sc_nqf S)%Z -> vdot dim (sc_normal S f q) (sc_normal S f q) <> 0).
Context (E : R) (Ep : 0 < E) (Gm : 1 < sc_gamma S).
Context (NQ : (0 < sc_nqf S)%Z) (FW : forall q, (0 <= q < sc_nqf S)%Z -> 0 < sc_fwts S q).
Context (LF : sc_flux S = LaxFriedrichs).
Context (c : arr3) (RC : rests m S bt p E c) (e : Z) (He : (0 <= e < gm_num_elems m)%Z).
Context (a : arr1) (ONE : forall y, rsum (nfun bt p) (fun i => a i * basis_fn bt p i y) = 1).
Context (A B : R) (AB : A < B) (LT : lighter s bt p m c e A B).

Lemma still_lax uL uR N : still dim E uL -> still dim E uR ->
  numflux LaxFriedrichs dim (sc_gamma S) uL uR N 0%Z = - vlen dim N * Rmax (max_speed dim (sc_gamma S) uL) (max_speed dim (sc_gamma S) uR) * (uR 0%Z - uL 0%Z) / 2.
Proof.
  intros SL SR. cbn [numflux]. pose proof (shape_dim s) as D. fold dim in D.
  rewrite !(still_euler dim (sc_gamma S) E) by (assumption || (destruct D; lia)). unfold push_of. cbn [Z.eqb]. field.
Qed.

Lemma side_gains f sd : (0 <= f < gm_nIF m)%Z -> side_elem m f sd = e -> 0 < rsum (nfun bt p) (fun i => a i * dg_side S m c f sd e i 0%Z).
Proof.
  intros Hf Es. unfold dg_side. rewrite Es, Z.eqb_refl.
  rewrite (rsum_ext _ _ (fun i => rsum (sc_nqf S) (fun q => side_sign sd * (sc_fwts S q * dg_flux S m c f q 0%Z) * (a i * basis_fn bt p i (face_at s (side_face m f sd) (fp (side_point S m f sd q))))))).
  2: { intros i Hi. rewrite <- !rsum_scal. apply rsum_ext. intros q Hq. rewrite E4. ring. }
  rewrite rsum_swap. rewrite (rsum_ext _ _ (fun q => side_sign sd * (sc_fwts S q * dg_flux S m c f q 0%Z))).
  2: { intros q Hq. rewrite rsum_scal, ONE. ring. }
  assert (POS : forall q, (0 <= q < sc_nqf S)%Z -> 0 < side_sign sd * (sc_fwts S q * dg_flux S m c f q 0%Z)).
  { intros q Hq. pose proof (FW q Hq) as Wq.
    assert (PT : forall sd, (0 <= side_point S m f sd q < sc_nqf S)%Z) by (intros; apply (rest_point iter n m ep WF S FV FP); assumption).
    assert (TR : forall sd, still dim E (dg_trace S c (side_elem m f sd) (side_face m f sd) (side_point S m f sd q))).
    { intros sd'. apply (rests_trace iter n m ep WF S bt p fp E2 E4 FI E c f sd' _ RC Hf (PT sd')). }
    unfold dg_flux. fold s. fold dim. rewrite LF, (still_lax _ _ _ (TR false) (TR true)).
    set (uL := dg_trace S c (side_elem m f false) (side_face m f false) (side_point S m f false q)).
    set (uR := dg_trace S c (side_elem m f true) (side_face m f true) (side_point S m f true q)).
    pose proof (still_speed dim (sc_gamma S) E uL Gm Ep (TR false)) as VL.
    pose proof (Rmax_l (max_speed dim (sc_gamma S) uL) (max_speed dim (sc_gamma S) uR)) as ML.
    set (lam := Rmax (max_speed dim (sc_gamma S) uL) (max_speed dim (sc_gamma S) uR)) in *.
    pose proof (vlen_pos dim (sc_normal S f q) (NZ f q Hf Hq)) as VN. set (v := vlen dim (sc_normal S f q)) in *.
    assert (DEN : forall sd', dg_trace S c (side_elem m f sd') (side_face m f sd') (side_point S m f sd' q) 0%Z = density_at bt p c (side_elem m f sd') (face_at s (side_face m f sd') (fp (side_point S m f sd' q)))).
    { intros sd'. unfold dg_trace, density_at. now rewrite E2, E4. }
    destruct LT as (L1 & L2).
    assert (OWN : dg_trace S c (side_elem m f sd) (side_face m f sd) (side_point S m f sd q) 0%Z <= A).
    { rewrite DEN, Es. apply L1. intros d Hd. now apply FI. }
    assert (OTH : B <= dg_trace S c (side_elem m f (negb sd)) (side_face m f (negb sd)) (side_point S m f (negb sd) q) 0%Z).
    { rewrite DEN. pose proof (side_has iter n m ep WF S f sd Hf) as H1. pose proof (side_has iter n m ep WF S f (negb sd) Hf) as H2. rewrite Es in H1.
      apply (L2 _ _ _ _ _ _ _ _ H1 H2). intros d Hd. now apply FI. }
    assert (X : 0 < v * lam * (sc_fwts S q * (B - A))) by (repeat apply Rmult_lt_0_compat; lra).
    destruct sd; cbn [negb side_sign] in *; fold uL uR in OWN, OTH.
    - assert (0 <= v * lam * (sc_fwts S q * ((uL 0%Z - uR 0%Z) - (B - A)))) by (repeat apply Rmult_le_pos; lra).
      replace (1 * (sc_fwts S q * (- v * lam * (uR 0%Z - uL 0%Z) / 2))) with (v * lam * (sc_fwts S q * (uL 0%Z - uR 0%Z)) / 2) by field. nra.
    - assert (0 <= v * lam * (sc_fwts S q * ((uR 0%Z - uL 0%Z) - (B - A)))) by (repeat apply Rmult_le_pos; lra).
      replace (-1 * (sc_fwts S q * (- v * lam * (uR 0%Z - uL 0%Z) / 2))) with (v * lam * (sc_fwts S q * (uR 0%Z - uL 0%Z)) / 2) by field. nra. }
  apply rsum_pos; assumption.
Qed.

Lemma element_gains : (exists f sd k o, has_side m f sd e k o) -> 0 < rsum (nfun bt p) (fun i => a i * dg_residual S m c e i 0%Z).
Proof.
  intros (f0 & sd0 & k0 & o0 & HS). destruct (face_of_side iter n m ep WF S f0 sd0 e k0 o0 HS) as (Hf0 & Es & _).
  assert (D : dim23 dim) by exact (shape_dim s).
  assert (VZ : forall i, dg_volume S c e i 0%Z = 0).
  { intros i. unfold dg_volume. fold s. fold dim. apply rsum_zero. intros q Hq. rewrite rsum_zero; [ring|]. intros j Hj.
    rewrite (still_euler dim (sc_gamma S) E) by ((destruct D; lia) || exact (rests_state m S bt p P E2 E3 PI E c e q RC He Hq)). unfold push_of. cbn [Z.eqb]. ring. }
  rewrite (rsum_ext _ _ (fun i => rsum (gm_nIF m) (fun f => a i * dg_side S m c f false e i 0%Z + a i * dg_side S m c f true e i 0%Z))).
  2: { intros i Hi. unfold dg_residual. rewrite VZ, Rplus_0_l, <- rsum_scal. apply rsum_ext. intros; ring. }
  rewrite rsum_swap.
  assert (NN : forall f sd, (0 <= f < gm_nIF m)%Z -> 0 <= rsum (nfun bt p) (fun i => a i * dg_side S m c f sd e i 0%Z)).
  { intros f sd Hf. destruct (Z.eq_dec (side_elem m f sd) e) as [Eq|Ne]; [apply Rlt_le; now apply side_gains|].
    rewrite rsum_zero; [lra|]. intros i Hi. unfold dg_side. destruct (Z.eqb_spec (side_elem m f sd) e); [easy|]. ring. }
  set (G := fun f => rsum (nfun bt p) (fun i => a i * dg_side S m c f false e i 0%Z + a i * dg_side S m c f true e i 0%Z)).
  assert (GP : forall f, (0 <= f < gm_nIF m)%Z -> 0 <= G f).
  { intros f Hf. unfold G. rewrite rsum_plus. pose proof (NN f false Hf). pose proof (NN f true Hf). lra. }
  assert (G0 : 0 < G f0).
  { unfold G. rewrite rsum_plus. pose proof (NN f0 false Hf0). pose proof (NN f0 true Hf0). pose proof (side_gains f0 sd0 Hf0 Es). destruct sd0; lra. }
  eapply Rlt_le_trans; [exact G0|].
  rewrite <- (rsum_delta (gm_nIF m) f0 G Hf0). apply rsum_le. intros f Hf. pose proof (GP f Hf). destruct (f =? f0)%Z; [lra|exact H].
Qed.
End Diffuse.

(** Face rules have points, and their weights are positive. *)
Lemma face_weights s p nqf fp fw : order_ok p -> face_quadrature s p = Ok (nqf, fp, fw) ->
  (0 < nqf)%Z /\ forall q, (0 <= q < nqf)%Z -> 0 < fw q.
Proof.
  unfold order_ok. intros Op EF. destruct (face_rule s p ltac:(lia) ltac:(lia) ltac:(lia)) as (x & w & fp' & fw' & (G & _) & TR & EF').
  rewrite EF in EF'. injection EF' as EN <- <-. subst nqf.
  assert (NP : (0 < face_rule_points s p)%Z) by (destruct s; cbn; lia).
  split; [apply Z.pow_pos_nonneg; [exact NP|destruct s; cbn; lia]|].
  intros q Hq. destruct (TR q Hq) as (_ & ->).
  assert (K : forall d, 0 < w (digit (face_rule_points s p) d q)) by (intros d; apply G; apply digit_range; lia).
  destruct s; cbn [space_dim]; [change (2 - 1)%Z with 1%Z|change (3 - 1)%Z with 2%Z; rewrite rprod_2; apply Rmult_lt_0_compat; apply K].
  rewrite rprod_1. apply K.
Qed.

(** The ranks' solution, as a global table, rests when the ranks' does. *)
Lemma holds_rests zero iter n m ep pm s bt p E U c : run_wf iter n m ep -> partitioned zero iter n m ep pm ->
  holds_solution pm n (nfun bt p) (space_dim s + 2) c U -> at_rest s bt p pm n E U ->
  forall e y, (0 <= e < gm_num_elems m)%Z ->
  let u := fun k => rsum (nfun bt p) (fun j => basis_fn bt p j y * c e j k) in
  (forall d, (0 <= d < space_dim s)%Z -> u (d + 1)%Z = 0) /\ u (space_dim s + 1)%Z = E /\ ((forall d, (0 <= d < space_dim s)%Z -> -1 <= y d <= 1) -> 0 < u 0%Z).
Proof.
  intros WF PT HU AR e y He u. destruct (gather zero iter n m ep pm U WF PT) as (c1 & Hc).
  pose proof (at_rest_rests zero iter n m ep pm s bt p E U c1 WF PT Hc AR e y He) as X. cbv zeta in X.
  destruct (owner_of zero iter n m ep pm e WF PT He) as (r & le & Hr & Hle).
  assert (K : forall k, (0 <= k < space_dim s + 2)%Z -> u k = rsum (nfun bt p) (fun j => basis_fn bt p j y * c1 e j k)).
  { intros k Hk. unfold u. apply rsum_ext. intros j Hj. f_equal. rewrite <- (Hc r le e j k Hr Hle). symmetry. now apply (HU r le e). }
  pose proof (shape_dim s) as D. destruct X as (X1 & X2 & X3). split; [|split].
  - intros d Hd. rewrite K by lia. now apply X1.
  - rewrite K by (destruct D; lia). exact X2.
  - intros Hy. rewrite K by (destruct D; lia). now apply X3.
Qed.

(** Lax-Friedrichs, quadrilaterals: an element lighter than all its neighbours
    gains mass, although nothing moves ([a] are the coefficients of the function
    1, so the sum is the time derivative of the mass of the element). *)
Theorem C102_lax_friedrichs_diffuses : forall zero iter n m ep pm bt p h f gamma ord pord junk E c U w rs w1 a A B,
  run_wf iter n m ep -> partitioned zero iter n m ep pm -> faces_valid EQuad m -> faces_distinct m ->
  straight_quads m -> conforming m -> basis_for EQuad bt -> supported bt p -> order_ok p -> 1 < gamma ->
  all_set_up EQuad bt p 1 m pm n h f -> inner_loops_ok pm n ord pord ->
  0 < E -> at_rest EQuad bt p pm n E U -> holds_solution pm n (nfun bt p) 4 c U -> boundary_zero EQuad m pm n (p + 1) (fst w) ->
  evaluation EQuad m ep pm n (p + 1) gamma (tables EQuad bt p pm gamma LaxFriedrichs h f ord pord junk) U w rs w1 ->
  (forall y, rsum (nfun bt p) (fun i => a i * basis_fn bt p i y) = 1) ->
  forall r le e, (0 <= r < n)%Z -> rd (pm_l2g_elem (pm r)) le = Ok e ->
    lighter EQuad bt p m c e A B -> A < B -> (exists f sd k o, has_side m f sd e k o) ->
    0 < rsum (nfun bt p) (fun i => a i * rs r le i 0%Z).
Proof.
  intros zero iter n m ep pm bt p h f gamma ord pord junk E c U w rs w1 a A B WF PT FV FD SQ CF BF Sup Op Gm AS IL Ep AR HU BZ EV ONE r le e Hr He LT AB NB.
  assert (RD : ready EQuad bt p 1 m) by (constructor; auto; [lia|apply SQ|now apply convex_untangled]).
  destruct (quad_runs zero iter n m ep pm bt p h f gamma LaxFriedrichs ord pord junk WF PT FV SQ CF RD AS IL) as (nq & P & W & fp & fw & EQ & EF & FP & RS).
  set (S := quad_scheme bt p m gamma LaxFriedrichs nq P W (p + 1) fp fw) in *.
  assert (NZ : forall f q, (0 <= f < gm_nIF m)%Z -> (0 <= q < sc_nqf S)%Z -> vdot 2 (sc_normal S f q) (sc_normal S f q) <> 0).
  { intros g q Hg _. exact (edge_normal_nonzero iter n m ep WF FV SQ g Hg). }
  destruct (face_weights EQuad p (p + 1) fp fw Op EF) as (NQ & FW).
  pose proof (owned_elem zero iter n m ep pm WF PT r le e Hr He) as Hm.
  pose proof (C77_residual_of_scheme zero iter n m ep pm S _ c U w rs w1 WF PT RS FV FD FP Gm HU BZ EV r le e) as RE.
  cbn [S quad_scheme sc_nb sc_shape space_dim] in RE. fold S in RE.
  rewrite (rsum_ext _ _ (fun i => a i * dg_residual S m c e i 0%Z)).
  2: { intros i Hi. f_equal. apply RE; try assumption; lia. }
  exact (element_gains iter n m ep WF S bt p P fp eq_refl eq_refl eq_refl FV FP (volume_closed EQuad p nq P W Op EQ) (face_closed EQuad p (p + 1) fp fw Op EF) NZ E Ep Gm NQ FW eq_refl c
    (holds_rests zero iter n m ep pm EQuad bt p E U c WF PT HU AR) e Hm a ONE A B AB LT NB).
Qed.
Print Assumptions C102_lax_friedrichs_diffuses.

(** The same on hexahedra. *)
Theorem C102_lax_friedrichs_diffuses_hexahedra : forall zero iter n m ep pm bt p h f gamma ord pord junk E c U w rs w1 a A B,
  run_wf iter n m ep -> partitioned zero iter n m ep pm -> faces_valid EHex m -> faces_distinct m ->
  flat_hexes m -> conforming_hexes m -> basis_for EHex bt -> supported bt p -> order_ok p -> 1 < gamma ->
  all_set_up EHex bt p 1 m pm n h f -> inner_loops_ok pm n ord pord ->
  0 < E -> at_rest EHex bt p pm n E U -> holds_solution pm n (nfun bt p) 5 c U -> boundary_zero EHex m pm n ((p + 2) * (p + 2)) (fst w) ->
  evaluation EHex m ep pm n ((p + 2) * (p + 2)) gamma (tables EHex bt p pm gamma LaxFriedrichs h f ord pord junk) U w rs w1 ->
  (forall y, rsum (nfun bt p) (fun i => a i * basis_fn bt p i y) = 1) ->
  forall r le e, (0 <= r < n)%Z -> rd (pm_l2g_elem (pm r)) le = Ok e ->
    lighter EHex bt p m c e A B -> A < B -> (exists f sd k o, has_side m f sd e k o) ->
    0 < rsum (nfun bt p) (fun i => a i * rs r le i 0%Z).
Proof.
  intros zero iter n m ep pm bt p h f gamma ord pord junk E c U w rs w1 a A B WF PT FV FD FH CF BF Sup Op Gm AS IL Ep AR HU BZ EV ONE r le e Hr He LT AB NB.
  assert (RD : ready EHex bt p 1 m) by (constructor; auto; [lia|apply FH|apply FH]).
  destruct (hex_runs zero iter n m ep pm bt p h f gamma LaxFriedrichs ord pord junk WF PT FV FH CF RD AS IL) as (nq & P & W & fp & fw & EQ & EF & FP & RS).
  set (S := hex_scheme bt p m gamma LaxFriedrichs nq P W ((p + 2) * (p + 2)) fp fw) in *.
  assert (NZ : forall f q, (0 <= f < gm_nIF m)%Z -> (0 <= q < sc_nqf S)%Z -> vdot 3 (sc_normal S f q) (sc_normal S f q) <> 0).
  { intros g q Hg _. exact (flat_normal_nonzero iter n m ep WF FH g Hg). }
  destruct (face_weights EHex p ((p + 2) * (p + 2)) fp fw Op EF) as (NQ & FW).
  pose proof (owned_elem zero iter n m ep pm WF PT r le e Hr He) as Hm.
  pose proof (C77_residual_of_scheme zero iter n m ep pm S _ c U w rs w1 WF PT RS FV FD FP Gm HU BZ EV r le e) as RE.
  cbn [S hex_scheme sc_nb sc_shape space_dim] in RE. fold S in RE.
  rewrite (rsum_ext _ _ (fun i => a i * dg_residual S m c e i 0%Z)).
  2: { intros i Hi. f_equal. apply RE; try assumption; lia. }
  exact (element_gains iter n m ep WF S bt p P fp eq_refl eq_refl eq_refl FV FP (volume_closed EHex p nq P W Op EQ) (face_closed EHex p ((p + 2) * (p + 2)) fp fw Op EF) NZ E Ep Gm NQ FW eq_refl c
    (holds_rests zero iter n m ep pm EHex bt p E U c WF PT HU AR) e Hm a ONE A B AB LT NB).
Qed.
Print Assumptions C102_lax_friedrichs_diffuses_hexahedra.

(** ** A case: the closed mesh of C80, three ranks; one light element *)
Definition light_gas : arr3 := fun e j k => ones LagrangeQuad j * (if (k =? 0)%Z then (if (e =? 0)%Z then 1 else 2) else if (k =? 3)%Z then 5 else 0).
Definition light_ranks (pm : Z -> pmesh R) : Z -> arr3 := fun r le j k =>
  match rd (pm_l2g_elem (pm r)) le with Ok e => light_gas e j k | _ => 0 end.

Lemma light_sum e k y : rsum (nfun LagrangeQuad 2) (fun j => basis_fn LagrangeQuad 2 j y * light_gas e j k) = light_gas e 0%Z k.
Proof.
  unfold light_gas. set (v := if (k =? 0)%Z then _ else _).
  rewrite (unit_sum LagrangeQuad 2 (fun _ => v) 0%Z y); [|unfold order_ok; lia|now left]. change (ones LagrangeQuad 0%Z) with 1. rewrite Rmult_1_l. reflexivity.
Qed.

Example C102_demo : exists pm h f rs w1 rs' w1',
  let ord := fun (r : Z) (_ : nat) => zseq (pm_num_elems_part (pm r)) in
  let pord := fun (_ : Z) (_ : nat) a b => list_prod (zseq a) (zseq b) in
  let w := ((fun _ : Z => mkRV zero3 zero3 zero3 zero3 zero3), fun _ : Z => zero3) in
  let U := light_ranks pm in
  partitioned 0 (fun _ l => rev l) 3 demo_torus demo_ep pm /\ all_set_up EQuad LagrangeQuad 2 1 demo_torus pm 3 h f /\ inner_loops_ok pm 3 ord pord /\
  at_rest EQuad LagrangeQuad 2 pm 3 5 U /\ holds_solution pm 3 9 4 light_gas U /\ boundary_zero EQuad demo_torus pm 3 3 (fst w) /\
  lighter EQuad LagrangeQuad 2 demo_torus light_gas 0%Z 1 2 /\
  evaluation EQuad demo_torus demo_ep pm 3 3 2 (tables EQuad LagrangeQuad 2 pm 2 HLLC h f ord pord (fun _ => zero1)) U w rs w1 /\
  evaluation EQuad demo_torus demo_ep pm 3 3 2 (tables EQuad LagrangeQuad 2 pm 2 LaxFriedrichs h f ord pord (fun _ => zero1)) U w rs' w1' /\
  (forall r le e i, (0 <= r < 3)%Z -> rd (pm_l2g_elem (pm r)) le = Ok e -> (0 <= i < 9)%Z ->
     rs r le i 0%Z = 0 /\ rs r le i 3%Z = 0 /\ Rabs (rs r le i 1%Z) <= 1 / 10 ^ 12 /\ Rabs (rs r le i 2%Z) <= 1 / 10 ^ 12) /\
  (exists r le, (0 <= r < 3)%Z /\ rd (pm_l2g_elem (pm r)) le = Ok 0%Z /\ 0 < rsum 9 (fun i => rs' r le i 0%Z)).
Proof.
  destruct torus_straight as (SQ & CF & FV & FD & NB & EX).
  destruct (uniform_setup (fun _ l => rev l) 3 demo_torus demo_ep LagrangeQuad 2 flowing 0 torus_run SQ ltac:(now left) ltac:(now left) ltac:(lia)) as (pm & h & f & _ & PT & AS & IL & _).
  assert (Op : order_ok 2) by (unfold order_ok; lia).
  set (w := ((fun _ : Z => mkRV zero3 zero3 zero3 zero3 zero3), fun _ : Z => zero3)).
  assert (HU : holds_solution pm 3 9 4 light_gas (light_ranks pm)).
  { intros r le e j k Hr He _ _. unfold light_ranks. now rewrite He. }
  assert (AR : at_rest EQuad LagrangeQuad 2 pm 3 5 (light_ranks pm)).
  { intros r le y Hr Hle. cbv zeta.
    destruct (C01_element_ownership R 0 (fun _ l => rev l) 3 demo_torus demo_ep pm torus_run PT) as (_ & _ & CN & _). destruct (CN r Hr) as (_ & CL). rewrite CL in Hle.
    destruct (rd_total (pm_l2g_elem (pm r)) le Hle) as (e & Re).
    assert (K : forall k, rsum (nfun LagrangeQuad 2) (fun j => basis_fn LagrangeQuad 2 j y * light_ranks pm r le j k) = light_gas e 0%Z k).
    { intros k. rewrite <- (light_sum e k y). apply rsum_ext. intros j Hj. unfold light_ranks. now rewrite Re. }
    split; [|split].
    - intros d Hd. rewrite K. cbn [space_dim] in Hd. unfold light_gas. assert (d = 0 \/ d = 1)%Z as [-> | ->] by lia; cbn -[IZR]; ring.
    - rewrite K. cbv [light_gas space_dim]. cbn -[IZR]. ring.
    - intros _. rewrite K. unfold light_gas. change (ones LagrangeQuad 0%Z) with 1. cbn [Z.eqb]. destruct (e =? 0)%Z; lra. }
  assert (BZ : boundary_zero EQuad demo_torus pm 3 3 (fst w)) by (intros r le pos k Hr _; reflexivity).
  assert (LT : lighter EQuad LagrangeQuad 2 demo_torus light_gas 0%Z 1 2).
  { split.
    - intros y _. unfold density_at. rewrite light_sum. unfold light_gas. cbn -[IZR]. lra.
    - intros g sd e' k o k' o' y H1 H2 _. unfold density_at. rewrite light_sum. apply torus_sides in H1, H2. destruct H1 as (Hg & H1), H2 as (_ & H2).
      unfold light_gas. eight g; destruct sd; cbn in H1, H2; try discriminate H1; injection H2 as -> -> ->; cbn -[IZR]; lra. }
  destruct (C102_rest_evaluates 0 (fun _ l => rev l) 3 demo_torus demo_ep pm LagrangeQuad 2 h f 2 HLLC _ _ (fun _ => zero1) 5 (light_ranks pm) w
    torus_run PT FV FD SQ CF ltac:(now left) ltac:(now left) Op ltac:(lra) AS IL ltac:(lra) AR) as (rs & w1 & EV).
  destruct (C102_rest_evaluates 0 (fun _ l => rev l) 3 demo_torus demo_ep pm LagrangeQuad 2 h f 2 LaxFriedrichs _ _ (fun _ => zero1) 5 (light_ranks pm) w
    torus_run PT FV FD SQ CF ltac:(now left) ltac:(now left) Op ltac:(lra) AS IL ltac:(lra) AR) as (rs' & w1' & EV').
  exists pm, h, f, rs, w1, rs', w1'. cbv zeta. split; [exact PT|]. split; [exact AS|]. split; [exact IL|]. split; [exact AR|]. split; [exact HU|]. split; [exact BZ|].
  split; [exact LT|]. split; [exact EV|]. split; [exact EV'|]. split.
  - intros r le e i Hr He Hi.
    pose proof (owned_elem 0 (fun _ l => rev l) 3 demo_torus demo_ep pm torus_run PT r le e Hr He) as Re. change (gm_num_elems demo_torus) with 4%Z in Re.
    destruct (C102_rest_quads 0 (fun _ l => rev l) 3 demo_torus demo_ep pm LagrangeQuad 2 h f 2 _ _ (fun _ => zero1) 5 (light_ranks pm) w rs w1
      torus_run PT FV FD SQ CF ltac:(now left) ltac:(now left) Op ltac:(lra) AS IL ltac:(lra) AR BZ EV r le e i Hr He Hi) as (M0 & M3 & MM).
    split; [exact M0|]. split; [exact M3|].
    specialize (MM 20 (EX e Re) (fun kk Hkk => NB e kk Re Hkk)).
    pose proof (MM 0%Z ltac:(lia)) as B0. pose proof (MM 1%Z ltac:(lia)) as B1. change (0 + 1)%Z with 1%Z in B0. change (1 + 1)%Z with 2%Z in B1.
    assert (free_stream_eps * 20 * ((2 - 1) * 5) <= 1 / 10 ^ 12) by (unfold free_stream_eps; lra). lra.
  - destruct (owner_of 0 (fun _ l => rev l) 3 demo_torus demo_ep pm 0 torus_run PT ltac:(cbn; lia)) as (r & le & Hr & He).
    exists r, le. split; [exact Hr|]. split; [exact He|].
    assert (NB0 : exists f sd k o, has_side demo_torus f sd 0 k o) by (destruct (NB 0%Z 0%Z ltac:(lia) ltac:(lia)) as (a1 & a2 & a3 & HS); exists a1, a2, 0%Z, a3; exact HS).
    pose proof (C102_lax_friedrichs_diffuses 0 (fun _ l => rev l) 3 demo_torus demo_ep pm LagrangeQuad 2 h f 2 _ _ (fun _ => zero1) 5 light_gas (light_ranks pm) w rs' w1' (ones LagrangeQuad) 1 2
      torus_run PT FV FD SQ CF ltac:(now left) ltac:(now left) Op ltac:(lra) AS IL ltac:(lra) AR HU BZ EV'
      (fun y => ones_sum LagrangeQuad 2 y ltac:(lia) ltac:(now left)) r le 0%Z Hr He LT ltac:(lra) NB0) as G.
    rewrite (rsum_ext 9 _ (fun i => ones LagrangeQuad i * rs' r le i 0%Z)) by (intros i _; change (ones LagrangeQuad i) with 1; ring). exact G.
Qed.
Print Assumptions C102_demo.
