(** PropBalanceDemo.v -- C87: momentum is not conserved by a run on two ranks
    whose common face is not flat. *)
From Coq Require Import ZArith List Lia Reals Lra Bool Permutation FunctionalExtensionality.
From Coquelicot Require Import Coquelicot.
From Verif Require Import Base RBase LinAlgModel LinAlgProof PropLinAlg QuadModel QuadProof PropQuad BasisModel BasisProof PropBasis PropSolver PropNormals.
From Verif Require Import ShapeModel ShapeProof PropShape MeshModel MeshSpec MeshProof PropMesh PhysModel PhysSpec PhysProof SolverModel SolverSpec SolverProof SolverMesh.
From Verif Require Import SolverFaces SolverConserve SolverFlux.
From Verif Require Import StepModel StepProof PropStep PropConserve PropResidual PropIntegral.
From Verif Require CommProof.
From Verif Require Import SetupModel SetupSpec MassProof SetupProof SetupPass SetupFaces PropSetup PropVortex PropMeshRun PropInit PropPost DGSpec DGProof PropDG PropHex PropHexDemo PropHexNormals PropBalance.
Import ListNotations.
Local Open Scope R_scope.
Open Scope res_scope.

(** ** The normals of the two ranks *)
Section Bent.
Context (iter : Z -> list Z -> list Z) (n : Z) (ep : list Z) (pm : Z -> pmesh R) (bt : basis_type) (p : Z) (h : Z -> vhelpers) (fh : Z -> fhelpers).
Let m := two_hexes (1 / 4).
Let zero := 0.
Context (WF : run_wf iter n m ep) (PT : partitioned zero iter n m ep pm) (RD : ready EHex bt p 1 m) (AS : all_set_up EHex bt p 1 m pm n h fh).
Context (fp : arr2) (fw : arr1) (EF : face_quadrature EHex p = Ok (((p + 2) * (p + 2))%Z, fp, fw)).

(** The normal is computed from one of the sides that lives on the rank. *)
Lemma bent_normals r lf : (0 <= r < n)%Z -> rd (pm_l2g_iface (pm r)) lf = Ok 0%Z ->
  exists sd : bool, owned_by ep (if sd then 1 else 0)%Z r /\ forall q, (0 <= q < (p + 2) * (p + 2))%Z ->
  fh_normals (fh r) lf q 0%Z = 1 / 4 /\
  fh_normals (fh r) lf q 2%Z = - / 32 * (1 + (if sd then - fp q 1%Z else fp q 1%Z)).
Proof.
  intros Hr Ef. pose proof RD as [Hg Fit Un BF Op Sup]. pose proof Op as Op'. unfold order_ok in Op'.
  destruct (AS r Hr) as (jk & eo1 & eo2 & fo & LO & E0).
  destruct (setup_master zero iter n m ep pm WF PT EHex bt p 1 RD r jk eo1 eo2 fo Hr LO) as (h1 & h' & f' & E & _ & _ & E3).
  rewrite E in E0. injection E0 as -> ->. destruct LO as (P1 & P2 & P3).
  destruct (faces_pass zero iter n m ep pm WF PT EHex bt p 1 ltac:(lia) Sup BF Fit r jk fo Hr Op P3) as (f' & x' & w' & fp' & E3' & _ & Nq & _ & EQ & Pts & LK & NR).
  rewrite E3 in E3'. injection E3' as <-. rewrite hex_points in Nq. rewrite EF in EQ. assert (fp' = fp) as -> by (clear - EQ; congruence).
  destruct (Pts 0%Z ltac:(cbn; lia)) as (PF & _). unfold points_on_face in PF. rewrite Nq in *. set (nqf := ((p + 2) * (p + 2))%Z) in *.
  destruct (points_on_face_hex 0 0 nqf fp zero2) as [PP|] eqn:EP; [|discriminate]. injection PF as PF. rewrite PF in EP.
  destruct (NR lf 0%Z Ef) as (sd & e & k & o & le & c & HS & Hle & Ow & _ & Vc & V). apply two_sides in HS. destruct HS as (_ & HS).
  exists sd. split; [destruct sd; injection HS as -> -> ->; exact Ow|]. intros q Hq.
  rewrite !V by (cbn; lia). unfold shape_normal.
  assert (EM : forall u v d, (0 <= d < 3)%Z -> elem_map LagrangeHex 1 c (hex_face k u v) d = face_surface m e k u v d) by (intros; now apply map_nodes).
  destruct sd; injection HS as -> -> ->.
  - destruct (C22_hex_normals_partial 1 4 (-1) nqf c fp zero2 (fh_pts (fh r) 0%Z) q ltac:(lia) ltac:(lia) Hq EP) as ((A & B & D & NV) & _).
    rewrite !NV by lia. revert D. generalize (fp q 0%Z) (fp q 1%Z). intros a b D. rewrite !cross_vprod by lia. unfold vprod. cbn [Z.eqb Pos.eqb].
    assert (DA : forall d, (0 <= d < 3)%Z -> A d = Derive (fun s' => vec3 (1 + 1/4 * ((1 - s') * (1 + a) / 4)) ((1 - s') / 2) ((1 + a) / 2) d) b).
    { intros d Hd. destruct (D d) as (A0 & _). exact (tangent _ (fun s' => vec3 (1 + 1/4 * ((1 - s') * (1 + a) / 4)) ((1 - s') / 2) ((1 + a) / 2) d) b _ A0 (fun z => eq_trans (EM z a d Hd) (proj2 (two_face (1/4) z a d Hd)))). }
    assert (DB : forall d, (0 <= d < 3)%Z -> B d = Derive (fun t' => vec3 (1 + 1/4 * ((1 - b) * (1 + t') / 4)) ((1 - b) / 2) ((1 + t') / 2) d) a).
    { intros d Hd. destruct (D d) as (_ & B0). exact (tangent _ (fun t' => vec3 (1 + 1/4 * ((1 - b) * (1 + t') / 4)) ((1 - b) / 2) ((1 + t') / 2) d) a _ B0 (fun z => eq_trans (EM b z d Hd) (proj2 (two_face (1/4) b z d Hd)))). }
    rewrite !DA, !DB by lia. unfold vec3. cbn [Z.eqb Pos.eqb]. clear.
    replace (Derive (fun t => 1 + 1/4 * ((1 - t) * (1 + a) / 4)) b) with (- (1 + a) / 16) by (symmetry; apply is_derive_unique; auto_derive; [exact Logic.I|field]).
    replace (Derive (fun t => 1 + 1/4 * ((1 - b) * (1 + t) / 4)) a) with ((1 - b) / 16) by (symmetry; apply is_derive_unique; auto_derive; [exact Logic.I|field]).
    replace (Derive (fun t => (1 - t) / 2) b) with (- 1 / 2) by (symmetry; apply is_derive_unique; auto_derive; [exact Logic.I|field]).
    replace (Derive (fun t => (1 + t) / 2) a) with (1 / 2) by (symmetry; apply is_derive_unique; auto_derive; [exact Logic.I|field]).
    rewrite !Derive_const. split; field.
  - destruct (C22_hex_normals_partial 1 2 1 nqf c fp zero2 (fh_pts (fh r) 0%Z) q ltac:(lia) ltac:(lia) Hq EP) as ((A & B & D & NV) & _).
    rewrite !NV by lia. revert D. generalize (fp q 0%Z) (fp q 1%Z). intros a b D. rewrite !cross_vprod by lia. unfold vprod. cbn [Z.eqb Pos.eqb].
    assert (DA : forall d, (0 <= d < 3)%Z -> A d = Derive (fun s' => vec3 (1 + 1/4 * ((1 + s') * (1 + a) / 4)) ((1 + s') / 2) ((1 + a) / 2) d) b).
    { intros d Hd. destruct (D d) as (A0 & _). exact (tangent _ (fun s' => vec3 (1 + 1/4 * ((1 + s') * (1 + a) / 4)) ((1 + s') / 2) ((1 + a) / 2) d) b _ A0 (fun z => eq_trans (EM z a d Hd) (proj1 (two_face (1/4) z a d Hd)))). }
    assert (DB : forall d, (0 <= d < 3)%Z -> B d = Derive (fun t' => vec3 (1 + 1/4 * ((1 + b) * (1 + t') / 4)) ((1 + b) / 2) ((1 + t') / 2) d) a).
    { intros d Hd. destruct (D d) as (_ & B0). exact (tangent _ (fun t' => vec3 (1 + 1/4 * ((1 + b) * (1 + t') / 4)) ((1 + b) / 2) ((1 + t') / 2) d) a _ B0 (fun z => eq_trans (EM b z d Hd) (proj1 (two_face (1/4) b z d Hd)))). }
    rewrite !DA, !DB by lia. unfold vec3. cbn [Z.eqb Pos.eqb]. clear.
    replace (Derive (fun t => 1 + 1/4 * ((1 + t) * (1 + a) / 4)) b) with ((1 + a) / 16) by (symmetry; apply is_derive_unique; auto_derive; [exact Logic.I|field]).
    replace (Derive (fun t => 1 + 1/4 * ((1 + b) * (1 + t) / 4)) a) with ((1 + b) / 16) by (symmetry; apply is_derive_unique; auto_derive; [exact Logic.I|field]).
    replace (Derive (fun t => (1 + t) / 2) b) with (1 / 2) by (symmetry; apply is_derive_unique; auto_derive; [exact Logic.I|field]).
    replace (Derive (fun t => (1 + t) / 2) a) with (1 / 2) by (symmetry; apply is_derive_unique; auto_derive; [exact Logic.I|field]).
    rewrite !Derive_const. split; field.
Qed.
End Bent.

(** ** The rule on the face is symmetric *)
Lemma face_moments p : order_ok p -> exists fp fw, face_quadrature EHex p = Ok (((p + 2) * (p + 2))%Z, fp, fw) /\
  (forall q, (0 <= q < (p + 2) * (p + 2))%Z -> -1 < fp q 1%Z < 1) /\
  rsum ((p + 2) * (p + 2)) (fun q => fw q * fp q 1%Z) = 0 /\ 0 < rsum ((p + 2) * (p + 2)) (fun q => fw q * (fp q 1%Z * fp q 1%Z)).
Proof.
  unfold order_ok. intros Op. destruct (face_rule EHex p ltac:(lia) ltac:(lia) ltac:(lia)) as (x & w & fp & fw & G & TR & EF).
  rewrite hex_points in EF. exists fp, fw. split; [exact EF|].
  cbn [face_rule_points space_dim] in *. change (3 - 1)%Z with 2%Z in *. set (np := (p + 2)%Z) in *.
  assert (Hnp : (2 <= np)%Z) by (unfold np; lia).
  assert (TQ : forall q, (0 <= q < np * np)%Z -> fp q 1%Z = x (q / np)%Z /\ fw q = w (q mod np)%Z * w (q / np)%Z /\ (0 <= q / np < np)%Z /\ (0 <= q mod np < np)%Z).
  { intros q Hq. destruct (TR q) as (T & Tw); [rewrite Z.pow_2_r; exact Hq|]. rewrite T, Tw by lia. unfold rprod. change (zseq 2) with [0; 1]%Z. cbn [map fold_right].
    rewrite digit0, digit1_top by lia. destruct (divmod_range np q ltac:(lia) Hq) as (D1 & D2 & _). split; [reflexivity|]. split; [ring|]. auto. }
  destruct G as (G1 & G2 & _).
  assert (MV : forall g, rsum (np * np) (fun q => fw q * g (fp q 1%Z)) = rsum np w * rsum np (fun j => w j * g (x j))).
  { intros g. rewrite (rsum_ext _ _ (fun q => (fun i j => w i * (w j * g (x j))) (q mod np)%Z (q / np)%Z)).
    - rewrite (rsum_flat np np (fun i j => w i * (w j * g (x j)))) by lia. rewrite <- rsum_scal. apply rsum_ext. intros j Hj. now rewrite rsum_scal_r.
    - intros q Hq. destruct (TQ q Hq) as (-> & -> & _). ring. }
  split; [intros q Hq; destruct (TQ q Hq) as (-> & _ & B & _); now apply G1|]. split.
  - rewrite (MV (fun t => t)). assert (Z0 : rsum np (fun j => w j * x j) = 0); [|rewrite Z0; ring].
    assert (E : rsum np (fun j => w j * x j) = - rsum np (fun j => w j * x j)).
    { rewrite <- (rsum_permutes np (fun i => (np - 1 - i)%Z) (fun j => w j * x j)) at 1 by apply permutes_rev. rewrite <- rsum_opp. apply rsum_ext. intros j Hj.
      destruct (G1 j Hj) as (_ & _ & -> & ->). ring. }
    lra.
  - rewrite (MV (fun t => t * t)). apply Rmult_lt_0_compat; [apply rsum_pos; [lia|intros; now apply G1]|].
    assert (0 <= rsum np (fun j => w j * (x j * x j))) as [L|L]; [|exact L|].
    + rewrite <- (rsum_zero np (fun _ => 0)) by auto. apply rsum_le. intros j Hj. destruct (G1 j Hj) as (_ & W0 & _). apply Rmult_le_pos; [lra|apply Rle_0_sqr].
    + exfalso. assert (NN : forall i, (0 <= i < np)%Z -> 0 <= w i * (x i * x i)).
      { intros j Hj. destruct (G1 j Hj) as (_ & W0 & _). apply Rmult_le_pos; [lra|apply Rle_0_sqr]. }
      pose proof (rsum_nonneg_zero np _ NN (eq_sym L) 0%Z ltac:(lia)) as H0. destruct (G1 0%Z ltac:(lia)) as (_ & W0 & G3 & _). specialize (G2 0%Z (np - 1)%Z ltac:(lia) ltac:(lia)).
      replace (np - 1 - 0)%Z with (np - 1)%Z in G3 by lia. cbv beta in H0. assert (X0 : x 0%Z < 0) by lra. assert (XX : 0 < x 0%Z * x 0%Z) by nra. pose proof (Rmult_lt_0_compat _ _ W0 XX). lra.
Qed.

(** ** The state: gas at rest of density 1, energy 2 + z in the reference
    coordinates of the left element and 1 in the right one. *)
Definition slope (p : Z) (e : Z) : arr2 := fun i k =>
  if (k =? 0)%Z then (if (i =? 0)%Z then 1 else 0)
  else if (k =? 4)%Z then (if (i =? 0)%Z then (if (e =? 0)%Z then 2 else 1) else if (i =? (p + 1) * (p + 1))%Z then (if (e =? 0)%Z then 1 else 0) else 0)
  else 0.

Definition slope_state (e : Z) (z : R) (k : Z) : R :=
  if (k =? 0)%Z then 1 else if (k =? 4)%Z then (if (e =? 0)%Z then 2 + z else 1) else 0.

Lemma slope_value p e y k : (1 <= p <= 7)%Z -> (0 <= k < 5)%Z ->
  rsum (nfun LegendreHex p) (fun i => basis_fn LegendreHex p i y * slope p e i k) = slope_state e (y 2%Z) k.
Proof.
  intros Hp Hk. set (nf := nfun LegendreHex p). set (c := ((p + 1) * (p + 1))%Z).
  assert (Nf : nf = ((p + 1) * c)%Z) by (unfold nf, nfun, c; change (dim LegendreHex) with 3%Z; ring).
  assert (Hc : (0 < c)%Z) by (unfold c; nia). assert (H0 : (0 <= 0 < nf)%Z) by nia. assert (H1 : (0 <= c < nf)%Z) by nia.
  assert (B0 : basis_fn LegendreHex p 0 y = 1).
  { unfold basis_fn. cbn [dim]. apply rprod_one. intros d Hd. unfold fn1. cbn [is_lagrange]. unfold digit. rewrite Z.div_0_l by (apply Z.pow_nonzero; lia). rewrite Z.mod_0_l by lia. reflexivity. }
  assert (B1 : basis_fn LegendreHex p c y = y 2%Z).
  { unfold basis_fn. cbn [dim]. unfold rprod. change (zseq 3) with [0; 1; 2]%Z. cbn [map fold_right]. unfold fn1. cbn [is_lagrange].
    rewrite digit0, digit1, digit2. fold c. rewrite Z.div_same by lia.
    replace (c / (p + 1))%Z with (p + 1)%Z by (unfold c; rewrite Z.div_mul by lia; reflexivity).
    replace (c mod (p + 1))%Z with 0%Z by (unfold c; symmetry; apply Z.mod_mul; lia).
    rewrite Z.mod_same, (Z.mod_small 1) by lia.
    change (legendre_poly 0 (y 0%Z)) with 1. change (legendre_poly 0 (y 1%Z)) with 1. change (legendre_poly 1 (y 2%Z)) with (y 2%Z). ring. }
  assert (RS : forall a b, rsum nf (fun i => basis_fn LegendreHex p i y * (if (i =? 0)%Z then a else if (i =? c)%Z then b else 0)) = a + b * y 2%Z).
  { intros a b. rewrite (rsum_ext nf _ (fun i => (if (i =? 0)%Z then basis_fn LegendreHex p i y * a else 0) + (if (i =? c)%Z then basis_fn LegendreHex p i y * b else 0))).
    - rewrite rsum_plus, (rsum_delta nf 0), (rsum_delta nf c) by assumption. rewrite B0, B1. ring.
    - intros i Hi. destruct (Z.eqb_spec i 0), (Z.eqb_spec i c); try lia; ring. }
  unfold slope, slope_state. fold c. destruct (Z.eqb_spec k 0).
  - rewrite (rsum_ext nf _ (fun i => basis_fn LegendreHex p i y * (if (i =? 0)%Z then 1 else if (i =? c)%Z then 0 else 0))) by (intros i Hi; destruct (i =? 0)%Z, (i =? c)%Z; reflexivity).
    rewrite RS. ring.
  - destruct (Z.eqb_spec k 4).
    + rewrite RS. destruct (e =? 0)%Z; ring.
    + apply rsum_zero. intros. ring.
Qed.

Lemma slope_admissible gamma e z (U : arr1) : 1 < gamma -> -1 < z < 1 -> (forall k, (0 <= k < 5)%Z -> U k = slope_state e z k) ->
  admissible 3 gamma U /\ (forall N, euler_flux 3 gamma U N 3%Z = (gamma - 1) * (if (e =? 0)%Z then 2 + z else 1) * N 2%Z).
Proof.
  intros Hg Hz HU.
  assert (PR : pressure 3 gamma U = (gamma - 1) * (if (e =? 0)%Z then 2 + z else 1)).
  { unfold pressure, density, energy, vdot, velocity, momentum. rewrite rsum_3. unfold density. change (1 + 0)%Z with 1%Z. change (1 + 1)%Z with 2%Z. change (1 + 2)%Z with 3%Z. change (3 + 1)%Z with 4%Z.
    rewrite !HU by lia. unfold slope_state. cbn [Z.eqb Pos.eqb]. destruct (e =? 0)%Z; field. }
  split.
  - split; [|rewrite PR; apply Rmult_lt_0_compat; [lra|destruct (e =? 0)%Z; lra]]. unfold density. rewrite HU by lia. cbn. lra.
  - intros N. unfold euler_flux. cbn [Z.eqb Pos.eqb Z.add Pos.add Pos.succ]. rewrite PR. unfold momentum. change (1 + (3 - 1))%Z with 3%Z. rewrite HU by lia. unfold slope_state. cbn [Z.eqb Pos.eqb]. change (3 - 1)%Z with 2%Z. ring.
Qed.

(** ** The run *)

(** The two elements on any number of ranks, with any partition: set up, and one
    forward Euler step from this state. *)
Section Run.
Context (p : Z) (gamma dt : R) (Hp : (1 <= p <= 7)%Z) (Hg : 1 < gamma).
Context (iter : Z -> list Z -> list Z) (n : Z) (ep : list Z).
Let m := two_hexes (1 / 4).
Let nqf := ((p + 2) * (p + 2))%Z.
Let bt := LegendreHex.
Let zero := 0.
Let ord (pm : Z -> pmesh R) := fun (r : Z) (_ : nat) => zseq (pm_num_elems_part (pm r)).
Let pord := fun (_ : Z) (_ : nat) a b => list_prod (zseq a) (zseq b).
Let v0 := fun _ : Z => mkRV zero3 zero3 zero3 zero3 zero3.
Context (WF : run_wf iter n m ep).

Lemma bent_ready : ready EHex bt p 1 m.
Proof.
  constructor; [lia|split; reflexivity|apply two_untangled; lra|now right|unfold order_ok; lia|right; lia].
Qed.

Lemma slope_run : exists pm h fh U' UL UR v2 rs2 fp fw,
  let D := tables EHex bt p pm gamma LaxFriedrichs h fh (ord pm) pord (fun _ => zero1) in
  let U := fun r le i k => slope p (global_elem pm r le) i k in
  let fb := fun k q i => basis_fn bt p i (face_at EHex k (fp q)) in
  partitioned zero iter n m ep pm /\ all_set_up EHex bt p 1 m pm n h fh /\ inner_loops_ok pm n (ord pm) pord /\
  (forall r, (0 <= r < n)%Z -> fits (shape_of EHex pm (nfun bt p) r)) /\
  face_quadrature EHex p = Ok (nqf, fp, fw) /\ face_points EHex nqf /\
  same_setup EHex m pm n nqf (nfun bt p) gamma LaxFriedrichs fb fw D /\ constant_one EHex n nqf (nfun bt p) fb D (ones bt) /\
  evaluates m ep pm n D U (fun _ => zero3) v0 UL UR v2 rs2 /\
  (forall r lf iq, (0 <= r < n)%Z -> (0 <= lf < pm_num_ifaces_part (pm r))%Z -> (0 <= iq < nqf)%Z ->
     admissible (space_dim EHex) gamma (UL r lf iq) /\ admissible (space_dim EHex) gamma (UR r lf iq)) /\
  (forall r lf f q sd e kf o k, (0 <= r < n)%Z -> rd (pm_l2g_iface (pm r)) lf = Ok f -> (0 <= q < nqf)%Z -> has_side m f sd e kf o -> (0 <= k < 5)%Z ->
     (if sd then UR r else UL r) lf q k = slope_state e (face_at EHex kf (fp (face_order EHex o nqf (fun _ => 0%Z) q)) 2%Z) k) /\
  marching EHex m ep pm n nqf (nfun bt p) gamma D (fun r => vh_iMM (h r)) [(ForwardEuler, dt)] U (v0, fun _ => zero3) U' (v2, rs2) /\
  (forall r le i k, (0 <= r < n)%Z -> (0 <= le < pm_num_elems_part (pm r))%Z -> (0 <= i < nfun bt p)%Z -> (0 <= k < 5)%Z ->
     U' r le i k = U r le i k + dt * solve_mass (nfun bt p) (vh_iMM (h r)) (rs2 r) le i k).
Proof.
  destruct (two_faces (1 / 4)) as (FV & FD). fold m in FV, FD.
  pose proof bent_ready as RD. pose proof RD as [_ Fit Un _ _ Sup].
  destruct (set_up_exists iter n m ep EHex bt p WF RD) as (pm & h & fh & PT & AS). fold zero in PT.
  assert (IL : inner_loops_ok pm n (ord pm) pord).
  { intros r Hr. split; intros; [apply Permutation_refl|]. unfold each_once, pord. apply Permutation_refl. }
  set (D := tables EHex bt p pm gamma LaxFriedrichs h fh (ord pm) pord (fun _ => zero1)).
  destruct (C70_setup_consistent zero iter n m ep pm EHex bt p 1 h fh gamma LaxFriedrichs (ord pm) pord (fun _ => zero1) WF PT RD AS IL) as (fp & fw & EF & FP & SS & CO).
  rewrite hex_points in *. fold nqf in EF, FP, SS, CO. fold D in SS, CO.
  destruct (face_moments p ltac:(unfold order_ok; lia)) as (fp' & fw' & EF' & FB & _). fold nqf in EF', FB.
  assert (fp' = fp) as -> by (rewrite EF in EF'; clear - EF'; congruence). clear EF' fw'.
  pose proof (bent_normals iter n ep pm bt p h fh WF PT RD AS fp fw EF) as BN. fold nqf in BN.
  set (U := fun r le i k => slope p (global_elem pm r le) i k).
  assert (US : forall r le y k, (0 <= k < 5)%Z -> rsum (nfun bt p) (fun i => basis_fn bt p i y * U r le i k) = slope_state (global_elem pm r le) (y 2%Z) k) by (intros; now apply slope_value).
  assert (FO : forall r lf f, (0 <= r < n)%Z -> rd (pm_l2g_iface (pm r)) lf = Ok f -> f = 0%Z).
  { intros r lf f Hr Ef. destruct (row_side zero iter n m ep pm WF PT r lf f Hr Ef) as (_ & SD). destruct (SD false) as (e & HS & _). now apply two_sides in HS. }
  assert (GE : forall r le e, rd (pm_l2g_elem (pm r)) le = Ok e -> global_elem pm r le = e) by (intros r le e E; unfold global_elem; now rewrite E).
  assert (FT : forall r le kf q k, (0 <= k < 5)%Z -> face_trace (nfun bt p) (fun k q i => basis_fn bt p i (face_at EHex k (fp q))) (U r) le kf q k = slope_state (global_elem pm r le) (face_at EHex kf (fp q) 2%Z) k) by (intros; unfold face_trace; now apply US).
  assert (FZ : forall f sd e k o q, has_side m f sd e k o -> (0 <= q < nqf)%Z -> -1 < face_at EHex k (fp q) 2%Z < 1).
  { intros f sd e k o q HS Hq. apply two_sides in HS. destruct HS as (_ & HS). destruct sd; injection HS as -> -> ->; cbn -[IZR]; apply FB, Hq. }
  (* the evaluation *)
  destruct (C64_evaluates R zero iter n m ep pm EHex nqf (nfun bt p) gamma LaxFriedrichs _ fw D U (fun _ => zero3) v0 WF PT FV FD FP Hg SS) as (UL & UR & v2 & rs2 & EV & TR & AD).
  { intros r lf iq Hr Hlf Hq. destruct (local_faces zero iter n m ep pm WF PT r lf Hr Hlf) as (f & Ef). pose proof (FO r lf f Hr Ef). subst f.
    destruct (BN r lf Hr Ef) as (sd & _ & NN). destruct (NN iq Hq) as (N0 & _). cbn [space_dim]. unfold vdot. rewrite rsum_3. unfold D, tables, residual_data. cbn [d_normals]. rewrite N0.
    pose proof (Rle_0_sqr (fh_normals (fh r) lf iq 1%Z)). pose proof (Rle_0_sqr (fh_normals (fh r) lf iq 2%Z)). unfold Rsqr in *. lra. }
  { intros r e q Hr He Hq. unfold density, vol_state. destruct (ss_sizes _ _ _ _ _ _ _ _ _ _ _ SS r Hr) as (_ & _ & _ & -> & _).
    destruct (AS r Hr) as (jk & eo1 & eo2 & fo & LO & E0).
    destruct (C68_setup_geometry zero iter n m ep pm EHex bt p 1 r jk eo1 eo2 fo WF PT RD Hr LO) as (h' & f' & x' & w' & E & _ & _ & _ & _ & V & _).
    rewrite E in E0. injection E0 as -> ->.
    rewrite (rsum_ext _ _ (fun j => basis_fn bt p j (vh_pts (h r) q) * U r e j 0%Z)).
    - rewrite US by lia. cbn. lra.
    - intros i Hi. f_equal. apply (V q i); assumption. }
  { intros f sd e kf o r le q HS Hr Re Hq.
    destruct (slope_admissible gamma (global_elem pm r le) (face_at EHex kf (fp q) 2%Z) (face_trace (nfun bt p) (fun k q i => basis_fn bt p i (face_at EHex k (fp q))) (U r) le kf q) Hg (FZ f sd e kf o q HS Hq)) as (AA & _); [intros k Hk; now apply FT|exact AA]. }
  assert (FI : forall r, (0 <= r < n)%Z -> fits (shape_of EHex pm (nfun bt p) r)).
  { intros r Hr. destruct (C01_element_ownership R zero iter n m ep pm WF PT) as (_ & _ & CN & _).
    destruct (CN r Hr) as (ND & EL).
    assert (L4 : (zlen (pm_l2g_elem (pm r)) <= 2)%Z).
    { unfold zlen. change 2%Z with (Z.of_nat (length (zseq 2))). apply Nat2Z.inj_le. apply NoDup_incl_length; [exact ND|].
      intros e He. apply In_zseq. destruct (CommProof.In_rd e (pm_l2g_elem (pm r)) He) as (le & Hle). exact (owned_elem zero iter n m ep pm WF PT r le e Hr Hle). }
    pose proof (zlen_nonneg (pm_l2g_elem (pm r))).
    assert (0 <= nfun bt p <= 512)%Z.
    { unfold nfun, bt. change (dim LegendreHex) with 3%Z. split; [apply Z.pow_nonneg; lia|]. change 512%Z with (8 ^ 3)%Z. apply Z.pow_le_mono_l. lia. }
    unfold fits, shape_of, extents_ok, entries. cbn [space_dim]. rewrite EL. change (3 + 2)%Z with 5%Z. repeat split; try lia. nia. }
  set (U' := fun r => match FE_step LRight (shape_of EHex pm (nfun bt p) r) (fun _ => zseq (pm_num_elems_part (pm r))) dt (vh_iMM (h r)) (U r) 0 with Ask _ _ k => match k (rs2 r) with Done V _ => V | _ => zero3 end | _ => zero3 end).
  assert (RA : run_all n (evaluation EHex m ep pm n nqf gamma D)
      (fun r => step_program ForwardEuler LRight (shape_of EHex pm (nfun bt p) r) (fun _ => zseq (pm_num_elems_part (pm r))) dt (vh_iMM (h r)) (mkRW zero3 zero3 zero3 zero3 zero3) (U r) 0) (v0, fun _ => zero3) U' (v2, rs2)).
  { eapply ra_ask with (w1 := (v2, rs2)) (rs := rs2).
    - intros r Hr. unfold step_program, FE_step. reflexivity.
    - exists UL, UR. split; [exact EV|]. split; [reflexivity|exact AD].
    - apply ra_done with (tm := fun _ => 0 + dt). intros r Hr. reflexivity. }
  exists pm, h, fh, U', UL, UR, v2, rs2, fp, fw. cbv zeta. fold D. fold U.
  repeat (split; [assumption|]). split; [|split].
  - intros r lf f q sd e kf o k Hr Ef Hq HS Hk.
    destruct (C01_element_ownership R zero iter n m ep pm WF PT) as (C1 & C2 & _ & _).
    destruct (side_nonneg iter n m ep WF _ _ _ _ _ HS) as (_ & _ & He). destruct (C1 e He) as (re & (Hre & Ie) & _).
    destruct (CommProof.In_rd _ _ Ie) as (le & EL). rewrite (TR r lf f q sd e kf o re le k Hr Ef Hq HS (proj1 (C2 re e Hre) Ie) EL Hk).
    rewrite FT, (GE _ _ _ EL) by exact Hk. reflexivity.
  - exact (marching_S EHex m ep pm n nqf (nfun bt p) gamma D (fun r => vh_iMM (h r)) ForwardEuler dt [] LRight (fun r _ => zseq (pm_num_elems_part (pm r))) 0 (fun _ => mkRW zero3 zero3 zero3 zero3 zero3)
      U (v0, fun _ => zero3) U' (v2, rs2) U' (v2, rs2) (fun r Hr st => Permutation_refl _) RA (marching_0 _ _ _ _ _ _ _ _ _ _ _ _)).
  - intros r e j k Hr He Hj Hk.
    destruct (fe_feed LRight (pm_num_elems_part (pm r)) (nfun bt p) (space_dim EHex + 2)%Z (fun _ => zseq (pm_num_elems_part (pm r))) dt (vh_iMM (h r)) (U r) 0 [rs2 r] (U' r) (0 + dt)
      (FI r Hr) (fun _ => Permutation_refl _) eq_refl) as (a & Ea & V).
    injection Ea as <-. apply V. now apply within3_intro.
Qed.
End Run.

(** ** C87, refuted in general *)

(** Two well-formed, matching hexahedra on two ranks, their common face not flat.
    For every order of the Legendre basis, every gas and every time step, there is
    a run -- set up by the solver, from an admissible state -- that takes one
    forward Euler step and changes the integral of the third momentum component. *)
Theorem C87_conservation_refuted : forall p gamma dt, (1 <= p <= 7)%Z -> 1 < gamma -> dt <> 0 ->
  let m := two_hexes (1 / 4) in let ep := [0; 1]%Z in let nqf := ((p + 2) * (p + 2))%Z in let bt := LegendreHex in
  exists iter pm h f ord pord junk U v rs U' v' rs',
  run_wf iter 2 m ep /\ partitioned 0 iter 2 m ep pm /\ faces_valid EHex m /\ faces_distinct m /\ sound_hexes m /\ conforming_hexes m /\
  all_set_up EHex bt p 1 m pm 2 h f /\ inner_loops_ok pm 2 ord pord /\
  (forall r, (0 <= r < 2)%Z -> fits (shape_of EHex pm (nfun bt p) r)) /\ boundary_zero EHex m pm 2 nqf v /\
  marching EHex m ep pm 2 nqf (nfun bt p) gamma (tables EHex bt p pm gamma LaxFriedrichs h f ord pord junk) (fun r => vh_iMM (h r))
    [(ForwardEuler, dt)] U (v, rs) U' (v', rs') /\
  exists nq P W, volume_quadrature EHex (2 * p) zero2 zero1 = Ok (nq, P, W) /\
  let integral k U := rsum 2 (fun r => rsum (pm_num_elems_part (pm r)) (fun le => rsum nq (fun q =>
      W q * jac_det EHex 1 (elem_nodes m (global_elem pm r le)) (P q) * rsum (nfun bt p) (fun i => basis_fn bt p i (P q) * U r le i k)))) in
  integral 3%Z U' <> integral 3%Z U.
Proof.
  intros p gamma dt Hp Hg Hdt m ep nqf bt. destruct (two_faces (1 / 4)) as (FV & FD). fold m in FV, FD.
  pose proof (bent_ready p Hp) as RD. fold m bt in RD. pose proof RD as [_ Fit Un _ _ Sup].
  assert (WF : run_wf (fun _ l => rev l) 2 m ep).
  { constructor; [apply two_wf| |intros r l; symmetry; apply Permutation_rev]. split; [reflexivity|]. repeat constructor; lia. }
  set (iter := fun (_ : Z) (l : list Z) => rev l) in WF. set (zero := 0).
  destruct (slope_run p gamma dt Hp Hg iter 2 ep WF) as (pm & h & fh & U' & UL & UR & v2 & rs2 & fp & fw & PT & AS & IL & FI & EF & FP & SS & CO & EV & AD & TR & MA & HU).
  fold m nqf bt in PT, AS, IL, FI, EF, FP, SS, CO, EV, AD, TR, MA, HU. fold zero in PT.
  set (ord := fun (r : Z) (_ : nat) => zseq (pm_num_elems_part (pm r))) in *.
  set (pord := fun (_ : Z) (_ : nat) a b => list_prod (zseq a) (zseq b)) in *.
  set (v0 := fun _ : Z => mkRV zero3 zero3 zero3 zero3 zero3) in *.
  set (D := tables EHex bt p pm gamma LaxFriedrichs h fh ord pord (fun _ => zero1)) in *.
  set (U := fun r le i k => slope p (global_elem pm r le) i k) in *.
  destruct (face_moments p ltac:(unfold order_ok; lia)) as (fp' & fw' & EF' & FB & M1 & M2). fold nqf in EF', FB, M1, M2.
  assert (fp' = fp /\ fw' = fw) as (-> & ->) by (rewrite EF in EF'; clear - EF'; split; congruence). clear EF'.
  pose proof (bent_normals iter 2 ep pm bt p h fh WF PT RD AS fp fw EF) as BN. fold nqf in BN.
  assert (FO : forall r lf f, (0 <= r < 2)%Z -> rd (pm_l2g_iface (pm r)) lf = Ok f -> f = 0%Z).
  { intros r lf f Hr Ef. destruct (row_side zero iter 2 m ep pm WF PT r lf f Hr Ef) as (_ & SD). destruct (SD false) as (e & HS & _). now apply two_sides in HS. }
  (* the momentum fluxes of the two ranks at the common face *)
  set (b := fun q => fp q 1%Z).
  set (F := fun r (f : Z) q => (gamma - 1) / 2 * (3 + b q) * (- / 32 * (1 + (if (r =? 0)%Z then b q else - b q)))).
  assert (HF : forall r lf f q, (0 <= r < 2)%Z -> rd (pm_l2g_iface (pm r)) lf = Ok f -> (0 <= q < nqf)%Z ->
     numflux LaxFriedrichs (space_dim EHex) gamma (UL r lf q) (UR r lf q) (d_normals (D r) lf q) 3%Z = F r f q).
  { intros r lf f q Hr Ef Hq. pose proof (FO r lf f Hr Ef). subst f. cbn [space_dim]. unfold F.
    assert (TS : forall (sd : bool) k, (0 <= k < 5)%Z -> (if sd then UR r else UL r) lf q k =
       slope_state (if sd then 1 else 0)%Z (face_at EHex (if sd then 4 else 2)%Z (fp (face_order EHex (if sd then 5 else 0)%Z nqf (fun _ => 0%Z) q)) 2%Z) k).
    { intros sd k Hk. set (e := (if sd then 1 else 0)%Z). set (kf := (if sd then 4 else 2)%Z). set (o := (if sd then 5 else 0)%Z).
      assert (HS : has_side m 0 sd e kf o) by (destruct sd; repeat split). exact (TR r lf 0%Z q sd e kf o k Hr Ef Hq HS Hk). }
    assert (OB : forall o, (0 <= o <= 7)%Z -> (0 <= face_order EHex o nqf (fun _ => 0%Z) q < nqf)%Z).
    { intros o Ho. apply (order_perm EHex nqf o (fun _ => 0%Z) FP ltac:(cbn; lia)). exact Hq. }
    assert (O0 : face_order EHex 0 nqf (fun _ => 0%Z) q = q).
    { cbn [face_order]. unfold nqf. rewrite face_pts_order_hex_spec by lia. destruct (Z.leb_spec 0 q); [|lia]. destruct (Z.ltb_spec q ((p + 2) * (p + 2))); [|unfold nqf in Hq; lia]. cbn [andb].
      unfold hex_src. cbn [Z.eqb]. pose proof (Z.div_mod q (p + 2) ltac:(lia)). lia. }
    destruct (slope_admissible gamma 0 (b q) (UL r lf q) Hg (FB q Hq)) as (_ & EL).
    { intros k Hk. rewrite (TS false k Hk). rewrite O0. reflexivity. }
    destruct (slope_admissible gamma 1 (face_at EHex 4 (fp (face_order EHex 5 nqf (fun _ => 0%Z) q)) 2%Z) (UR r lf q) Hg) as (_ & ER).
    { cbn -[IZR face_order]. apply FB, OB. lia. }
    { intros k Hk. exact (TS true k Hk). }
    cbn [numflux]. rewrite EL, ER. pose proof (TS false 3%Z ltac:(lia)) as T0. pose proof (TS true 3%Z ltac:(lia)) as T1. cbv iota in T0, T1. rewrite T0, T1. 
    unfold slope_state. cbn [Z.eqb Pos.eqb]. unfold D, tables, residual_data. cbn [d_normals]. destruct (BN r lf Hr Ef) as (sd & Ow & NN). destruct (NN q Hq) as (_ & ->). fold (b q).
    assert (Er : (r = if sd then 1 else 0)%Z) by (destruct sd; injection Ow; auto). rewrite Er. destruct sd; cbn [Z.eqb Pos.eqb]; field. }
  assert (BZ : boundary_zero EHex m pm 2 nqf v0) by (intros r le pos k Hr _; reflexivity).
  pose proof (C87_balance R zero iter 2 m ep pm EHex nqf (nfun bt p) gamma LaxFriedrichs _ fw D U (fun _ => zero3) v0 UL UR v2 rs2 (ones bt) 3%Z F
    WF PT FV FD FP Hg SS CO BZ EV AD ltac:(cbn; lia) HF (fun _ => 0%Z) (fun _ => 1%Z)) as BAL.
  assert (TOT : total pm 2 (nfun bt p) (ones bt) 3 rs2 = (gamma - 1) / 32 * rsum nqf (fun q => fw q * (b q * b q))).
  { rewrite BAL.
    - change (gm_nIF m) with 1%Z. rewrite rsum_1. unfold F. cbn [Z.eqb Pos.eqb].
      rewrite (rsum_ext nqf _ (fun q => 3 * (gamma - 1) / 32 * (fw q * b q) + (gamma - 1) / 32 * (fw q * (b q * b q)))) by (intros; field).
      rewrite rsum_plus, !rsum_scal. fold b in M1. unfold b at 1. rewrite M1. ring.
    - intros f Hf. change (gm_nIF m) with 1%Z in Hf. assert (f = 0)%Z as -> by lia. exists 0%Z, 1%Z. repeat split. }
  clear BAL.
  exists iter, pm, h, fh, ord, pord, (fun _ => zero1), U, v0, (fun _ => zero3), U', v2, rs2.
  repeat (split; [first [assumption | split; assumption | apply two_conforming]|]).
  destruct (volume_rule EHex (2 * p) ltac:(split; lia)) as (x & w & _ & A). destruct (A zero2 zero1) as (P & W & EQ & _).
  set (nq := ((2 * p + 2) ^ space_dim EHex)%Z) in *.
  exists nq, P, W. split; [exact EQ|]. cbv zeta.
  change (domain_integral pm 2 nq (nfun bt p) (fun q i => basis_fn bt p i (P q)) W (fun r le q => jac_det EHex 1 (elem_nodes m (global_elem pm r le)) (P q)) 3 U' <>
          domain_integral pm 2 nq (nfun bt p) (fun q i => basis_fn bt p i (P q)) W (fun r le q => jac_det EHex 1 (elem_nodes m (global_elem pm r le)) (P q)) 3 U).
  rewrite (DI_combo pm 2 nq (nfun bt p) _ W _ 3 U' U (fun r => solve_mass (nfun bt p) (vh_iMM (h r)) (rs2 r)) dt).
  - rewrite (DI_solve pm 2 nq (nfun bt p) _ W _ 3 (fun r => vh_iMM (h r)) rs2 (ones bt)).
    + rewrite TOT. assert (0 < (gamma - 1) / 32 * rsum nqf (fun q => fw q * (b q * b q))) by (apply Rmult_lt_0_compat; [lra|exact M2]).
      intros E. apply (Rmult_integral_contrapositive dt _ (conj Hdt (Rgt_not_eq _ _ H))). lra.
    + intros q Hq. apply ones_sum; [lia|exact Sup].
    + intros r le Hr Hle. destruct (AS r Hr) as (jk & eo1 & eo2 & fo & LO & E0).
      destruct (C69_inverse_mass_matrices zero iter 2 m ep pm EHex bt p 1 r jk eo1 eo2 fo (h r) (fh r) WF PT RD Hr LO E0) as (nq' & P' & W' & EQ' & Inv).
      rewrite EQ in EQ'. injection EQ' as <- <- <-.
      destruct (local_elem zero iter 2 m ep pm WF PT r le Hr Hle) as (e & He). unfold global_elem. rewrite He. exact (Inv le e He).
  - intros r e j Hr He Hj. apply HU; try assumption; lia.
Qed.
Print Assumptions C87_conservation_refuted.

(** The same mesh and state on one rank: the hypotheses of [C87_conservation_partial]
    are met -- there, nothing is lost -- although the face is not flat. *)
Example C87_demo : exists iter pm h f ord pord junk U v rs U' v' rs',
  let m := two_hexes (1 / 4) in let ep := [0; 0]%Z in
  run_wf iter 1 m ep /\ partitioned 0 iter 1 m ep pm /\ faces_valid EHex m /\ faces_distinct m /\ sound_hexes m /\ shared_faces_flat m ep /\
  basis_for EHex LegendreHex /\ supported LegendreHex 3 /\ order_ok 3 /\
  all_set_up EHex LegendreHex 3 1 m pm 1 h f /\ inner_loops_ok pm 1 ord pord /\
  (forall r, (0 <= r < 1)%Z -> fits (shape_of EHex pm (nfun LegendreHex 3) r)) /\ boundary_zero EHex m pm 1 ((3 + 2) * (3 + 2)) v /\
  stepping EHex m ep pm 1 ((3 + 2) * (3 + 2)) (nfun LegendreHex 3) (7 / 5) (tables EHex LegendreHex 3 pm (7 / 5) LaxFriedrichs h f ord pord junk) (fun r => vh_iMM (h r))
    1 U (v, rs) U' (v', rs').
Proof.
  assert (WF : run_wf (fun _ l => rev l) 1 (two_hexes (1 / 4)) [0; 0]%Z).
  { constructor; [apply two_wf| |intros r l; symmetry; apply Permutation_rev]. split; [reflexivity|]. repeat constructor; lia. }
  destruct (slope_run 3 (7 / 5) (1 / 10) ltac:(lia) ltac:(lra) _ 1 _ WF) as (pm & h & fh & U' & UL & UR & v2 & rs2 & fp & fw & PT & AS & IL & FI & EF & FP & SS & CO & EV & AD & TR & MA & HU).
  destruct (two_faces (1 / 4)) as (FV & FD). pose proof (bent_ready 3 ltac:(lia)) as [_ Fit Un BF Op Sup].
  eexists _, pm, h, fh, _, _, _, _, _, _, U', v2, rs2. cbv zeta.
  split; [exact WF|]. split; [exact PT|]. split; [exact FV|]. split; [exact FD|]. split; [split; assumption|]. split; [exact (one_rank_shared _ _ _ WF)|].
  split; [exact BF|]. split; [exact Sup|]. split; [exact Op|]. split; [exact AS|]. split; [exact IL|]. split; [exact FI|]. split; [|exact (march_steps _ _ _ _ _ _ _ _ _ _ _ _ _ _ _ MA)].
  intros r le pos k Hr _. reflexivity.
Qed.
