(** PropSimilarG.v -- C95, continued: geometry of similar meshes, the theorems. *)
From Coq Require Import ZArith List Lia Reals Lra String Bool Permutation.
From Coquelicot Require Import Coquelicot.
From Flocq Require Import BinarySingleNaN.
From Verif Require Import Base RBase MeshModel MeshSpec MeshProof PropMesh IOModel PropIO PropOutput.
From Verif Require Import ReadModel PropRead PropCtor UtilModel TimeModel ProgramModel PropProgram.
From Verif Require Import LinAlgModel PropLinAlg BasisModel ShapeModel PropShape SolverModel SolverSpec SolverMesh SolverFlux PhysModel PhysSpec PhysProof PropPhys PropBasis PropSolver PropNormals StepModel PropIntegral PropStep SetupModel SetupSpec SetupProof PropSetup PropMeshRun PropInit PropPost DGSpec DGProof PropDG PropHex PropFree PropHexFree PropTime PropWhole PropTotal PropRenumber PropSimilar.
Import ListNotations.
Local Open Scope Z_scope.
Local Open Scope R_scope.
Open Scope res_scope.

Definition scale_of (s : eshape) (l : R) : R := match s with EQuad => l | EHex => l * l end.

Lemma scale_pos s l : 0 < l -> 0 < scale_of s l.
Proof. intros H. destruct s; [exact H|]. cbn. nra. Qed.

(** ** Rotations *)
Lemma rot_cols dim Q : rotation dim Q -> forall i j, (0 <= i < dim)%Z -> (0 <= j < dim)%Z -> rsum dim (fun k => Q k i * Q k j) = (if (i =? j)%Z then 1 else 0).
Proof. intros (H & _). exact H. Qed.


(** The cofactors of a rotation are its entries. *)
Lemma rot_vprod Q v w i : rotation 3 Q -> (0 <= i < 3)%Z -> vprod (turned 3 Q v) (turned 3 Q w) i = turned 3 Q (vprod v w) i.
Proof.
  intros (O & D) Hi. unfold small_det in D. cbn [Z.eqb Pos.eqb] in D. unfold det3, minor2 in D.
  pose proof (O 0 0 ltac:(lia) ltac:(lia))%Z as O00. pose proof (O 0 1 ltac:(lia) ltac:(lia))%Z as O01. pose proof (O 0 2 ltac:(lia) ltac:(lia))%Z as O02.
  pose proof (O 1 1 ltac:(lia) ltac:(lia))%Z as O11. pose proof (O 1 2 ltac:(lia) ltac:(lia))%Z as O12. pose proof (O 2 2 ltac:(lia) ltac:(lia))%Z as O22.
  rewrite rsum_3 in O00, O01, O02, O11, O12, O22. cbn [Z.eqb Pos.eqb] in O00, O01, O02, O11, O12, O22. clear O.
  set (a := Q 0%Z 0%Z) in *. set (b := Q 0%Z 1%Z) in *. set (c := Q 0%Z 2%Z) in *.
  set (d := Q 1%Z 0%Z) in *. set (e := Q 1%Z 1%Z) in *. set (f := Q 1%Z 2%Z) in *.
  set (g := Q 2%Z 0%Z) in *. set (h := Q 2%Z 1%Z) in *. set (k := Q 2%Z 2%Z) in *.
  assert (K : forall x d1 d2 d3 o1 o2 o3 y, o1 * d1 + o2 * d2 + o3 * d3 = y * (a * (e * k - f * h) - b * (d * k - f * g) + c * (d * h - e * g)) -> x = o1 * d1 + o2 * d2 + o3 * d3 -> x = y).
  { intros x d1 d2 d3 o1 o2 o3 y E1 E2. rewrite D, Rmult_1_r in E1. congruence. }
  assert (A1 : e * k - f * h = a).
  { apply (K _ (e * k - f * h) (f * g - d * k) (d * h - e * g) (a * a + d * d + g * g) (a * b + d * e + g * h) (a * c + d * f + g * k)); [ring|]. rewrite O00, O01, O02. ring. }
  assert (A2 : f * g - d * k = b).
  { apply (K _ (e * k - f * h) (f * g - d * k) (d * h - e * g) (a * b + d * e + g * h) (b * b + e * e + h * h) (b * c + e * f + h * k)); [ring|]. rewrite O01, O11, O12. ring. }
  assert (A3 : d * h - e * g = c).
  { apply (K _ (e * k - f * h) (f * g - d * k) (d * h - e * g) (a * c + d * f + g * k) (b * c + e * f + h * k) (c * c + f * f + k * k)); [ring|]. rewrite O02, O12, O22. ring. }
  assert (B1 : c * h - b * k = d).
  { apply (K _ (c * h - b * k) (a * k - c * g) (b * g - a * h) (a * a + d * d + g * g) (a * b + d * e + g * h) (a * c + d * f + g * k)); [ring|]. rewrite O00, O01, O02. ring. }
  assert (B2 : a * k - c * g = e).
  { apply (K _ (c * h - b * k) (a * k - c * g) (b * g - a * h) (a * b + d * e + g * h) (b * b + e * e + h * h) (b * c + e * f + h * k)); [ring|]. rewrite O01, O11, O12. ring. }
  assert (B3 : b * g - a * h = f).
  { apply (K _ (c * h - b * k) (a * k - c * g) (b * g - a * h) (a * c + d * f + g * k) (b * c + e * f + h * k) (c * c + f * f + k * k)); [ring|]. rewrite O02, O12, O22. ring. }
  assert (C1 : b * f - c * e = g).
  { apply (K _ (b * f - c * e) (c * d - a * f) (a * e - b * d) (a * a + d * d + g * g) (a * b + d * e + g * h) (a * c + d * f + g * k)); [ring|]. rewrite O00, O01, O02. ring. }
  assert (C2 : c * d - a * f = h).
  { apply (K _ (b * f - c * e) (c * d - a * f) (a * e - b * d) (a * b + d * e + g * h) (b * b + e * e + h * h) (b * c + e * f + h * k)); [ring|]. rewrite O01, O11, O12. ring. }
  assert (C3 : a * e - b * d = k).
  { apply (K _ (b * f - c * e) (c * d - a * f) (a * e - b * d) (a * c + d * f + g * k) (b * c + e * f + h * k) (c * c + f * f + k * k)); [ring|]. rewrite O02, O12, O22. ring. }
  clear O00 O01 O02 O11 O12 O22 D K.
  assert (C : (i = 0 \/ i = 1 \/ i = 2)%Z) by lia.
  unfold turned, vprod. rewrite !rsum_3. fold a b c d e f g h k.
  destruct C as [-> |[-> | ->]]; cbn [Z.eqb Pos.eqb]; fold a b c d e f g h k.
  - transitivity ((e * k - f * h) * (v 1%Z * w 2%Z - v 2%Z * w 1%Z) + (f * g - d * k) * (v 2%Z * w 0%Z - v 0%Z * w 2%Z) + (d * h - e * g) * (v 0%Z * w 1%Z - v 1%Z * w 0%Z)); [ring|].
    rewrite A1, A2, A3. reflexivity.
  - transitivity ((c * h - b * k) * (v 1%Z * w 2%Z - v 2%Z * w 1%Z) + (a * k - c * g) * (v 2%Z * w 0%Z - v 0%Z * w 2%Z) + (b * g - a * h) * (v 0%Z * w 1%Z - v 1%Z * w 0%Z)); [ring|].
    rewrite B1, B2, B3. reflexivity.
  - transitivity ((b * f - c * e) * (v 1%Z * w 2%Z - v 2%Z * w 1%Z) + (c * d - a * f) * (v 2%Z * w 0%Z - v 0%Z * w 2%Z) + (a * e - b * d) * (v 0%Z * w 1%Z - v 1%Z * w 0%Z)); [ring|].
    rewrite C1, C2, C3. reflexivity.
Qed.

Lemma vprod_scal s v w d : vprod (fun i => s * v i) (fun i => s * w i) d = s * s * vprod v w d.
Proof. unfold vprod. destruct (d =? 0)%Z; [ring|]. destruct (d =? 1)%Z; ring. Qed.

Lemma det_similar s Q l J J' : rotation (space_dim s) Q ->
  (forall i j, (0 <= i < space_dim s)%Z -> (0 <= j < space_dim s)%Z -> J' i j = l * turned (space_dim s) Q (fun k => J k j) i) ->
  small_det (space_dim s) J' = l * scale_of s l * small_det (space_dim s) J.
Proof.
  intros (_ & D) E. rewrite (small_det_ext _ J' (fun i j => l * turned (space_dim s) Q (fun k => J k j) i)); [|destruct s; cbn; lia|exact E].
  destruct s; cbn [space_dim scale_of] in *; unfold small_det in *; cbn [Z.eqb Pos.eqb] in *; unfold det2, det3, minor2, turned in *.
  - rewrite !rsum_2. rewrite <- (Rmult_1_r (l * l * _)). rewrite <- D. ring.
  - rewrite !rsum_3. rewrite <- (Rmult_1_r (l * (l * l) * _)). rewrite <- D. ring.
Qed.

Lemma left_inverse n (A X Y : arr2) : (forall i j, (0 <= i < n)%Z -> (0 <= j < n)%Z -> rsum n (fun k => X i k * A k j) = if (i =? j)%Z then 1 else 0) ->
  inverse_of n A Y -> forall i j, (0 <= i < n)%Z -> (0 <= j < n)%Z -> X i j = Y i j.
Proof.
  intros HX HY i j Hi Hj.
  transitivity (rsum n (fun k => X i k * rsum n (fun l => A k l * Y l j))).
  - rewrite (rsum_ext n _ (fun k => X i k * (if (k =? j)%Z then 1 else 0))).
    + symmetry. now apply rsum_delta_r.
    + intros k Hk. now rewrite (proj1 (HY k j Hk Hj)).
  - transitivity (rsum n (fun l => rsum n (fun k => X i k * A k l) * Y l j)).
    + rewrite (rsum_ext n _ (fun k => rsum n (fun l => X i k * A k l * Y l j))) by (intros k Hk; rewrite <- rsum_scal; apply rsum_ext; intros; ring).
      rewrite rsum_swap. apply rsum_ext. intros k Hk. now rewrite <- rsum_scal_r.
    + rewrite (rsum_ext n _ (fun l => Y l j * (if (l =? i)%Z then 1 else 0))).
      * apply (rsum_delta_r n i (fun l => Y l j)). exact Hi.
      * intros k Hk. rewrite HX by assumption. rewrite Z.eqb_sym. ring.
Qed.

Lemma inverse_similar dim Q l (J J' Y Y' : arr2) : rotation dim Q -> dim23 dim -> 0 < l ->
  (forall i j, (0 <= i < dim)%Z -> (0 <= j < dim)%Z -> J' i j = l * turned dim Q (fun k => J k j) i) ->
  inverse_of dim J Y -> inverse_of dim J' Y' ->
  forall i j, (0 <= i < dim)%Z -> (0 <= j < dim)%Z -> Y' i j = / l * turned dim Q (Y i) j.
Proof.
  intros RO Hd Hl E HY HY' i j Hi Hj. symmetry.
  apply (left_inverse dim J' (fun i j => / l * turned dim Q (Y i) j) Y'); [|exact HY'|exact Hi|exact Hj]. clear i j Hi Hj. intros i j Hi Hj.
  rewrite <- (proj2 (HY i j Hi Hj)).
  transitivity (vdot dim (turned dim Q (Y i)) (turned dim Q (fun k => J k j))).
  - unfold vdot. apply rsum_ext. intros k Hk. rewrite E by assumption. field. lra.
  - apply (turned_dot dim Hd Q (rot_cols dim Q RO) 1 1).
Qed.

(** ** Elements *)
Section Element.
Context (s : eshape) (Q : arr2) (l : R) (x0 : arr1) (X X' : arr2).
Let dim := space_dim s.
Context (HX : forall k d, (0 <= k < corners s)%Z -> (0 <= d < dim)%Z -> X' k d = x0 d + l * turned dim Q (X k) d).

Lemma place_similar y d : (0 <= d < dim)%Z -> place s 1 X' y d = x0 d + l * turned dim Q (place s 1 X y) d.
Proof.
  intros Hd. unfold place, elem_map. destruct (geom_facts s 1) as (_ & LG & Sup).
  pose proof (ones_sum (geom_basis s) 1 y ltac:(lia) Sup) as ON. unfold ones in ON. rewrite LG in ON.
  rewrite (rsum_ext _ _ (fun q => x0 d * (1 * basis_fn (geom_basis s) 1 q y) + l * (basis_fn (geom_basis s) 1 q y * turned dim Q (X q) d))).
  - rewrite rsum_plus, (rsum_scal _ (x0 d) (fun q => 1 * basis_fn (geom_basis s) 1 q y)), ON, Rmult_1_r, (rsum_scal _ l). f_equal. f_equal.
    rewrite (turned_sum dim Q (nfun (geom_basis s) 1) (fun q d => basis_fn (geom_basis s) 1 q y * X q d)). apply rsum_ext. intros q Hq. now rewrite turned_scal.
  - intros q Hq. rewrite corners_nfun in Hq. rewrite HX by assumption. ring.
Qed.

Lemma place_diff y d : (0 <= d < dim)%Z -> forall Z j, ex_derive (fun t => place s 1 Z (with_coord y d t) j) (y d).
Proof.
  intros Hd Z j. eexists. apply (place_derive s 1 1 (fun _ => y) zero3 Z 0 j d); [lia|lia|exact Hd].
Qed.

Lemma jacobian_similar y j d : (0 <= j < dim)%Z -> (0 <= d < dim)%Z -> jacobian s 1 X' y j d = l * turned dim Q (fun i => jacobian s 1 X y i d) j.
Proof.
  intros Hj Hd. unfold jacobian at 1. apply is_derive_unique.
  apply (is_derive_ext (fun t => x0 j + l * turned dim Q (place s 1 X (with_coord y d t)) j)); [intros t; symmetry; now apply place_similar|].
  rewrite <- (Rplus_0_l (l * _)). apply (is_derive_plus (V := R_NormedModule)); [apply (is_derive_const (V := R_NormedModule))|].
  apply is_derive_scal_R. unfold turned. apply is_derive_rsum. intros i Hi. apply is_derive_scal_R.
  apply Derive_correct. apply place_diff. exact Hd.
Qed.

Lemma jac_det_similar y : rotation dim Q -> jac_det s 1 X' y = l * scale_of s l * jac_det s 1 X y.
Proof. intros RO. unfold jac_det. apply (det_similar s Q l); [exact RO|]. intros. now apply jacobian_similar. Qed.
End Element.

(** ** The solutions *)
Lemma similar_solutions s m m' Q l x0 a b bt p S det inv nrm M M' u u' steps c c' : mesh_wf m -> similar s m m' Q l x0 -> rotation (space_dim s) Q ->
  0 < l -> 0 < a -> 0 < b -> sc_shape S = s -> sc_nb S = nfun bt p ->
  (forall e q, (0 <= e < gm_num_elems m)%Z -> (0 <= q < sc_nq S)%Z -> det e q = l * scale_of s l * sc_det S e q) ->
  (forall e q d j, (0 <= e < gm_num_elems m)%Z -> (0 <= q < sc_nq S)%Z -> (0 <= d < space_dim s)%Z -> (0 <= j < space_dim s)%Z -> inv e q d j = / l * turned (space_dim s) Q (sc_inv S e q d) j) ->
  (forall f q d, (0 <= f < gm_nIF m)%Z -> (0 <= q < sc_nqf S)%Z -> (0 <= d < space_dim s)%Z -> nrm f q d = scale_of s l * turned (space_dim s) Q (sc_normal S f q) d) ->
  (forall e i j, (0 <= e < gm_num_elems m)%Z -> (0 <= i < nfun bt p)%Z -> (0 <= j < nfun bt p)%Z -> M' e i j = l * scale_of s l * M e i j) ->
  initial_similar (space_dim s) a b Q l x0 u u' ->
  dg_solution s m bt p S M u steps c ->
  dg_solution s m' bt p (mkScheme (sc_shape S) (sc_nb S) (sc_gamma S) (sc_flux S) (sc_nq S) (sc_val S) (sc_grad S) (sc_wts S) (sc_nqf S) (sc_fval S) (sc_fwts S) det inv nrm) M' u'
    (map (fun st => (fst st, l / b * snd st)) steps) c' ->
  forall e j k, (0 <= e < gm_num_elems m)%Z -> (0 <= j < nfun bt p)%Z -> (0 <= k < space_dim s + 2)%Z -> c' e j k = restated (space_dim s) a b Q (c e j) k.
Proof.
  intros MW SM RO Hl Ha Hb Es Eb HD HI HN HMM IS (iM & c0 & I1 & (nq & P & W & EQ & PJ) & HC) (iM' & c0' & I1' & (nq' & P' & W' & EQ' & PJ') & HC') e j k He Hj Hk.
  rewrite EQ in EQ'. injection EQ' as <- <- <-.
  assert (LL0 : 0 < l * scale_of s l) by (apply Rmult_lt_0_compat; [exact Hl|now apply scale_pos]).
  rewrite HC' by (auto; rewrite (sm_ne _ _ _ _ _ _ SM); auto).
  assert (D23 : dim23 (space_dim s)) by (destruct s; [now left|now right]).
  rewrite (T_ext (space_dim s) D23 Q a b (c e j) (dg_march S m iM steps c0 e j) k Hk) by (intros i Hi; now apply HC).
  rewrite (sm_ne _ _ _ _ _ _ SM) in I1', PJ'. subst s. rewrite <- Eb in *. set (s := sc_shape S) in *.
  assert (HI' : forall e, (0 <= e < gm_num_elems m)%Z -> inverse_of (sc_nb S) (M e) (fun i j => l * scale_of s l * iM' e i j)).
  { intros x Hx i y Hi Hy. destruct (I1' x Hx i y Hi Hy) as (J1 & J2). split.
    - rewrite <- J1. apply rsum_ext. intros z Hz. rewrite HMM by assumption. ring.
    - rewrite <- J2. apply rsum_ext. intros z Hz. rewrite HMM by assumption. ring. }
  rewrite <- (Rmult_1_l (restated _ _ _ _ _ _)).
  apply (march_matches (fun _ l => l) 1 m _ (one_rank m MW) m' Q l (scale_of s l) a b x0 S SM (rot_cols _ Q RO) Hl (scale_pos s l Hl) Ha Hb det inv nrm HD HI HN iM iM'); auto.
  - intros x i y Hx Hi Hy. apply Rmult_eq_reg_l with (l * scale_of s l); [|lra]. rewrite <- Rmult_assoc, Rinv_r, Rmult_1_l by lra.
    symmetry. exact (inverse_unique (sc_nb S) (M x) (iM x) (fun i j => l * scale_of s l * iM' x i j) (I1 x Hx) (HI' x Hx) i y Hi Hy).
  - intros x i y Hx Hi Hy. rewrite Rmult_1_l. revert i Hi.
    apply (solves_unique (sc_nb S) (M x) (iM x) (fun i => c0' x i y) (fun i => restated (space_dim s) a b Q (c0 x i) y)); [now apply I1|].
    intros i Hi. rewrite <- (T_sum (space_dim s) D23 Q a b (sc_nb S) (M x i) (fun j => c0 x j) y Hy).
    rewrite (T_ext (space_dim s) D23 Q a b _ (fun k => rsum nq (fun q => W q * jac_det s 1 (elem_nodes m x) (P q) * basis_fn bt p i (P q) * u (place s 1 (elem_nodes m x) (P q)) k)) y Hy).
    2:{ intros z Hz. now apply PJ. }
    rewrite (T_sum (space_dim s) D23 Q a b nq (fun q => W q * jac_det s 1 (elem_nodes m x) (P q) * basis_fn bt p i (P q)) (fun q => u (place s 1 (elem_nodes m x) (P q))) y Hy).
    apply Rmult_eq_reg_l with (l * scale_of s l); [|lra].
    transitivity (rsum (sc_nb S) (fun b0 => M' x i b0 * c0' x b0 y)).
    { rewrite <- rsum_scal. apply rsum_ext. intros z Hz. rewrite HMM by assumption. ring. }
    rewrite (PJ' x i y Hx Hi Hy). rewrite <- rsum_scal. apply rsum_ext. intros q Hq.
    assert (EN : forall k d, (0 <= k < corners s)%Z -> (0 <= d < space_dim s)%Z -> elem_nodes m' x k d = x0 d + l * turned (space_dim s) Q (elem_nodes m x k) d) by (intros; now apply SM).
    rewrite (jac_det_similar s Q l x0 _ _ EN (P q) RO).
    rewrite (IS (place s 1 (elem_nodes m x) (P q))); [ring| |exact Hy]. intros d Hd. now apply place_similar.
Qed.

(** ** Normals *)
Lemma edge_similar m m' Q l x0 f d : mesh_wf m -> similar EQuad m m' Q l x0 -> rotation 2 Q -> (0 <= f < gm_nIF m)%Z -> (0 <= d < 2)%Z ->
  edge_normal m' f d = l * turned 2 Q (edge_normal m f) d.
Proof.
  intros W SM RO Hf Hd. destruct (rot_rows2 Q RO) as (R1 & R2).
  set (s0 := quad_scheme LagrangeQuad 1 m 2 HLLC 0 zero2 zero1 0 zero2 zero1).
  destruct (same_sides (fun _ l => l) 1 m _ (one_rank m W) m' Q l x0 s0 SM zero2 (fun _ _ _ _ => 0) zero3 f false Hf) as (E1 & E2 & _).
  assert (ER : (0 <= side_elem m f false < gm_num_elems m)%Z) by (apply (side_range' (fun _ l => l) 1 m _ (one_rank m W)); exact Hf).
  unfold turned, edge_normal. rewrite E1, E2. cbv zeta.
  rewrite !(sm_nodes _ _ _ _ _ _ SM (side_elem m f false)) by (auto; cbn; try lia; apply ccw_range). unfold turned. cbn [space_dim]. rewrite !rsum_2. cbn [Z.eqb].
  rewrite R1, R2. assert (C : (d = 0 \/ d = 1)%Z) by lia. destruct C as [-> | ->]; cbn [Z.eqb]; rewrite ?R1, ?R2; field.
Qed.

Lemma surface_similar m m' Q l x0 e k s t d : similar EHex m m' Q l x0 -> (0 <= e < gm_num_elems m)%Z -> (0 <= d < 3)%Z ->
  face_surface m' e k s t d = x0 d + l * turned 3 Q (face_surface m e k s t) d.
Proof.
  intros SM He Hd. unfold face_surface. apply (place_similar EHex Q l x0); [|exact Hd]. intros i d' Hi Hd'. now apply SM.
Qed.

Lemma flat_similar m m' Q l x0 f d : mesh_wf m -> similar EHex m m' Q l x0 -> rotation 3 Q -> (0 <= f < gm_nIF m)%Z -> (0 <= d < 3)%Z ->
  flat_normal m' f d = l * l * turned 3 Q (flat_normal m f) d.
Proof.
  intros W SM RO Hf Hd. set (s0 := hex_scheme LagrangeHex 1 m 2 HLLC 0 zero2 zero1 0 zero2 zero1).
  destruct (same_sides (fun _ l => l) 1 m _ (one_rank m W) m' Q l x0 s0 SM zero2 (fun _ _ _ _ => 0) zero3 f false Hf) as (E1 & E2 & _).
  assert (ER : (0 <= side_elem m f false < gm_num_elems m)%Z) by (apply (side_range' (fun _ l => l) 1 m _ (one_rank m W)); exact Hf).
  unfold flat_normal at 1. rewrite E1, E2. cbv zeta. set (e := side_elem m f false) in *. set (k := side_face m f false).
  unfold flat_normal. fold e k. cbv zeta. rewrite <- rot_vprod by assumption. rewrite <- vprod_scal. apply vprod_ext. intros i Hi.
  rewrite !(surface_similar m m' Q l x0) by assumption. unfold turned. rewrite !rsum_3. split; ring.
Qed.

(** ** Similar meshes are equally good *)
Section Good.
Context (s : eshape) (m m' : gmesh R) (Q : arr2) (l : R) (x0 : arr1).
Context (W : mesh_wf m) (SM : similar s m m' Q l x0).
Lemma valid_similar : faces_valid s m -> faces_valid s m'.
Proof. intros V f sd e k o H. apply (V f sd e k o). now apply SM. Qed.
Lemma distinct_similar : faces_distinct m -> faces_distinct m'.
Proof. intros V f sd e k o f' sd' o' H H'. apply (V f sd e k o f' sd' o'); now apply SM. Qed.
End Good.

Lemma turned_range dim Q v i : turned dim Q v i = rsum dim (fun j => Q i j * v j).
Proof. reflexivity. Qed.

Theorem C95_good_quads : forall m m' Q l x0, mesh_wf m -> similar EQuad m m' Q l x0 -> rotation 2 Q -> 0 < l -> good_quads m ->
  mesh_fits EQuad 1 m' -> (forall x, (0 <= x < gm_num_nodes m')%Z -> in_some_element m' x) -> good_quads m'.
Proof.
  intros m m' Q l x0 W SM RO Hl [FV FD SQ CF Hne Hall] MF' Hall'. destruct SQ as (MF & CC). destruct (rot_rows2 Q RO) as (R1 & R2).
  pose proof (rot_cols 2 Q RO 0 0 ltac:(lia) ltac:(lia))%Z as O. rewrite rsum_2 in O. cbn [Z.eqb] in O.
  assert (EN : forall e k d, (0 <= e < gm_num_elems m)%Z -> (0 <= k < 4)%Z -> (0 <= d < 2)%Z -> elem_nodes m' e k d = x0 d + l * (Q d 0%Z * elem_nodes m e k 0%Z + Q d 1%Z * elem_nodes m e k 1%Z)).
  { intros e k d He Hk Hd. rewrite (sm_nodes _ _ _ _ _ _ SM) by assumption. unfold turned. cbn [space_dim]. now rewrite rsum_2. }
  constructor.
  - exact (valid_similar EQuad m m' Q l x0 SM FV).
  - exact (distinct_similar EQuad m m' Q l x0 SM FD).
  - split; [exact MF'|]. intros e He. rewrite (sm_ne _ _ _ _ _ _ SM) in He.
    specialize (CC e He). unfold convex_ccw in CC |- *. intros k Hk. specialize (CC k Hk). cbv beta zeta in CC |- *. rewrite !EN by (auto; try lia; apply ccw_range).
    rewrite R1, R2. unfold cross2 in *.
    match type of CC with 0 < ?A => match goal with |- 0 < ?B => replace B with (l * l * ((Q 0%Z 0%Z * Q 0%Z 0%Z + Q 1%Z 0%Z * Q 1%Z 0%Z) * A)) by ring end end.
    rewrite O, Rmult_1_l. apply Rmult_lt_0_compat; [nra|exact CC].
  - intros f eL kL oL eR kR oR HL HR. cbv zeta. apply SM in HL. apply SM in HR.
    pose proof (side_nonneg _ _ m _ (one_rank m W) _ _ _ _ _ HL) as (_ & _ & He1). pose proof (side_nonneg _ _ m _ (one_rank m W) _ _ _ _ _ HR) as (_ & _ & He2).
    destruct (CF _ _ _ _ _ _ _ HL HR) as (v & V). exists (fun d => l * (Q d 0%Z * v 0%Z + Q d 1%Z * v 1%Z)). intros d Hd.
    rewrite !EN by (auto; apply ccw_range). destruct (V 0%Z ltac:(lia)) as (V1 & V2), (V 1%Z ltac:(lia)) as (V3 & V4). rewrite V1, V2, V3, V4. split; ring.
  - rewrite (sm_ne _ _ _ _ _ _ SM). exact Hne.
  - exact Hall'.
Qed.
Print Assumptions C95_good_quads.

Theorem C95_good_hexahedra : forall m m' Q l x0, mesh_wf m -> similar EHex m m' Q l x0 -> rotation 3 Q -> 0 < l -> good_hexes m ->
  mesh_fits EHex 1 m' -> (forall x, (0 <= x < gm_num_nodes m')%Z -> in_some_element m' x) -> good_hexes m'.
Proof.
  intros m m' Q l x0 W SM RO Hl [FV FD FH CF Hne Hall] MF' Hall'. destruct FH as (MF & UT & PG).
  constructor.
  - exact (valid_similar EHex m m' Q l x0 SM FV).
  - exact (distinct_similar EHex m m' Q l x0 SM FD).
  - split; [exact MF'|]. split.
    + intros e y He Hy. rewrite (sm_ne _ _ _ _ _ _ SM) in He.
      rewrite (jac_det_similar EHex Q l x0 (elem_nodes m e)) by (try exact RO; intros k d Hk Hd; now apply SM).
      apply Rmult_lt_0_compat; [apply Rmult_lt_0_compat; [exact Hl|now apply scale_pos]|now apply UT].
    + intros f sd e k o H. apply SM in H. pose proof (side_nonneg _ _ m _ (one_rank m W) _ _ _ _ _ H) as (_ & _ & He).
      destruct (PG _ _ _ _ _ H) as (P & A & B & Q1 & (d0 & Hd0 & N0)).
      exists (fun d => x0 d + l * turned 3 Q P d), (fun d => l * turned 3 Q A d), (fun d => l * turned 3 Q B d). split.
      * intros s t d Hd. rewrite (surface_similar m m' Q l x0) by assumption.
        rewrite (turned_ext 3 Q _ (fun d => P d + s * A d + t * B d)) by (intros j Hj; now apply Q1).
        unfold turned. rewrite !rsum_3. ring.
      * (* the vector is not zero: its square is that of the original *)
        assert (NZ : vdot 3 (vprod A B) (vprod A B) <> 0).
        { unfold vdot. rewrite rsum_3. intros E. apply N0. assert (C : (d0 = 0 \/ d0 = 1 \/ d0 = 2)%Z) by lia. destruct C as [-> |[-> | ->]]; nra. }
        rewrite <- (turned_dot 3 (or_intror eq_refl) Q (rot_cols 3 Q RO) 1 1) in NZ. unfold vdot in NZ. rewrite rsum_3 in NZ.
        assert (EV : forall d, (0 <= d < 3)%Z -> vprod (fun d => l * turned 3 Q A d) (fun d => l * turned 3 Q B d) d = l * l * turned 3 Q (vprod A B) d).
        { intros d Hd. rewrite vprod_scal. now rewrite rot_vprod. }
        assert (L2 : l * l <> 0) by nra.
        destruct (Req_dec (turned 3 Q (vprod A B) 0%Z) 0) as [Z0|Z0]; [|exists 0%Z; split; [lia|rewrite EV by lia; now apply Rmult_integral_contrapositive]].
        destruct (Req_dec (turned 3 Q (vprod A B) 1%Z) 0) as [Z1|Z1]; [|exists 1%Z; split; [lia|rewrite EV by lia; now apply Rmult_integral_contrapositive]].
        destruct (Req_dec (turned 3 Q (vprod A B) 2%Z) 0) as [Z2|Z2]; [|exists 2%Z; split; [lia|rewrite EV by lia; now apply Rmult_integral_contrapositive]].
        exfalso. apply NZ. rewrite Z0, Z1, Z2. ring.
  - intros f eL kL oL eR kR oR HL HR. apply SM in HL. apply SM in HR.
    pose proof (side_nonneg _ _ m _ (one_rank m W) _ _ _ _ _ HL) as (_ & _ & He1). pose proof (side_nonneg _ _ m _ (one_rank m W) _ _ _ _ _ HR) as (_ & _ & He2).
    destruct (CF _ _ _ _ _ _ _ HL HR) as (a & v & Ha & V). exists a, (fun d => l * turned 3 Q v d). split; [exact Ha|]. intros s t d Hd.
    assert (V' : forall i, (0 <= i < 3)%Z -> (let '(s', t') := hex_turn a s t in face_surface m eR kR s' t' i) = face_surface m eL kL s t i + v i) by (intros; now apply V).
    destruct (hex_turn a s t) as [s' t']. rewrite !(surface_similar m m' Q l x0) by assumption.
    rewrite (turned_ext 3 Q (face_surface m eR kR s' t') (fun i => face_surface m eL kL s t i + v i)) by exact V'. rewrite turned_plus. ring.
  - rewrite (sm_ne _ _ _ _ _ _ SM). exact Hne.
  - exact Hall'.
Qed.
Print Assumptions C95_good_hexahedra.

(** ** Inverse Jacobians, from the formulas *)
Lemma inverse2_similar Q l (J J' : arr2) i j : rotation 2 Q -> 0 < l ->
  (forall i j, (0 <= i < 2)%Z -> (0 <= j < 2)%Z -> J' i j = l * turned 2 Q (fun k => J k j) i) ->
  (0 <= i < 2)%Z -> (0 <= j < 2)%Z -> inverse2 J' i j = / l * turned 2 Q (inverse2 J i) j.
Proof.
  intros RO Hl E Hi Hj. pose proof (det_similar EQuad Q l J J' RO E) as D. cbn [space_dim scale_of] in D. unfold small_det in D. cbn [Z.eqb Pos.eqb] in D.
  destruct (rot_rows2 Q RO) as (R1 & R2). unfold inverse2 at 1. rewrite D. unfold turned. rewrite rsum_2. unfold inverse2. unfold Rdiv. rewrite !Rinv_mult.
  assert (LI : / l * / l * l = / l) by (field; lra).
  assert (Ci : (i = 0 \/ i = 1)%Z) by lia. assert (Cj : (j = 0 \/ j = 1)%Z) by lia.
  destruct Ci as [-> | ->], Cj as [-> | ->]; cbn [Z.eqb Pos.eqb Z.sub Z.opp Z.add Z.pos_sub Pos.add]; rewrite ?E by lia; unfold turned; rewrite ?rsum_2, ?R1, ?R2;
    rewrite <- LI at 3 || idtac; ring_simplify; try (rewrite <- LI; ring).
Qed.

Lemma inverse3_columns J i j : (0 <= i < 3)%Z -> (0 <= j < 3)%Z ->
  inverse3 J i j = vprod (fun k => J k ((i + 1) mod 3)%Z) (fun k => J k ((i + 2) mod 3)%Z) j / det3 J.
Proof.
  intros Hi Hj. unfold inverse3, vprod. cbv zeta. assert (Cj : (j = 0 \/ j = 1 \/ j = 2)%Z) by lia.
  destruct Cj as [-> |[-> | ->]]; cbn [Z.eqb Pos.eqb].
  - change ((0 + 1) mod 3)%Z with 1%Z. change ((0 + 2) mod 3)%Z with 2%Z. f_equal. ring.
  - change ((1 + 1) mod 3)%Z with 2%Z. change ((1 + 2) mod 3)%Z with 0%Z. f_equal. ring.
  - change ((2 + 1) mod 3)%Z with 0%Z. change ((2 + 2) mod 3)%Z with 1%Z. f_equal. ring.
Qed.

Lemma inverse3_similar Q l (J J' : arr2) i j : rotation 3 Q -> 0 < l ->
  (forall i j, (0 <= i < 3)%Z -> (0 <= j < 3)%Z -> J' i j = l * turned 3 Q (fun k => J k j) i) ->
  (0 <= i < 3)%Z -> (0 <= j < 3)%Z -> inverse3 J' i j = / l * turned 3 Q (inverse3 J i) j.
Proof.
  intros RO Hl E Hi Hj. pose proof (det_similar EHex Q l J J' RO E) as D. cbn [space_dim scale_of] in D. unfold small_det in D. cbn [Z.eqb Pos.eqb] in D.
  rewrite inverse3_columns by assumption. rewrite D.
  pose proof (Z.mod_pos_bound (i + 1) 3 ltac:(lia)). pose proof (Z.mod_pos_bound (i + 2) 3 ltac:(lia)).
  set (A := fun k => J k ((i + 1) mod 3)%Z). set (B := fun k => J k ((i + 2) mod 3)%Z).
  rewrite (vprod_ext _ _ (fun k => l * turned 3 Q A k) (fun k => l * turned 3 Q B k)) by (intros d Hd; split; now apply E).
  rewrite vprod_scal, rot_vprod by assumption.
  rewrite (turned_ext 3 Q (inverse3 J i) (fun k => / det3 J * vprod A B k)).
  2:{ intros k Hk. rewrite inverse3_columns by assumption. unfold Rdiv. fold A B. ring. }
  rewrite turned_scal. unfold Rdiv. rewrite !Rinv_mult.
  transitivity ((l * / l) * (l * / l) * (/ l * (/ det3 J * turned 3 Q (vprod A B) j))); [ring|]. rewrite Rinv_r by lra. ring.
Qed.

(** Times of the steps in the other units. *)
Definition rescaled (l b : R) (steps : list (stepper * R)) : list (stepper * R) := map (fun st => (fst st, l / b * snd st)) steps.

Theorem C95_solution_quads : forall m m' Q l x0 a b bt p gamma ft u u' steps c c',
  mesh_wf m -> similar EQuad m m' Q l x0 -> rotation 2 Q -> 0 < l -> 0 < a -> 0 < b ->
  initial_similar 2 a b Q l x0 u u' ->
  quad_solution m bt p gamma ft u steps c -> quad_solution m' bt p gamma ft u' (rescaled l b steps) c' ->
  forall e j k, (0 <= e < gm_num_elems m)%Z -> (0 <= j < nfun bt p)%Z -> (0 <= k < 4)%Z -> c' e j k = restated 2 a b Q (c e j) k.
Proof.
  intros m m' Q l x0 a b bt p gamma ft u u' steps c c' W SM RO Hl Ha Hb IS
    (nq & P & V & fp & fw & nq2 & P2 & V2 & EQ & EF & EQ2 & DS) (nq' & P' & V' & fp' & fw' & nq2' & P2' & V2' & EQ' & EF' & EQ2' & DS') e j k He Hj Hk.
  rewrite EQ in EQ'. injection EQ' as <- <- <-. rewrite EF in EF'. injection EF' as <- <-. rewrite EQ2 in EQ2'. injection EQ2' as <- <- <-.
  assert (EN : forall e, (0 <= e < gm_num_elems m)%Z -> forall k d, (0 <= k < corners EQuad)%Z -> (0 <= d < space_dim EQuad)%Z -> elem_nodes m' e k d = x0 d + l * turned (space_dim EQuad) Q (elem_nodes m e k) d) by (intros; now apply SM).
  apply (similar_solutions EQuad m m' Q l x0 a b bt p (quad_scheme bt p m gamma ft nq P V (p + 1) fp fw)
    (sc_det (quad_scheme bt p m' gamma ft nq P V (p + 1) fp fw)) (sc_inv (quad_scheme bt p m' gamma ft nq P V (p + 1) fp fw)) (sc_normal (quad_scheme bt p m' gamma ft nq P V (p + 1) fp fw))
    (PropDG.mass_matrix bt p m nq2 P2 V2) (PropDG.mass_matrix bt p m' nq2 P2 V2) u u' steps c c' W SM RO Hl Ha Hb eq_refl eq_refl); auto; cbn [quad_scheme sc_det sc_inv sc_normal sc_nq sc_nqf].
  - intros x q Hx Hq. apply (jac_det_similar EQuad Q l x0); [now apply EN|exact RO].
  - intros x q d i Hx Hq Hd Hi. apply inverse2_similar; auto. intros y z Hy Hz. apply (jacobian_similar EQuad Q l x0); auto.
  - intros f q d Hf Hq Hd. now apply (edge_similar m m' Q l x0).
  - intros x i y Hx Hi Hy. unfold PropDG.mass_matrix. rewrite <- rsum_scal. apply rsum_ext. intros q Hq.
    rewrite (jac_det_similar EQuad Q l x0 (elem_nodes m x)) by (try exact RO; now apply EN). ring.
Qed.
Print Assumptions C95_solution_quads.

Theorem C95_solution_hexahedra : forall m m' Q l x0 a b bt p gamma ft u u' steps c c',
  mesh_wf m -> similar EHex m m' Q l x0 -> rotation 3 Q -> 0 < l -> 0 < a -> 0 < b ->
  initial_similar 3 a b Q l x0 u u' ->
  hex_solution m bt p gamma ft u steps c -> hex_solution m' bt p gamma ft u' (rescaled l b steps) c' ->
  forall e j k, (0 <= e < gm_num_elems m)%Z -> (0 <= j < nfun bt p)%Z -> (0 <= k < 5)%Z -> c' e j k = restated 3 a b Q (c e j) k.
Proof.
  intros m m' Q l x0 a b bt p gamma ft u u' steps c c' W SM RO Hl Ha Hb IS
    (nq & P & V & fp & fw & nq2 & P2 & V2 & EQ & EF & EQ2 & DS) (nq' & P' & V' & fp' & fw' & nq2' & P2' & V2' & EQ' & EF' & EQ2' & DS') e j k He Hj Hk.
  rewrite EQ in EQ'. injection EQ' as <- <- <-. rewrite EF in EF'. injection EF' as <- <-. rewrite EQ2 in EQ2'. injection EQ2' as <- <- <-.
  assert (EN : forall e, (0 <= e < gm_num_elems m)%Z -> forall k d, (0 <= k < corners EHex)%Z -> (0 <= d < space_dim EHex)%Z -> elem_nodes m' e k d = x0 d + l * turned (space_dim EHex) Q (elem_nodes m e k) d) by (intros; now apply SM).
  apply (similar_solutions EHex m m' Q l x0 a b bt p (hex_scheme bt p m gamma ft nq P V ((p + 2) * (p + 2)) fp fw)
    (sc_det (hex_scheme bt p m' gamma ft nq P V ((p + 2) * (p + 2)) fp fw)) (sc_inv (hex_scheme bt p m' gamma ft nq P V ((p + 2) * (p + 2)) fp fw)) (sc_normal (hex_scheme bt p m' gamma ft nq P V ((p + 2) * (p + 2)) fp fw))
    (mass_matrix3 bt p m nq2 P2 V2) (mass_matrix3 bt p m' nq2 P2 V2) u u' steps c c' W SM RO Hl Ha Hb eq_refl eq_refl); auto; cbn [hex_scheme sc_det sc_inv sc_normal sc_nq sc_nqf].
  - intros x q Hx Hq. apply (jac_det_similar EHex Q l x0); [now apply EN|exact RO].
  - intros x q d i Hx Hq Hd Hi. apply inverse3_similar; auto. intros y z Hy Hz. apply (jacobian_similar EHex Q l x0); auto.
  - intros f q d Hf Hq Hd. now apply (flat_similar m m' Q l x0).
  - intros x i y Hx Hi Hy. unfold mass_matrix3. rewrite <- rsum_scal. apply rsum_ext. intros q Hq.
    rewrite (jac_det_similar EHex Q l x0 (elem_nodes m x)) by (try exact RO; now apply EN). ring.
Qed.
Print Assumptions C95_solution_hexahedra.

(** ** The program.  The two input files ask for the same discretisation; the second
    one's time step, mesh and initial state are those of the first in other units
    and axes. *)
Record same_method (cfg cfg' : config) : Prop := {
  sme_dim : cf_dim cfg' = cf_dim cfg; sme_basis : cf_basis cfg' = cf_basis cfg; sme_order : cf_order cfg' = cf_order cfg;
  sme_flux : cf_flux cfg' = cf_flux cfg; sme_stepper : cf_stepper cfg' = cf_stepper cfg;
  sme_physics : cf_physics cfg' = cf_physics cfg; sme_gamma : ph_gamma (cf_phys cfg') = ph_gamma (cf_phys cfg) }.

Lemma rescaled_repeat l b st dt n : rescaled l b (repeat (st, dt) n) = repeat (st, l / b * dt) n.
Proof. induction n as [|n IH]; [reflexivity|]. cbn [repeat]. rewrite <- IH. reflexivity. Qed.

Theorem C95_program_quads : forall inputs meshes argv metis n inp m cfg inputs' meshes' argv' metis' n' inp' m' cfg' N u u' Q l x0 a b g g',
  (1 <= n)%Z -> reads inputs meshes argv inp m -> asks_for inp cfg -> enough_data inp cfg -> parts_asked inp n -> metis_valid metis m n ->
  (1 <= n')%Z -> reads inputs' meshes' argv' inp' m' -> asks_for inp' cfg' -> enough_data inp' cfg' -> parts_asked inp' n' -> metis_valid metis' m' n' ->
  cf_dim cfg = 2%Z -> cf_physics cfg = Euler -> same_method cfg cfg' ->
  num_iterations (cf_end cfg) (cf_dt cfg) = Ok N -> num_iterations (cf_end cfg') (cf_dt cfg') = Ok N -> B2R (cf_dt cfg') = l / b * B2R (cf_dt cfg) ->
  let bt := cf_basis cfg in let p := cf_order cfg in let gamma := ph_gamma (cf_phys cfg) in
  good_quads m -> mesh_fits EQuad 1 m' -> (forall x, (0 <= x < gm_num_nodes m')%Z -> in_some_element m' x) -> basis_for EQuad bt -> supported bt p -> order_ok p -> 1 < gamma ->
  starts_as 2 (cf_ic cfg) (cf_phys cfg) 0 u -> starts_as 2 (cf_ic cfg') (cf_phys cfg') 0 u' -> small m (nfun bt p) 4 -> small m' (nfun bt p) 4 ->
  rotation 2 Q -> 0 < l -> 0 < a -> 0 < b -> similar EQuad m m' Q l x0 -> initial_similar 2 a b Q l x0 u u' ->
  program inputs meshes argv metis n g -> program inputs' meshes' argv' metis' n' g' ->
  exists c c', g = Ok (solution_file m (nfun bt p) 4 (INR (Z.to_nat N) * B2R (cf_dt cfg)) c) /\
    g' = Ok (solution_file m' (nfun bt p) 4 (l / b * (INR (Z.to_nat N) * B2R (cf_dt cfg))) c') /\
    forall e j k, (0 <= e < gm_num_elems m)%Z -> (0 <= j < nfun bt p)%Z -> (0 <= k < 4)%Z -> c' e j k = restated 2 a b Q (c e j) k.
Proof.
  intros inputs meshes argv metis n inp m cfg inputs' meshes' argv' metis' n' inp' m' cfg' N u u' Q l x0 a b g g' Hn RE AF ED PA MV Hn' RE' AF' ED' PA' MV' D2 EU
    [S1 S2 S3 S4 S5 S6 S7] EN EN' DT bt p gamma GQ MF' ND' BF Sup Op Gm SA SA' SM SM' RO Hl Ha Hb SI IS PR PR'.
  destruct (C84_solution_quads inputs meshes argv metis n inp m cfg N u g Hn RE AF ED D2 EU PA MV EN GQ BF Sup Op Gm SA SM PR) as (c & QS & ->).
  pose proof (C95_good_quads m m' Q l x0 (reads_wf _ _ _ _ _ RE) SI RO Hl GQ MF' ND') as GQ'.
  pose proof (C84_solution_quads inputs' meshes' argv' metis' n' inp' m' cfg' N u' g' Hn' RE' AF' ED') as K. cbv zeta in K.
  rewrite S1, S2, S3, S4, S5, S6, S7, DT in K.
  destruct (K D2 EU PA' MV' EN' GQ' BF Sup Op Gm SA' SM' PR') as (c' & QS' & ->). clear K.
  exists c, c'. split; [reflexivity|]. split; [f_equal; f_equal; ring|].
  apply (C95_solution_quads m m' Q l x0 a b bt p gamma (cf_flux cfg) u u' (repeat (cf_stepper cfg, B2R (cf_dt cfg)) (Z.to_nat N)) c c' (reads_wf _ _ _ _ _ RE) SI RO Hl Ha Hb IS QS).
  rewrite rescaled_repeat. exact QS'.
Qed.
Print Assumptions C95_program_quads.

Theorem C95_program_hexahedra : forall inputs meshes argv metis n inp m cfg inputs' meshes' argv' metis' n' inp' m' cfg' N u u' Q l x0 a b g g',
  (1 <= n)%Z -> reads inputs meshes argv inp m -> asks_for inp cfg -> enough_data inp cfg -> parts_asked inp n -> metis_valid metis m n ->
  (1 <= n')%Z -> reads inputs' meshes' argv' inp' m' -> asks_for inp' cfg' -> enough_data inp' cfg' -> parts_asked inp' n' -> metis_valid metis' m' n' ->
  cf_dim cfg = 3%Z -> cf_physics cfg = Euler -> same_method cfg cfg' ->
  num_iterations (cf_end cfg) (cf_dt cfg) = Ok N -> num_iterations (cf_end cfg') (cf_dt cfg') = Ok N -> B2R (cf_dt cfg') = l / b * B2R (cf_dt cfg) ->
  let bt := cf_basis cfg in let p := cf_order cfg in let gamma := ph_gamma (cf_phys cfg) in
  good_hexes m -> mesh_fits EHex 1 m' -> (forall x, (0 <= x < gm_num_nodes m')%Z -> in_some_element m' x) -> basis_for EHex bt -> supported bt p -> order_ok p -> 1 < gamma ->
  starts_as 3 (cf_ic cfg) (cf_phys cfg) 0 u -> starts_as 3 (cf_ic cfg') (cf_phys cfg') 0 u' -> small m (nfun bt p) 5 -> small m' (nfun bt p) 5 ->
  rotation 3 Q -> 0 < l -> 0 < a -> 0 < b -> similar EHex m m' Q l x0 -> initial_similar 3 a b Q l x0 u u' ->
  program inputs meshes argv metis n g -> program inputs' meshes' argv' metis' n' g' ->
  exists c c', g = Ok (solution_file m (nfun bt p) 5 (INR (Z.to_nat N) * B2R (cf_dt cfg)) c) /\
    g' = Ok (solution_file m' (nfun bt p) 5 (l / b * (INR (Z.to_nat N) * B2R (cf_dt cfg))) c') /\
    forall e j k, (0 <= e < gm_num_elems m)%Z -> (0 <= j < nfun bt p)%Z -> (0 <= k < 5)%Z -> c' e j k = restated 3 a b Q (c e j) k.
Proof.
  intros inputs meshes argv metis n inp m cfg inputs' meshes' argv' metis' n' inp' m' cfg' N u u' Q l x0 a b g g' Hn RE AF ED PA MV Hn' RE' AF' ED' PA' MV' D2 EU
    [S1 S2 S3 S4 S5 S6 S7] EN EN' DT bt p gamma GQ MF' ND' BF Sup Op Gm SA SA' SM SM' RO Hl Ha Hb SI IS PR PR'.
  destruct (C84_solution_hexahedra inputs meshes argv metis n inp m cfg N u g Hn RE AF ED D2 EU PA MV EN GQ BF Sup Op Gm SA SM PR) as (c & QS & ->).
  pose proof (C95_good_hexahedra m m' Q l x0 (reads_wf _ _ _ _ _ RE) SI RO Hl GQ MF' ND') as GQ'.
  pose proof (C84_solution_hexahedra inputs' meshes' argv' metis' n' inp' m' cfg' N u' g' Hn' RE' AF' ED') as K. cbv zeta in K.
  rewrite S1, S2, S3, S4, S5, S6, S7, DT in K.
  destruct (K D2 EU PA' MV' EN' GQ' BF Sup Op Gm SA' SM' PR') as (c' & QS' & ->). clear K.
  exists c, c'. split; [reflexivity|]. split; [f_equal; f_equal; ring|].
  apply (C95_solution_hexahedra m m' Q l x0 a b bt p gamma (cf_flux cfg) u u' (repeat (cf_stepper cfg, B2R (cf_dt cfg)) (Z.to_nat N)) c c' (reads_wf _ _ _ _ _ RE) SI RO Hl Ha Hb IS QS).
  rewrite rescaled_repeat. exact QS'.
Qed.
Print Assumptions C95_program_hexahedra.
