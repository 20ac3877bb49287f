(** PhysProof.v -- the model of the physics functions computes the textbook
    quantities. *)
From Coq Require Import ZArith List Lia Reals Lra Bool Psatz.
From Verif Require Import Base RBase LinAlgModel PhysModel PhysSpec.
Import ListNotations.
Local Open Scope R_scope.

Definition dim23 (dim : Z) : Prop := (dim = 2 \/ dim = 3)%Z.

Lemma half : 0.5 = / 2.
Proof. lra. Qed.

Lemma ckdiv_ok x y : y <> 0 -> ckdiv x y = Ok (x / y).
Proof. intros H. unfold ckdiv. now destruct (Req_EM_T y 0). Qed.

Lemma cksqrt_ok x : 0 <= x -> cksqrt x = Ok (sqrt x).
Proof. intros H. unfold cksqrt. destruct (Rlt_dec x 0); [lra|easy]. Qed.

Lemma ckpow_ok x y : 0 < x -> ckpow x y = Ok (Rpower x y).
Proof. intros H. unfold ckpow. destruct (Rlt_dec 0 x); [easy|lra]. Qed.

Lemma dot_inst_vdot dim a b : dim23 dim -> dot_inst dim a b = vdot dim a b.
Proof. intros [->| ->]; unfold vdot, dot_inst; cbn [Z.eqb Pos.eqb]; rewrite ?rsum_2, ?rsum_3; reflexivity. Qed.

Lemma vdot_ext dim a b a' b' : (forall i, (0 <= i < dim)%Z -> a i = a' i) -> (forall i, (0 <= i < dim)%Z -> b i = b' i) ->
  vdot dim a b = vdot dim a' b'.
Proof. intros Ha Hb. apply rsum_ext. intros i Hi. now rewrite Ha, Hb. Qed.

Lemma vdot_scal_l dim c a b : vdot dim (fun i => c * a i) b = c * vdot dim a b.
Proof. unfold vdot. rewrite <- rsum_scal. apply rsum_ext. intros. ring. Qed.
Lemma vdot_scal_r dim c a b : vdot dim a (fun i => c * b i) = c * vdot dim a b.
Proof. unfold vdot. rewrite <- rsum_scal. apply rsum_ext. intros. ring. Qed.
Lemma vdot_opp_r dim a b : vdot dim a (fun i => - b i) = - vdot dim a b.
Proof. unfold vdot. rewrite <- rsum_opp. apply rsum_ext. intros. ring. Qed.
Lemma vdot_opp_l dim a b : vdot dim (fun i => - a i) b = - vdot dim a b.
Proof. unfold vdot. rewrite <- rsum_opp. apply rsum_ext. intros. ring. Qed.

Lemma rsum_nonneg n f : (forall i, (0 <= i < n)%Z -> 0 <= f i) -> 0 <= rsum n f.
Proof. intros H. rewrite <- (rsum_zero n (fun _ => 0)) by easy. apply rsum_le. exact H. Qed.

Lemma vdot_nonneg dim a : 0 <= vdot dim a a.
Proof. unfold vdot. apply rsum_nonneg. intros. nra. Qed.

Lemma vdot_velocity_l dim U b : density U <> 0 -> vdot dim (velocity U) b = vdot dim (momentum U) b / density U.
Proof.
  intros H. unfold Rdiv. rewrite Rmult_comm, <- vdot_scal_l. apply vdot_ext; [|easy]. intros. unfold velocity, Rdiv. ring.
Qed.

Lemma vdot_comm dim a b : vdot dim a b = vdot dim b a.
Proof. apply rsum_ext. intros. ring. Qed.

Lemma vdot_vv dim U : density U <> 0 ->
  vdot dim (velocity U) (velocity U) = vdot dim (momentum U) (momentum U) / density U / density U.
Proof.
  intros H. rewrite vdot_velocity_l by easy. rewrite (vdot_comm dim (momentum U) (velocity U)), vdot_velocity_l by easy. easy.
Qed.

Lemma get_pressure_ok dim g U : dim23 dim -> density U <> 0 ->
  get_pressure dim g U = Ok (pressure dim g U).
Proof.
  intros Hd H. unfold get_pressure. change (U 0%Z) with (density U). rewrite ckdiv_ok by easy. cbn [bind].
  rewrite dot_inst_vdot by easy. f_equal. unfold pressure.
  rewrite vdot_vv by easy. change (tail1 U) with (momentum U). unfold energy.
  rewrite half. field. easy.
Qed.

Lemma get_maxwavespeed_ok dim g U : dim23 dim -> 1 < g -> admissible dim g U ->
  get_maxwavespeed dim g U = Ok (vlen dim (velocity U) + sound dim g U).
Proof.
  intros Hd Hg [H1 H2]. unfold get_maxwavespeed. change (U 0%Z) with (density U).
  rewrite ckdiv_ok by lra. cbn [bind].
  rewrite dot_inst_vdot by easy. rewrite cksqrt_ok by apply vdot_nonneg. cbn [bind].
  rewrite get_pressure_ok by (auto; lra). cbn [bind].
  assert (Hp : 0 < g * pressure dim g U * (1 / density U)).
  { apply Rmult_lt_0_compat; [apply Rmult_lt_0_compat; lra|]. apply Rdiv_lt_0_compat; lra. }
  rewrite cksqrt_ok by lra. cbn [bind]. f_equal. f_equal.
  - unfold vlen. rewrite vdot_vv by lra. change (tail1 U) with (momentum U).
    replace (vdot dim (momentum U) (momentum U) / density U / density U)
      with (vdot dim (momentum U) (momentum U) * (1 / density U * (1 / density U))) by (field; lra).
    rewrite sqrt_mult_alt by apply vdot_nonneg. rewrite sqrt_square; [easy|].
    left. apply Rdiv_lt_0_compat; lra.
  - unfold sound. f_equal. field. lra.
Qed.

(** The flux in direction N is the combination of the fluxes along the axes. *)
Lemma vdot_axis dim a d : (0 <= d < dim)%Z -> vdot dim a (axis d) = a d.
Proof.
  intros H. unfold vdot, axis. rewrite (rsum_ext _ _ (fun i => if (i =? d)%Z then a i else 0)).
  - now rewrite (rsum_delta dim d a).
  - intros i _. destruct (i =? d)%Z; ring.
Qed.

Lemma euler_flux_axes dim g U N k : (0 <= k < dim + 2)%Z ->
  euler_flux dim g U N k = rsum dim (fun d => euler_flux dim g U (axis d) k * N d).
Proof.
  intros Hk. unfold euler_flux.
  assert (E : forall v, vdot dim v N = rsum dim (fun d => vdot dim v (axis d) * N d)).
  { intros v. apply rsum_ext. intros d Hd. now rewrite vdot_axis. }
  destruct (k =? 0)%Z eqn:E0; [rewrite E, <- rsum_scal; apply rsum_ext; intros; ring|].
  destruct (k =? dim + 1)%Z eqn:E1; [rewrite E, <- rsum_scal; apply rsum_ext; intros; ring|].
  rewrite E. rewrite <- rsum_scal. apply Z.eqb_neq in E0, E1.
  replace (N (k - 1)%Z) with (rsum dim (fun d => axis d (k - 1)%Z * N d)).
  2:{ unfold axis. rewrite (rsum_ext _ _ (fun i => if (i =? (k - 1))%Z then N i else 0)).
      - rewrite (rsum_delta dim (k - 1) N); [easy|lia].
      - intros i _. rewrite Z.eqb_sym. destruct (i =? k - 1)%Z; ring. }
  rewrite <- rsum_scal, <- rsum_plus. apply rsum_ext. intros. ring.
Qed.

(** Entries of the directional fluxes. *)
Lemma conv_flux_interior_ok dim g U F0 : dim23 dim -> density U <> 0 ->
  exists F, conv_flux_interior dim g U F0 = Ok F /\
    (forall k d, (0 <= k < dim + 2)%Z -> (0 <= d < dim)%Z ->
       F (k + d * (dim + 2))%Z = euler_flux dim g U (axis d) k) /\
    (forall j, ~ (0 <= j < dim * (dim + 2))%Z -> F j = F0 j).
Proof.
  intros Hd H. unfold conv_flux_interior.
  destruct Hd as [->| ->]; cbn [Z.eqb Pos.eqb]; unfold conv_flux_interior2, conv_flux_interior3;
    change (U 0%Z) with (density U); rewrite ckdiv_ok, get_pressure_ok by (auto; first [left; reflexivity | right; reflexivity | easy]); cbn [bind];
    (eexists; split; [reflexivity|]); split.
  1,3: intros k d Hk Hd;
    (assert (d = 0 \/ d = 1 \/ d = 2)%Z as [-> | [-> | ->]] by lia); try (exfalso; lia);
    (assert (k = 0 \/ k = 1 \/ k = 2 \/ k = 3 \/ k = 4)%Z as [-> | [-> | [-> | [-> | ->]]]] by lia); try (exfalso; lia);
    unfold euler_flux; rewrite vdot_axis by lia;
    unfold upd1, velocity, momentum, energy, axis; generalize dependent (density U); generalize (pressure 2 g U), (pressure 3 g U); intros; cbn -[IZR]; field; easy.
  all: intros j Hj; unfold upd1;
    repeat match goal with |- context [(j =? ?c)%Z] => destruct (Z.eqb_spec j c); [exfalso; lia|] end; reflexivity.
Qed.

(** ** Lax-Friedrichs *)

Lemma acc_row dim is (G : Z -> R) F j : (0 <= dim)%Z ->
  zloop dim (fun d F => upd1 F is (F is + G d)) F j = if (j =? is)%Z then F is + rsum dim G else F j.
Proof.
  intros Hd. revert j. pattern dim, (zloop dim (fun d F => upd1 F is (F is + G d)) F).
  apply zloop_inv; [exact Hd| |].
  - intros j. rewrite rsum_0 by lia. destruct (Z.eqb_spec j is); [subst; ring|easy].
  - intros i s Hi IH j. unfold upd1. rewrite !IH, Z.eqb_refl, rsum_S by lia. destruct (j =? is)%Z; [ring|easy].
Qed.

Lemma acc_rows NS dim (G : Z -> Z -> R) F j : (0 <= NS)%Z -> (0 <= dim)%Z -> (0 <= j < NS)%Z ->
  zloop NS (fun is F => zloop dim (fun d F => upd1 F is (F is + G is d)) F) F j = F j + rsum dim (G j).
Proof.
  intros HN Hd Hj.
  assert (X : forall j, zloop NS (fun is F => zloop dim (fun d F => upd1 F is (F is + G is d)) F) F j
              = if ((0 <=? j) && (j <? NS))%Z%bool then F j + rsum dim (G j) else F j).
  { clear j Hj. pattern NS, (zloop NS (fun is F => zloop dim (fun d F => upd1 F is (F is + G is d)) F) F).
    apply zloop_inv; [exact HN| |].
    - intros j. destruct (Z.leb_spec 0 j), (Z.ltb_spec j 0); cbn; try lia; easy.
    - intros i s Hi IH j. rewrite (acc_row dim i (G i)) by easy. rewrite !IH.
      destruct (Z.eqb_spec j i); subst;
        repeat match goal with |- context [(?a <=? ?b)%Z] => destruct (Z.leb_spec a b) | |- context [(?a <? ?b)%Z] => destruct (Z.ltb_spec a b) end;
        cbn; try lia; easy. }
  rewrite X. destruct (Z.leb_spec 0 j), (Z.ltb_spec j NS); cbn; try lia; easy.
Qed.

Lemma fill_rows NS (G : Z -> R) F j : (0 <= NS)%Z ->
  zloop NS (fun is F => upd1 F is (G is)) F j = if ((0 <=? j) && (j <? NS))%Z%bool then G j else F j.
Proof.
  intros HN. revert j. pattern NS, (zloop NS (fun is F => upd1 F is (G is)) F). apply zloop_inv; [exact HN| |].
  - intros j. destruct (Z.leb_spec 0 j), (Z.ltb_spec j 0); cbn; try lia; easy.
  - intros i s Hi IH j. unfold upd1. rewrite IH. destruct (Z.eqb_spec j i); subst;
        repeat match goal with |- context [(?a <=? ?b)%Z] => destruct (Z.leb_spec a b) | |- context [(?a <? ?b)%Z] => destruct (Z.ltb_spec a b) end;
        cbn; try lia; easy.
Qed.

Lemma euler_flux_ext dim g U N N' k : (0 <= k < dim + 2)%Z -> (forall i, (0 <= i < dim)%Z -> N i = N' i) ->
  euler_flux dim g U N k = euler_flux dim g U N' k.
Proof.
  intros Hk H. rewrite !(euler_flux_axes _ _ _ _ _ Hk). apply rsum_ext. intros d Hd. now rewrite H.
Qed.

Lemma euler_flux_scal dim g U c N k : (0 <= k < dim + 2)%Z ->
  euler_flux dim g U (fun i => c * N i) k = c * euler_flux dim g U N k.
Proof.
  intros Hk. rewrite !(euler_flux_axes _ _ _ _ _ Hk). rewrite <- rsum_scal. apply rsum_ext. intros. ring.
Qed.

(** Local speed bound used by the flux. *)
Definition speed (dim : Z) (g : R) (U : arr1) : R := vlen dim (velocity U) + sound dim g U.

Lemma vlen_pos dim N : vdot dim N N <> 0 -> 0 < vlen dim N.
Proof. intros H. apply sqrt_lt_R0. pose proof (vdot_nonneg dim N). lra. Qed.

Lemma dim23_pos dim : dim23 dim -> (2 <= dim <= 3)%Z.
Proof. intros [->| ->]; lia. Qed.

Lemma laxfriedrichs_ok dim g UL UR N F0 Fq0 : dim23 dim -> 1 < g -> admissible dim g UL -> admissible dim g UR ->
  vdot dim N N <> 0 ->
  exists F, laxfriedrichs dim g UL UR N F0 Fq0 = Ok F /\
    (forall k, (0 <= k < dim + 2)%Z ->
       F k = (euler_flux dim g UL N k + euler_flux dim g UR N k) / 2
             - vlen dim N * Rmax (speed dim g UL) (speed dim g UR) * (UR k - UL k) / 2) /\
    (forall k, ~ (0 <= k < dim + 2)%Z -> F k = F0 k).
Proof.
  intros Hd Hg HL HR HN. pose proof (dim23_pos dim Hd) as Hd2. pose proof (vlen_pos dim N HN) as Hl.
  unfold laxfriedrichs.
  replace (zloop dim (fun idim n_mag => n_mag + N idim * N idim) 0) with (vdot dim N N)
    by (unfold vdot; rewrite zloop_acc by lia; ring).
  rewrite cksqrt_ok by apply vdot_nonneg. cbn [bind]. change (sqrt (vdot dim N N)) with (vlen dim N).
  rewrite ckdiv_ok by lra. cbn [bind].
  destruct (conv_flux_interior_ok dim g UL Fq0 Hd) as (FL & E1 & E2 & _); [destruct HL; lra|].
  rewrite E1. cbn [bind].
  destruct (conv_flux_interior_ok dim g UR FL Hd) as (FR & E3 & E4 & _); [destruct HR; lra|].
  rewrite E3. cbn [bind].
  rewrite (get_maxwavespeed_ok dim g UL), (get_maxwavespeed_ok dim g UR) by easy. cbn [bind].
  eexists; split; [reflexivity|]. split.
  - intros k Hk. rewrite fill_rows by lia.
    destruct (Z.leb_spec 0 k), (Z.ltb_spec k (dim + 2)); try lia; cbn [andb].
    rewrite !acc_rows by lia.
    rewrite (rsum_ext dim _ (fun d => euler_flux dim g UL (axis d) k * (/ vlen dim N * N d))).
    2:{ intros d Hdd. rewrite E2 by lia. unfold Rdiv. ring. }
    rewrite (rsum_ext dim (fun idim => FR _ * _) (fun d => euler_flux dim g UR (axis d) k * (/ vlen dim N * N d))).
    2:{ intros d Hdd. rewrite E4 by lia. unfold Rdiv. ring. }
    rewrite <- !(euler_flux_axes dim g _ (fun d => / vlen dim N * N d) k Hk). rewrite !euler_flux_scal by easy.
    fold (speed dim g UL). fold (speed dim g UR).
    replace (if Rlt_dec (speed dim g UL) (speed dim g UR) then speed dim g UR else speed dim g UL)
      with (Rmax (speed dim g UL) (speed dim g UR)).
    + rewrite half. field. lra.
    + unfold Rmax. destruct (Rle_dec _ _), (Rlt_dec _ _); lra.
  - intros k Hk. rewrite fill_rows by lia.
    destruct (Z.leb_spec 0 k), (Z.ltb_spec k (dim + 2)); try lia; reflexivity.
Qed.

(** ** HLLC *)

Lemma fill_shift NS (G : Z -> R) F j : (0 <= NS)%Z ->
  zloop NS (fun i F => upd1 F (1 + i) (G i)) F j = if ((1 <=? j) && (j <? NS + 1))%Z%bool then G (j - 1)%Z else F j.
Proof.
  intros HN. revert j. pattern NS, (zloop NS (fun i F => upd1 F (1 + i) (G i)) F). apply zloop_inv; [exact HN| |].
  - intros j. destruct (Z.leb_spec 1 j), (Z.ltb_spec j (0 + 1)); cbn; try lia; easy.
  - intros i s Hi IH j. unfold upd1. rewrite IH. destruct (Z.eqb_spec j (1 + i)); [subst j; replace (1 + i - 1)%Z with i by lia|];
        repeat match goal with |- context [(?a <=? ?b)%Z] => destruct (Z.leb_spec a b) | |- context [(?a <? ?b)%Z] => destruct (Z.ltb_spec a b) end;
        cbn; try lia; easy.
Qed.

Definition unitv (dim : Z) (N : arr1) : arr1 := fun i => N i / vlen dim N.

Lemma hllc_q_ok g ps P : 1 < g -> 0 < P -> hllc_q g ps P = Ok (q_factor g ps P).
Proof.
  intros Hg HP. unfold hllc_q, q_factor. rewrite ckdiv_ok by lra. cbn [bind].
  assert (E : ps / P * P = ps) by (field; lra).
  destruct (Rlt_dec 1 (ps / P)) as [H|H], (Rle_dec ps P) as [H'|H']; try reflexivity; try (exfalso; nra).
  rewrite ckdiv_ok by lra. cbn [bind]. apply cksqrt_ok.
  assert (0 < (g + 1) / (2 * g)) by (apply Rdiv_lt_0_compat; lra). nra.
Qed.

Lemma q_factor_ge1 g ps P : 1 < g -> 0 < P -> 1 <= q_factor g ps P.
Proof.
  intros Hg HP. unfold q_factor. destruct (Rle_dec ps P) as [H|H]; [lra|].
  assert (E : ps / P * P = ps) by (field; lra). assert (1 < ps / P) by nra.
  assert (0 < (g + 1) / (2 * g)) by (apply Rdiv_lt_0_compat; lra).
  rewrite <- sqrt_1 at 1. apply sqrt_le_1_alt. nra.
Qed.

Lemma sound_pos dim g U : 1 < g -> admissible dim g U -> 0 < sound dim g U.
Proof. intros Hg [H1 H2]. apply sqrt_lt_R0. apply Rdiv_lt_0_compat; [nra|easy]. Qed.

Lemma wave_L_lt dim g UL UR n : 1 < g -> admissible dim g UL -> wave_L dim g UL UR n < un dim UL n.
Proof.
  intros Hg H. unfold wave_L. pose proof (sound_pos dim g UL Hg H).
  pose proof (q_factor_ge1 g (p_star dim g UL UR n) (pressure dim g UL) Hg (proj2 H)). nra.
Qed.

Lemma wave_R_gt dim g UL UR n : 1 < g -> admissible dim g UR -> un dim UR n < wave_R dim g UL UR n.
Proof.
  intros Hg H. unfold wave_R. pose proof (sound_pos dim g UR Hg H).
  pose proof (q_factor_ge1 g (p_star dim g UL UR n) (pressure dim g UR) Hg (proj2 H)). nra.
Qed.

Lemma hllc_outer_entry dim g djac n U F0 k : dim23 dim -> density U <> 0 ->
  hllc_outer dim djac n U (density U) (un dim U n) (pressure dim g U) F0 k =
  if ((0 <=? k) && (k <? dim + 2))%Z%bool then djac * euler_flux dim g U n k else F0 k.
Proof.
  intros Hd Hr. pose proof (dim23_pos dim Hd). unfold hllc_outer.
  assert (X : forall F, zloop dim (fun i F => upd1 F (1 + i) (djac * (U (1 + i)%Z * un dim U n + pressure dim g U * n i))) F k
     = if ((1 <=? k) && (k <? dim + 1))%Z%bool then djac * (U k * un dim U n + pressure dim g U * n (k - 1)%Z) else F k).
  { intros F. rewrite (fill_shift dim (fun i => djac * (U (1 + i)%Z * un dim U n + pressure dim g U * n i))) by lia.
    replace (1 + (k - 1))%Z with k by lia. reflexivity. }
  unfold upd1 at 1. unfold euler_flux. fold (un dim U n).
  destruct (Z.eqb_spec k (dim + 1)) as [->|H1].
  { destruct (Z.leb_spec 0 (dim + 1)), (Z.ltb_spec (dim + 1) (dim + 2)); try lia. cbn [andb].
    destruct (Z.eqb_spec (dim + 1) 0); [lia|]. unfold energy. ring. }
  rewrite X. unfold upd1. destruct (Z.eqb_spec k 0) as [->|H2].
  { cbn. destruct (Z.ltb_spec 0 (dim + 2)); [|lia]. ring. }
  destruct (Z.leb_spec 1 k), (Z.ltb_spec k (dim + 1)), (Z.leb_spec 0 k), (Z.ltb_spec k (dim + 2)); cbn [andb]; try lia; try easy.
  unfold momentum. replace (1 + (k - 1))%Z with k by lia. reflexivity.
Qed.

Lemma hllc_star_entry dim g djac n U s sS F0 : dim23 dim -> density U <> 0 -> s - un dim U n <> 0 -> s - sS <> 0 ->
  exists F, hllc_star dim djac n U (density U) (un dim U n) (pressure dim g U) s sS F0 = Ok F /\
  forall k, F k = if ((0 <=? k) && (k <? dim + 2))%Z%bool then djac * star_flux dim g U n s sS k else F0 k.
Proof.
  intros Hd Hr Hs HsS. pose proof (dim23_pos dim Hd). unfold hllc_star.
  rewrite ckdiv_ok by easy. cbn [bind]. rewrite ckdiv_ok by (now apply Rmult_integral_contrapositive_currified). cbn [bind].
  eexists; split; [reflexivity|]. intros k.
  set (c := (s - un dim U n) / (s - sS)). set (f1 := sS - un dim U n).
  assert (X : forall F, zloop dim (fun i F => upd1 F (1 + i)
       (djac * (U (1 + i)%Z * un dim U n + pressure dim g U * n i + s * (U (1 + i)%Z * (c - 1) + density U * c * f1 * n i)))) F k
     = if ((1 <=? k) && (k <? dim + 1))%Z%bool
       then djac * (U k * un dim U n + pressure dim g U * n (k - 1)%Z + s * (U k * (c - 1) + density U * c * f1 * n (k - 1)%Z)) else F k).
  { intros F. rewrite (fill_shift dim (fun i => djac * (U (1 + i)%Z * un dim U n + pressure dim g U * n i + s * (U (1 + i)%Z * (c - 1) + density U * c * f1 * n i)))) by lia.
    replace (1 + (k - 1))%Z with k by lia. reflexivity. }
  unfold upd1 at 1. unfold star_flux, star_state, euler_flux. fold (un dim U n).
  destruct (Z.eqb_spec k (dim + 1)) as [->|H1].
  { destruct (Z.leb_spec 0 (dim + 1)), (Z.ltb_spec (dim + 1) (dim + 2)); try lia. cbn [andb].
    destruct (Z.eqb_spec (dim + 1) 0); [lia|]. unfold energy. unfold c, f1. field. auto. }
  rewrite X. unfold upd1. destruct (Z.eqb_spec k 0) as [->|H2].
  { cbn. destruct (Z.ltb_spec 0 (dim + 2)); [|lia]. change (U 0%Z) with (density U). unfold c. field. auto. }
  destruct (Z.leb_spec 1 k), (Z.ltb_spec k (dim + 1)), (Z.leb_spec 0 k), (Z.ltb_spec k (dim + 2)); cbn [andb]; try lia; try easy.
  unfold velocity, momentum. replace (1 + (k - 1))%Z with k by lia. unfold c, f1. field. auto.
Qed.

Lemma toro_branch dim g UL UR n : 1 < g -> admissible dim g UL -> admissible dim g UR ->
  density UL * (wave_L dim g UL UR n - un dim UL n) - density UR * (wave_R dim g UL UR n - un dim UR n) < 0.
Proof.
  intros Hg HL HR. pose proof (wave_L_lt dim g UL UR n Hg HL). pose proof (wave_R_gt dim g UL UR n Hg HR).
  destruct HL, HR. nra.
Qed.

Lemma hllc_ok dim g UL UR N F0 : dim23 dim -> 1 < g -> admissible dim g UL -> admissible dim g UR ->
  vdot dim N N <> 0 ->
  exists F, hllc dim g UL UR N F0 = Ok F /\
    (forall k, F k = if ((0 <=? k) && (k <? dim + 2))%Z%bool
                     then vlen dim N * toro_hllc dim g UL UR (unitv dim N) k else F0 k).
Proof.
  intros Hd Hg HL HR HN. pose proof (vlen_pos dim N HN) as Hl.
  assert (HrL : density UL <> 0) by (destruct HL; lra). assert (HrR : density UR <> 0) by (destruct HR; lra).
  assert (SND : forall U, admissible dim g U -> cksqrt (g * pressure dim g U * (1 / density U)) = Ok (sound dim g U)).
  { intros U [H1 H2]. rewrite cksqrt_ok. - unfold sound. do 2 f_equal. field. lra.
    - left. apply Rmult_lt_0_compat; [nra|]. apply Rdiv_lt_0_compat; lra. }
  unfold hllc. rewrite dot_inst_vdot by easy. rewrite cksqrt_ok by apply vdot_nonneg. cbn [bind].
  change (sqrt (vdot dim N N)) with (vlen dim N). rewrite ckdiv_ok by lra. cbn [bind].
  replace (fun i => N i * (1 / vlen dim N)) with (unitv dim N)
    by (apply FunctionalExtensionality.functional_extensionality; intros i; unfold unitv; field; lra).
  set (n := unitv dim N).
  change (UL 0%Z) with (density UL). change (UR 0%Z) with (density UR).
  rewrite !ckdiv_ok by easy. cbn [bind]. rewrite !get_pressure_ok by easy. cbn [bind].
  rewrite SND by easy. cbn [bind].
  rewrite SND by easy. cbn [bind]. cbv zeta.
  replace (dot_inst dim (tail1 UL) n * (1 / density UL)) with (un dim UL n)
    by (unfold un; rewrite vdot_velocity_l, dot_inst_vdot by easy; change (tail1 UL) with (momentum UL); field; easy).
  replace (dot_inst dim (tail1 UR) n * (1 / density UR)) with (un dim UR n)
    by (unfold un; rewrite vdot_velocity_l, dot_inst_vdot by easy; change (tail1 UR) with (momentum UR); field; easy).
  match goal with |- context [Rmax 0 ?x] => replace (Rmax 0 x) with (p_star dim g UL UR n) by (unfold p_star; f_equal; rewrite half; field) end.
  rewrite !hllc_q_ok by (auto; apply HL || apply HR). cbn [bind].
  fold (wave_L dim g UL UR n). fold (wave_R dim g UL UR n).
  pose proof (toro_branch dim g UL UR n Hg HL HR) as HB.
  pose proof (wave_L_lt dim g UL UR n Hg HL) as HwL. pose proof (wave_R_gt dim g UL UR n Hg HR) as HwR.
  rewrite ckdiv_ok by lra. cbn [bind].
  match goal with |- context [Rle_dec 0 (?a / ?b)] => change (a / b) with (wave_star dim g UL UR n) end.
  unfold toro_hllc.
  destruct (Rle_dec 0 (wave_L dim g UL UR n)) as [H1|H1].
  { eexists; split; [reflexivity|]. intros k. now apply hllc_outer_entry. }
  destruct (Rle_dec (wave_R dim g UL UR n) 0) as [H2|H2].
  { eexists; split; [reflexivity|]. intros k. now apply hllc_outer_entry. }
  destruct (Rle_dec 0 (wave_star dim g UL UR n)) as [H3|H3].
  { apply hllc_star_entry; auto; lra. }
  destruct (Rlt_dec 0 (wave_R dim g UL UR n)) as [H4|H4]; [|lra].
  apply hllc_star_entry; auto; lra.
Qed.
