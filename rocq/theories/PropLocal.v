(** PropLocal.v -- C104: a change reaches one element further in each evaluation of
    the residual, no faster.  Two runs on two meshes whose elements around [e] and
    [pe e] correspond give the same coefficients in [e] and [pe e], if the
    initial states agree around them. *)
From Coq Require Import ZArith List Lia Reals Lra String Bool Permutation.
From Flocq Require Import BinarySingleNaN.
From Verif Require Import Base RBase MeshModel MeshSpec MeshProof PropMesh IOModel PropIO PropOutput.
From Verif Require Import ReadModel PropRead PropCtor UtilModel TimeModel ProgramModel PropProgram.
From Verif Require Import LinAlgModel PropLinAlg BasisModel ShapeModel PropShape SolverModel SolverSpec SolverMesh SolverFlux PhysModel PhysSpec PhysProof PropPhys PropBasis PropSolver PropNormals StepModel PropIntegral PropStep SetupModel SetupSpec SetupProof PropSetup PropMeshRun PropInit PropPost DGSpec DGProof PropDG PropHex PropFree PropHexFree PropTime PropWhole PropTotal PropVortex PropRenumber PropSimilarG PropSymmetry.
Import ListNotations.
Local Open Scope Z_scope.
Local Open Scope R_scope.
Open Scope res_scope.

(** * Specification *)

(** From element [e] to element [x] in at most [n] steps through faces. *)
Inductive within (m : gmesh R) (e : Z) : nat -> Z -> Prop :=
| w_here : forall n, within m e n e
| w_next : forall n x f sd k o y sd' k' o', within m e n x -> has_side m f sd x k o -> has_side m f sd' y k' o' -> within m e (S n) y.

(** Residual evaluations of a run: one per forward Euler step, four per RK4 step. *)
Fixpoint evaluations (steps : list (stepper * R)) : nat :=
  match steps with
  | [] => 0
  | (ForwardEuler, _) :: rest => S (evaluations rest)
  | (RungeKutta4, _) :: rest => 4 + evaluations rest
  end.

(** The two meshes correspond around element [e] of [m]: up to distance [n],
    element [pe x] of [m'] is element [x] of [m] moved by [v x]; up to distance
    [n - 1] the elements have the same neighbours on the same faces. *)
Record same_near (s : eshape) (m m' : gmesh R) (pe pf : Z -> Z) (v : arr2) (e : Z) (n : nat) : Prop := {
  sn_range : forall x, within m e n x -> (0 <= pe x < gm_num_elems m')%Z;
  sn_nodes : forall x k d, within m e n x -> (0 <= k < corners s)%Z -> (0 <= d < space_dim s)%Z -> elem_nodes m' (pe x) k d = elem_nodes m x k d + v x d;
  sn_inj : forall x y, within m e n x -> within m e n y -> pe x = pe y -> x = y;
  sn_faces : forall i x f sd k o sd' y k' o', (i < n)%nat -> within m e i x -> has_side m f sd x k o -> has_side m f sd' y k' o' ->
    has_side m' (pf f) sd' (pe y) k' o';
  sn_only : forall i x f' sd k o, (i < n)%nat -> within m e i x -> has_side m' f' sd (pe x) k o ->
    exists f sd' k' o', has_side m f sd' x k' o' /\ pf f = f' }.

(** The initial states agree up to distance [n]. *)
Definition same_start (s : eshape) (m m' : gmesh R) (pe : Z -> Z) (e : Z) (n : nat) (u u' : (Z -> R) -> Z -> R) : Prop :=
  forall x y k, within m e n x -> (forall d, (0 <= d < space_dim s)%Z -> -1 <= y d <= 1) -> (0 <= k < space_dim s + 2)%Z ->
    u' (place s 1 (elem_nodes m' (pe x)) y) k = u (place s 1 (elem_nodes m x) y) k.

(** * Proof *)
Lemma within_le m e n n' x : (n <= n')%nat -> within m e n x -> within m e n' x.
Proof.
  intros L W. revert n' L. induction W as [n|n x f sd k o y sd' k' o' W IH H H']; intros n' L; [constructor|].
  destruct n' as [|n']; [lia|]. apply (w_next m e n' x f sd k o y sd' k' o'); auto. apply IH. lia.
Qed.

Lemma within_range m e n x : mesh_wf m -> (0 <= e < gm_num_elems m)%Z -> within m e n x -> (0 <= x < gm_num_elems m)%Z.
Proof. intros W He [|]; [exact He|]. exact (proj2 (proj2 (side_nonneg _ _ m _ (one_rank m W) _ _ _ _ _ H1))). Qed.

(** Sums whose non-zero terms correspond. *)
Lemma rsum_match N (pf : Z -> Z) (T : Z -> bool) g : forall n g',
  (forall f, (0 <= f < n)%Z -> T f = true -> (0 <= pf f < N)%Z /\ g' (pf f) = g f) ->
  (forall f, (0 <= f < n)%Z -> T f = false -> g f = 0) ->
  (forall f1 f2, (0 <= f1 < n)%Z -> (0 <= f2 < n)%Z -> T f1 = true -> T f2 = true -> pf f1 = pf f2 -> f1 = f2) ->
  (forall f', (0 <= f' < N)%Z -> g' f' = 0 \/ exists f, (0 <= f < n)%Z /\ T f = true /\ pf f = f') ->
  rsum N g' = rsum n g.
Proof.
  intros n. induction n as [n H|n H IH] using zind; intros g' M Z0 I O.
  - rewrite (rsum_0 g n) by lia. apply rsum_zero. intros i Hi. destruct (O i Hi) as [E|(f & Hf & _)]; [exact E|lia].
  - rewrite rsum_S by exact H. destruct (T n) eqn:ET.
    + destruct (M n ltac:(lia) ET) as (R & E).
      rewrite (rsum_ext N g' (fun i => (if (i =? pf n)%Z then 0 else g' i) + (if (i =? pf n)%Z then g' i else 0))) by (intros i _; destruct (i =? pf n)%Z; ring).
      rewrite rsum_plus, rsum_delta by exact R. rewrite E. f_equal. apply IH.
      * intros f Hf Tf. destruct (M f ltac:(lia) Tf) as (R1 & E1). split; [exact R1|]. destruct (Z.eqb_spec (pf f) (pf n)) as [EE|_]; [|exact E1].
        exfalso. assert (f = n) by (apply I; auto; lia). lia.
      * intros f Hf. apply Z0. lia.
      * intros f1 f2 H1 H2. apply I; lia.
      * intros f' Hf'. destruct (Z.eqb_spec f' (pf n)) as [_|NE]; [now left|]. destruct (O f' Hf') as [E0|(f & Hf & Tf & Ef)]; [now left|].
        right. exists f. split; [|auto]. assert (f <> n) by (intros ->; congruence). lia.
    + rewrite (Z0 n ltac:(lia) ET), Rplus_0_r. apply IH.
      * intros f Hf. apply M. lia.
      * intros f Hf. apply Z0. lia.
      * intros f1 f2 H1 H2. apply I; lia.
      * intros f' Hf'. destruct (O f' Hf') as [E0|(f & Hf & Tf & Ef)]; [now left|]. right. exists f. split; [|auto]. assert (f <> n) by (intros ->; congruence). lia.
Qed.

Section Core.
Context (m m' : gmesh R) (W : mesh_wf m) (W' : mesh_wf m') (FD : faces_distinct m) (e : Z) (He : (0 <= e < gm_num_elems m)%Z).
Context (pe pf : Z -> Z) (v : arr2) (n : nat) (S : scheme) (SN : same_near (sc_shape S) m m' pe pf v e n).
Context (det : arr2) (inv : arr4) (nrm : arr3).
Let S' : scheme := mkScheme (sc_shape S) (sc_nb S) (sc_gamma S) (sc_flux S) (sc_nq S) (sc_val S) (sc_grad S) (sc_wts S) (sc_nqf S) (sc_fval S) (sc_fwts S) det inv nrm.
Let dim := space_dim (sc_shape S).
Let nb := sc_nb S.
Context (HD : forall x q, within m e n x -> (0 <= q < sc_nq S)%Z -> det (pe x) q = sc_det S x q).
Context (HI : forall x q d j, within m e n x -> (0 <= q < sc_nq S)%Z -> (0 <= d < dim)%Z -> (0 <= j < dim)%Z -> inv (pe x) q d j = sc_inv S x q d j).
Context (HN : forall i x f sd k o q d, (i < n)%nat -> within m e i x -> has_side m f sd x k o -> (0 <= q < sc_nqf S)%Z -> (0 <= d < dim)%Z ->
  nrm (pf f) q d = sc_normal S f q d).
Context (iM iM' : arr3) (HM : forall x i b, within m e n x -> (0 <= i < nb)%Z -> (0 <= b < nb)%Z -> iM' (pe x) i b = iM x i b).

Definition near_corr (i : nat) (c c' : arr3) : Prop := forall x j k, within m e i x -> (0 <= j < nb)%Z -> (0 <= k < dim + 2)%Z -> c' (pe x) j k = c x j k.

Lemma near_le i i' c c' : (i <= i')%nat -> near_corr i' c c' -> near_corr i c c'.
Proof. intros L C x j k Wx. apply C. now apply (within_le m e i). Qed.

Lemma d23n : dim23 dim.
Proof. unfold dim. destruct (sc_shape S); [now left|now right]. Qed.

Lemma has_entries (M : gmesh R) f sd x k o : has_side M f sd x k o -> side_elem M f sd = x /\ side_face M f sd = k /\ face_entry M f (if sd then 5 else 2)%Z = o.
Proof.
  intros (H1 & H2 & H3). unfold side_elem, side_face, face_entry. destruct sd.
  - change (3 + 1)%Z with 4%Z in H2. change (3 + 2)%Z with 5%Z in H3. now rewrite H1, H2, H3.
  - change (0 + 1)%Z with 1%Z in H2. change (0 + 2)%Z with 2%Z in H3. now rewrite H1, H2, H3.
Qed.

Lemma side_index (M : gmesh R) f sd x k o : mesh_wf M -> has_side M f sd x k o -> (0 <= f < gm_nIF M)%Z.
Proof.
  intros WM (H1 & _). unfold rd2 in H1. destruct (rd (gm_IF M) f) as [row|] eqn:E; [|discriminate]. rewrite <- (wf_if_len M WM). exact (rd_in_range _ _ _ E).
Qed.

(** A face of an element near [e]. *)
Lemma face_corr i x f sd k o : (i < n)%nat -> within m e i x -> has_side m f sd x k o ->
  forall sd', side_elem m' (pf f) sd' = pe (side_elem m f sd') /\ side_face m' (pf f) sd' = side_face m f sd' /\
    (forall q, side_point S' m' (pf f) sd' q = side_point S m f sd' q) /\ within m e (Datatypes.S i) (side_elem m f sd').
Proof.
  intros Li Wx Hs sd'. pose proof (side_index m f sd x k o W Hs) as Hf. pose proof (sides_of _ _ m _ (one_rank m W) f sd' Hf) as HS.
  pose proof (sn_faces _ _ _ _ _ _ _ _ SN i x f sd k o sd' _ _ _ Li Wx Hs HS) as H'. destruct (has_entries _ _ _ _ _ _ H') as (E1 & E2 & E3).
  split; [exact E1|]. split; [exact E2|]. split; [|exact (w_next m e i x f sd k o _ _ _ _ Wx Hs HS)].
  intros q. unfold side_point. cbn [S' sc_shape sc_nqf]. now rewrite E3.
Qed.

Lemma near_flux i x f sd k o c c' q y : (i < n)%nat -> within m e i x -> has_side m f sd x k o -> near_corr (Datatypes.S i) c c' -> (0 <= q < sc_nqf S)%Z -> (0 <= y < dim + 2)%Z ->
  dg_flux S' m' c' (pf f) q y = dg_flux S m c f q y.
Proof.
  intros Li Wx Hs C Hq Hy. pose proof (face_corr i x f sd k o Li Wx Hs) as FC. unfold dg_flux. cbn [S' sc_flux sc_shape sc_gamma sc_normal]. fold dim.
  rewrite (numflux_ext _ _ _ _ _ _ (sc_normal S f q)); [|intros d Hd; now apply (HN i x f sd k o)|exact Hy].
  assert (T : forall sd' z, (0 <= z < dim + 2)%Z ->
    dg_trace S' c' (side_elem m' (pf f) sd') (side_face m' (pf f) sd') (side_point S' m' (pf f) sd' q) z = dg_trace S c (side_elem m f sd') (side_face m f sd') (side_point S m f sd' q) z).
  { intros sd' z Hz. destruct (FC sd') as (-> & -> & EP & WN). rewrite EP. unfold dg_trace. apply rsum_ext. intros j Hj. f_equal. now apply C. }
  apply numflux_state; [exact d23n|intros z Hz; now apply T|intros z Hz; now apply T|exact Hy].
Qed.

Lemma near_side i x f sd k o c c' sd' b y : (i < n)%nat -> within m e i x -> has_side m f sd x k o -> near_corr (Datatypes.S i) c c' -> (0 <= y < dim + 2)%Z ->
  dg_side S' m' c' (pf f) sd' (pe x) b y = dg_side S m c f sd' x b y.
Proof.
  intros Li Wx Hs C Hy. destruct (face_corr i x f sd k o Li Wx Hs sd') as (E1 & E2 & EP & WN). unfold dg_side. rewrite E1, E2.
  assert (EB : (pe (side_elem m f sd') =? pe x)%Z = (side_elem m f sd' =? x)%Z).
  { destruct (Z.eqb_spec (side_elem m f sd') x) as [-> |NE]; [apply Z.eqb_refl|]. apply Z.eqb_neq. intros E. apply NE.
    apply (sn_inj _ _ _ _ _ _ _ _ SN); [apply (within_le m e (Datatypes.S i)); [lia|exact WN]|apply (within_le m e i); [lia|exact Wx]|exact E]. }
  rewrite EB. destruct (side_elem m f sd' =? x)%Z; [|reflexivity]. f_equal. cbn [S' sc_nqf sc_fwts sc_fval]. apply rsum_ext. intros q Hq. rewrite EP.
  now rewrite (near_flux i x f sd k o c c' q y Li Wx Hs C Hq Hy).
Qed.

Lemma near_residual i x c c' b y : (i < n)%nat -> within m e i x -> near_corr (Datatypes.S i) c c' -> (0 <= b < nb)%Z -> (0 <= y < dim + 2)%Z ->
  dg_residual S' m' c' (pe x) b y = dg_residual S m c x b y.
Proof.
  intros Li Wx C Hb Hy. assert (WN : within m e n x) by (apply (within_le m e i); [lia|exact Wx]).
  pose proof (near_le i (Datatypes.S i) c c' ltac:(lia) C) as C0.
  unfold dg_residual. f_equal.
  - unfold dg_volume. cbn [S' sc_nq sc_wts sc_det sc_shape sc_gamma sc_grad sc_inv]. fold dim. apply rsum_ext. intros q Hq. rewrite HD by assumption. f_equal.
    apply rsum_ext. intros j Hj. f_equal.
    + apply euler_flux_extU; [exact d23n| |exact Hy]. intros z Hz. unfold dg_state. apply rsum_ext. intros a Ha. cbn [sc_val]. f_equal. now apply C0.
    + apply rsum_ext. intros d Hd. f_equal. now apply HI.
  - set (T := fun f => ((side_elem m f false =? x)%Z || (side_elem m f true =? x)%Z)%bool).
    assert (TS : forall f, (0 <= f < gm_nIF m)%Z -> T f = true -> exists sd k o, has_side m f sd x k o).
    { intros f Hf E. unfold T in E. apply orb_true_iff in E. destruct E as [E|E]; apply Z.eqb_eq in E.
      - exists false, (side_face m f false), (face_entry m f 2). rewrite <- E. exact (sides_of _ _ m _ (one_rank m W) f false Hf).
      - exists true, (side_face m f true), (face_entry m f 5). rewrite <- E. exact (sides_of _ _ m _ (one_rank m W) f true Hf). }
    apply (rsum_match (gm_nIF m') pf T).
    + intros f Hf E. destruct (TS f Hf E) as (sd & k & o & Hs). split.
      * pose proof (sn_faces _ _ _ _ _ _ _ _ SN i x f sd k o sd x k o Li Wx Hs Hs) as H'. exact (side_index m' _ _ _ _ _ W' H').
      * rewrite !(near_side i x f sd k o c c') by assumption. reflexivity.
    + intros f Hf E. unfold T in E. apply orb_false_iff in E. destruct E as (E1 & E2). unfold dg_side. rewrite E1, E2. ring.
    + intros f1 f2 H1 H2 T1 T2 E. destruct (TS f1 H1 T1) as (s1 & k1 & o1 & A1). destruct (TS f2 H2 T2) as (s2 & k2 & o2 & A2).
      pose proof (sides_of _ _ m _ (one_rank m W) f1 s2 H1) as B1.
      pose proof (sn_faces _ _ _ _ _ _ _ _ SN i x f1 s1 k1 o1 s2 _ _ _ Li Wx A1 B1) as C1.
      pose proof (sn_faces _ _ _ _ _ _ _ _ SN i x f2 s2 k2 o2 s2 x k2 o2 Li Wx A2 A2) as C2. rewrite E in C1.
      destruct (has_entries _ _ _ _ _ _ C1) as (X1 & X2 & _). destruct (has_entries _ _ _ _ _ _ C2) as (Y1 & Y2 & _).
      assert (EX : side_elem m f1 s2 = x).
      { apply (sn_inj _ _ _ _ _ _ _ _ SN); [apply (within_le m e (Datatypes.S i)); [lia|exact (w_next m e i x f1 s1 k1 o1 _ _ _ _ Wx A1 B1)]|exact WN|]. congruence. }
      assert (EK : side_face m f1 s2 = k2) by congruence. rewrite EX, EK in B1. exact (proj1 (FD _ _ _ _ _ _ _ _ B1 A2)).
    + intros f' Hf'.
      assert (D : T f' = T f') by reflexivity. clear D.
      destruct (Z.eq_dec (side_elem m' f' false) (pe x)) as [E|N1]; [|destruct (Z.eq_dec (side_elem m' f' true) (pe x)) as [E|N2]].
      * right. pose proof (sides_of _ _ m' _ (one_rank m' W') f' false Hf') as HS. rewrite E in HS.
        destruct (sn_only _ _ _ _ _ _ _ _ SN i x f' _ _ _ Li Wx HS) as (f & sd & k & o & Hs & EF). exists f. split; [exact (side_index m f sd x k o W Hs)|]. split; [|exact EF].
        destruct (has_entries _ _ _ _ _ _ Hs) as (EE & _). unfold T. destruct sd; rewrite EE, Z.eqb_refl; [apply orb_true_r|reflexivity].
      * right. pose proof (sides_of _ _ m' _ (one_rank m' W') f' true Hf') as HS. rewrite E in HS.
        destruct (sn_only _ _ _ _ _ _ _ _ SN i x f' _ _ _ Li Wx HS) as (f & sd & k & o & Hs & EF). exists f. split; [exact (side_index m f sd x k o W Hs)|]. split; [|exact EF].
        destruct (has_entries _ _ _ _ _ _ Hs) as (EE & _). unfold T. destruct sd; rewrite EE, Z.eqb_refl; [apply orb_true_r|reflexivity].
      * left. unfold dg_side. apply Z.eqb_neq in N1, N2. rewrite N1, N2. ring.
Qed.

Lemma near_rate i c c' : (i < n)%nat -> near_corr (Datatypes.S i) c c' -> near_corr i (dg_rate S m iM c) (dg_rate S' m' iM' c').
Proof.
  intros Li C x j k Wx Hj Hk. assert (WN : within m e n x) by (apply (within_le m e i); [lia|exact Wx]).
  unfold dg_rate. apply rsum_ext. intros b Hb. rewrite HM by assumption. f_equal. now apply (near_residual i).
Qed.

Lemma near_shift i c c' a d d' : near_corr i c c' -> near_corr i d d' -> near_corr i (shift c a d) (shift c' a d').
Proof. intros C D x j k Wx Hj Hk. unfold shift. now rewrite C, D. Qed.

Lemma near_step i st dt c c' : (i + evaluations [(st, dt)] <= n)%nat -> near_corr (i + evaluations [(st, dt)]) c c' ->
  near_corr i (dg_step S m iM st dt c) (dg_step S' m' iM' st dt c').
Proof.
  destruct st; cbn [evaluations dg_step]; intros L C.
  - replace (i + 1)%nat with (Datatypes.S i) in * by lia. apply near_shift; [apply (near_le i (Datatypes.S i)); [lia|exact C]|]. apply near_rate; [lia|exact C].
  - replace (i + (4 + 0))%nat with (Datatypes.S (Datatypes.S (Datatypes.S (Datatypes.S i)))) in * by lia.
    assert (CL0 : near_corr i c c') by (eapply near_le; [|exact C]; lia).
    assert (CL1 : near_corr (Datatypes.S i) c c') by (eapply near_le; [|exact C]; lia).
    assert (CL2 : near_corr (Datatypes.S (Datatypes.S i)) c c') by (eapply near_le; [|exact C]; lia).
    assert (CL3 : near_corr (Datatypes.S (Datatypes.S (Datatypes.S i))) c c') by (eapply near_le; [|exact C]; lia).
    pose proof (near_rate (Datatypes.S (Datatypes.S (Datatypes.S i))) _ _ ltac:(lia) C) as K1. pose proof (near_shift _ _ _ (dt / 2) _ _ CL3 K1) as C2. pose proof (near_rate (Datatypes.S (Datatypes.S i)) _ _ ltac:(lia) C2) as K2.
    pose proof (near_shift _ _ _ (dt / 2) _ _ CL2 K2) as C3. pose proof (near_rate (Datatypes.S i) _ _ ltac:(lia) C3) as K3. pose proof (near_shift _ _ _ dt _ _ CL1 K3) as C4.
    pose proof (near_rate i _ _ ltac:(lia) C4) as K4.
    assert (K1' : near_corr i (dg_rate S m iM c) (dg_rate S' m' iM' c')) by (eapply near_le; [|exact K1]; lia).
    pose proof (near_le i (Datatypes.S i) _ _ ltac:(lia) K3) as K3'. pose proof (near_le i (Datatypes.S (Datatypes.S i)) _ _ ltac:(lia) K2) as K2'.
    apply near_shift; [exact CL0|]. intros x j k Wx Hj Hk. now rewrite K1', K2', K3', K4.
Qed.

Lemma near_march steps : forall i c c', (i + evaluations steps <= n)%nat -> near_corr (i + evaluations steps) c c' ->
  near_corr i (dg_march S m iM steps c) (dg_march S' m' iM' steps c').
Proof.
  induction steps as [|[st dt] steps IH]; intros i c c' L C.
  - cbn [evaluations] in C. rewrite Nat.add_0_r in C. exact C.
  - cbn [dg_march fold_left fst snd]. assert (EV : evaluations ((st, dt) :: steps) = (evaluations [(st, dt)] + evaluations steps)%nat) by (destruct st; reflexivity).
    rewrite EV in L, C. clear EV. apply IH; [lia|]. apply near_step; [lia|]. replace (i + evaluations steps + evaluations [(st, dt)])%nat with (i + (evaluations [(st, dt)] + evaluations steps))%nat by lia. exact C.
Qed.
End Core.

(** The projections and the marches. *)
Lemma solutions_near s m m' pe pf v e n bt p S det inv nrm M M' u u' steps c c' : mesh_wf m -> mesh_wf m' -> faces_distinct m -> (0 <= e < gm_num_elems m)%Z ->
  same_near s m m' pe pf v e n -> same_start s m m' pe e n u u' -> evaluations steps = n -> order_ok (Z.max p 1) -> sc_shape S = s -> sc_nb S = nfun bt p ->
  (forall x q, within m e n x -> (0 <= q < sc_nq S)%Z -> det (pe x) q = sc_det S x q) ->
  (forall x q d j, within m e n x -> (0 <= q < sc_nq S)%Z -> (0 <= d < space_dim s)%Z -> (0 <= j < space_dim s)%Z -> inv (pe x) q d j = sc_inv S x q d j) ->
  (forall i x f sd k o q d, (i < n)%nat -> within m e i x -> has_side m f sd x k o -> (0 <= q < sc_nqf S)%Z -> (0 <= d < space_dim s)%Z -> nrm (pf f) q d = sc_normal S f q d) ->
  (forall x i j, within m e n x -> (0 <= i < nfun bt p)%Z -> (0 <= j < nfun bt p)%Z -> M' (pe x) i j = M x i j) ->
  dg_solution s m bt p S M u steps c ->
  dg_solution s m' bt p (mkScheme (sc_shape S) (sc_nb S) (sc_gamma S) (sc_flux S) (sc_nq S) (sc_val S) (sc_grad S) (sc_wts S) (sc_nqf S) (sc_fval S) (sc_fwts S) det inv nrm) M' u' steps c' ->
  forall j k, (0 <= j < nfun bt p)%Z -> (0 <= k < space_dim s + 2)%Z -> c' (pe e) j k = c e j k.
Proof.
  intros MW MW' FD He SN SS EV Op Es Eb HD HI HN HMM (iM & c0 & I1 & (nq & P & W & EQ & PJ) & HC) (iM' & c0' & I1' & (nq' & P' & W' & EQ' & PJ') & HC') j k Hj Hk.
  rewrite EQ in EQ'. injection EQ' as <- <- <-. subst s. rewrite <- Eb in *.
  assert (RG : forall x, within m e n x -> (0 <= x < gm_num_elems m)%Z) by (intros x Wx; exact (within_range m e n x MW He Wx)).
  assert (PR : forall x, within m e n x -> (0 <= pe x < gm_num_elems m')%Z) by (intros x Wx; now apply (sn_range _ _ _ _ _ _ _ _ SN)).
  rewrite HC, HC' by (auto; apply PR; constructor).
  assert (HI' : forall x, within m e n x -> inverse_of (sc_nb S) (M x) (iM' (pe x))).
  { intros x Hx a b Ha Hb. destruct (I1' (pe x) (PR x Hx) a b Ha Hb) as (J1 & J2). split.
    - rewrite <- J1. apply rsum_ext. intros l Hl. now rewrite HMM.
    - rewrite <- J2. apply rsum_ext. intros l Hl. now rewrite HMM. }
  apply (near_march m m' MW MW' FD e He pe pf v n S SN det inv nrm HD HI HN iM iM') with (i := 0%nat); auto; [|lia| |constructor].
  - intros x i b Hx Hi Hb. apply (inverse_unique (sc_nb S) (M x)); auto.
  - rewrite EV. intros x i y Hx Hi Hy. revert i Hi. apply (solves_unique (sc_nb S) (M x) (iM x) (fun i => c0' (pe x) i y) (fun i => c0 x i y)); [apply I1; auto|].
    intros i Hi. rewrite (PJ x i y (RG x Hx) Hi Hy). rewrite (rsum_ext (sc_nb S) _ (fun b => M' (pe x) i b * c0' (pe x) b y)) by (intros b Hb; now rewrite HMM).
    rewrite (PJ' (pe x) i y (PR x Hx) Hi Hy). apply rsum_ext. intros q Hq.
    rewrite (jac_det_moved _ (elem_nodes m x) _ (v x)) by (intros k' d Hk' Hd; now apply SN). f_equal.
    apply SS; [exact Hx| |exact Hy]. intros d Hd.
    destruct (volume_rule (sc_shape S) (2 * Z.max p 1) ltac:(unfold order_ok in Op; split; lia)) as (x1 & w1 & G & A). destruct (A zero2 zero1) as (P1 & W1 & EQ1 & TR).
    rewrite EQ in EQ1. injection EQ1 as EN <- <-. rewrite EN in Hq.
    destruct (rule_inside (sc_shape S) _ x1 w1 P W _ _ G ltac:(lia) TR q Hq) as (IN & _). specialize (IN d Hd). lra.
Qed.

Lemma edge_near m m' pe pf v e n i x f sd k o d : mesh_wf m -> mesh_wf m' -> gm_dim m = 2%Z -> (0 <= e < gm_num_elems m)%Z -> same_near EQuad m m' pe pf v e n ->
  (i < n)%nat -> within m e i x -> has_side m f sd x k o -> (0 <= d < 2)%Z -> edge_normal m' (pf f) d = edge_normal m f d.
Proof.
  intros W W' D He SN Li Wx Hs Hd. set (s0 := quad_scheme LagrangeQuad 1 m 2 HLLC 0 zero2 zero1 0 zero2 zero1).
  destruct (face_corr m m' W e He pe pf v n s0 SN zero2 (fun _ _ _ _ => 0) zero3 i x f sd k o Li Wx Hs false) as (E1 & E2 & _ & WN).
  apply (within_le m e _ n) in WN; [|lia]. unfold edge_normal. rewrite E1, E2. cbv zeta.
  destruct (d =? 0)%Z; rewrite !(sn_nodes _ _ _ _ _ _ _ _ SN) by (auto; try apply ccw_range; cbn; lia); field.
Qed.

Lemma flat_near m m' pe pf v e n i x f sd k o d : mesh_wf m -> mesh_wf m' -> (0 <= e < gm_num_elems m)%Z -> same_near EHex m m' pe pf v e n ->
  (i < n)%nat -> within m e i x -> has_side m f sd x k o -> (0 <= d < 3)%Z -> flat_normal m' (pf f) d = flat_normal m f d.
Proof.
  intros W W' He SN Li Wx Hs Hd. set (s0 := hex_scheme LagrangeHex 1 m 2 HLLC 0 zero2 zero1 0 zero2 zero1).
  destruct (face_corr m m' W e He pe pf v n s0 SN zero2 (fun _ _ _ _ => 0) zero3 i x f sd k o Li Wx Hs false) as (E1 & E2 & _ & WN).
  apply (within_le m e _ n) in WN; [|lia]. unfold flat_normal. rewrite E1, E2. cbv zeta. unfold face_surface. apply vprod_ext. intros d' Hd'.
  assert (EP : forall y, place EHex 1 (elem_nodes m' (pe (side_elem m f false))) y d' = place EHex 1 (elem_nodes m (side_elem m f false)) y d' + v (side_elem m f false) d').
  { intros y. apply place_moved. intros a Ha. now apply SN. }
  rewrite !EP. split; ring.
Qed.

(** * C104 *)

(** The numerical solutions of two cases that agree around an element. *)
Theorem C104_solution_quads : forall m m' pe pf v e bt p gamma ft u u' steps c c',
  mesh_wf m -> mesh_wf m' -> good_quads m -> good_quads m' -> order_ok p -> (0 <= e < gm_num_elems m)%Z ->
  same_near EQuad m m' pe pf v e (evaluations steps) -> same_start EQuad m m' pe e (evaluations steps) u u' ->
  quad_solution m bt p gamma ft u steps c -> quad_solution m' bt p gamma ft u' steps c' ->
  forall j k, (0 <= j < nfun bt p)%Z -> (0 <= k < 4)%Z -> c' (pe e) j k = c e j k.
Proof.
  intros m m' pe pf v e bt p gamma ft u u' steps c c' W W' GQ GQ' Op He SN SS (nq & P & V & fp & fw & nq2 & P2 & V2 & EQ & EF & EQ2 & DS) (nq' & P' & V' & fp' & fw' & nq2' & P2' & V2' & X1 & X2 & X3 & DS').
  rewrite EQ in X1. injection X1 as <- <- <-. rewrite EF in X2. injection X2 as <- <-. rewrite EQ2 in X3. injection X3 as <- <- <-.
  destruct GQ as [FV FD SQ CF _ _]. destruct SQ as ((D1 & D2) & _). cbn [space_dim] in D1.
  assert (EN : forall x, within m e (evaluations steps) x -> forall k d, (0 <= k < corners EQuad)%Z -> (0 <= d < space_dim EQuad)%Z -> elem_nodes m' (pe x) k d = elem_nodes m x k d + v x d) by (intros; now apply SN).
  apply (solutions_near EQuad m m' pe pf v e (evaluations steps) bt p (quad_scheme bt p m gamma ft nq P V (p + 1) fp fw)
    (sc_det (quad_scheme bt p m' gamma ft nq P V (p + 1) fp fw)) (sc_inv (quad_scheme bt p m' gamma ft nq P V (p + 1) fp fw)) (sc_normal (quad_scheme bt p m' gamma ft nq P V (p + 1) fp fw))
    (PropDG.mass_matrix bt p m nq2 P2 V2) (PropDG.mass_matrix bt p m' nq2 P2 V2) u u' steps c c' W W' FD He SN SS eq_refl); auto;
    cbn [quad_scheme sc_det sc_inv sc_normal sc_nq sc_nqf sc_flux].
  - unfold order_ok in *. lia.
  - intros x q Hx Hq. apply (jac_det_moved _ _ _ (v x)). now apply EN.
  - intros x q d i Hx Hq Hd Hi. apply inverse2_ext; [|exact Hd|exact Hi]. intros a b Ha Hb. apply (jacobian_moved _ _ _ (v x a)). intros y Hy. now apply EN.
  - intros i x f sd k o q d Hi Wx Hs Hq Hd. now apply (edge_near m m' pe pf v e (evaluations steps) i x f sd k o).
  - intros x i b Hx Hi Hb. unfold PropDG.mass_matrix. apply rsum_ext. intros q Hq. rewrite (jac_det_moved EQuad (elem_nodes m x) _ (v x)) by (now apply EN). reflexivity.
Qed.
Print Assumptions C104_solution_quads.

Theorem C104_solution_hexahedra : forall m m' pe pf v e bt p gamma ft u u' steps c c',
  mesh_wf m -> mesh_wf m' -> good_hexes m -> good_hexes m' -> order_ok p -> (0 <= e < gm_num_elems m)%Z ->
  same_near EHex m m' pe pf v e (evaluations steps) -> same_start EHex m m' pe e (evaluations steps) u u' ->
  hex_solution m bt p gamma ft u steps c -> hex_solution m' bt p gamma ft u' steps c' ->
  forall j k, (0 <= j < nfun bt p)%Z -> (0 <= k < 5)%Z -> c' (pe e) j k = c e j k.
Proof.
  intros m m' pe pf v e bt p gamma ft u u' steps c c' W W' GQ GQ' Op He SN SS (nq & P & V & fp & fw & nq2 & P2 & V2 & EQ & EF & EQ2 & DS) (nq' & P' & V' & fp' & fw' & nq2' & P2' & V2' & X1 & X2 & X3 & DS').
  rewrite EQ in X1. injection X1 as <- <- <-. rewrite EF in X2. injection X2 as <- <-. rewrite EQ2 in X3. injection X3 as <- <- <-.
  destruct GQ as [FV FD FH CF _ _].
  assert (EN : forall x, within m e (evaluations steps) x -> forall k d, (0 <= k < corners EHex)%Z -> (0 <= d < space_dim EHex)%Z -> elem_nodes m' (pe x) k d = elem_nodes m x k d + v x d) by (intros; now apply SN).
  apply (solutions_near EHex m m' pe pf v e (evaluations steps) bt p (hex_scheme bt p m gamma ft nq P V ((p + 2) * (p + 2)) fp fw)
    (sc_det (hex_scheme bt p m' gamma ft nq P V ((p + 2) * (p + 2)) fp fw)) (sc_inv (hex_scheme bt p m' gamma ft nq P V ((p + 2) * (p + 2)) fp fw)) (sc_normal (hex_scheme bt p m' gamma ft nq P V ((p + 2) * (p + 2)) fp fw))
    (mass_matrix3 bt p m nq2 P2 V2) (mass_matrix3 bt p m' nq2 P2 V2) u u' steps c c' W W' FD He SN SS eq_refl); auto;
    cbn [hex_scheme sc_det sc_inv sc_normal sc_nq sc_nqf sc_flux].
  - unfold order_ok in *. lia.
  - intros x q Hx Hq. apply (jac_det_moved _ _ _ (v x)). now apply EN.
  - intros x q d i Hx Hq Hd Hi. apply inverse3_ext. intros a b Ha Hb. apply (jacobian_moved _ _ _ (v x a)). intros y Hy. now apply EN.
  - intros i x f sd k o q d Hi Wx Hs Hq Hd. now apply (flat_near m m' pe pf v e (evaluations steps) i x f sd k o).
  - intros x i b Hx Hi Hb. unfold mass_matrix3. apply rsum_ext. intros q Hq. rewrite (jac_det_moved EHex (elem_nodes m x) _ (v x)) by (now apply EN). reflexivity.
Qed.
Print Assumptions C104_solution_hexahedra.

(** Two runs of the program, on any numbers of ranks. *)
Theorem C104_program_quads : forall inputs meshes argv metis n inp m cfg inputs' meshes' argv' metis' n' inp' m' cfg' N u u' pe pf v g g',
  (1 <= n)%Z -> reads inputs meshes argv inp m -> asks_for inp cfg -> enough_data inp cfg -> parts_asked inp n -> metis_valid metis m n ->
  (1 <= n')%Z -> reads inputs' meshes' argv' inp' m' -> asks_for inp' cfg' -> enough_data inp' cfg' -> parts_asked inp' n' -> metis_valid metis' m' n' ->
  cf_dim cfg = 2%Z -> cf_physics cfg = Euler -> same_method cfg cfg' -> cf_dt cfg' = cf_dt cfg ->
  num_iterations (cf_end cfg) (cf_dt cfg) = Ok N -> num_iterations (cf_end cfg') (cf_dt cfg') = Ok N ->
  let bt := cf_basis cfg in let p := cf_order cfg in let gamma := ph_gamma (cf_phys cfg) in let dt := B2R (cf_dt cfg) in
  let reach := evaluations (repeat (cf_stepper cfg, dt) (Z.to_nat N)) in
  good_quads m -> good_quads m' -> basis_for EQuad bt -> supported bt p -> order_ok p -> 1 < gamma ->
  starts_as 2 (cf_ic cfg) (cf_phys cfg) 0 u -> starts_as 2 (cf_ic cfg') (cf_phys cfg') 0 u' -> small m (nfun bt p) 4 -> small m' (nfun bt p) 4 ->
  program inputs meshes argv metis n g -> program inputs' meshes' argv' metis' n' g' ->
  exists c c', g = Ok (solution_file m (nfun bt p) 4 (INR (Z.to_nat N) * dt) c) /\ g' = Ok (solution_file m' (nfun bt p) 4 (INR (Z.to_nat N) * dt) c') /\
    forall e, (0 <= e < gm_num_elems m)%Z -> same_near EQuad m m' pe pf v e reach -> same_start EQuad m m' pe e reach u u' ->
    forall j k, (0 <= j < nfun bt p)%Z -> (0 <= k < 4)%Z -> c' (pe e) j k = c e j k.
Proof.
  intros inputs meshes argv metis n inp m cfg inputs' meshes' argv' metis' n' inp' m' cfg' N u u' pe pf v g g' Hn RE AF ED PA MV Hn' RE' AF' ED' PA' MV'
    D2 EU [S1 S2 S3 S4 S5 S6 S7] Edt EN EN' bt p gamma dt reach GQ GQ' BF Sup Op Gm SA SA' SM SM' PR PR'.
  destruct (C84_solution_quads inputs meshes argv metis n inp m cfg N u g Hn RE AF ED D2 EU PA MV EN GQ BF Sup Op Gm SA SM PR) as (c & Q & ->).
  assert (X : exists c', quad_solution m' (cf_basis cfg') (cf_order cfg') (ph_gamma (cf_phys cfg')) (cf_flux cfg') u' (repeat (cf_stepper cfg', B2R (cf_dt cfg')) (Z.to_nat N)) c' /\
    g' = Ok (solution_file m' (nfun (cf_basis cfg') (cf_order cfg')) 4 (INR (Z.to_nat N) * B2R (cf_dt cfg')) c')).
  { apply (C84_solution_quads inputs' meshes' argv' metis' n' inp' m' cfg' N u' g' Hn' RE' AF' ED'); auto; rewrite ?S1, ?S2, ?S3, ?S6, ?S7; auto. }
  destruct X as (c' & Q' & ->). rewrite S2, S3, S4, S5, S7, Edt in Q'. rewrite S2, S3, Edt.
  exists c, c'. split; [reflexivity|]. split; [reflexivity|]. intros e He SN SS.
  exact (C104_solution_quads m m' pe pf v e bt p gamma (cf_flux cfg) u u' _ c c' (reads_wf _ _ _ _ _ RE) (reads_wf _ _ _ _ _ RE') GQ GQ' Op He SN SS Q Q').
Qed.
Print Assumptions C104_program_quads.

Theorem C104_program_hexahedra : forall inputs meshes argv metis n inp m cfg inputs' meshes' argv' metis' n' inp' m' cfg' N u u' pe pf v g g',
  (1 <= n)%Z -> reads inputs meshes argv inp m -> asks_for inp cfg -> enough_data inp cfg -> parts_asked inp n -> metis_valid metis m n ->
  (1 <= n')%Z -> reads inputs' meshes' argv' inp' m' -> asks_for inp' cfg' -> enough_data inp' cfg' -> parts_asked inp' n' -> metis_valid metis' m' n' ->
  cf_dim cfg = 3%Z -> cf_physics cfg = Euler -> same_method cfg cfg' -> cf_dt cfg' = cf_dt cfg ->
  num_iterations (cf_end cfg) (cf_dt cfg) = Ok N -> num_iterations (cf_end cfg') (cf_dt cfg') = Ok N ->
  let bt := cf_basis cfg in let p := cf_order cfg in let gamma := ph_gamma (cf_phys cfg) in let dt := B2R (cf_dt cfg) in
  let reach := evaluations (repeat (cf_stepper cfg, dt) (Z.to_nat N)) in
  good_hexes m -> good_hexes m' -> basis_for EHex bt -> supported bt p -> order_ok p -> 1 < gamma ->
  starts_as 3 (cf_ic cfg) (cf_phys cfg) 0 u -> starts_as 3 (cf_ic cfg') (cf_phys cfg') 0 u' -> small m (nfun bt p) 5 -> small m' (nfun bt p) 5 ->
  program inputs meshes argv metis n g -> program inputs' meshes' argv' metis' n' g' ->
  exists c c', g = Ok (solution_file m (nfun bt p) 5 (INR (Z.to_nat N) * dt) c) /\ g' = Ok (solution_file m' (nfun bt p) 5 (INR (Z.to_nat N) * dt) c') /\
    forall e, (0 <= e < gm_num_elems m)%Z -> same_near EHex m m' pe pf v e reach -> same_start EHex m m' pe e reach u u' ->
    forall j k, (0 <= j < nfun bt p)%Z -> (0 <= k < 5)%Z -> c' (pe e) j k = c e j k.
Proof.
  intros inputs meshes argv metis n inp m cfg inputs' meshes' argv' metis' n' inp' m' cfg' N u u' pe pf v g g' Hn RE AF ED PA MV Hn' RE' AF' ED' PA' MV'
    D2 EU [S1 S2 S3 S4 S5 S6 S7] Edt EN EN' bt p gamma dt reach GQ GQ' BF Sup Op Gm SA SA' SM SM' PR PR'.
  destruct (C84_solution_hexahedra inputs meshes argv metis n inp m cfg N u g Hn RE AF ED D2 EU PA MV EN GQ BF Sup Op Gm SA SM PR) as (c & Q & ->).
  assert (X : exists c', hex_solution m' (cf_basis cfg') (cf_order cfg') (ph_gamma (cf_phys cfg')) (cf_flux cfg') u' (repeat (cf_stepper cfg', B2R (cf_dt cfg')) (Z.to_nat N)) c' /\
    g' = Ok (solution_file m' (nfun (cf_basis cfg') (cf_order cfg')) 5 (INR (Z.to_nat N) * B2R (cf_dt cfg')) c')).
  { apply (C84_solution_hexahedra inputs' meshes' argv' metis' n' inp' m' cfg' N u' g' Hn' RE' AF' ED'); auto; rewrite ?S1, ?S2, ?S3, ?S6, ?S7; auto. }
  destruct X as (c' & Q' & ->). rewrite S2, S3, S4, S5, S7, Edt in Q'. rewrite S2, S3, Edt.
  exists c, c'. split; [reflexivity|]. split; [reflexivity|]. intros e He SN SS.
  exact (C104_solution_hexahedra m m' pe pf v e bt p gamma (cf_flux cfg) u u' _ c c' (reads_wf _ _ _ _ _ RE) (reads_wf _ _ _ _ _ RE') GQ GQ' Op He SN SS Q Q').
Qed.
Print Assumptions C104_program_hexahedra.
