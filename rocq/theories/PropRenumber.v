(** PropRenumber.v -- C93: the numbers a mesh file gives to elements, nodes and
    faces, and the order in which it names the two elements of a face, do not
    matter. *)
From Coq Require Import ZArith List Lia Reals Lra String Bool Permutation.
From Flocq Require Import BinarySingleNaN.
From Verif Require Import Base RBase MeshModel MeshSpec MeshProof PropMesh IOModel PropIO PropOutput.
From Verif Require Import ReadModel PropRead PropCtor UtilModel TimeModel ProgramModel PropProgram.
From Verif Require Import LinAlgModel PropLinAlg BasisModel ShapeModel PropShape SolverModel SolverSpec SolverMesh SolverFlux PhysModel PhysSpec PhysProof PropPhys PropBasis PropSolver PropNormals StepModel PropIntegral PropStep SetupModel SetupSpec SetupProof PropSetup PropMeshRun PropInit PropPost DGSpec DGProof PropDG PropHex PropFree PropHexFree PropTime PropWhole PropTotal.
Import ListNotations.
Local Open Scope Z_scope.
Local Open Scope R_scope.
Open Scope res_scope.

(** * Specification *)

(** Number of nodes of a quadrilateral or hexahedron of order one. *)
Definition corners (s : eshape) : Z := match s with EQuad => 4 | EHex => 8 end.

(** Mesh [m'] is mesh [m] with other numbers: element [e] of [m] is element [pe e]
    of [m'], face [f] is face [pf f]; corresponding elements have their nodes in the
    same places, corresponding faces have the same elements, faces of the elements
    and orientations on their two sides -- with the sides exchanged where [turn] says
    so.  Nodes may have any numbers. *)
Record renumbered (s : eshape) (m m' : gmesh R) (pe pf : Z -> Z) (turn : Z -> bool) : Prop := {
  rn_ne : gm_num_elems m' = gm_num_elems m;
  rn_nf : gm_nIF m' = gm_nIF m;
  rn_pe : Permutation (map pe (zseq (gm_num_elems m))) (zseq (gm_num_elems m));
  rn_pf : Permutation (map pf (zseq (gm_nIF m))) (zseq (gm_nIF m));
  rn_nodes : forall e k d, (0 <= e < gm_num_elems m)%Z -> (0 <= k < corners s)%Z -> (0 <= d < space_dim s)%Z ->
    elem_nodes m' (pe e) k d = elem_nodes m e k d;
  rn_sides : forall f sd e k o, has_side m f sd e k o -> has_side m' (pf f) (xorb sd (turn f)) (pe e) k o }.

(** Both states run into the face faster than sound. *)
Definition head_on (dim : Z) (gamma : R) (UL UR N : arr1) : Prop :=
  let n := fun i => N i / vlen dim N in
  sound dim gamma UL <= vdot dim (velocity UL) n /\ vdot dim (velocity UR) n <= - sound dim gamma UR.

(** At the points of the faces whose sides are exchanged: positive densities and
    pressures, and no supersonic collision. *)
Definition calm (S : scheme) (m : gmesh R) (turn : Z -> bool) (c : arr3) : Prop :=
  forall f q, (0 <= f < gm_nIF m)%Z -> (0 <= q < sc_nqf S)%Z -> turn f = true ->
    let dim := space_dim (sc_shape S) in
    let UL := dg_trace S c (side_elem m f false) (side_face m f false) (side_point S m f false q) in
    let UR := dg_trace S c (side_elem m f true) (side_face m f true) (side_point S m f true q) in
    admissible dim (sc_gamma S) UL /\ admissible dim (sc_gamma S) UR /\ vdot dim (sc_normal S f q) (sc_normal S f q) <> 0 /\
    ~ head_on dim (sc_gamma S) UL UR (sc_normal S f q).

(** [P] holds of every state at which a march evaluates the residual. *)
Fixpoint all_stages (P : arr3 -> Prop) (S : scheme) (m : gmesh R) (iM : arr3) (steps : list (stepper * R)) (c : arr3) : Prop :=
  match steps with
  | [] => True
  | (st, dt) :: rest => List.Forall P (stages S m iM st dt c) /\ all_stages P S m iM rest (dg_step S m iM st dt c)
  end.

(** Whatever inverse mass matrices and projection the march starts from (they are
    unique): it is calm at all its stages. *)
Definition dg_calm (turn : Z -> bool) (s : eshape) (m : gmesh R) (bt : basis_type) (p : Z) (S : scheme) (M : Z -> arr2)
  (u : (Z -> R) -> Z -> R) (steps : list (stepper * R)) : Prop :=
  forall iM c0, (forall e, (0 <= e < gm_num_elems m)%Z -> inverse_of (nfun bt p) (M e) (iM e)) -> projects s m bt p M u c0 ->
     all_stages (calm S m turn) S m iM steps c0.
Definition quad_calm (turn : Z -> bool) (m : gmesh R) (bt : basis_type) (p : Z) (gamma : R) (ft : flux_type) (u : (Z -> R) -> Z -> R) (steps : list (stepper * R)) : Prop :=
  exists nq P W fp fw nq2 P2 W2, volume_quadrature EQuad p zero2 zero1 = Ok (nq, P, W) /\ face_quadrature EQuad p = Ok ((p + 1)%Z, fp, fw) /\
    volume_quadrature EQuad (2 * p) zero2 zero1 = Ok (nq2, P2, W2) /\
    dg_calm turn EQuad m bt p (quad_scheme bt p m gamma ft nq P W (p + 1) fp fw) (PropDG.mass_matrix bt p m nq2 P2 W2) u steps.
Definition hex_calm (turn : Z -> bool) (m : gmesh R) (bt : basis_type) (p : Z) (gamma : R) (ft : flux_type) (u : (Z -> R) -> Z -> R) (steps : list (stepper * R)) : Prop :=
  exists nq P W fp fw nq2 P2 W2, volume_quadrature EHex p zero2 zero1 = Ok (nq, P, W) /\ face_quadrature EHex p = Ok (((p + 2) * (p + 2))%Z, fp, fw) /\
    volume_quadrature EHex (2 * p) zero2 zero1 = Ok (nq2, P2, W2) /\
    dg_calm turn EHex m bt p (hex_scheme bt p m gamma ft nq P W ((p + 2) * (p + 2)) fp fw) (mass_matrix3 bt p m nq2 P2 W2) u steps.

(** No face has its sides exchanged. *)
Definition unturned (m : gmesh R) (turn : Z -> bool) : Prop := forall f, (0 <= f < gm_nIF m)%Z -> turn f = false.

(** * Proof *)

Definition exchanges (ft : flux_type) (dim : Z) (gamma : R) (UL UR N : arr1) : Prop :=
  forall k, (0 <= k < dim + 2)%Z -> numflux ft dim gamma UR UL (opposite N) k = - numflux ft dim gamma UL UR N k.

Lemma vlen_opposite dim N : vlen dim (opposite N) = vlen dim N.
Proof. unfold vlen. f_equal. unfold opposite. rewrite vdot_opp_l, vdot_opp_r. ring. Qed.

Lemma euler_opposite dim g U N k : (0 <= k < dim + 2)%Z -> euler_flux dim g U (opposite N) k = - euler_flux dim g U N k.
Proof.
  intros Hk. pose proof (euler_flux_scal dim g U (-1) N k Hk) as E. transitivity (-1 * euler_flux dim g U N k); [|ring].
  rewrite <- E. apply (PhysProof.euler_flux_ext dim g U _ _ k Hk). intros i Hi. unfold opposite. ring.
Qed.

Lemma lax_exchanges dim g UL UR N : exchanges LaxFriedrichs dim g UL UR N.
Proof.
  intros k Hk. unfold numflux. rewrite !euler_opposite by exact Hk. rewrite vlen_opposite, (Rmax_comm (max_speed dim g UR)). field.
Qed.

Lemma calm_exchanges ft dim g UL UR N : (dim = 2 \/ dim = 3)%Z -> 1 < g -> admissible dim g UL -> admissible dim g UR -> vdot dim N N <> 0 ->
  ~ head_on dim g UL UR N -> exchanges ft dim g UL UR N.
Proof.
  intros Hd Hg HL HR HN HC. destruct ft; [apply lax_exchanges|].
  intros k Hk. pose proof (vlen_pos dim N HN) as Hl. unfold numflux. rewrite vlen_opposite.
  set (nn := fun i : Z => N i / vlen dim N) in *.
  replace (fun i => opposite N i / vlen dim N) with (opposite nn).
  2:{ apply FunctionalExtensionality.functional_extensionality. intros i. unfold opposite, nn. field. lra. }
  rewrite toro_swap; auto; [ring|]. intros [C1 C2]. apply HC. unfold head_on. cbv zeta. fold nn. fold (un dim UL nn). fold (un dim UR nn).
  unfold wave_L in C1. unfold wave_R in C2.
  pose proof (sound_pos dim g UL Hg HL). pose proof (sound_pos dim g UR Hg HR).
  pose proof (q_factor_ge1 g (p_star dim g UL UR nn) (pressure dim g UL) Hg (proj2 HL)).
  pose proof (q_factor_ge1 g (p_star dim g UL UR nn) (pressure dim g UR) Hg (proj2 HR)). split; nra.
Qed.

(** The part of it that is about elements and faces only. *)
Record rewired (m m' : gmesh R) (pe pf : Z -> Z) (turn : Z -> bool) : Prop := {
  rw_ne : gm_num_elems m' = gm_num_elems m;
  rw_nf : gm_nIF m' = gm_nIF m;
  rw_pe : Permutation (map pe (zseq (gm_num_elems m))) (zseq (gm_num_elems m));
  rw_pf : Permutation (map pf (zseq (gm_nIF m))) (zseq (gm_nIF m));
  rw_sides : forall f sd e k o, has_side m f sd e k o -> has_side m' (pf f) (xorb sd (turn f)) (pe e) k o }.

Lemma renumbered_rewired s m m' pe pf turn : renumbered s m m' pe pf turn -> rewired m m' pe pf turn.
Proof. intros [A B C D _ F]. now constructor. Qed.

Section Core.
Context (iter : Z -> list Z -> list Z) (n : Z) (m : gmesh R) (ep : list Z) (WF : run_wf iter n m ep).
Context (m' : gmesh R) (pe pf : Z -> Z) (turn : Z -> bool).
Context (S : scheme) (RN : rewired m m' pe pf turn).
Context (det : arr2) (inv : arr4) (nrm : arr3).
Let S' : scheme := mkScheme (sc_shape S) (sc_nb S) (sc_gamma S) (sc_flux S) (sc_nq S) (sc_val S) (sc_grad S) (sc_wts S) (sc_nqf S) (sc_fval S) (sc_fwts S) det inv nrm.
Let dim := space_dim (sc_shape S).
Let nb := sc_nb S.
Context (HD : forall e q, (0 <= e < gm_num_elems m)%Z -> (0 <= q < sc_nq S)%Z -> det (pe e) q = sc_det S e q).
Context (HI : forall e q d j, (0 <= e < gm_num_elems m)%Z -> (0 <= q < sc_nq S)%Z -> (0 <= d < dim)%Z -> (0 <= j < dim)%Z -> inv (pe e) q d j = sc_inv S e q d j).
Context (HN : forall f q d, (0 <= f < gm_nIF m)%Z -> (0 <= q < sc_nqf S)%Z -> (0 <= d < dim)%Z ->
  nrm (pf f) q d = (if turn f then opposite (sc_normal S f q) else sc_normal S f q) d).
Context (iM iM' : arr3) (HM : forall e i b, (0 <= e < gm_num_elems m)%Z -> (0 <= i < nb)%Z -> (0 <= b < nb)%Z -> iM' (pe e) i b = iM e i b).

Definition corresponds (c c' : arr3) : Prop := forall e j k, (0 <= e < gm_num_elems m)%Z -> (0 <= j < nb)%Z -> (0 <= k < dim + 2)%Z -> c' (pe e) j k = c e j k.
(** Where the sides are exchanged, the flux changes its sign. *)
Definition fair (c : arr3) : Prop := forall f q, (0 <= f < gm_nIF m)%Z -> (0 <= q < sc_nqf S)%Z -> turn f = true ->
  exchanges (sc_flux S) dim (sc_gamma S)
    (dg_trace S c (side_elem m f false) (side_face m f false) (side_point S m f false q))
    (dg_trace S c (side_elem m f true) (side_face m f true) (side_point S m f true q)) (sc_normal S f q).

Lemma perm_range k o i : Permutation (map o (zseq k)) (zseq k) -> (0 <= i < k)%Z -> (0 <= o i < k)%Z.
Proof. intros P Hi. apply In_zseq. apply (Permutation_in _ P). apply in_map. now apply In_zseq. Qed.

Lemma perm_inj k o i j : Permutation (map o (zseq k)) (zseq k) -> (0 <= i < k)%Z -> (0 <= j < k)%Z -> o i = o j -> i = j.
Proof.
  intros P Hi Hj E. assert (ND : NoDup (map o (zseq k))) by (apply (Permutation_NoDup (Permutation_sym P)); apply NoDup_zseq).
  assert (X : forall l, NoDup (map o l) -> In i l -> In j l -> i = j).
  { intros l. induction l as [|a l IH]; cbn [map]; intros ND' Ii Ij; [destruct Ii|]. inversion ND' as [|? ? N1 N2]. subst.
    destruct Ii as [-> |Ii], Ij as [-> |Ij]; auto; exfalso; apply N1; [rewrite E|rewrite <- E]; now apply in_map. }
  apply (X (zseq k) ND); now apply In_zseq.
Qed.

Lemma pe_range e : (0 <= e < gm_num_elems m)%Z -> (0 <= pe e < gm_num_elems m)%Z.
Proof. apply perm_range. apply RN. Qed.

Lemma d23' : dim23 dim.
Proof. unfold dim. destruct (sc_shape S); [now left|now right]. Qed.

Lemma sides' f sd : (0 <= f < gm_nIF m)%Z ->
  side_elem m' (pf f) (xorb sd (turn f)) = pe (side_elem m f sd) /\ side_face m' (pf f) (xorb sd (turn f)) = side_face m f sd /\
  forall q, side_point S' m' (pf f) (xorb sd (turn f)) q = side_point S m f sd q.
Proof.
  intros Hf. pose proof (rw_sides _ _ _ _ _ RN _ _ _ _ _ (sides_of iter n m ep WF f sd Hf)) as (E1 & E2 & E3).
  unfold side_elem, side_face, side_point, face_entry at 1 3 5. destruct (xorb sd (turn f)).
  - change (3 + 1)%Z with 4%Z in E2. change (3 + 2)%Z with 5%Z in E3. rewrite E1, E2, E3. auto.
  - change (0 + 1)%Z with 1%Z in E2. change (0 + 2)%Z with 2%Z in E3. rewrite E1, E2, E3. auto.
Qed.

Lemma side_range' f sd : (0 <= f < gm_nIF m)%Z -> (0 <= side_elem m f sd < gm_num_elems m)%Z.
Proof. intros Hf. apply (side_nonneg iter n m ep WF f sd _ _ _ (sides_of iter n m ep WF f sd Hf)). Qed.

Lemma traces c c' f sd q k : corresponds c c' -> (0 <= f < gm_nIF m)%Z -> (0 <= k < dim + 2)%Z ->
  dg_trace S' c' (side_elem m' (pf f) (xorb sd (turn f))) (side_face m' (pf f) (xorb sd (turn f))) (side_point S' m' (pf f) (xorb sd (turn f)) q) k =
  dg_trace S c (side_elem m f sd) (side_face m f sd) (side_point S m f sd q) k.
Proof.
  intros C Hf Hk. destruct (sides' f sd Hf) as (-> & -> & ->). unfold dg_trace. apply rsum_ext. intros j Hj. f_equal. apply C; auto. now apply side_range'.
Qed.

Lemma fluxes c c' f q k : corresponds c c' -> fair c -> (0 <= f < gm_nIF m)%Z -> (0 <= q < sc_nqf S)%Z -> (0 <= k < dim + 2)%Z ->
  dg_flux S' m' c' (pf f) q k = (if turn f then -1 else 1) * dg_flux S m c f q k.
Proof.
  intros C F Hf Hq Hk. pose proof (fun sd k => traces c c' f sd q k C Hf) as T. unfold dg_flux. cbn [S' sc_flux sc_shape sc_gamma sc_normal]. fold dim.
  rewrite (numflux_ext _ _ _ _ _ _ (if turn f then opposite (sc_normal S f q) else sc_normal S f q)); [|intros d Hd; now apply HN|exact Hk].
  pose proof (F f q Hf Hq) as F'. destruct (turn f).
  - rewrite (numflux_state _ _ d23' _ (dg_trace S c (side_elem m f true) (side_face m f true) (side_point S m f true q)) _ (dg_trace S c (side_elem m f false) (side_face m f false) (side_point S m f false q)));
      [|intros x Hx; exact (T true x Hx)|intros x Hx; exact (T false x Hx)|exact Hk].
    rewrite (F' eq_refl k Hk). ring.
  - rewrite Rmult_1_l. apply numflux_state; [exact d23'|intros x Hx; exact (T false x Hx)|intros x Hx; exact (T true x Hx)|exact Hk].
Qed.

Lemma side_terms c c' f sd e i k : corresponds c c' -> fair c -> (0 <= f < gm_nIF m)%Z -> (0 <= e < gm_num_elems m)%Z -> (0 <= k < dim + 2)%Z ->
  dg_side S' m' c' (pf f) (xorb sd (turn f)) (pe e) i k = dg_side S m c f sd e i k.
Proof.
  intros C F Hf He Hk. unfold dg_side. destruct (sides' f sd Hf) as (-> & -> & EP).
  destruct (Z.eqb_spec (side_elem m f sd) e) as [-> |NE].
  - rewrite Z.eqb_refl. cbn [S' sc_nqf sc_fwts sc_fval].
    rewrite (rsum_ext (sc_nqf S) _ (fun iq => (if turn f then -1 else 1) * (sc_fwts S iq * dg_flux S m c f iq k * sc_fval S (side_face m f sd) (side_point S m f sd iq) i))).
    + rewrite rsum_scal. destruct (turn f), sd; cbn [xorb side_sign]; ring.
    + intros q Hq. rewrite EP. rewrite (fluxes c c' f q k C F Hf Hq Hk). ring.
  - destruct (Z.eqb_spec (pe (side_elem m f sd)) (pe e)) as [E|_]; [|reflexivity]. exfalso. apply NE.
    apply (perm_inj (gm_num_elems m) pe); auto; [apply RN|now apply side_range'].
Qed.

Lemma residuals c c' e i k : corresponds c c' -> fair c -> (0 <= e < gm_num_elems m)%Z -> (0 <= i < nb)%Z -> (0 <= k < dim + 2)%Z ->
  dg_residual S' m' c' (pe e) i k = dg_residual S m c e i k.
Proof.
  intros C F He Hi Hk. unfold dg_residual. f_equal.
  - unfold dg_volume. cbn [S' sc_nq sc_wts sc_det sc_shape sc_gamma sc_grad sc_inv]. fold dim. apply rsum_ext. intros q Hq. rewrite HD by assumption. f_equal.
    apply rsum_ext. intros j Hj. f_equal.
    + apply euler_flux_extU; [exact d23'| |exact Hk]. intros x Hx. unfold dg_state. apply rsum_ext. intros b Hb. cbn [sc_val]. f_equal. now apply C.
    + apply rsum_ext. intros d Hd. f_equal. now apply HI.
  - rewrite (rw_nf _ _ _ _ _ RN). rewrite <- (rsum_permutes (gm_nIF m) pf _ (rw_pf _ _ _ _ _ RN)). apply rsum_ext. intros f Hf.
    rewrite <- (side_terms c c' f false e i k C F Hf He Hk), <- (side_terms c c' f true e i k C F Hf He Hk).
    destruct (turn f); cbn [xorb]; ring.
Qed.

Lemma rates c c' : corresponds c c' -> fair c -> corresponds (dg_rate S m iM c) (dg_rate S' m' iM' c').
Proof. intros C F e j k He Hj Hk. unfold dg_rate. apply rsum_ext. intros b Hb. rewrite HM by assumption. f_equal. now apply residuals. Qed.
Lemma shifts c c' a d d' : corresponds c c' -> corresponds d d' -> corresponds (shift c a d) (shift c' a d').
Proof. intros C D e j k He Hj Hk. unfold shift. now rewrite C, D. Qed.

Lemma steps_correspond st dt c c' : corresponds c c' -> List.Forall fair (stages S m iM st dt c) -> corresponds (dg_step S m iM st dt c) (dg_step S' m' iM' st dt c').
Proof.
  intros C F. destruct st; cbn [dg_step stages] in *.
  - apply shifts; [exact C|]. apply rates; [exact C|]. now inversion F.
  - inversion F as [|? ? F1 FF]. inversion FF as [|? ? F2 FF']. inversion FF' as [|? ? F3 FF'']. inversion FF'' as [|? ? F4 _]. subst. clear F FF FF' FF''.
    pose proof (rates _ _ C F1) as K1. pose proof (shifts _ _ (dt / 2) _ _ C K1) as C2. pose proof (rates _ _ C2 F2) as K2.
    pose proof (shifts _ _ (dt / 2) _ _ C K2) as C3. pose proof (rates _ _ C3 F3) as K3. pose proof (shifts _ _ dt _ _ C K3) as C4. pose proof (rates _ _ C4 F4) as K4.
    apply shifts; [exact C|]. intros e j k He Hj Hk. now rewrite K1, K2, K3, K4.
Qed.

Lemma march_corresponds steps : forall c c', corresponds c c' -> all_stages fair S m iM steps c -> corresponds (dg_march S m iM steps c) (dg_march S' m' iM' steps c').
Proof.
  induction steps as [|[st dt] steps IH]; intros c c' C A; [exact C|]. destruct A as (A1 & A2). cbn [dg_march fold_left fst snd].
  apply IH; [|exact A2]. now apply steps_correspond.
Qed.
End Core.

(** ** Geometry *)

Lemma corners_nfun s : nfun (geom_basis s) 1 = corners s.
Proof. destruct s; reflexivity. Qed.

Lemma place_nodes s X X' y d : (forall k, (0 <= k < corners s)%Z -> X' k d = X k d) -> place s 1 X' y d = place s 1 X y d.
Proof. intros H. unfold place, elem_map. apply rsum_ext. intros k Hk. rewrite corners_nfun in Hk. now rewrite H. Qed.

Lemma jacobian_nodes s X X' y j d : (forall k, (0 <= k < corners s)%Z -> X' k j = X k j) -> jacobian s 1 X' y j d = jacobian s 1 X y j d.
Proof. intros H. unfold jacobian. apply Coquelicot.Derive.Derive_ext. intros t. now apply place_nodes. Qed.

Lemma jac_det_nodes s X X' y : (forall k d, (0 <= k < corners s)%Z -> (0 <= d < space_dim s)%Z -> X' k d = X k d) -> jac_det s 1 X' y = jac_det s 1 X y.
Proof.
  intros H. unfold jac_det. apply small_det_ext; [destruct s; cbn; lia|]. intros i j Hi Hj. apply jacobian_nodes. intros k Hk. now apply H.
Qed.

Lemma one_rank (m : gmesh R) : mesh_wf m -> run_wf (fun _ l => l) 1 m (repeat 0%Z (Z.to_nat (gm_num_elems m))).
Proof.
  intros W. constructor; [exact W| |intros r l; apply Permutation_refl]. pose proof (wf_ne m W).
  split; [unfold zlen; rewrite repeat_length; lia|]. apply List.Forall_forall. intros x Hx. apply repeat_spec in Hx. lia.
Qed.

Lemma nodes_outside (m : gmesh R) s e k d : mesh_wf m -> gm_dim m = space_dim s -> ~ (0 <= d < space_dim s)%Z -> elem_nodes m e k d = 0.
Proof.
  intros W E Hd. unfold elem_nodes. destruct (rd (gm_eind m) _) as [g|]; [|reflexivity]. unfold rd2.
  destruct (rd (gm_coord m) g) as [row|] eqn:ER; [|reflexivity]. cbn [bind].
  pose proof (wf_coord m W) as WC. rewrite List.Forall_forall in WC. rewrite rd_fail; [reflexivity|]. rewrite (WC row (rd_In _ _ _ ER)), E. exact Hd.
Qed.

Lemma same_nodes s m m' pe pf turn e k d : mesh_wf m -> mesh_wf m' -> gm_dim m = space_dim s -> gm_dim m' = space_dim s -> renumbered s m m' pe pf turn ->
  (0 <= e < gm_num_elems m)%Z -> (0 <= k < corners s)%Z -> elem_nodes m' (pe e) k d = elem_nodes m e k d.
Proof.
  intros W W' D D' RN He Hk. destruct (Z_le_dec 0 d) as [H0|H0]; [destruct (Z_lt_dec d (space_dim s)) as [H1|H1]|].
  - apply RN; auto.
  - rewrite (nodes_outside m' s), (nodes_outside m s); try assumption; try reflexivity; intros [? ?]; contradiction.
  - rewrite (nodes_outside m' s), (nodes_outside m s); try assumption; try reflexivity; intros [? ?]; contradiction.
Qed.

Lemma ccw_range k : (0 <= ccw k < 4)%Z.
Proof.
  unfold ccw. pose proof (Z.mod_pos_bound k 4 ltac:(lia)) as B. assert (C : (k mod 4 = 0 \/ k mod 4 = 1 \/ k mod 4 = 2 \/ k mod 4 = 3)%Z) by lia.
  destruct C as [-> |[-> |[-> | ->]]]; split; vm_compute; (discriminate || reflexivity).
Qed.

(** The projections on the two meshes, and the two marches. *)
Lemma solutions s m m' pe pf turn bt p S det inv nrm M M' u steps c c' : mesh_wf m -> mesh_wf m' -> gm_dim m = space_dim s -> gm_dim m' = space_dim s -> renumbered s m m' pe pf turn ->
  sc_shape S = s -> sc_nb S = nfun bt p -> 1 < sc_gamma S ->
  (forall e q, (0 <= e < gm_num_elems m)%Z -> (0 <= q < sc_nq S)%Z -> det (pe e) q = sc_det S e q) ->
  (forall e q d j, (0 <= e < gm_num_elems m)%Z -> (0 <= q < sc_nq S)%Z -> (0 <= d < space_dim s)%Z -> (0 <= j < space_dim s)%Z -> inv (pe e) q d j = sc_inv S e q d j) ->
  (forall f q d, (0 <= f < gm_nIF m)%Z -> (0 <= q < sc_nqf S)%Z -> (0 <= d < space_dim s)%Z ->
     nrm (pf f) q d = (if turn f then opposite (sc_normal S f q) else sc_normal S f q) d) ->
  (forall e i j, (0 <= e < gm_num_elems m)%Z -> (0 <= i < nfun bt p)%Z -> (0 <= j < nfun bt p)%Z -> M' (pe e) i j = M e i j) ->
  (sc_flux S = LaxFriedrichs \/ unturned m turn \/ dg_calm turn s m bt p S M u steps) ->
  dg_solution s m bt p S M u steps c ->
  dg_solution s m' bt p (mkScheme (sc_shape S) (sc_nb S) (sc_gamma S) (sc_flux S) (sc_nq S) (sc_val S) (sc_grad S) (sc_wts S) (sc_nqf S) (sc_fval S) (sc_fwts S) det inv nrm) M' u steps c' ->
  forall e j k, (0 <= e < gm_num_elems m)%Z -> (0 <= j < nfun bt p)%Z -> (0 <= k < space_dim s + 2)%Z -> c' (pe e) j k = c e j k.
Proof.
  intros MW MW' Dm Dm' RN Es Eb Hg HD HI HN HMM FC (iM & c0 & I1 & (nq & P & W & EQ & PJ) & HC) (iM' & c0' & I1' & (nq' & P' & W' & EQ' & PJ') & HC') e j k He Hj Hk.
  rewrite EQ in EQ'. injection EQ' as <- <- <-.
  assert (PR : forall e, (0 <= e < gm_num_elems m)%Z -> (0 <= pe e < gm_num_elems m')%Z) by (intros x Hx; rewrite (rn_ne _ _ _ _ _ _ RN); apply (perm_range _ pe); [apply RN|exact Hx]).
  rewrite HC, HC' by auto. subst s. rewrite <- Eb in *.
  assert (HI' : forall e, (0 <= e < gm_num_elems m)%Z -> inverse_of (sc_nb S) (M e) (iM' (pe e))).
  { intros x Hx a b Ha Hb. destruct (I1' (pe x) (PR x Hx) a b Ha Hb) as (J1 & J2). split.
    - rewrite <- J1. apply rsum_ext. intros l Hl. now rewrite HMM.
    - rewrite <- J2. apply rsum_ext. intros l Hl. now rewrite HMM. }
  apply (march_corresponds (fun _ l => l) 1 m _ (one_rank m MW) m' pe pf turn S (renumbered_rewired _ _ _ _ _ _ RN) det inv nrm HD HI HN iM iM'); auto.
  - intros x i b Hx Hi Hb. apply (inverse_unique (sc_nb S) (M x)); auto.
  - intros x i y Hx Hi Hy. revert i Hi. apply (solves_unique (sc_nb S) (M x) (iM x) (fun i => c0' (pe x) i y) (fun i => c0 x i y)); [now apply I1|].
    intros i Hi. rewrite (PJ x i y Hx Hi Hy). rewrite (rsum_ext (sc_nb S) _ (fun b => M' (pe x) i b * c0' (pe x) b y)) by (intros b Hb; now rewrite HMM).
    rewrite (PJ' (pe x) i y (PR x Hx) Hi Hy). apply rsum_ext. intros q Hq.
    rewrite (jac_det_nodes _ (elem_nodes m x)) by (intros k' d Hk' Hd; now apply RN). f_equal.
    apply (f_equal (fun v => u v y)). apply FunctionalExtensionality.functional_extensionality. intros d.
    apply place_nodes. intros k' Hk'. now apply (same_nodes (sc_shape S) m m' pe pf turn).
  - assert (G : forall c, (sc_flux S = LaxFriedrichs \/ unturned m turn \/ calm S m turn c) -> fair m turn S c).
    { intros d [L|[U|C]] f q Hf Hq T; [rewrite L; apply lax_exchanges|rewrite (U f Hf) in T; discriminate|].
      destruct (C f q Hf Hq T) as (A1 & A2 & A3 & A4). apply calm_exchanges; auto. destruct (sc_shape S); [now left|now right]. }
    assert (X : sc_flux S = LaxFriedrichs \/ unturned m turn \/ all_stages (calm S m turn) S m iM steps c0).
    { destruct FC as [L|[U|C]]; auto. right. right. apply C; [rewrite <- Eb; exact I1|]. exists nq, P, W. rewrite <- Eb. split; [exact EQ|exact PJ]. }
    assert (F : forall l, (sc_flux S = LaxFriedrichs \/ unturned m turn \/ List.Forall (calm S m turn) l) -> List.Forall (fair m turn S) l).
    { intros l H. induction l as [|a l IH]; constructor.
      - apply G. destruct H as [H|[H|H]]; auto. inversion H; auto.
      - apply IH. destruct H as [H|[H|H]]; auto. inversion H; auto. }
    clear - X F. revert c0 X. induction steps as [|[st dt] steps IH]; intros c0 X; [exact I|]. cbn [all_stages] in *. split.
    + apply F. destruct X as [X|[X|X]]; auto. right. right. apply X.
    + apply IH. destruct X as [X|[X|X]]; auto. right. right. apply X.
Qed.

(** ** Quadrilaterals and hexahedra *)

Lemma edge_turn m m' pe pf turn f d : mesh_wf m -> mesh_wf m' -> conforming m -> conforming m' -> gm_dim m = 2%Z -> gm_dim m' = 2%Z -> renumbered EQuad m m' pe pf turn ->
  (0 <= f < gm_nIF m)%Z -> (0 <= d < 2)%Z -> edge_normal m' (pf f) d = (if turn f then opposite (edge_normal m f) else edge_normal m f) d.
Proof.
  intros W W' CF CF' D D' RN Hf Hd. set (s0 := quad_scheme LagrangeQuad 1 m 2 HLLC 0 zero2 zero1 0 zero2 zero1).
  destruct (sides' (fun _ l => l) 1 m _ (one_rank m W) m' pe pf turn s0 (renumbered_rewired _ _ _ _ _ _ RN) zero2 (fun _ _ _ _ => 0) zero3 f false Hf) as (E1 & E2 & _). rewrite xorb_false_l in E1; rewrite xorb_false_l in E2.
  assert (Hf' : (0 <= pf f < gm_nIF m')%Z) by (rewrite (rn_nf _ _ _ _ _ _ RN); apply (perm_range _ pf); [apply RN|exact Hf]).
  rewrite (edge_normal_side _ _ m' _ (one_rank m' W') CF' (pf f) (turn f) d Hf' Hd). rewrite E1, E2.
  assert (ER : (0 <= side_elem m f false < gm_num_elems m)%Z) by (apply (side_range' (fun _ l => l) 1 m _ (one_rank m W)); exact Hf).
  assert (EO : outward m' (pe (side_elem m f false)) (side_face m f false) d = outward m (side_elem m f false) (side_face m f false) d).
  { unfold outward. rewrite !(same_nodes EQuad m m' pe pf turn) by (auto; apply ccw_range). reflexivity. }
  rewrite EO. destruct (turn f); [unfold opposite|]; rewrite (edge_normal_side _ _ m _ (one_rank m W) CF f false d Hf Hd); cbn [side_sign]; ring.
Qed.

Lemma flat_turn m m' pe pf turn f d : mesh_wf m -> mesh_wf m' -> flat_hexes m -> flat_hexes m' -> conforming_hexes m -> conforming_hexes m' -> renumbered EHex m m' pe pf turn ->
  (0 <= f < gm_nIF m)%Z -> (0 <= d < 3)%Z -> flat_normal m' (pf f) d = (if turn f then opposite (flat_normal m f) else flat_normal m f) d.
Proof.
  intros W W' FH FH' CF CF' RN Hf Hd. set (s0 := hex_scheme LagrangeHex 1 m 2 HLLC 0 zero2 zero1 0 zero2 zero1).
  destruct (sides' (fun _ l => l) 1 m _ (one_rank m W) m' pe pf turn s0 (renumbered_rewired _ _ _ _ _ _ RN) zero2 (fun _ _ _ _ => 0) zero3 f false Hf) as (E1 & E2 & _). rewrite xorb_false_l in E1; rewrite xorb_false_l in E2.
  assert (Hf' : (0 <= pf f < gm_nIF m')%Z) by (rewrite (rn_nf _ _ _ _ _ _ RN); apply (perm_range _ pf); [apply RN|exact Hf]).
  rewrite (flat_normal_side _ _ m' _ (one_rank m' W') FH' CF' (pf f) (turn f) d Hf' Hd). rewrite E1, E2.
  assert (ER : (0 <= side_elem m f false < gm_num_elems m)%Z) by (apply (side_range' (fun _ l => l) 1 m _ (one_rank m W)); exact Hf).
  assert (EO : face_vector m' (pe (side_elem m f false)) (side_face m f false) d = face_vector m (side_elem m f false) (side_face m f false) d).
  { unfold face_vector, face_surface. apply vprod_ext. intros d' Hd'.
    assert (EP : forall y, place EHex 1 (elem_nodes m' (pe (side_elem m f false))) y d' = place EHex 1 (elem_nodes m (side_elem m f false)) y d').
    { intros y. apply place_nodes. intros k Hk. now apply RN. }
    rewrite !EP. split; reflexivity. }
  rewrite EO. destruct (turn f); [unfold opposite|]; rewrite (flat_normal_side _ _ m _ (one_rank m W) FH CF f false d Hf Hd); cbn [side_sign]; ring.
Qed.

(** ** A renumbered mesh is as good as the original *)
Section Good.
Context (s : eshape) (m m' : gmesh R) (pe pf : Z -> Z) (turn : Z -> bool).
Context (W : mesh_wf m) (W' : mesh_wf m') (RN : renumbered s m m' pe pf turn).

Lemma perm_surj k o i : Permutation (map o (zseq k)) (zseq k) -> (0 <= i < k)%Z -> exists j, (0 <= j < k)%Z /\ o j = i.
Proof.
  intros P Hi. apply In_zseq in Hi. apply (Permutation_in _ (Permutation_sym P)) in Hi. apply in_map_iff in Hi. destruct Hi as (j & E & Hj).
  exists j. split; [now apply In_zseq|exact E].
Qed.

Lemma side_back f' sd' e' k o : has_side m' f' sd' e' k o ->
  exists f e, (0 <= e < gm_num_elems m)%Z /\ f' = pf f /\ e' = pe e /\ has_side m f (xorb sd' (turn f)) e k o.
Proof.
  intros H. set (s0 := quad_scheme LagrangeQuad 1 m 2 HLLC 0 zero2 zero1 0 zero2 zero1).
  destruct (face_of_side _ _ m' _ (one_rank m' W') s0 f' sd' e' k o H) as (Hf' & _). rewrite (rn_nf _ _ _ _ _ _ RN) in Hf'.
  destruct (perm_surj _ pf f' (rn_pf _ _ _ _ _ _ RN) Hf') as (f & Hf & <-).
  pose proof (sides_of _ _ m _ (one_rank m W) f (xorb sd' (turn f)) Hf) as HS. pose proof (rn_sides _ _ _ _ _ _ RN _ _ _ _ _ HS) as HS'.
  assert (X : xorb (xorb sd' (turn f)) (turn f) = sd') by (destruct sd', (turn f); reflexivity). rewrite X in HS'.
  pose proof (side_nonneg _ _ m _ (one_rank m W) _ _ _ _ _ HS) as (_ & _ & He).
  exists f, (side_elem m f (xorb sd' (turn f))). split; [exact He|]. split; [reflexivity|].
  destruct H as (H1 & H2 & H3), HS' as (K1 & K2 & K3). rewrite H1 in K1. rewrite H2 in K2. rewrite H3 in K3.
  injection K1 as ->. injection K2 as ->. injection K3 as ->. split; [reflexivity|exact HS].
Qed.

Lemma valid' : faces_valid s m -> faces_valid s m'.
Proof. intros V f sd e k o H. destruct (side_back f sd e k o H) as (f0 & e0 & _ & _ & _ & H0). exact (V _ _ _ _ _ H0). Qed.

Lemma distinct' : faces_distinct m -> faces_distinct m'.
Proof.
  intros V f sd e k o f' sd' o' H H'. destruct (side_back f sd e k o H) as (f0 & e0 & He0 & -> & -> & H0).
  destruct (side_back f' sd' (pe e0) k o' H') as (f1 & e1 & He1 & -> & E & H1).
  apply (perm_inj _ pe _ _ (rn_pe _ _ _ _ _ _ RN) He0 He1) in E. subst e1. destruct (V _ _ _ _ _ _ _ _ H0 H1) as (-> & X). split; [reflexivity|].
  destruct sd, sd', (turn f1); cbn in X; congruence.
Qed.

Lemma elem_back e' : (0 <= e' < gm_num_elems m')%Z -> exists e, (0 <= e < gm_num_elems m)%Z /\ e' = pe e.
Proof. intros H. rewrite (rn_ne _ _ _ _ _ _ RN) in H. destruct (perm_surj _ pe e' (rn_pe _ _ _ _ _ _ RN) H) as (e & He & <-). eauto. Qed.
End Good.

Theorem C93_good_quads : forall m m' pe pf turn, mesh_wf m -> mesh_wf m' -> renumbered EQuad m m' pe pf turn -> good_quads m ->
  mesh_fits EQuad 1 m' -> (forall x, (0 <= x < gm_num_nodes m')%Z -> in_some_element m' x) -> good_quads m'.
Proof.
  intros m m' pe pf turn W W' RN [FV FD SQ CF Hne Hall] MF' Hall'. destruct SQ as (MF & CC).
  assert (EN : forall e k d, (0 <= e < gm_num_elems m)%Z -> (0 <= k < 4)%Z -> elem_nodes m' (pe e) k d = elem_nodes m e k d).
  { intros e k d He Hk. apply (same_nodes EQuad m m' pe pf turn); auto; [apply MF|apply MF']. }
  constructor.
  - exact (valid' EQuad m m' pe pf turn W W' RN FV).
  - exact (distinct' EQuad m m' pe pf turn W W' RN FD).
  - split; [exact MF'|]. intros e' He'. destruct (elem_back EQuad m m' pe pf turn RN e' He') as (e & He & ->).
    specialize (CC e He). unfold convex_ccw in CC |- *. intros k Hk. specialize (CC k Hk). cbv beta zeta in CC |- *. rewrite !EN by (auto; apply ccw_range). exact CC.
  - intros f' eL kL oL eR kR oR HL HR. cbv zeta.
    destruct (side_back EQuad m m' pe pf turn W W' RN _ _ _ _ _ HL) as (f & e1 & H1 & -> & -> & S1).
    destruct (side_back EQuad m m' pe pf turn W W' RN _ _ _ _ _ HR) as (f2 & e2 & H2 & EF & -> & S2).
    apply (perm_inj (gm_nIF m) pf) in EF; [|apply RN| |].
    2:{ exact (proj1 (face_of_side _ _ m _ (one_rank m W) (quad_scheme LagrangeQuad 1 m 2 HLLC 0 zero2 zero1 0 zero2 zero1) _ _ _ _ _ S1)). }
    2:{ exact (proj1 (face_of_side _ _ m _ (one_rank m W) (quad_scheme LagrangeQuad 1 m 2 HLLC 0 zero2 zero1 0 zero2 zero1) _ _ _ _ _ S2)). }
    subst f2. destruct (turn f); cbn [xorb negb] in S1, S2.
    + destruct (CF _ _ _ _ _ _ _ S2 S1) as (v & V). exists (fun d => - v d). intros d Hd. rewrite !EN by (auto; apply ccw_range).
      destruct (V d Hd) as (V1 & V2). split; lra.
    + destruct (CF _ _ _ _ _ _ _ S1 S2) as (v & V). exists v. intros d Hd. rewrite !EN by (auto; apply ccw_range). exact (V d Hd).
  - rewrite (rn_ne _ _ _ _ _ _ RN). exact Hne.
  - exact Hall'.
Qed.
Print Assumptions C93_good_quads.

Lemma hex_turn_twice a s t : (4 <= a <= 7)%Z -> (let '(s', t') := hex_turn a s t in hex_turn a s' t') = (s, t).
Proof.
  intros Ha. assert (C : (a = 4 \/ a = 5 \/ a = 6 \/ a = 7)%Z) by lia.
  pose proof hex_turn_table as T.
  destruct C as [-> |[-> |[-> | ->]]]; destruct (T s t) as (_ & _ & _ & _ & S4 & S5 & S6 & S7);
    [rewrite S4|rewrite S5|rewrite S6|rewrite S7]; match goal with |- hex_turn _ ?a ?b = _ => destruct (T a b) as (_ & _ & _ & _ & R4 & R5 & R6 & R7) end;
    [rewrite R4|rewrite R5|rewrite R6|rewrite R7]; f_equal; ring.
Qed.

Theorem C93_good_hexahedra : forall m m' pe pf turn, mesh_wf m -> mesh_wf m' -> renumbered EHex m m' pe pf turn -> good_hexes m ->
  mesh_fits EHex 1 m' -> (forall x, (0 <= x < gm_num_nodes m')%Z -> in_some_element m' x) -> good_hexes m'.
Proof.
  intros m m' pe pf turn W W' RN [FV FD FH CF Hne Hall] MF' Hall'. destruct FH as (MF & UT & PG).
  assert (EN : forall e k d, (0 <= e < gm_num_elems m)%Z -> (0 <= k < 8)%Z -> elem_nodes m' (pe e) k d = elem_nodes m e k d).
  { intros e k d He Hk. apply (same_nodes EHex m m' pe pf turn); auto; [apply MF|apply MF']. }
  assert (ES : forall e k s t d, (0 <= e < gm_num_elems m)%Z -> face_surface m' (pe e) k s t d = face_surface m e k s t d).
  { intros e k s t d He. unfold face_surface. apply place_nodes. intros j Hj. now apply EN. }
  constructor.
  - exact (valid' EHex m m' pe pf turn W W' RN FV).
  - exact (distinct' EHex m m' pe pf turn W W' RN FD).
  - split; [exact MF'|]. split.
    + intros e' y He' Hy. destruct (elem_back EHex m m' pe pf turn RN e' He') as (e & He & ->).
      rewrite (jac_det_nodes EHex (elem_nodes m e)) by (intros k d Hk _; now apply EN). now apply UT.
    + intros f sd e' k o H. destruct (side_back EHex m m' pe pf turn W W' RN _ _ _ _ _ H) as (f0 & e & He & -> & -> & H0).
      destruct (PG _ _ _ _ _ H0) as (P & A & B & Q1 & Q2). exists P, A, B. split; [|exact Q2]. intros s t d Hd. rewrite ES by exact He. now apply Q1.
  - intros f' eL kL oL eR kR oR HL HR.
    destruct (side_back EHex m m' pe pf turn W W' RN _ _ _ _ _ HL) as (f & e1 & H1 & -> & -> & S1).
    destruct (side_back EHex m m' pe pf turn W W' RN _ _ _ _ _ HR) as (f2 & e2 & H2 & EF & -> & S2).
    apply (perm_inj (gm_nIF m) pf) in EF; [|apply RN| |].
    2:{ exact (proj1 (face_of_side _ _ m _ (one_rank m W) (hex_scheme LagrangeHex 1 m 2 HLLC 0 zero2 zero1 0 zero2 zero1) _ _ _ _ _ S1)). }
    2:{ exact (proj1 (face_of_side _ _ m _ (one_rank m W) (hex_scheme LagrangeHex 1 m 2 HLLC 0 zero2 zero1 0 zero2 zero1) _ _ _ _ _ S2)). }
    subst f2. destruct (turn f); cbn [xorb negb] in S1, S2.
    + destruct (CF _ _ _ _ _ _ _ S2 S1) as (a & v & Ha & V). exists a, (fun d => - v d). split; [exact Ha|]. intros s t d Hd.
      destruct (hex_turn a s t) as [s' t'] eqn:ET. rewrite !ES by assumption. specialize (V s' t' d Hd).
      pose proof (hex_turn_twice a s t Ha) as T2. rewrite ET in T2. rewrite T2 in V. lra.
    + destruct (CF _ _ _ _ _ _ _ S1 S2) as (a & v & Ha & V). exists a, v. split; [exact Ha|]. intros s t d Hd. specialize (V s t d Hd).
      destruct (hex_turn a s t) as [s' t']. rewrite !ES by assumption. exact V.
  - rewrite (rn_ne _ _ _ _ _ _ RN). exact Hne.
  - exact Hall'.
Qed.
Print Assumptions C93_good_hexahedra.

(** The solution on the renumbered mesh is the renumbered solution. *)
Theorem C93_solution_quads : forall m m' pe pf turn bt p gamma ft u steps c c',
  mesh_wf m -> mesh_wf m' -> good_quads m -> mesh_fits EQuad 1 m' -> (forall x, (0 <= x < gm_num_nodes m')%Z -> in_some_element m' x) ->
  1 < gamma -> renumbered EQuad m m' pe pf turn ->
  (ft = LaxFriedrichs \/ unturned m turn \/ quad_calm turn m bt p gamma ft u steps) ->
  quad_solution m bt p gamma ft u steps c -> quad_solution m' bt p gamma ft u steps c' ->
  forall e j k, (0 <= e < gm_num_elems m)%Z -> (0 <= j < nfun bt p)%Z -> (0 <= k < 4)%Z -> c' (pe e) j k = c e j k.
Proof.
  intros m m' pe pf turn bt p gamma ft u steps c c' W W' GQ MF' ND' Gm RN FC
    (nq & P & V & fp & fw & nq2 & P2 & V2 & EQ & EF & EQ2 & DS) (nq' & P' & V' & fp' & fw' & nq2' & P2' & V2' & EQ' & EF' & EQ2' & DS') e j k He Hj Hk.
  rewrite EQ in EQ'. injection EQ' as <- <- <-. rewrite EF in EF'. injection EF' as <- <-. rewrite EQ2 in EQ2'. injection EQ2' as <- <- <-.
  destruct (C93_good_quads m m' pe pf turn W W' RN GQ MF' ND') as [FV' FD' SQ' CF' _ _]. destruct GQ as [FV FD SQ CF _ _].
  destruct SQ as ((D1 & D2) & _), SQ' as ((D1' & D2') & _). cbn [space_dim] in D1, D1'.
  assert (EN : forall e, (0 <= e < gm_num_elems m)%Z -> forall k d, (0 <= k < corners EQuad)%Z -> (0 <= d < space_dim EQuad)%Z -> elem_nodes m' (pe e) k d = elem_nodes m e k d) by (intros; now apply RN).
  apply (solutions EQuad m m' pe pf turn bt p (quad_scheme bt p m gamma ft nq P V (p + 1) fp fw)
    (sc_det (quad_scheme bt p m' gamma ft nq P V (p + 1) fp fw)) (sc_inv (quad_scheme bt p m' gamma ft nq P V (p + 1) fp fw)) (sc_normal (quad_scheme bt p m' gamma ft nq P V (p + 1) fp fw))
    (PropDG.mass_matrix bt p m nq2 P2 V2) (PropDG.mass_matrix bt p m' nq2 P2 V2) u steps c c' W W' D1 D1' RN eq_refl eq_refl Gm); auto; cbn [quad_scheme sc_det sc_inv sc_normal sc_nq sc_nqf sc_flux].
  - intros x q Hx Hq. apply jac_det_nodes. now apply EN.
  - intros x q d i Hx Hq Hd Hi. apply inverse2_ext; [|exact Hd|exact Hi]. intros a b Ha Hb. apply jacobian_nodes. intros y Hy. now apply EN.
  - intros f q d Hf Hq Hd. now apply (edge_turn m m' pe pf turn).
  - intros x i b Hx Hi Hb. unfold PropDG.mass_matrix. apply rsum_ext. intros q Hq. rewrite (jac_det_nodes EQuad (elem_nodes m x)) by (now apply EN). reflexivity.
  - destruct FC as [FC|[FC|FC]]; auto. right. right. destruct FC as (q1 & P1 & V1 & fp1 & fw1 & q3 & P3 & V3 & X1 & X2 & X3 & C).
    rewrite EQ in X1. injection X1 as <- <- <-. rewrite EF in X2. injection X2 as <- <-. rewrite EQ2 in X3. injection X3 as <- <- <-. exact C.
Qed.
Print Assumptions C93_solution_quads.

Theorem C93_solution_hexahedra : forall m m' pe pf turn bt p gamma ft u steps c c',
  mesh_wf m -> mesh_wf m' -> good_hexes m -> mesh_fits EHex 1 m' -> (forall x, (0 <= x < gm_num_nodes m')%Z -> in_some_element m' x) ->
  1 < gamma -> renumbered EHex m m' pe pf turn ->
  (ft = LaxFriedrichs \/ unturned m turn \/ hex_calm turn m bt p gamma ft u steps) ->
  hex_solution m bt p gamma ft u steps c -> hex_solution m' bt p gamma ft u steps c' ->
  forall e j k, (0 <= e < gm_num_elems m)%Z -> (0 <= j < nfun bt p)%Z -> (0 <= k < 5)%Z -> c' (pe e) j k = c e j k.
Proof.
  intros m m' pe pf turn bt p gamma ft u steps c c' W W' GQ MF' ND' Gm RN FC
    (nq & P & V & fp & fw & nq2 & P2 & V2 & EQ & EF & EQ2 & DS) (nq' & P' & V' & fp' & fw' & nq2' & P2' & V2' & EQ' & EF' & EQ2' & DS') e j k He Hj Hk.
  rewrite EQ in EQ'. injection EQ' as <- <- <-. rewrite EF in EF'. injection EF' as <- <-. rewrite EQ2 in EQ2'. injection EQ2' as <- <- <-.
  destruct (C93_good_hexahedra m m' pe pf turn W W' RN GQ MF' ND') as [FV' FD' FH' CF' _ _]. destruct GQ as [FV FD FH CF _ _].
  assert (X := FH). assert (X' := FH'). destruct X as ((D1 & D2) & _), X' as ((D1' & D2') & _).
  assert (EN : forall e, (0 <= e < gm_num_elems m)%Z -> forall k d, (0 <= k < corners EHex)%Z -> (0 <= d < space_dim EHex)%Z -> elem_nodes m' (pe e) k d = elem_nodes m e k d) by (intros; now apply RN).
  apply (solutions EHex m m' pe pf turn bt p (hex_scheme bt p m gamma ft nq P V ((p + 2) * (p + 2)) fp fw)
    (sc_det (hex_scheme bt p m' gamma ft nq P V ((p + 2) * (p + 2)) fp fw)) (sc_inv (hex_scheme bt p m' gamma ft nq P V ((p + 2) * (p + 2)) fp fw)) (sc_normal (hex_scheme bt p m' gamma ft nq P V ((p + 2) * (p + 2)) fp fw))
    (mass_matrix3 bt p m nq2 P2 V2) (mass_matrix3 bt p m' nq2 P2 V2) u steps c c' W W' D1 D1' RN eq_refl eq_refl Gm); auto; cbn [hex_scheme sc_det sc_inv sc_normal sc_nq sc_nqf sc_flux].
  - intros x q Hx Hq. apply jac_det_nodes. now apply EN.
  - intros x q d i Hx Hq Hd Hi. apply inverse3_ext. intros a b Ha Hb. apply jacobian_nodes. intros y Hy. now apply EN.
  - intros f q d Hf Hq Hd. now apply (flat_turn m m' pe pf turn).
  - intros x i b Hx Hi Hb. unfold mass_matrix3. apply rsum_ext. intros q Hq. rewrite (jac_det_nodes EHex (elem_nodes m x)) by (now apply EN). reflexivity.
  - destruct FC as [FC|[FC|FC]]; auto. right. right. destruct FC as (q1 & P1 & V1 & fp1 & fw1 & q3 & P3 & V3 & X1 & X2 & X3 & C).
    rewrite EQ in X1. injection X1 as <- <- <-. rewrite EF in X2. injection X2 as <- <-. rewrite EQ2 in X3. injection X3 as <- <- <-. exact C.
Qed.
Print Assumptions C93_solution_hexahedra.

Lemma reads_wf inputs meshes argv inp m : reads inputs meshes argv inp m -> mesh_wf m.
Proof.
  intros (name & mname & mf & md & _ & _ & _ & _ & MW & RM & <-). destruct (C72_mesh_read R _ mf MW) as (md' & RM' & W & _).
  rewrite RM in RM'. injection RM' as <-. exact W.
Qed.

(** Two runs of the program, on any numbers of ranks, whose input files ask for the
    same computation on a mesh and on the renumbered mesh: the solution files hold
    the same coefficients for corresponding elements. *)
Theorem C93_program_quads : forall inputs meshes argv metis n inp m inputs' meshes' argv' metis' n' inp' m' cfg N u pe pf turn g g',
  (1 <= n)%Z -> reads inputs meshes argv inp m -> asks_for inp cfg -> enough_data inp cfg -> parts_asked inp n -> metis_valid metis m n ->
  (1 <= n')%Z -> reads inputs' meshes' argv' inp' m' -> asks_for inp' cfg -> enough_data inp' cfg -> parts_asked inp' n' -> metis_valid metis' m' n' ->
  cf_dim cfg = 2%Z -> cf_physics cfg = Euler -> num_iterations (cf_end cfg) (cf_dt cfg) = Ok N ->
  let bt := cf_basis cfg in let p := cf_order cfg in let gamma := ph_gamma (cf_phys cfg) in let dt := B2R (cf_dt cfg) in
  let steps := repeat (cf_stepper cfg, dt) (Z.to_nat N) in
  good_quads m -> mesh_fits EQuad 1 m' -> (forall x, (0 <= x < gm_num_nodes m')%Z -> in_some_element m' x) -> basis_for EQuad bt -> supported bt p -> order_ok p -> 1 < gamma ->
  starts_as 2 (cf_ic cfg) (cf_phys cfg) 0 u -> small m (nfun bt p) 4 -> small m' (nfun bt p) 4 ->
  renumbered EQuad m m' pe pf turn ->
  (cf_flux cfg = LaxFriedrichs \/ unturned m turn \/ quad_calm turn m bt p gamma (cf_flux cfg) u steps) ->
  program inputs meshes argv metis n g -> program inputs' meshes' argv' metis' n' g' ->
  exists c c', g = Ok (solution_file m (nfun bt p) 4 (INR (Z.to_nat N) * dt) c) /\
    g' = Ok (solution_file m' (nfun bt p) 4 (INR (Z.to_nat N) * dt) c') /\
    forall e j k, (0 <= e < gm_num_elems m)%Z -> (0 <= j < nfun bt p)%Z -> (0 <= k < 4)%Z -> c' (pe e) j k = c e j k.
Proof.
  intros inputs meshes argv metis n inp m inputs' meshes' argv' metis' n' inp' m' cfg N u pe pf turn g g' Hn RE AF ED PA MV Hn' RE' AF' ED' PA' MV' D2 EU EN
    bt p gamma dt steps GQ MF' ND' BF Sup Op Gm SA SM SM' RN FC PR PR'.
  destruct (C84_solution_quads inputs meshes argv metis n inp m cfg N u g Hn RE AF ED D2 EU PA MV EN GQ BF Sup Op Gm SA SM PR) as (c & Q & ->).
  pose proof (C93_good_quads m m' pe pf turn (reads_wf _ _ _ _ _ RE) (reads_wf _ _ _ _ _ RE') RN GQ MF' ND') as GQ'.
  destruct (C84_solution_quads inputs' meshes' argv' metis' n' inp' m' cfg N u g' Hn' RE' AF' ED' D2 EU PA' MV' EN GQ' BF Sup Op Gm SA SM' PR') as (c' & Q' & ->).
  exists c, c'. split; [reflexivity|]. split; [reflexivity|].
  exact (C93_solution_quads m m' pe pf turn bt p gamma (cf_flux cfg) u steps c c' (reads_wf _ _ _ _ _ RE) (reads_wf _ _ _ _ _ RE') GQ MF' ND' Gm RN FC Q Q').
Qed.
Print Assumptions C93_program_quads.

Theorem C93_program_hexahedra : forall inputs meshes argv metis n inp m inputs' meshes' argv' metis' n' inp' m' cfg N u pe pf turn g g',
  (1 <= n)%Z -> reads inputs meshes argv inp m -> asks_for inp cfg -> enough_data inp cfg -> parts_asked inp n -> metis_valid metis m n ->
  (1 <= n')%Z -> reads inputs' meshes' argv' inp' m' -> asks_for inp' cfg -> enough_data inp' cfg -> parts_asked inp' n' -> metis_valid metis' m' n' ->
  cf_dim cfg = 3%Z -> cf_physics cfg = Euler -> num_iterations (cf_end cfg) (cf_dt cfg) = Ok N ->
  let bt := cf_basis cfg in let p := cf_order cfg in let gamma := ph_gamma (cf_phys cfg) in let dt := B2R (cf_dt cfg) in
  let steps := repeat (cf_stepper cfg, dt) (Z.to_nat N) in
  good_hexes m -> mesh_fits EHex 1 m' -> (forall x, (0 <= x < gm_num_nodes m')%Z -> in_some_element m' x) -> basis_for EHex bt -> supported bt p -> order_ok p -> 1 < gamma ->
  starts_as 3 (cf_ic cfg) (cf_phys cfg) 0 u -> small m (nfun bt p) 5 -> small m' (nfun bt p) 5 ->
  renumbered EHex m m' pe pf turn ->
  (cf_flux cfg = LaxFriedrichs \/ unturned m turn \/ hex_calm turn m bt p gamma (cf_flux cfg) u steps) ->
  program inputs meshes argv metis n g -> program inputs' meshes' argv' metis' n' g' ->
  exists c c', g = Ok (solution_file m (nfun bt p) 5 (INR (Z.to_nat N) * dt) c) /\
    g' = Ok (solution_file m' (nfun bt p) 5 (INR (Z.to_nat N) * dt) c') /\
    forall e j k, (0 <= e < gm_num_elems m)%Z -> (0 <= j < nfun bt p)%Z -> (0 <= k < 5)%Z -> c' (pe e) j k = c e j k.
Proof.
  intros inputs meshes argv metis n inp m inputs' meshes' argv' metis' n' inp' m' cfg N u pe pf turn g g' Hn RE AF ED PA MV Hn' RE' AF' ED' PA' MV' D2 EU EN
    bt p gamma dt steps GQ MF' ND' BF Sup Op Gm SA SM SM' RN FC PR PR'.
  destruct (C84_solution_hexahedra inputs meshes argv metis n inp m cfg N u g Hn RE AF ED D2 EU PA MV EN GQ BF Sup Op Gm SA SM PR) as (c & Q & ->).
  pose proof (C93_good_hexahedra m m' pe pf turn (reads_wf _ _ _ _ _ RE) (reads_wf _ _ _ _ _ RE') RN GQ MF' ND') as GQ'.
  destruct (C84_solution_hexahedra inputs' meshes' argv' metis' n' inp' m' cfg N u g' Hn' RE' AF' ED' D2 EU PA' MV' EN GQ' BF Sup Op Gm SA SM' PR') as (c' & Q' & ->).
  exists c, c'. split; [reflexivity|]. split; [reflexivity|].
  exact (C93_solution_hexahedra m m' pe pf turn bt p gamma (cf_flux cfg) u steps c c' (reads_wf _ _ _ _ _ RE) (reads_wf _ _ _ _ _ RE') GQ MF' ND' Gm RN FC Q Q').
Qed.
Print Assumptions C93_program_hexahedra.
