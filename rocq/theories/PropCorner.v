(** PropCorner.v -- C106: which corner of a quadrilateral the mesh file lists first
    does not matter. *)
From Coq Require Import ZArith List Lia Reals Lra Psatz String Bool Permutation.
From Flocq Require Import BinarySingleNaN.
From Coquelicot Require Import Coquelicot.
From Verif Require Import Base RBase MeshModel MeshSpec MeshProof PropMesh IOModel PropIO PropOutput.
From Verif Require Import ReadModel PropRead PropCtor UtilModel TimeModel ProgramModel PropProgram.
From Verif Require Import LinAlgModel PropLinAlg BasisModel ShapeModel PropShape SolverModel SolverSpec SolverMesh SolverFlux PhysModel PhysSpec PhysProof PropPhys PropBasis PropSolver PropNormals StepModel PropIntegral PropStep PropQuad SetupModel SetupSpec SetupProof SetupFaces PropSetup PropMeshRun PropInit PropPost DGSpec DGProof PropDG PropHex PropFree PropHexFree PropTime PropWhole PropTotal PropEnd PropRenumber.
Import ListNotations.
Local Open Scope Z_scope.
Local Open Scope R_scope.
Open Scope res_scope.

(** * Specification *)

(** The point of the reference square [-1,1]^2 that a quarter turn takes [y] to. *)
Definition quarter (y : Z -> R) : Z -> R := fun d => if (d =? 0)%Z then - y 1%Z else if (d =? 1)%Z then y 0%Z else y d.
Definition quarters (n : nat) (y : Z -> R) : Z -> R := Nat.iter n quarter y.

(** [m'] lists the corners of element [e] from another corner on, counter-clockwise:
    corner (and edge) [k] of the element has the number [k + r e]; elements and faces
    keep their numbers. *)
Record relisted (m m' : gmesh R) (r : Z -> nat) : Prop := {
  rl_elems : gm_num_elems m' = gm_num_elems m;
  rl_faces : gm_nIF m' = gm_nIF m;
  rl_nodes : forall e k d, (0 <= e < gm_num_elems m)%Z -> (0 <= d < 2)%Z -> elem_nodes m' e (ccw (k + Z.of_nat (r e))) d = elem_nodes m e (ccw k) d;
  rl_sides : forall f sd e k o, has_side m f sd e k o -> has_side m' f sd e ((k + Z.of_nat (r e)) mod 4) o }.

(** State variable [k] of the solution with coefficients [c] at the reference point
    [y] of element [e]. *)
Definition value (bt : basis_type) (p : Z) (c : arr3) (e : Z) (y : Z -> R) (k : Z) : R := rsum (nfun bt p) (fun j => c e j k * basis_fn bt p j y).

(** * Schemes that differ by the numbering and the signs of the basis functions *)
Section Core.
Context (iter : Z -> list Z -> list Z) (n : Z) (m : gmesh R) (ep : list Z) (WF : run_wf iter n m ep).
Context (m' : gmesh R) (S S' : scheme).
Let dim := space_dim (sc_shape S).
Let nb := sc_nb S.
Context (si ta : Z -> Z -> Z) (sg : arr2).
Context (E1 : sc_shape S' = sc_shape S) (E2 : sc_nb S' = sc_nb S) (E3 : sc_gamma S' = sc_gamma S) (E4 : sc_flux S' = sc_flux S) (E5 : sc_nq S' = sc_nq S) (E6 : sc_nqf S' = sc_nqf S)
  (E7 : gm_num_elems m' = gm_num_elems m) (E8 : gm_nIF m' = gm_nIF m).
Context (SI : forall e, (0 <= e < gm_num_elems m)%Z -> permutes nb (si e)) (TA : forall e, (0 <= e < gm_num_elems m)%Z -> permutes (sc_nq S) (ta e)).
Context (SG : forall e i, sg e i * sg e i = 1).
Context (HV : forall e q i, (0 <= e < gm_num_elems m)%Z -> (0 <= q < sc_nq S)%Z -> (0 <= i < nb)%Z -> sc_val S' (ta e q) i = sg e i * sc_val S q (si e i)).
Context (HW : forall e q, (0 <= e < gm_num_elems m)%Z -> (0 <= q < sc_nq S)%Z -> sc_wts S' (ta e q) * sc_det S' e (ta e q) = sc_wts S q * sc_det S e q).
Context (HG : forall e q i j, (0 <= e < gm_num_elems m)%Z -> (0 <= q < sc_nq S)%Z -> (0 <= i < nb)%Z -> (0 <= j < dim)%Z ->
  rsum dim (fun d => sc_grad S' (ta e q) i d * sc_inv S' e (ta e q) d j) = sg e i * rsum dim (fun d => sc_grad S q (si e i) d * sc_inv S e q d j)).
Context (HF : forall f sd iq i, (0 <= f < gm_nIF m)%Z -> (0 <= iq < sc_nqf S)%Z -> (0 <= i < nb)%Z ->
  sc_fval S' (side_face m' f sd) (side_point S' m' f sd iq) i = sg (side_elem m f sd) i * sc_fval S (side_face m f sd) (side_point S m f sd iq) (si (side_elem m f sd) i)).
Context (HE : forall f sd, (0 <= f < gm_nIF m)%Z -> side_elem m' f sd = side_elem m f sd).
Context (HFW : forall q, sc_fwts S' q = sc_fwts S q) (NB : (0 < nb)%Z).
Context (HN : forall f q d, (0 <= f < gm_nIF m)%Z -> (0 <= q < sc_nqf S)%Z -> (0 <= d < dim)%Z -> sc_normal S' f q d = sc_normal S f q d).
Context (iM iM' : arr3) (HM : forall e i b, (0 <= e < gm_num_elems m)%Z -> (0 <= i < nb)%Z -> (0 <= b < nb)%Z -> iM' e i b = sg e i * sg e b * iM e (si e i) (si e b)).

Definition twisted (c c' : arr3) : Prop := forall e j k, (0 <= e < gm_num_elems m)%Z -> (0 <= j < nb)%Z -> (0 <= k < dim + 2)%Z -> c' e j k = sg e j * c e (si e j) k.

Lemma si_range e i : (0 <= e < gm_num_elems m)%Z -> (0 <= i < nb)%Z -> (0 <= si e i < nb)%Z.
Proof. intros He. apply perm_range. now apply SI. Qed.

Lemma d23c : dim23 dim.
Proof. unfold dim. destruct (sc_shape S); [now left|now right]. Qed.

Lemma side_range2 f sd : (0 <= f < gm_nIF m)%Z -> (0 <= side_elem m f sd < gm_num_elems m)%Z.
Proof. intros Hf. apply (side_nonneg iter n m ep WF f sd _ _ _ (sides_of iter n m ep WF f sd Hf)). Qed.

Lemma state_twisted c c' e q k : twisted c c' -> (0 <= e < gm_num_elems m)%Z -> (0 <= q < sc_nq S)%Z -> (0 <= k < dim + 2)%Z -> dg_state S' c' e (ta e q) k = dg_state S c e q k.
Proof.
  intros C He Hq Hk. unfold dg_state. rewrite E2. rewrite <- (rsum_permutes (sc_nb S) (si e) (fun j => sc_val S q j * c e j k) (SI e He)). apply rsum_ext. intros j Hj.
  rewrite (HV e q j He Hq Hj), (C e j k He Hj Hk). transitivity (sg e j * sg e j * (sc_val S q (si e j) * c e (si e j) k)); [ring|rewrite SG; ring].
Qed.

Lemma trace_twisted c c' f sd iq k : twisted c c' -> (0 <= f < gm_nIF m)%Z -> (0 <= iq < sc_nqf S)%Z -> (0 <= k < dim + 2)%Z ->
  dg_trace S' c' (side_elem m' f sd) (side_face m' f sd) (side_point S' m' f sd iq) k = dg_trace S c (side_elem m f sd) (side_face m f sd) (side_point S m f sd iq) k.
Proof.
  intros C Hf Hq Hk. pose proof (side_range2 f sd Hf) as He. unfold dg_trace. rewrite E2. set (e := side_elem m f sd) in *.
  rewrite <- (rsum_permutes (sc_nb S) (si e) (fun j => sc_fval S (side_face m f sd) (side_point S m f sd iq) j * c e j k) (SI e He)). apply rsum_ext. intros j Hj.
  pose proof (HE f sd Hf) as X1. pose proof (HF f sd iq j Hf Hq Hj) as X2. fold e in X1, X2. rewrite X1, X2, (C e j k He Hj Hk).
  transitivity (sg e j * sg e j * (sc_fval S (side_face m f sd) (side_point S m f sd iq) (si e j) * c e (si e j) k)); [ring|rewrite SG; ring].
Qed.

Lemma flux_twisted c c' f iq k : twisted c c' -> (0 <= f < gm_nIF m)%Z -> (0 <= iq < sc_nqf S)%Z -> (0 <= k < dim + 2)%Z -> dg_flux S' m' c' f iq k = dg_flux S m c f iq k.
Proof.
  intros C Hf Hq Hk. unfold dg_flux. rewrite E1, E3, E4. fold dim.
  rewrite (numflux_ext _ _ _ _ _ (sc_normal S' f iq) (sc_normal S f iq)); [|intros d Hd; now apply HN|exact Hk].
  apply numflux_state; [exact d23c|intros x Hx; now apply trace_twisted|intros x Hx; now apply trace_twisted|exact Hk].
Qed.

Lemma residual_twisted c c' e i k : twisted c c' -> (0 <= e < gm_num_elems m)%Z -> (0 <= i < nb)%Z -> (0 <= k < dim + 2)%Z ->
  dg_residual S' m' c' e i k = sg e i * dg_residual S m c e (si e i) k.
Proof.
  intros C He Hi Hk. unfold dg_residual. rewrite Rmult_plus_distr_l. f_equal.
  - unfold dg_volume. rewrite E1, E3, E5. fold dim. rewrite <- (rsum_permutes (sc_nq S) (ta e) _ (TA e He)), <- rsum_scal. apply rsum_ext. intros q Hq. rewrite (HW e q He Hq).
    match goal with |- ?a * ?x = sg e i * (?a * ?y) => assert (X : x = sg e i * y); [|rewrite X; ring] end.
    rewrite <- rsum_scal. apply rsum_ext. intros j Hj. rewrite (HG e q i j He Hq Hi Hj).
    rewrite (euler_flux_extU dim (sc_gamma S) (dg_state S' c' e (ta e q)) (dg_state S c e q) (axis j) k); [ring|exact d23c|intros x Hx; now apply state_twisted|exact Hk].
  - rewrite E8, <- rsum_scal. apply rsum_ext. intros f Hf.
    assert (K : forall sd, dg_side S' m' c' f sd e i k = sg e i * dg_side S m c f sd e (si e i) k).
    { intros sd. unfold dg_side. rewrite (HE f sd Hf). destruct (Z.eqb_spec (side_elem m f sd) e) as [EQ|_]; [|ring]. rewrite E6, <- !rsum_scal. apply rsum_ext. intros iq Hq. rewrite (flux_twisted c c' f iq k C Hf Hq Hk), HFW.
      pose proof (HF f sd iq i Hf Hq Hi) as X2. rewrite EQ in X2. rewrite X2. ring. }
    rewrite !K. ring.
Qed.

Lemma rate_twisted c c' : twisted c c' -> twisted (dg_rate S m iM c) (dg_rate S' m' iM' c').
Proof.
  intros C e j k He Hj Hk. unfold dg_rate. rewrite E2. rewrite <- (rsum_permutes (sc_nb S) (si e) (fun b => iM e (si e j) b * dg_residual S m c e b k) (SI e He)), <- rsum_scal.
  apply rsum_ext. intros b Hb. rewrite (HM e j b He Hj Hb), (residual_twisted c c' e b k C He Hb Hk).
  transitivity (sg e b * sg e b * (sg e j * (iM e (si e j) (si e b) * dg_residual S m c e (si e b) k))); [ring|rewrite SG; ring].
Qed.
Lemma shift_twisted c c' a d d' : twisted c c' -> twisted d d' -> twisted (shift c a d) (shift c' a d').
Proof. intros C D e j k He Hj Hk. unfold shift. rewrite C, D by assumption. ring. Qed.
Lemma step_twisted st dt c c' : twisted c c' -> twisted (dg_step S m iM st dt c) (dg_step S' m' iM' st dt c').
Proof.
  intros C. destruct st; cbn [dg_step].
  - apply shift_twisted; [exact C|]. now apply rate_twisted.
  - pose proof (rate_twisted _ _ C) as K1. pose proof (shift_twisted _ _ (dt / 2) _ _ C K1) as C2. pose proof (rate_twisted _ _ C2) as K2.
    pose proof (shift_twisted _ _ (dt / 2) _ _ C K2) as C3. pose proof (rate_twisted _ _ C3) as K3. pose proof (shift_twisted _ _ dt _ _ C K3) as C4. pose proof (rate_twisted _ _ C4) as K4.
    apply shift_twisted; [exact C|]. intros e j k He Hj Hk. rewrite K1, K2, K3, K4 by assumption. ring.
Qed.
Lemma march_twisted steps : forall c c', twisted c c' -> twisted (dg_march S m iM steps c) (dg_march S' m' iM' steps c').
Proof. induction steps as [|[st dt] steps IH]; intros c c' C; [exact C|]. cbn [dg_march fold_left fst snd]. apply IH. now apply step_twisted. Qed.
End Core.

(** * The basis functions and a quarter turn *)
Definition reversed (bt : basis_type) (p a : Z) : Z := if is_lagrange bt then (p - a)%Z else a.
Definition parity (bt : basis_type) (a : Z) : R := if is_lagrange bt then 1 else if Z.even a then 1 else -1.

Lemma even_node_rev p i : even_node p (p - i) = - even_node p i.
Proof. unfold even_node. destruct (Z.eqb_spec p 0) as [_|N]; [ring|]. rewrite minus_IZR. field. now apply IZR_neq. Qed.

Lemma rprod_rev n f : (0 <= n)%Z -> rprod n (fun i => f (n - 1 - i)%Z) = rprod n f.
Proof.
  intros Hn. assert (L : forall (k : nat) g, rprod (Z.of_nat k + 1) g = g 0%Z * rprod (Z.of_nat k) (fun i => g (i + 1)%Z)).
  { induction k as [|k IH]; intros g; [rewrite rprod_1, rprod_0 by (cbn; lia); ring|]. rewrite rprod_S by lia. rewrite Nat2Z.inj_succ. unfold Z.succ. rewrite IH. rewrite rprod_S by lia. ring. }
  rewrite <- (Z2Nat.id n Hn). generalize (Z.to_nat n). clear n Hn. intros n. revert f. induction n as [|n IH]; intros f; [rewrite !rprod_0 by (cbn; lia); reflexivity|].
  rewrite Nat2Z.inj_succ. unfold Z.succ. rewrite L, rprod_S by lia. rewrite Z.sub_0_r, Z.add_simpl_r. rewrite Rmult_comm. f_equal.
  rewrite <- (IH f). apply rprod_ext. intros i Hi. f_equal. lia.
Qed.

Lemma legendre_parity k t : legendre_pair k (- t) = ((if Nat.even k then 1 else -1) * fst (legendre_pair k t), (if Nat.even k then -1 else 1) * snd (legendre_pair k t)).
Proof.
  induction k as [|k IH]; [cbn; f_equal; ring|]. cbn [legendre_pair]. rewrite IH. destruct (legendre_pair k t) as [a b]. cbn [fst snd]. rewrite Nat.even_succ, <- Nat.negb_even.
  assert (INR k + 2 <> 0) by (pose proof (pos_INR k); lra). destruct (Nat.even k); cbn [negb]; f_equal; field; assumption.
Qed.

Lemma even_of_nat k : Z.even (Z.of_nat k) = Nat.even k.
Proof. induction k as [|k IH]; [reflexivity|]. rewrite Nat2Z.inj_succ, Z.even_succ, <- Z.negb_even, IH, Nat.even_succ, <- Nat.negb_even. reflexivity. Qed.

Lemma fn1_reversed bt p a t : (0 <= a <= p)%Z -> fn1 bt p a (- t) = parity bt a * fn1 bt p (reversed bt p a) t.
Proof.
  intros Ha. unfold fn1, parity, reversed. destruct (is_lagrange bt).
  - rewrite Rmult_1_l. unfold lagrange_poly. rewrite <- (rprod_rev (p + 1)) by lia. apply rprod_ext. intros j Hj. replace (p + 1 - 1 - j)%Z with (p - j)%Z by lia.
    assert (EB : (p - a =? j)%Z = (a =? p - j)%Z) by (destruct (Z.eqb_spec (p - a) j), (Z.eqb_spec a (p - j)); auto; lia). rewrite EB. destruct (Z.eqb_spec a (p - j)) as [_|N]; [reflexivity|].
    assert (X : even_node p a <> even_node p (p - j)) by (intros X; apply (even_different p ltac:(lia)) in X; lia).
    rewrite !even_node_rev in *. set (xa := even_node p a) in *. set (xj := even_node p j) in *. field. split; intros Y; apply X; lra.
  - unfold legendre_poly. rewrite legendre_parity. cbn [fst]. assert (E : Nat.even (Z.to_nat a) = Z.even a) by (rewrite <- even_of_nat, Z2Nat.id by lia; reflexivity). rewrite E. reflexivity.
Qed.


Lemma injective_permutes k o : (forall i, (0 <= i < k)%Z -> (0 <= o i < k)%Z) -> (forall i j, (0 <= i < k)%Z -> (0 <= j < k)%Z -> o i = o j -> i = j) -> permutes k o.
Proof.
  intros R I. unfold permutes. apply NoDup_Permutation_bis.
  - assert (G : forall l, NoDup l -> (forall i, In i l -> (0 <= i < k)%Z) -> NoDup (map o l)).
    { intros l N. induction N as [|a l Ha N IH]; intros H; [constructor|]. cbn [map]. constructor; [|apply IH; intros; apply H; now right].
      intros X. apply in_map_iff in X. destruct X as (b & E & Hb). apply I in E; [subst b; contradiction| |]; apply H; [now right|now left]. }
    apply G; [apply NoDup_zseq|]. intros i Hi. now apply In_zseq.
  - rewrite map_length. lia.
  - intros x Hx. apply in_map_iff in Hx. destruct Hx as (i & <- & Hi). apply In_zseq in Hi. apply In_zseq. now apply R.
Qed.

(** One quarter turn: the function number of which function [i] is the turned copy,
    its sign, and the quadrature point that goes to point [turned_point]. *)
Section Turn.
Context (bt : basis_type) (p : Z) (Hbt : basis_for EQuad bt) (Hp : (0 <= p)%Z).
Let n := (p + 1)%Z.
Definition turned_fn (i : Z) : Z := (i / n + n * reversed bt p (i mod n))%Z.
Definition turned_sign (i : Z) : R := parity bt (i mod n).
Definition fn_turns (r : nat) (i : Z) : Z := Nat.iter r turned_fn i.
Fixpoint sign_turns (r : nat) (i : Z) : R := match r with O => 1 | S r => sign_turns r i * turned_sign (fn_turns r i) end.

Lemma reversed_range a : (0 <= a < n)%Z -> (0 <= reversed bt p a < n)%Z.
Proof. unfold reversed, n. destruct (is_lagrange bt); lia. Qed.

Lemma nfun2 : nfun bt p = (n * n)%Z.
Proof. unfold nfun. destruct Hbt as [-> | ->]; cbn [dim]; fold n; apply Z.pow_2_r. Qed.

Lemma parts i : (0 <= i < n * n)%Z -> (0 <= i mod n < n)%Z /\ (0 <= i / n < n)%Z.
Proof.
  intros Hi. assert (0 < n)%Z by (unfold n; lia). split; [apply Z.mod_pos_bound; lia|]. split; [apply Z.div_pos; lia|apply Z.div_lt_upper_bound; nia].
Qed.

Lemma digits_of a b : (0 <= a < n)%Z -> (0 <= b < n)%Z -> ((a + n * b) mod n = a /\ (a + n * b) / n = b /\ 0 <= a + n * b < n * n)%Z.
Proof.
  intros Ha Hb. rewrite (Z.mul_comm n b), Z_mod_plus_full, Z_div_plus_full by lia. rewrite Z.mod_small, Z.div_small by lia. repeat split; nia.
Qed.

Lemma basis_fn2 i y : (0 <= i < n * n)%Z -> basis_fn bt p i y = fn1 bt p (i mod n) (y 0%Z) * fn1 bt p (i / n) (y 1%Z).
Proof.
  intros Hi. unfold basis_fn. replace (dim bt) with 2%Z by (destruct Hbt as [-> | ->]; reflexivity). rewrite rprod_2. fold n. now rewrite digit0, digit1_top by (unfold n in *; lia).
Qed.

Lemma turned_range i : (0 <= i < n * n)%Z -> (0 <= turned_fn i < n * n)%Z.
Proof. intros Hi. destruct (parts i Hi) as (A & B). unfold turned_fn. apply digits_of; [exact B|now apply reversed_range]. Qed.

Lemma basis_quarter i y : (0 <= i < n * n)%Z -> basis_fn bt p i (quarter y) = turned_sign i * basis_fn bt p (turned_fn i) y.
Proof.
  intros Hi. destruct (parts i Hi) as (A & B). rewrite !basis_fn2 by (auto using turned_range). unfold quarter. cbn [Z.eqb Pos.eqb].
  unfold turned_fn. destruct (digits_of (i / n) (reversed bt p (i mod n)) B (reversed_range _ A)) as (-> & -> & _).
  rewrite fn1_reversed by (unfold n in *; lia). unfold turned_sign. ring.
Qed.

Lemma turns_range r i : (0 <= i < n * n)%Z -> (0 <= fn_turns r i < n * n)%Z.
Proof. intros Hi. induction r as [|r IH]; [exact Hi|]. change (fn_turns (S r) i) with (turned_fn (fn_turns r i)). now apply turned_range. Qed.

Lemma quarters_S r y : quarters (S r) y = quarters r (quarter y).
Proof. unfold quarters. induction r as [|r IH]; [reflexivity|]. change (Nat.iter (S (S r)) quarter y) with (quarter (Nat.iter (S r) quarter y)). rewrite IH. reflexivity. Qed.

Lemma basis_quarters r : forall i y, (0 <= i < n * n)%Z -> basis_fn bt p i (quarters r y) = sign_turns r i * basis_fn bt p (fn_turns r i) y.
Proof.
  induction r as [|r IH]; intros i y Hi; [cbn; ring|]. rewrite quarters_S, IH by exact Hi. rewrite basis_quarter by (now apply turns_range).
  change (fn_turns (S r) i) with (turned_fn (fn_turns r i)). cbn [sign_turns]. ring.
Qed.

Lemma sign_square r i : sign_turns r i * sign_turns r i = 1.
Proof.
  induction r as [|r IH]; [cbn; ring|]. cbn [sign_turns]. set (s := turned_sign (fn_turns r i)). assert (s * s = 1) by (unfold s, turned_sign, parity; destruct (is_lagrange bt); [|destruct (Z.even (fn_turns r i mod n))]; ring).
  transitivity ((sign_turns r i * sign_turns r i) * (s * s)); [ring|]. rewrite IH, H. ring.
Qed.

Lemma reversed_twice a : reversed bt p (reversed bt p a) = a.
Proof. unfold reversed. destruct (is_lagrange bt); lia. Qed.

Lemma turned_inj i j : (0 <= i < n * n)%Z -> (0 <= j < n * n)%Z -> turned_fn i = turned_fn j -> i = j.
Proof.
  intros Hi Hj E. destruct (parts i Hi) as (A & B), (parts j Hj) as (A' & B'). unfold turned_fn in E.
  destruct (digits_of _ _ B (reversed_range _ A)) as (X & Y & _), (digits_of _ _ B' (reversed_range _ A')) as (X' & Y' & _).
  rewrite E in X, Y. assert (E1 : (i / n = j / n)%Z) by congruence. assert (E2 : reversed bt p (i mod n) = reversed bt p (j mod n)) by congruence.
  apply (f_equal (reversed bt p)) in E2. rewrite !reversed_twice in E2. rewrite (Z.div_mod i n), (Z.div_mod j n) by (unfold n; lia). now rewrite E1, E2.
Qed.

Lemma turns_permute r : permutes (n * n) (fn_turns r).
Proof.
  apply injective_permutes; [intros; now apply turns_range|]. induction r as [|r IH]; intros i j Hi Hj E; [exact E|].
  apply IH; auto. change (turned_fn (fn_turns r i) = turned_fn (fn_turns r j)) in E. revert E. apply turned_inj; now apply turns_range.
Qed.
End Turn.

(** ** Vectors that turn with the square *)
Lemma quarter_ext u v : (forall d, (0 <= d < 2)%Z -> u d = v d) -> forall d, (0 <= d < 2)%Z -> quarter u d = quarter v d.
Proof. intros H d Hd. unfold quarter. destruct (Z.eqb_spec d 0); [rewrite H by lia; reflexivity|]. destruct (Z.eqb_spec d 1); [apply H; lia|lia]. Qed.
Lemma quarters_ext r : forall u v, (forall d, (0 <= d < 2)%Z -> u d = v d) -> forall d, (0 <= d < 2)%Z -> quarters r u d = quarters r v d.
Proof. induction r as [|r IH]; intros u v H; [exact H|]. rewrite !quarters_S. apply IH. now apply quarter_ext. Qed.
Lemma quarters_scal r : forall a u d, (0 <= d < 2)%Z -> quarters r (fun d => a * u d) d = a * quarters r u d.
Proof.
  induction r as [|r IH]; intros a u d Hd; [reflexivity|]. rewrite !quarters_S. rewrite <- IH by exact Hd. apply quarters_ext; [|exact Hd].
  intros i Hi. unfold quarter. destruct (Z.eqb_spec i 0); [ring|]. destruct (Z.eqb_spec i 1); [reflexivity|lia].
Qed.
Definition crossp (u v : arr1) : R := u 0%Z * v 1%Z - u 1%Z * v 0%Z.
Lemma crossp_quarters r : forall u v, crossp (quarters r u) (quarters r v) = crossp u v.
Proof. induction r as [|r IH]; intros u v; [reflexivity|]. rewrite !quarters_S, IH. unfold crossp, quarter. cbn [Z.eqb Pos.eqb]. ring. Qed.
Lemma crossp_ext u u' v v' : (forall d, (0 <= d < 2)%Z -> u d = u' d) -> (forall d, (0 <= d < 2)%Z -> v d = v' d) -> crossp u v = crossp u' v'.
Proof. intros A B. unfold crossp. rewrite !A, !B by lia. reflexivity. Qed.

Lemma det_crossp A : small_det 2 A = crossp (A 0%Z) (A 1%Z).
Proof. unfold small_det, det2, minor2, crossp. cbn [Z.eqb Pos.eqb]. ring. Qed.

Lemma gradient_crossp (G : arr1) A j : (0 <= j < 2)%Z ->
  rsum 2 (fun d => G d * inverse2 A d j) = (if (j =? 0)%Z then crossp G (A 1%Z) else - crossp G (A 0%Z)) / crossp (A 0%Z) (A 1%Z).
Proof.
  intros Hj. rewrite rsum_2. unfold inverse2, det2, minor2. assert (C : (j = 0 \/ j = 1)%Z) by lia.
  replace (A 0%Z 0%Z * A 1%Z 1%Z - A 0%Z 1%Z * A 1%Z 0%Z) with (crossp (A 0%Z) (A 1%Z)) by (unfold crossp; ring). set (D := crossp (A 0%Z) (A 1%Z)).
  destruct C as [-> | ->]; change (1 - 0)%Z with 1%Z; change (1 - 1)%Z with 0%Z; cbn [Z.eqb Pos.eqb]; unfold crossp, Rdiv; ring.
Qed.

Lemma dims2 bt : basis_for EQuad bt -> dim bt = 2%Z.
Proof. intros [-> | ->]; reflexivity. Qed.

(** ** Gradients of the basis functions *)
Section Gradient.
Context (bt : basis_type) (p : Z) (Hbt : basis_for EQuad bt) (Hp : (0 <= p)%Z) (Sup : supported bt p).
Let n := (p + 1)%Z.
Definition gradient (i : Z) (y : Z -> R) : arr1 := fun d => Derive (fun t => basis_fn bt p i (with_coord y d t)) (y d).

Lemma dim2 : dim bt = 2%Z.
Proof. exact (dims2 bt Hbt). Qed.

Lemma gradient_point i y y' d : (0 <= d < 2)%Z -> (forall d, (0 <= d < 2)%Z -> y d = y' d) -> gradient i y d = gradient i y' d.
Proof.
  intros Hd H. unfold gradient. rewrite (H d Hd). apply Derive_ext. intros t. apply basis_fn_ext. rewrite dim2. intros d' Hd'. unfold with_coord. destruct (d' =? d)%Z; auto.
Qed.

Lemma ex_gradient i y d : (0 <= i < n * n)%Z -> (0 <= d < 2)%Z -> ex_derive (fun t => basis_fn bt p i (with_coord y d t)) (y d).
Proof.
  intros Hi Hd. destruct (C33_basis_gradients bt p 1 (fun _ => y) zero3 Hp Sup ltac:(intros; reflexivity)) as (H & _).
  eexists. apply (H 0%Z i d); [lia| |rewrite dim2; exact Hd]. rewrite nfun2 by assumption. exact Hi.
Qed.

Lemma gradient_quarter i y d : (0 <= i < n * n)%Z -> (0 <= d < 2)%Z -> gradient i (quarter y) d = turned_sign bt p i * quarter (gradient (turned_fn bt p i) y) d.
Proof.
  intros Hi Hd. assert (C : (d = 0 \/ d = 1)%Z) by lia. pose proof (turned_range bt p Hp i Hi) as Hi'.
  assert (B : forall y', basis_fn bt p i (quarter y') = turned_sign bt p i * basis_fn bt p (turned_fn bt p i) y') by (intros y'; now apply basis_quarter).
  destruct C as [-> | ->]; unfold gradient.
  - rewrite (Derive_ext _ (fun t => turned_sign bt p i * basis_fn bt p (turned_fn bt p i) (with_coord y 1 (- t)))).
    2:{ intros t. rewrite <- B. apply basis_fn_ext. rewrite dim2. intros d Hd'. unfold with_coord, quarter. destruct (Z.eqb_spec d 0) as [->|N]; [cbn [Z.eqb Pos.eqb]; ring|]. destruct (Z.eqb_spec d 1) as [->|N']; [reflexivity|lia]. }
    rewrite Derive_scal. f_equal. unfold quarter at 1 2. cbn [Z.eqb Pos.eqb].
    pose proof (ex_gradient (turned_fn bt p i) y 1 Hi' ltac:(lia)) as EX. set (g := fun t => basis_fn bt p (turned_fn bt p i) (with_coord y 1 t)) in *.
    change (Derive (fun t => g (- t)) (- y 1%Z) = - Derive g (y 1%Z)). rewrite Derive_comp.
    + rewrite Derive_opp, Derive_id, Ropp_involutive. ring.
    + rewrite Ropp_involutive. exact EX.
    + apply (ex_derive_opp (V := R_NormedModule) (fun t => t)). apply ex_derive_id.
  - rewrite (Derive_ext _ (fun t => turned_sign bt p i * basis_fn bt p (turned_fn bt p i) (with_coord y 0 t))).
    2:{ intros t. rewrite <- B. apply basis_fn_ext. rewrite dim2. intros d Hd'. unfold with_coord, quarter. destruct (Z.eqb_spec d 0) as [->|N]; [cbn [Z.eqb Pos.eqb]; reflexivity|]. destruct (Z.eqb_spec d 1) as [->|N']; [reflexivity|lia]. }
    rewrite Derive_scal. reflexivity.
Qed.

Lemma gradient_quarters r : forall i y d, (0 <= i < n * n)%Z -> (0 <= d < 2)%Z -> gradient i (quarters r y) d = sign_turns bt p r i * quarters r (gradient (fn_turns bt p r i) y) d.
Proof.
  induction r as [|r IH]; intros i y d Hi Hd; [cbn; ring|]. rewrite !quarters_S, IH by assumption. cbn [sign_turns]. rewrite Rmult_assoc. f_equal.
  rewrite <- quarters_scal by exact Hd. apply quarters_ext; [|exact Hd]. intros j Hj. change (fn_turns bt p (S r) i) with (turned_fn bt p (fn_turns bt p r i)). apply gradient_quarter; [now apply turns_range|exact Hj].
Qed.
End Gradient.

(** ** Geometry *)
Lemma ccw_mod k : ccw (k mod 4) = ccw k.
Proof. unfold ccw. now rewrite Z.mod_mod by lia. Qed.
Lemma ccw_4 k : ccw (k + 4) = ccw k.
Proof. rewrite <- (ccw_mod (k + 4)), <- (ccw_mod k). f_equal. rewrite <- Z.add_mod_idemp_r, Z_mod_same_full, Z.add_0_r by lia. reflexivity. Qed.

(** The map from the square and its rows of derivatives, from the corners in
    counter-clockwise order. *)
Definition spread (Y : Z -> R) (y : Z -> R) : R :=
  ((1 - y 0%Z) * (1 - y 1%Z) * Y 0%Z + (1 + y 0%Z) * (1 - y 1%Z) * Y 1%Z + (1 - y 0%Z) * (1 + y 1%Z) * Y 3%Z + (1 + y 0%Z) * (1 + y 1%Z) * Y 2%Z) / 4.
Definition slopes (Y : Z -> R) (y : Z -> R) : arr1 := fun d =>
  if (d =? 0)%Z then ((1 - y 1%Z) * (Y 1%Z - Y 0%Z) + (1 + y 1%Z) * (Y 2%Z - Y 3%Z)) / 4
  else ((1 - y 0%Z) * (Y 3%Z - Y 0%Z) + (1 + y 0%Z) * (Y 2%Z - Y 1%Z)) / 4.

Lemma spread_quarters r : forall Y Y' y, (forall k, Y (k + 4)%Z = Y k) -> (forall k, Y' (k + Z.of_nat r)%Z = Y k) -> spread Y' (quarters r y) = spread Y y.
Proof.
  induction r as [|r IH]; intros Y Y' y P H.
  - assert (E : forall k, Y' k = Y k) by (intros k; rewrite <- H; f_equal; lia). unfold spread. rewrite !E. reflexivity.
  - rewrite quarters_S, (IH (fun k => Y (k - 1)%Z)).
    + unfold spread, quarter. cbn [Z.eqb Pos.eqb]. change (0 - 1)%Z with (-1)%Z. rewrite <- (P (-1)%Z). change (-1 + 4)%Z with 3%Z. change (1 - 1)%Z with 0%Z. change (2 - 1)%Z with 1%Z. change (3 - 1)%Z with 2%Z. field.
    + intros k. rewrite <- (P (k - 1)%Z). f_equal. lia.
    + intros k. rewrite <- (H (k - 1)%Z). f_equal. lia.
Qed.

Lemma slopes_quarters r : forall Y Y' y d, (forall k, Y (k + 4)%Z = Y k) -> (forall k, Y' (k + Z.of_nat r)%Z = Y k) -> (0 <= d < 2)%Z -> slopes Y' (quarters r y) d = quarters r (slopes Y y) d.
Proof.
  induction r as [|r IH]; intros Y Y' y d P H Hd.
  - assert (E : forall k, Y' k = Y k) by (intros k; rewrite <- H; f_equal; lia). cbn. unfold slopes. rewrite !E. reflexivity.
  - rewrite !quarters_S, (IH (fun k => Y (k - 1)%Z)).
    + apply quarters_ext; [|exact Hd]. intros i Hi. assert (C : (i = 0 \/ i = 1)%Z) by lia.
      destruct C as [-> | ->]; unfold slopes, quarter; cbn [Z.eqb Pos.eqb]; change (0 - 1)%Z with (-1)%Z; rewrite <- (P (-1)%Z); change (-1 + 4)%Z with 3%Z; change (1 - 1)%Z with 0%Z; change (2 - 1)%Z with 1%Z; change (3 - 1)%Z with 2%Z; field.
    + intros k. rewrite <- (P (k - 1)%Z). f_equal. lia.
    + intros k. rewrite <- (H (k - 1)%Z). f_equal. lia.
    + exact Hd.
Qed.

Section Geometry.
Context (X X' : arr2) (r : nat) (d : Z) (HX : forall k, X' (ccw (k + Z.of_nat r)) d = X (ccw k) d).

Lemma place_spread Y y : place EQuad 1 Y y d = spread (fun k => Y (ccw k) d) y.
Proof. rewrite place_bilinear. unfold spread. change (ccw 0) with 0%Z. change (ccw 1) with 1%Z. change (ccw 2) with 3%Z. change (ccw 3) with 2%Z. reflexivity. Qed.

Lemma place_turned y : place EQuad 1 X' (quarters r y) d = place EQuad 1 X y d.
Proof. rewrite !place_spread. apply spread_quarters; [|exact HX]. intros k. now rewrite ccw_4. Qed.

Lemma jacobian_slopes Y y j : (0 <= j < 2)%Z -> jacobian EQuad 1 Y y d j = slopes (fun k => Y (ccw k) d) y j.
Proof.
  intros Hj. destruct (jacobian_bilinear Y y d) as (A & B). assert (C : (j = 0 \/ j = 1)%Z) by lia. unfold slopes. change (ccw 0) with 0%Z. change (ccw 1) with 1%Z. change (ccw 2) with 3%Z. change (ccw 3) with 2%Z.
  destruct C as [-> | ->]; assumption.
Qed.

Lemma jacobian_turned y j : (0 <= j < 2)%Z -> jacobian EQuad 1 X' (quarters r y) d j = quarters r (jacobian EQuad 1 X y d) j.
Proof.
  intros Hj. rewrite jacobian_slopes by exact Hj. rewrite (slopes_quarters r (fun k => X (ccw k) d)) by (exact HX || exact Hj || (intros k; now rewrite ccw_4)).
  apply quarters_ext; [|exact Hj]. intros i Hi. symmetry. now apply jacobian_slopes.
Qed.
End Geometry.

(** Edge [k] is turned onto edge [k + r]. *)
Lemma face_quarters r : forall k t d, (0 <= k < 4)%Z -> (0 <= d < 2)%Z -> quad_face ((k + Z.of_nat r) mod 4) t d = quarters r (quad_face k t) d.
Proof.
  induction r as [|r IH]; intros k t d Hk Hd.
  - cbn. rewrite Z.add_0_r, Z.mod_small by lia. reflexivity.
  - rewrite quarters_S. replace ((k + Z.of_nat (S r)) mod 4)%Z with (((k + 1) mod 4 + Z.of_nat r) mod 4)%Z by (rewrite Z.add_mod_idemp_l by lia; f_equal; lia).
    rewrite IH by (exact Hd || (apply Z.mod_pos_bound; lia)). apply quarters_ext; [|exact Hd]. intros i Hi.
    assert (C : (k = 0 \/ k = 1 \/ k = 2 \/ k = 3)%Z) by lia. assert (D : (i = 0 \/ i = 1)%Z) by lia.
    destruct C as [-> | [-> | [-> | ->]]], D as [-> | ->]; cbn; ring.
Qed.

(** ** The quadrature rule *)
Section Rule.
Context (n : Z) (Hn : (0 < n)%Z) (x w : arr1) (P : arr2) (W : arr1).
Context (SX : forall i, (0 <= i < n)%Z -> x (n - 1 - i)%Z = - x i) (SW : forall i, (0 <= i < n)%Z -> w (n - 1 - i)%Z = w i) (TR : tensor_rule 2 n x w P W).
Definition turned_point (q : Z) : Z := ((n - 1 - q / n) + n * (q mod n))%Z.
Definition point_turns (r : nat) (q : Z) : Z := Nat.iter r turned_point q.

Lemma pparts i : (0 <= i < n * n)%Z -> (0 <= i mod n < n)%Z /\ (0 <= i / n < n)%Z.
Proof. intros Hi. split; [apply Z.mod_pos_bound; lia|]. split; [apply Z.div_pos; lia|apply Z.div_lt_upper_bound; nia]. Qed.
Lemma pdigits a b : (0 <= a < n)%Z -> (0 <= b < n)%Z -> ((a + n * b) mod n = a /\ (a + n * b) / n = b /\ 0 <= a + n * b < n * n)%Z.
Proof.
  intros Ha Hb. rewrite (Z.mul_comm n b), Z_mod_plus_full, Z_div_plus_full by lia. rewrite Z.mod_small, Z.div_small by lia. repeat split; nia.
Qed.
Lemma tp_parts q : (0 <= q < n * n)%Z -> (turned_point q mod n = n - 1 - q / n /\ turned_point q / n = q mod n /\ 0 <= turned_point q < n * n)%Z.
Proof. intros Hq. destruct (pparts q Hq) as (A & B). unfold turned_point. apply pdigits; [lia|exact A]. Qed.

Lemma rule_at q : (0 <= q < n * n)%Z -> P q 0%Z = x (q mod n) /\ P q 1%Z = x (q / n)%Z /\ W q = w (q mod n) * w (q / n)%Z.
Proof.
  intros Hq. destruct (TR q) as (A & B); [rewrite Z.pow_2_r; exact Hq|]. rewrite !A, B, rprod_2, digit0, digit1_top by lia. auto.
Qed.

Lemma point_turned q d : (0 <= q < n * n)%Z -> (0 <= d < 2)%Z -> P (turned_point q) d = quarter (P q) d.
Proof.
  intros Hq Hd. destruct (tp_parts q Hq) as (A & B & C). destruct (pparts q Hq) as (E & F). destruct (rule_at q Hq) as (P0 & P1 & _), (rule_at _ C) as (Q0 & Q1 & _).
  assert (D : (d = 0 \/ d = 1)%Z) by lia. destruct D as [-> | ->]; unfold quarter; cbn [Z.eqb Pos.eqb].
  - rewrite Q0, P1, A. now apply SX.
  - now rewrite Q1, P0, B.
Qed.
Lemma weight_turned q : (0 <= q < n * n)%Z -> W (turned_point q) = W q.
Proof.
  intros Hq. destruct (tp_parts q Hq) as (A & B & C). destruct (pparts q Hq) as (E & F). destruct (rule_at q Hq) as (_ & _ & ->), (rule_at _ C) as (_ & _ & ->).
  rewrite A, B, SW by exact F. ring.
Qed.
Lemma points_range r q : (0 <= q < n * n)%Z -> (0 <= point_turns r q < n * n)%Z.
Proof. intros Hq. induction r as [|r IH]; [exact Hq|]. change (point_turns (S r) q) with (turned_point (point_turns r q)). now apply tp_parts. Qed.
Lemma points_turned r q d : (0 <= q < n * n)%Z -> (0 <= d < 2)%Z -> P (point_turns r q) d = quarters r (P q) d.
Proof.
  intros Hq. revert d. induction r as [|r IH]; intros d Hd; [reflexivity|]. change (point_turns (S r) q) with (turned_point (point_turns r q)).
  rewrite point_turned by (exact Hd || now apply points_range). change (quarters (S r) (P q)) with (quarter (quarters r (P q))). now apply quarter_ext.
Qed.
Lemma weights_turned r q : (0 <= q < n * n)%Z -> W (point_turns r q) = W q.
Proof.
  intros Hq. induction r as [|r IH]; [reflexivity|]. change (point_turns (S r) q) with (turned_point (point_turns r q)). rewrite weight_turned by (now apply points_range). exact IH.
Qed.
Lemma points_permute r : permutes (n * n) (point_turns r).
Proof.
  apply injective_permutes; [intros; now apply points_range|]. induction r as [|r IH]; intros i j Hi Hj E; [exact E|]. apply IH; auto.
  change (turned_point (point_turns r i) = turned_point (point_turns r j)) in E. pose proof (points_range r i Hi) as Ri. pose proof (points_range r j Hj) as Rj.
  set (a := point_turns r i) in *. set (b := point_turns r j) in *. destruct (tp_parts a Ri) as (A & B & _), (tp_parts b Rj) as (A' & B' & _).
  rewrite E in A, B. rewrite (Z.div_mod a n), (Z.div_mod b n) by lia. assert (a / n = b / n)%Z by lia. assert (a mod n = b mod n)%Z by congruence. congruence.
Qed.
End Rule.

(** * The two solutions *)
Section Two.
Context (m m' : gmesh R) (r : Z -> nat) (MW : mesh_wf m) (MW' : mesh_wf m') (Dm : gm_dim m = 2%Z) (Dm' : gm_dim m' = 2%Z) (RL : relisted m m' r) (FV : faces_valid EQuad m).
Context (bt : basis_type) (p : Z) (Hbt : basis_for EQuad bt) (Op : order_ok p) (Sup : supported bt p).

Lemma order_nonneg : (0 <= p)%Z.
Proof. unfold order_ok in Op. lia. Qed.

Lemma corner_moved e k d : (0 <= e < gm_num_elems m)%Z -> elem_nodes m' e (ccw (k + Z.of_nat (r e))) d = elem_nodes m e (ccw k) d.
Proof.
  intros He. destruct (Z_le_dec 0 d) as [H0|H0]; [destruct (Z_lt_dec d 2) as [H1|H1]|].
  - apply RL; auto.
  - rewrite (nodes_outside m' EQuad), (nodes_outside m EQuad); try assumption; try reflexivity; cbn [space_dim]; intros [? ?]; contradiction.
  - rewrite (nodes_outside m' EQuad), (nodes_outside m EQuad); try assumption; try reflexivity; cbn [space_dim]; intros [? ?]; contradiction.
Qed.

Lemma det_moved e y : (0 <= e < gm_num_elems m)%Z -> jac_det EQuad 1 (elem_nodes m' e) (quarters (r e) y) = jac_det EQuad 1 (elem_nodes m e) y.
Proof.
  intros He. unfold jac_det. change (space_dim EQuad) with 2%Z. rewrite !det_crossp. rewrite <- (crossp_quarters (r e) (jacobian EQuad 1 (elem_nodes m e) y 0%Z)).
  apply crossp_ext; intros d Hd; apply jacobian_turned; try exact Hd; intros k; now apply corner_moved.
Qed.

Lemma det_point e y y' : (forall d, (0 <= d < 2)%Z -> y d = y' d) -> jac_det EQuad 1 (elem_nodes m' e) y = jac_det EQuad 1 (elem_nodes m' e) y'.
Proof. intros H. unfold jac_det. apply small_det_ext; [cbn; lia|]. intros i j Hi Hj. apply jacobian_point; [exact Hj|exact H]. Qed.

Lemma sides_moved f sd : (0 <= f < gm_nIF m)%Z -> side_elem m' f sd = side_elem m f sd /\ side_face m' f sd = ((side_face m f sd + Z.of_nat (r (side_elem m f sd))) mod 4)%Z /\
  face_entry m' f (if sd then 5 else 2)%Z = face_entry m f (if sd then 5 else 2)%Z /\ (0 <= side_face m f sd < 4)%Z /\ (0 <= side_elem m f sd < gm_num_elems m)%Z.
Proof.
  intros Hf. pose proof (sides_of _ _ m _ (one_rank m MW) f sd Hf) as HS. pose proof (rl_sides _ _ _ RL _ _ _ _ _ HS) as (K1 & K2 & K3).
  destruct (side_nonneg _ _ m _ (one_rank m MW) _ _ _ _ _ HS) as (A1 & _ & A3). destruct (FV _ _ _ _ _ HS) as (B1 & _). cbn [faces_per_elem] in B1.
  split; [|split; [|split; [|split; [lia|exact A3]]]].
  - unfold side_elem at 1, face_entry. destruct sd; cbn [Z.add] in *; rewrite K1; reflexivity.
  - unfold side_face at 1, face_entry. destruct sd; cbn [Z.add Pos.add Pos.succ] in *; rewrite K2; reflexivity.
  - unfold face_entry at 1. destruct sd; cbn [Z.add Pos.add Pos.succ Pos.add_carry] in *; rewrite K3; reflexivity.
Qed.

Lemma edge_same f d : (0 <= f < gm_nIF m)%Z -> (0 <= d < 2)%Z -> edge_normal m' f d = edge_normal m f d.
Proof.
  intros Hf Hd. destruct (sides_moved f false Hf) as (E1 & E2 & _ & _ & He). unfold edge_normal. rewrite E1, E2. set (e := side_elem m f false) in *. set (k := side_face m f false) in *.
  assert (C1 : ccw ((k + Z.of_nat (r e)) mod 4) = ccw (k + Z.of_nat (r e))) by apply ccw_mod.
  assert (C2 : ccw ((k + Z.of_nat (r e)) mod 4 + 1) = ccw (k + 1 + Z.of_nat (r e))).
  { rewrite <- ccw_mod, Z.add_mod_idemp_l by lia. rewrite ccw_mod. f_equal. lia. }
  rewrite C1, C2, !corner_moved by exact He. reflexivity.
Qed.

(** The mass matrices and their inverses. *)
Lemma mass_moved n x w P W e i l : (0 < n)%Z -> (forall i, (0 <= i < n)%Z -> x (n - 1 - i)%Z = - x i) -> (forall i, (0 <= i < n)%Z -> w (n - 1 - i)%Z = w i) -> tensor_rule 2 n x w P W ->
  (0 <= e < gm_num_elems m)%Z -> (0 <= i < (p + 1) * (p + 1))%Z -> (0 <= l < (p + 1) * (p + 1))%Z ->
  PropDG.mass_matrix bt p m' (n * n) P W e i l = sign_turns bt p (r e) i * sign_turns bt p (r e) l * PropDG.mass_matrix bt p m (n * n) P W e (fn_turns bt p (r e) i) (fn_turns bt p (r e) l).
Proof.
  intros Hn SX SW TR He Hi Hl. unfold PropDG.mass_matrix. rewrite <- (rsum_permutes (n * n) (point_turns n (r e))) by (now apply points_permute). rewrite <- rsum_scal. apply rsum_ext. intros q Hq.
  assert (PE : forall d, (0 <= d < 2)%Z -> P (point_turns n (r e) q) d = quarters (r e) (P q) d) by (intros d Hd; now apply (points_turned n Hn x w P W)).
  rewrite (weights_turned n Hn x w P W SW TR (r e) q Hq), (det_point e _ _ PE), det_moved by exact He.
  rewrite !(basis_fn_ext bt p _ (P (point_turns n (r e) q)) (quarters (r e) (P q))) by (rewrite (dims2 bt Hbt); exact PE).
  rewrite !(basis_quarters bt p Hbt order_nonneg) by assumption. ring.
Qed.

Lemma inverse_moved (M M' iM iM' sg : arr2) (si : Z -> Z) s nb : permutes nb si -> (forall i, s i * s i = 1) ->
  (forall i l, (0 <= i < nb)%Z -> (0 <= l < nb)%Z -> M' i l = s i * s l * M (si i) (si l)) -> inverse_of nb M iM -> inverse_of nb M' iM' ->
  forall i l, (0 <= i < nb)%Z -> (0 <= l < nb)%Z -> iM' i l = s i * s l * iM (si i) (si l).
Proof.
  intros PM SS HM I I'. apply (inverse_unique nb M' iM'); [exact I'|]. intros i j Hi Hj.
  assert (Ri : (0 <= si i < nb)%Z) by (now apply (perm_range nb si)). assert (Rj : (0 <= si j < nb)%Z) by (now apply (perm_range nb si)).
  destruct (I (si i) (si j) Ri Rj) as (A & B).
  assert (D : (if (si i =? si j)%Z then 1 else 0) = (if (i =? j)%Z then 1 else 0)).
  { destruct (Z.eqb_spec i j) as [->|N]; [now rewrite Z.eqb_refl|]. destruct (Z.eqb_spec (si i) (si j)) as [E|_]; [|reflexivity]. exfalso. apply N. now apply (perm_inj nb si). }
  assert (SD : s i * s j * (if (i =? j)%Z then 1 else 0) = (if (i =? j)%Z then 1 else 0)) by (destruct (Z.eqb_spec i j) as [->|N]; [rewrite SS; ring|ring]).
  split.
  - rewrite <- SD, <- D, <- A, <- (rsum_permutes nb si (fun k => M (si i) k * iM k (si j)) PM), <- rsum_scal. apply rsum_ext. intros k Hk. rewrite HM by assumption.
    transitivity ((s k * s k) * (s i * s j * (M (si i) (si k) * iM (si k) (si j)))); [ring|rewrite SS; ring].
  - rewrite <- SD, <- D, <- B, <- (rsum_permutes nb si (fun k => iM (si i) k * M k (si j)) PM), <- rsum_scal. apply rsum_ext. intros k Hk. rewrite HM by assumption.
    transitivity ((s k * s k) * (s i * s j * (iM (si i) (si k) * M (si k) (si j)))); [ring|rewrite SS; ring].
Qed.

Lemma rule_of o nq P W : tabulated o -> volume_quadrature EQuad o zero2 zero1 = Ok (nq, P, W) -> exists n x w, (0 < n)%Z /\ nq = (n * n)%Z /\
  (forall i, (0 <= i < n)%Z -> x (n - 1 - i)%Z = - x i) /\ (forall i, (0 <= i < n)%Z -> w (n - 1 - i)%Z = w i) /\ tensor_rule 2 n x w P W.
Proof.
  intros T E. destruct (volume_rule EQuad o T) as (x & w & (G & _) & A). destruct (A zero2 zero1) as (P0 & W0 & E0 & TR). rewrite E in E0. injection E0 as -> -> ->.
  exists (o + 2)%Z, x, w. destruct T as (T & _). split; [lia|]. split; [cbn [space_dim]; apply Z.pow_2_r|]. split; [|split; [|exact TR]]; intros i Hi; now apply G.
Qed.

Lemma solutions_twisted gamma ft u steps c c' : quad_solution m bt p gamma ft u steps c -> quad_solution m' bt p gamma ft u steps c' ->
  forall e j k, (0 <= e < gm_num_elems m)%Z -> (0 <= j < (p + 1) * (p + 1))%Z -> (0 <= k < 4)%Z -> c' e j k = sign_turns bt p (r e) j * c e (fn_turns bt p (r e) j) k.
Proof.
  intros (nq & P & W & fp & fw & nq2 & P2 & W2 & EQ & EF & EQ2 & (iM & c0 & I1 & (nq3 & P3 & W3 & EQ3 & PJ) & HC))
    (nq' & P' & W' & fp' & fw' & nq2' & P2' & W2' & EQ' & EF' & EQ2' & (iM' & c0' & I1' & (nq3' & P3' & W3' & EQ3' & PJ') & HC')).
  rewrite EQ in EQ'. injection EQ' as <- <- <-. rewrite EF in EF'. injection EF' as <- <-. rewrite EQ2 in EQ2'. injection EQ2' as <- <- <-. rewrite EQ3 in EQ3'. injection EQ3' as <- <- <-.
  pose proof order_nonneg as Hp. pose proof Op as Op'. unfold order_ok in Op'.
  destruct (rule_of p nq P W ltac:(split; lia) EQ) as (n & x & w & Hn & -> & SX & SW & TR).
  destruct (rule_of (2 * p)%Z nq2 P2 W2 ltac:(split; lia) EQ2) as (n2 & x2 & w2 & Hn2 & -> & SX2 & SW2 & TR2).
  destruct (rule_of (2 * Z.max p 1)%Z nq3 P3 W3 ltac:(split; lia) EQ3) as (n3 & x3 & w3 & Hn3 & -> & SX3 & SW3 & TR3).
  assert (NB : nfun bt p = ((p + 1) * (p + 1))%Z) by (now apply nfun2). rewrite NB in *.
  set (S := quad_scheme bt p m gamma ft (n * n) P W (p + 1) fp fw) in *. set (S' := quad_scheme bt p m' gamma ft (n * n) P W (p + 1) fp fw) in *.
  rewrite (rl_elems _ _ _ RL) in I1', PJ', HC'.
  assert (HMM : forall e i l, (0 <= e < gm_num_elems m)%Z -> (0 <= i < (p + 1) * (p + 1))%Z -> (0 <= l < (p + 1) * (p + 1))%Z ->
    iM' e i l = sign_turns bt p (r e) i * sign_turns bt p (r e) l * iM e (fn_turns bt p (r e) i) (fn_turns bt p (r e) l)).
  { intros e i l He. revert i l. apply (inverse_moved (PropDG.mass_matrix bt p m (n2 * n2) P2 W2 e) (PropDG.mass_matrix bt p m' (n2 * n2) P2 W2 e)); auto.
    - now apply turns_permute.
    - intros i. apply sign_square.
    - intros i l Hi Hl. now apply (mass_moved n2 x2 w2). }
  assert (PT : forall e q d, (0 <= q < n * n)%Z -> (0 <= d < 2)%Z -> P (point_turns n (r e) q) d = quarters (r e) (P q) d) by (intros e q d Hq Hd; now apply (points_turned n Hn x w P W)).
  intros e j k He Hj Hk. rewrite HC, HC' by (try assumption; now apply turns_range).
  pose proof (march_twisted (fun _ l => l) 1 m _ (one_rank m MW) m' S S' (fun e => fn_turns bt p (r e)) (fun e => point_turns n (r e)) (fun e => sign_turns bt p (r e))) as MT.
  unfold twisted in MT. subst S S'. cbn [quad_scheme sc_shape sc_nb sc_gamma sc_flux sc_nq sc_val sc_grad sc_wts sc_nqf sc_fval sc_fwts sc_det sc_inv sc_normal space_dim] in MT. rewrite NB in MT.
  apply MT with (iM := iM) (iM' := iM'); auto; clear MT.
  - apply RL.
  - intros x0 _. now apply turns_permute.
  - intros x0 _. now apply points_permute.
  - intros x0 i. apply sign_square.
  - intros x0 q i Hx Hq Hi. rewrite (basis_fn_ext bt p i _ (quarters (r x0) (P q))) by (rewrite (dims2 bt Hbt); intros d Hd; now apply PT). now apply basis_quarters.
  - intros x0 q Hx Hq. rewrite (weights_turned n Hn x w P W SW TR (r x0) q Hq). f_equal. rewrite (det_point x0 _ (quarters (r x0) (P q))) by (intros d Hd; now apply PT). now apply det_moved.
  - intros x0 q i d Hx Hq Hi Hd. change (rsum 2 (fun d0 => gradient bt p i (P (point_turns n (r x0) q)) d0 * inverse2 (jacobian EQuad 1 (elem_nodes m' x0) (P (point_turns n (r x0) q))) d0 d) =
      sign_turns bt p (r x0) i * rsum 2 (fun d0 => gradient bt p (fn_turns bt p (r x0) i) (P q) d0 * inverse2 (jacobian EQuad 1 (elem_nodes m x0) (P q)) d0 d)).
    rewrite !gradient_crossp by exact Hd. set (G := gradient bt p (fn_turns bt p (r x0) i) (P q)).
    assert (GE : forall d, (0 <= d < 2)%Z -> gradient bt p i (P (point_turns n (r x0) q)) d = quarters (r x0) (fun d => sign_turns bt p (r x0) i * G d) d).
    { intros d0 Hd0. rewrite (gradient_point bt p Hbt i _ (quarters (r x0) (P q)) d0 Hd0) by (intros d1 Hd1; now apply PT). rewrite (gradient_quarters bt p Hbt Hp Sup (r x0) i (P q) d0 Hi Hd0), quarters_scal by exact Hd0. reflexivity. }
    assert (JE : forall a d, (0 <= d < 2)%Z -> jacobian EQuad 1 (elem_nodes m' x0) (P (point_turns n (r x0) q)) a d = quarters (r x0) (jacobian EQuad 1 (elem_nodes m x0) (P q) a) d).
    { intros a d0 Hd0. rewrite (jacobian_point EQuad 1 _ _ (quarters (r x0) (P q)) a d0 Hd0) by (intros d1 Hd1; now apply PT). apply jacobian_turned; [|exact Hd0]. intros k0. now apply corner_moved. }
    rewrite !(crossp_ext _ _ _ _ GE (JE _)), (crossp_ext _ _ _ _ (JE 0%Z) (JE 1%Z)), !crossp_quarters.
    assert (L : forall v, crossp (fun d => sign_turns bt p (r x0) i * G d) v = sign_turns bt p (r x0) i * crossp G v) by (intros v; unfold crossp; ring). rewrite !L. destruct (d =? 0)%Z; unfold Rdiv; ring.
  - intros f sd iq i Hf Hq Hi. destruct (sides_moved f sd Hf) as (E1 & E2 & E3 & K & _). unfold side_point. cbn [sc_shape sc_nqf quad_scheme]. rewrite E2, E3.
    set (iq' := face_order EQuad (face_entry m f (if sd then 5%Z else 2%Z)) (p + 1) (fun _ => 0%Z) iq).
    rewrite (basis_fn_ext bt p i _ (quarters (r (side_elem m f sd)) (face_at EQuad (side_face m f sd) (fp iq')))) by (rewrite (dims2 bt Hbt); intros d Hd; cbn [face_at]; now apply face_quarters).
    now apply basis_quarters.
  - intros f sd Hf. now destruct (sides_moved f sd Hf).
  - intros f q d Hf _ Hd. now apply edge_same.
  - intros x0 i y Hx Hi Hy. revert i Hi. apply (solves_unique ((p + 1) * (p + 1)) (PropDG.mass_matrix bt p m' (n2 * n2) P2 W2 x0) (iM' x0) (fun i => c0' x0 i y) (fun i => sign_turns bt p (r x0) i * c0 x0 (fn_turns bt p (r x0) i) y)); [now apply I1'|].
    intros i Hi. rewrite (PJ' x0 i y Hx Hi Hy).
    rewrite (rsum_ext ((p + 1) * (p + 1)) _ (fun b => sign_turns bt p (r x0) i * (PropDG.mass_matrix bt p m (n2 * n2) P2 W2 x0 (fn_turns bt p (r x0) i) (fn_turns bt p (r x0) b) * c0 x0 (fn_turns bt p (r x0) b) y))).
    2:{ intros b Hb. rewrite (mass_moved n2 x2 w2) by assumption. transitivity ((sign_turns bt p (r x0) b * sign_turns bt p (r x0) b) * (sign_turns bt p (r x0) i * (PropDG.mass_matrix bt p m (n2 * n2) P2 W2 x0 (fn_turns bt p (r x0) i) (fn_turns bt p (r x0) b) * c0 x0 (fn_turns bt p (r x0) b) y))); [ring|]. rewrite sign_square. ring. }
    rewrite rsum_scal, (rsum_permutes ((p + 1) * (p + 1)) (fn_turns bt p (r x0)) (fun b => PropDG.mass_matrix bt p m (n2 * n2) P2 W2 x0 (fn_turns bt p (r x0) i) b * c0 x0 b y)) by (now apply turns_permute).
    rewrite (PJ x0 (fn_turns bt p (r x0) i) y Hx (turns_range bt p Hp (r x0) i Hi) Hy).
    rewrite <- (rsum_permutes (n3 * n3) (point_turns n3 (r x0))) by (now apply points_permute). rewrite <- rsum_scal. apply rsum_ext. intros q Hq.
    assert (PE : forall d, (0 <= d < 2)%Z -> P3 (point_turns n3 (r x0) q) d = quarters (r x0) (P3 q) d) by (intros d Hd; now apply (points_turned n3 Hn3 x3 w3 P3 W3)).
    rewrite (weights_turned n3 Hn3 x3 w3 P3 W3 SW3 TR3 (r x0) q Hq), (det_point x0 _ _ PE), det_moved by exact Hx.
    rewrite (basis_fn_ext bt p _ (P3 (point_turns n3 (r x0) q)) (quarters (r x0) (P3 q))) by (rewrite (dims2 bt Hbt); exact PE). rewrite (basis_quarters bt p Hbt Hp) by assumption.
    assert (UE : u (place EQuad 1 (elem_nodes m' x0) (P3 (point_turns n3 (r x0) q))) y = u (place EQuad 1 (elem_nodes m x0) (P3 q)) y).
    { apply (f_equal (fun v => u v y)). apply FunctionalExtensionality.functional_extensionality. intros d.
      transitivity (place EQuad 1 (elem_nodes m' x0) (quarters (r x0) (P3 q)) d); [rewrite !place_bilinear, !PE by lia; reflexivity|]. apply place_turned. intros k0. now apply corner_moved. }
    rewrite UE. ring.
Qed.
End Two.

(** * C106: the corner that comes first *)

(** The relisted mesh has the same solution: at the same point of an element -- the
    point turned with the corners -- it has the same value. *)
Theorem C106_solution_quads : forall m m' r bt p gamma ft u steps c c',
  mesh_wf m -> mesh_wf m' -> good_quads m -> gm_dim m' = 2%Z -> basis_for EQuad bt -> supported bt p -> order_ok p -> relisted m m' r ->
  quad_solution m bt p gamma ft u steps c -> quad_solution m' bt p gamma ft u steps c' ->
  forall e y k, (0 <= e < gm_num_elems m)%Z -> (0 <= k < 4)%Z ->
    (forall d, place EQuad 1 (elem_nodes m' e) (quarters (r e) y) d = place EQuad 1 (elem_nodes m e) y d) /\
    value bt p c' e (quarters (r e) y) k = value bt p c e y k.
Proof.
  intros m m' r bt p gamma ft u steps c c' W W' [FV FD SQ CF _ _] D' BF Sup Op RL Q Q' e y k He Hk. destruct SQ as ((D & _) & _). cbn [space_dim] in D.
  assert (Hp : (0 <= p)%Z) by (unfold order_ok in Op; lia). split.
  - intros d. apply place_turned. intros k0. now apply (corner_moved m m' r W W' D D' RL).
  - unfold value. rewrite nfun2 by exact BF. rewrite <- (rsum_permutes ((p + 1) * (p + 1)) (fn_turns bt p (r e)) (fun j => c e j k * basis_fn bt p j y)) by (now apply turns_permute).
    apply rsum_ext. intros j Hj. rewrite (solutions_twisted m m' r W W' D D' RL FV bt p BF Op Sup gamma ft u steps c c' Q Q' e j k He Hj Hk), basis_quarters by assumption.
    transitivity ((sign_turns bt p (r e) j * sign_turns bt p (r e) j) * (c e (fn_turns bt p (r e) j) k * basis_fn bt p (fn_turns bt p (r e) j) y)); [ring|]. rewrite sign_square. ring.
Qed.
Print Assumptions C106_solution_quads.

(** ** The relisted mesh is one the solver handles *)
Section Good.
Context (m m' : gmesh R) (r : Z -> nat) (W : mesh_wf m) (W' : mesh_wf m') (Dm : gm_dim m = 2%Z) (Dm' : gm_dim m' = 2%Z) (RL : relisted m m' r) (FV : faces_valid EQuad m).

Lemma side_was f sd e k o : has_side m' f sd e k o -> exists k0, has_side m f sd e k0 o /\ k = ((k0 + Z.of_nat (r e)) mod 4)%Z /\ (0 <= k0 < 4)%Z /\ (0 <= e < gm_num_elems m)%Z.
Proof.
  intros H. destruct (face_of_side _ _ m' _ (one_rank m' W') (quad_scheme LagrangeQuad 1 m 2 HLLC 0 zero2 zero1 0 zero2 zero1) f sd e k o H) as (Hf & E1 & E2 & _). rewrite (rl_faces _ _ _ RL) in Hf.
  destruct (sides_moved m m' r W RL FV f sd Hf) as (M1 & M2 & M3 & M4 & M5). pose proof (sides_of _ _ m _ (one_rank m W) f sd Hf) as HS.
  pose proof (rl_sides _ _ _ RL _ _ _ _ _ HS) as HS'. rewrite <- M1, E1 in HS'. destruct H as (H1 & H2 & H3), HS' as (K1 & K2 & K3). rewrite H2 in K2. rewrite H3 in K3. injection K2 as K2. injection K3 as K3.
  exists (side_face m f sd). rewrite <- M1, E1 in HS. rewrite K3. split; [exact HS|]. split; [exact K2|]. split; [exact M4|]. rewrite <- E1, M1. exact M5.
Qed.

Lemma corner_was e k d : (0 <= e < gm_num_elems m)%Z -> elem_nodes m' e (ccw k) d = elem_nodes m e (ccw (k - Z.of_nat (r e))) d.
Proof. intros He. rewrite <- (corner_moved m m' r W W' Dm Dm' RL e _ d He). f_equal. f_equal. lia. Qed.
Lemma corner_at e k0 d j : (0 <= e < gm_num_elems m)%Z -> elem_nodes m' e (ccw ((k0 + Z.of_nat (r e)) mod 4 + j)) d = elem_nodes m e (ccw (k0 + j)) d.
Proof. intros He. rewrite <- (ccw_mod (_ + j)), Z.add_mod_idemp_l, ccw_mod by lia. rewrite corner_was by exact He. f_equal. f_equal. lia. Qed.
End Good.

Theorem C106_good_quads : forall m m' r, mesh_wf m -> mesh_wf m' -> relisted m m' r -> good_quads m ->
  mesh_fits EQuad 1 m' -> (forall x, (0 <= x < gm_num_nodes m')%Z -> in_some_element m' x) -> good_quads m'.
Proof.
  intros m m' r W W' RL [FV FD SQ CF Hne Hall] MF' Hall'. destruct SQ as ((Dm & Npe) & CC). pose proof MF' as (Dm' & _). cbn [space_dim] in Dm, Dm'. constructor.
  - intros f sd e k o H. destruct (side_was m m' r W W' RL FV f sd e k o H) as (k0 & H0 & -> & _ & _). destruct (FV _ _ _ _ _ H0) as (_ & Ho). split; [|exact Ho]. cbn [faces_per_elem]. apply Z.mod_pos_bound. lia.
  - intros f sd e k o f' sd' o' H H'. destruct (side_was m m' r W W' RL FV f sd e k o H) as (k0 & H0 & E & R0 & _). destruct (side_was m m' r W W' RL FV f' sd' e k o' H') as (k1 & H1 & E' & R1 & _).
    assert (k0 = k1). { rewrite E in E'. pose proof (Z.div_mod (k0 + Z.of_nat (r e)) 4 ltac:(lia)). pose proof (Z.div_mod (k1 + Z.of_nat (r e)) 4 ltac:(lia)). lia. }
    subst k1. exact (FD _ _ _ _ _ _ _ _ H0 H1).
  - split; [exact MF'|]. intros e He. rewrite (rl_elems _ _ _ RL) in He. intros k Hk. unfold cross2. cbv beta zeta. rewrite !(corner_was m m' r W W' Dm Dm' RL) by exact He.
    set (k0 := ((k - Z.of_nat (r e)) mod 4)%Z). pose proof (CC e He k0 ltac:(apply Z.mod_pos_bound; lia)) as C. unfold cross2 in C. cbv beta zeta in C.
    assert (A : forall j, ccw (k + j - Z.of_nat (r e)) = ccw (k0 + j)) by (intros j; unfold k0; rewrite <- (ccw_mod (_ + j)), Z.add_mod_idemp_l, ccw_mod by lia; f_equal; lia).
    rewrite !A. replace (ccw (k - Z.of_nat (r e))) with (ccw k0) by (unfold k0; apply ccw_mod). exact C.
  - intros f eL kL oL eR kR oR HL HR. cbv zeta. destruct (side_was m m' r W W' RL FV _ _ _ _ _ HL) as (k0 & H0 & -> & _ & E0). destruct (side_was m m' r W W' RL FV _ _ _ _ _ HR) as (k1 & H1 & -> & _ & E1).
    destruct (CF _ _ _ _ _ _ _ H0 H1) as (v & V). cbv zeta in V. exists v. intros d Hd. destruct (V d Hd) as (V1 & V2).
    rewrite <- (Z.add_0_r ((k1 + _) mod 4)), <- (Z.add_0_r ((k0 + _) mod 4)), <- !Z.add_assoc, !(corner_at m m' r W W' Dm Dm' RL) by assumption.
    rewrite !Z.add_0_l, !Z.add_0_r. split; assumption.
  - rewrite (rl_elems _ _ _ RL). exact Hne.
  - exact Hall'.
Qed.
Print Assumptions C106_good_quads.

(** Two runs of the program, on any numbers of ranks, that read the two meshes. *)
Theorem C106_program_quads : forall inputs meshes argv metis n inp m inputs' meshes' argv' metis' n' inp' m' cfg N u r g g',
  (1 <= n)%Z -> reads inputs meshes argv inp m -> asks_for inp cfg -> enough_data inp cfg -> parts_asked inp n -> metis_valid metis m n ->
  (1 <= n')%Z -> reads inputs' meshes' argv' inp' m' -> asks_for inp' cfg -> enough_data inp' cfg -> parts_asked inp' n' -> metis_valid metis' m' n' ->
  cf_dim cfg = 2%Z -> cf_physics cfg = Euler -> num_iterations (cf_end cfg) (cf_dt cfg) = Ok N ->
  let bt := cf_basis cfg in let p := cf_order cfg in let gamma := ph_gamma (cf_phys cfg) in let dt := B2R (cf_dt cfg) in
  good_quads m -> mesh_fits EQuad 1 m' -> (forall x, (0 <= x < gm_num_nodes m')%Z -> in_some_element m' x) -> basis_for EQuad bt -> supported bt p -> order_ok p -> 1 < gamma ->
  starts_as 2 (cf_ic cfg) (cf_phys cfg) 0 u -> small m (nfun bt p) 4 -> small m' (nfun bt p) 4 ->
  relisted m m' r ->
  program inputs meshes argv metis n g -> program inputs' meshes' argv' metis' n' g' ->
  exists c c', g = Ok (solution_file m (nfun bt p) 4 (INR (Z.to_nat N) * dt) c) /\
    g' = Ok (solution_file m' (nfun bt p) 4 (INR (Z.to_nat N) * dt) c') /\
    forall e y k, (0 <= e < gm_num_elems m)%Z -> (0 <= k < 4)%Z ->
      (forall d, place EQuad 1 (elem_nodes m' e) (quarters (r e) y) d = place EQuad 1 (elem_nodes m e) y d) /\
      value bt p c' e (quarters (r e) y) k = value bt p c e y k.
Proof.
  intros inputs meshes argv metis n inp m inputs' meshes' argv' metis' n' inp' m' cfg N u r g g' Hn RE AF ED PA MV Hn' RE' AF' ED' PA' MV' D2 EU EN
    bt p gamma dt GQ MF' ND' BF Sup Op Gm SA SM SM' RL PR PR'.
  destruct (C84_solution_quads inputs meshes argv metis n inp m cfg N u g Hn RE AF ED D2 EU PA MV EN GQ BF Sup Op Gm SA SM PR) as (c & Q & ->).
  pose proof (C106_good_quads m m' r (reads_wf _ _ _ _ _ RE) (reads_wf _ _ _ _ _ RE') RL GQ MF' ND') as GQ'.
  destruct (C84_solution_quads inputs' meshes' argv' metis' n' inp' m' cfg N u g' Hn' RE' AF' ED' D2 EU PA' MV' EN GQ' BF Sup Op Gm SA SM' PR') as (c' & Q' & ->).
  exists c, c'. split; [reflexivity|]. split; [reflexivity|].
  exact (C106_solution_quads m m' r bt p gamma (cf_flux cfg) u (repeat (cf_stepper cfg, dt) (Z.to_nat N)) c c' (reads_wf _ _ _ _ _ RE) (reads_wf _ _ _ _ _ RE') GQ (proj1 MF') BF Sup Op RL Q Q').
Qed.
Print Assumptions C106_program_quads.
