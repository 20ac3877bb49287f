(** PropConverge.v -- C105: with Runge-Kutta the error a run makes by its finite time
    step is at most a constant times the fourth power of the step size, with
    forward Euler at most a constant times the step size. *)
From Coq Require Import ZArith List Lia Reals Lra String Bool.
From Flocq Require Import BinarySingleNaN.
From Verif Require Import Base RBase MeshModel MeshSpec MeshProof PropMesh IOModel PropIO PropOutput.
From Verif Require Import ReadModel PropRead PropCtor UtilModel TimeModel ProgramModel PropProgram.
From Verif Require Import LinAlgModel PropLinAlg BasisModel ShapeModel PropShape SolverModel SolverSpec SolverMesh SolverFlux PhysModel PhysSpec PhysProof PropPhys PropBasis PropSolver PropNormals StepModel PropIntegral PropStep SetupModel SetupSpec SetupProof PropSetup PropMeshRun PropInit PropPost DGSpec DGProof PropDG PropHex PropFree PropHexFree PropTime PropWhole PropEnd PropRenumber Converge.
Import ListNotations.
Local Open Scope Z_scope.
Local Open Scope R_scope.
Open Scope res_scope.

(** * Specification *)

(** The coefficients of a solution. *)
Definition coefficient (s : eshape) (m : gmesh R) (bt : basis_type) (p : Z) (e j k : Z) : Prop :=
  (0 <= e < gm_num_elems m)%Z /\ (0 <= j < nfun bt p)%Z /\ (0 <= k < space_dim s + 2)%Z.

(** [Y] solves on [0, T] the system of ordinary differential equations to which the
    discontinuous Galerkin method reduces the Euler equations (exact in time), from the
    projection of [u]; and near [Y] the right-hand side of that system is smooth. *)
Definition exact_in_time (s : eshape) (m : gmesh R) (bt : basis_type) (p : Z) (S : scheme) (M : Z -> arr2) (u : (Z -> R) -> Z -> R) (T : R) (Y : R -> arr3) : Prop :=
  exists iM, (forall e, (0 <= e < gm_num_elems m)%Z -> inverse_of (nfun bt p) (M e) (iM e)) /\
    projects s m bt p M u (Y 0) /\
    solves_ode (coefficient s m bt p) (dg_rate S m iM) T Y /\
    exists A B K L rho, smooth_along (coefficient s m bt p) (dg_rate S m iM) T Y A B K L rho.

Definition quad_exact (m : gmesh R) (bt : basis_type) (p : Z) (gamma : R) (ft : flux_type) (u : (Z -> R) -> Z -> R) (T : R) (Y : R -> arr3) : Prop :=
  exists nq P W fp fw nq2 P2 W2, volume_quadrature EQuad p zero2 zero1 = Ok (nq, P, W) /\ face_quadrature EQuad p = Ok (p + 1, fp, fw)%Z /\
    volume_quadrature EQuad (2 * p) zero2 zero1 = Ok (nq2, P2, W2) /\
    exact_in_time EQuad m bt p (quad_scheme bt p m gamma ft nq P W (p + 1) fp fw) (PropDG.mass_matrix bt p m nq2 P2 W2) u T Y.
Definition hex_exact (m : gmesh R) (bt : basis_type) (p : Z) (gamma : R) (ft : flux_type) (u : (Z -> R) -> Z -> R) (T : R) (Y : R -> arr3) : Prop :=
  exists nq P W fp fw nq2 P2 W2, volume_quadrature EHex p zero2 zero1 = Ok (nq, P, W) /\ face_quadrature EHex p = Ok ((p + 2) * (p + 2), fp, fw)%Z /\
    volume_quadrature EHex (2 * p) zero2 zero1 = Ok (nq2, P2, W2) /\
    exact_in_time EHex m bt p (hex_scheme bt p m gamma ft nq P W ((p + 2) * (p + 2)) fp fw) (mass_matrix3 bt p m nq2 P2 W2) u T Y.

(** * Proof *)
Lemma march_iter S m iM st h n : forall c, dg_march S m iM (repeat (st, h) n) c = Nat.iter n (ode_step (dg_rate S m iM) st h) c.
Proof.
  induction n as [|n IH]; intros c; [reflexivity|]. unfold dg_march in *. cbn [repeat fold_left fst snd]. rewrite IH.
  assert (E : dg_step S m iM st h = ode_step (dg_rate S m iM) st h) by (destruct st; reflexivity). rewrite E. generalize (ode_step (dg_rate S m iM) st h). intros g.
  clear. induction n as [|n IH]; [reflexivity|]. change (g (Nat.iter n g (g c)) = g (Nat.iter (Datatypes.S n) g c)). now rewrite IH.
Qed.

Lemma solution_converges s m bt p S M u T Y st : mesh_wf m -> sc_shape S = s -> sc_nb S = nfun bt p -> 0 <= T ->
  exact_in_time s m bt p S M u T Y ->
  exists C d, 0 <= C /\ 0 < d /\ forall h n c, 0 < h <= d -> INR n * h <= T -> dg_solution s m bt p S M u (repeat (st, h) n) c ->
    bounded_by (coefficient s m bt p) (minus3 c (Y (INR n * h))) (C * h ^ order_of st).
Proof.
  intros Wm Es Eb HT (iM & HI & PJ & SO & A & B & K & L & rho & SA).
  destruct (converges _ _ _ _ _ _ _ _ _ HT SO SA st) as (C & d & HC & Hd & H). exists C, d. split; [exact HC|]. split; [exact Hd|].
  intros h n c Hh Hn DS e j k (He & Hj & Hk).
  assert (DS' : dg_solution s m bt p S M u (repeat (st, h) n) (dg_march S m iM (repeat (st, h) n) (Y 0))) by (exists iM, (Y 0); repeat split; auto; intros; now apply HI).
  unfold minus3. rewrite (dg_unique _ _ m _ s bt p S M u _ c _ (one_rank m Wm) Es Eb DS DS' e j k He Hj Hk), march_iter.
  apply (H h n (Y 0) Hh Hn); [|repeat split; auto; apply He || apply Hj || apply Hk].
  intros e' j' k' _. unfold minus3. rewrite Rminus_diag_eq, Rabs_R0 by reflexivity. lra.
Qed.

(** ** C105 *)
Theorem C105_solution_quads : forall m bt p gamma ft u T Y st, mesh_wf m -> 0 <= T -> quad_exact m bt p gamma ft u T Y ->
  exists C d, 0 <= C /\ 0 < d /\ forall h n c, 0 < h <= d -> INR n * h <= T -> quad_solution m bt p gamma ft u (repeat (st, h) n) c ->
    forall e j k, (0 <= e < gm_num_elems m)%Z -> (0 <= j < nfun bt p)%Z -> (0 <= k < 4)%Z ->
    Rabs (c e j k - Y (INR n * h) e j k) <= C * h ^ order_of st.
Proof.
  intros m bt p gamma ft u T Y st Wm HT (nq & P & W & fp & fw & nq2 & P2 & W2 & EQ & EF & EQ2 & EX).
  destruct (solution_converges EQuad m bt p (quad_scheme bt p m gamma ft nq P W (p + 1) fp fw) _ u T Y st Wm eq_refl eq_refl HT EX) as (C & d & HC & Hd & H). exists C, d. split; [exact HC|]. split; [exact Hd|].
  intros h n c Hh Hn (nq' & P' & W' & fp' & fw' & nq2' & P2' & W2' & X1 & X2 & X3 & DS) e j k He Hj Hk.
  rewrite EQ in X1. injection X1 as <- <- <-. rewrite EF in X2. injection X2 as <- <-. rewrite EQ2 in X3. injection X3 as <- <- <-.
  exact (H h n c Hh Hn DS e j k (conj He (conj Hj Hk))).
Qed.
Print Assumptions C105_solution_quads.

Theorem C105_solution_hexahedra : forall m bt p gamma ft u T Y st, mesh_wf m -> 0 <= T -> hex_exact m bt p gamma ft u T Y ->
  exists C d, 0 <= C /\ 0 < d /\ forall h n c, 0 < h <= d -> INR n * h <= T -> hex_solution m bt p gamma ft u (repeat (st, h) n) c ->
    forall e j k, (0 <= e < gm_num_elems m)%Z -> (0 <= j < nfun bt p)%Z -> (0 <= k < 5)%Z ->
    Rabs (c e j k - Y (INR n * h) e j k) <= C * h ^ order_of st.
Proof.
  intros m bt p gamma ft u T Y st Wm HT (nq & P & W & fp & fw & nq2 & P2 & W2 & EQ & EF & EQ2 & EX).
  destruct (solution_converges EHex m bt p (hex_scheme bt p m gamma ft nq P W ((p + 2) * (p + 2)) fp fw) _ u T Y st Wm eq_refl eq_refl HT EX) as (C & d & HC & Hd & H). exists C, d. split; [exact HC|]. split; [exact Hd|].
  intros h n c Hh Hn (nq' & P' & W' & fp' & fw' & nq2' & P2' & W2' & X1 & X2 & X3 & DS) e j k He Hj Hk.
  rewrite EQ in X1. injection X1 as <- <- <-. rewrite EF in X2. injection X2 as <- <-. rewrite EQ2 in X3. injection X3 as <- <- <-.
  exact (H h n c Hh Hn DS e j k (conj He (conj Hj Hk))).
Qed.
Print Assumptions C105_solution_hexahedra.

(** Runs of the program on a given mesh with a given method, from files that may
    differ in the time step and the final time, on any numbers of ranks: one constant
    [C] for all of them. *)
Theorem C105_program_quads : forall m bt p gamma ft st u T Y, mesh_wf m -> 0 <= T -> quad_exact m bt p gamma ft u T Y ->
  good_quads m -> basis_for EQuad bt -> supported bt p -> order_ok p -> 1 < gamma -> small m (nfun bt p) 4 ->
  exists C d, 0 <= C /\ 0 < d /\ forall inputs meshes argv metis n inp cfg N g,
    (1 <= n)%Z -> reads inputs meshes argv inp m -> asks_for inp cfg -> enough_data inp cfg -> parts_asked inp n -> metis_valid metis m n ->
    cf_dim cfg = 2%Z -> cf_physics cfg = Euler -> cf_basis cfg = bt -> cf_order cfg = p -> ph_gamma (cf_phys cfg) = gamma -> cf_flux cfg = ft -> cf_stepper cfg = st ->
    starts_as 2 (cf_ic cfg) (cf_phys cfg) 0 u -> num_iterations (cf_end cfg) (cf_dt cfg) = Ok N ->
    let dt := B2R (cf_dt cfg) in let time := INR (Z.to_nat N) * dt in
    0 < dt <= d -> time <= T -> program inputs meshes argv metis n g ->
    exists c, g = Ok (solution_file m (nfun bt p) 4 time c) /\
      forall e j k, (0 <= e < gm_num_elems m)%Z -> (0 <= j < nfun bt p)%Z -> (0 <= k < 4)%Z -> Rabs (c e j k - Y time e j k) <= C * dt ^ order_of st.
Proof.
  intros m bt p gamma ft st u T Y Wm HT EX GQ BF Sup Op Gm SM.
  destruct (C105_solution_quads m bt p gamma ft u T Y st Wm HT EX) as (C & d & HC & Hd & H). exists C, d. split; [exact HC|]. split; [exact Hd|].
  intros inputs meshes argv metis n inp cfg N g Hn RE AF ED PA MV D2 EU <- <- <- <- <- SA EN dt time Hdt Ht PR.
  destruct (C84_solution_quads inputs meshes argv metis n inp m cfg N u g Hn RE AF ED D2 EU PA MV EN GQ BF Sup Op Gm SA SM PR) as (c & Q & ->).
  exists c. split; [reflexivity|]. exact (H dt (Z.to_nat N) c Hdt Ht Q).
Qed.
Print Assumptions C105_program_quads.

Theorem C105_program_hexahedra : forall m bt p gamma ft st u T Y, mesh_wf m -> 0 <= T -> hex_exact m bt p gamma ft u T Y ->
  good_hexes m -> basis_for EHex bt -> supported bt p -> order_ok p -> 1 < gamma -> small m (nfun bt p) 5 ->
  exists C d, 0 <= C /\ 0 < d /\ forall inputs meshes argv metis n inp cfg N g,
    (1 <= n)%Z -> reads inputs meshes argv inp m -> asks_for inp cfg -> enough_data inp cfg -> parts_asked inp n -> metis_valid metis m n ->
    cf_dim cfg = 3%Z -> cf_physics cfg = Euler -> cf_basis cfg = bt -> cf_order cfg = p -> ph_gamma (cf_phys cfg) = gamma -> cf_flux cfg = ft -> cf_stepper cfg = st ->
    starts_as 3 (cf_ic cfg) (cf_phys cfg) 0 u -> num_iterations (cf_end cfg) (cf_dt cfg) = Ok N ->
    let dt := B2R (cf_dt cfg) in let time := INR (Z.to_nat N) * dt in
    0 < dt <= d -> time <= T -> program inputs meshes argv metis n g ->
    exists c, g = Ok (solution_file m (nfun bt p) 5 time c) /\
      forall e j k, (0 <= e < gm_num_elems m)%Z -> (0 <= j < nfun bt p)%Z -> (0 <= k < 5)%Z -> Rabs (c e j k - Y time e j k) <= C * dt ^ order_of st.
Proof.
  intros m bt p gamma ft st u T Y Wm HT EX GQ BF Sup Op Gm SM.
  destruct (C105_solution_hexahedra m bt p gamma ft u T Y st Wm HT EX) as (C & d & HC & Hd & H). exists C, d. split; [exact HC|]. split; [exact Hd|].
  intros inputs meshes argv metis n inp cfg N g Hn RE AF ED PA MV D2 EU <- <- <- <- <- SA EN dt time Hdt Ht PR.
  destruct (C84_solution_hexahedra inputs meshes argv metis n inp m cfg N u g Hn RE AF ED D2 EU PA MV EN GQ BF Sup Op Gm SA SM PR) as (c & Q & ->).
  exists c. split; [reflexivity|]. exact (H dt (Z.to_nat N) c Hdt Ht Q).
Qed.
Print Assumptions C105_program_hexahedra.

(** A nonlinear system that meets the hypotheses: y' = - y^2 in every entry, with the
    solution 1/(1+t). *)
Example C105_ode_demo : let ok := fun _ _ _ : Z => True in let f := fun (c : arr3) (e j k : Z) => - (c e j k) ^ 2 in let Y := fun (t : R) (_ _ _ : Z) => / (1 + t) in
  solves_ode ok f 1 Y /\
  smooth_along ok f 1 Y (fun t v e j k => - 2 * / (1 + t) * v e j k) (fun _ v w e j k => - 2 * v e j k * w e j k) (fun _ _ _ _ _ _ _ => 0) 4 1 /\
  exists C d, 0 <= C /\ 0 < d /\ forall h n, 0 < h <= d -> INR n * h <= 1 ->
    Rabs (Nat.iter n (ode_step f RungeKutta4 h) (Y 0) 0%Z 0%Z 0%Z - / (1 + INR n * h)) <= C * h ^ 4.
Proof.
  intros ok f Y. assert (HY : forall t, 0 <= t <= 1 -> 0 < / (1 + t) <= 1).
  { intros t Ht. split; [apply Rinv_0_lt_compat; lra|]. apply Rle_trans with (/ 1); [apply Rinv_le_contravar; lra|rewrite Rinv_1; lra]. }
  assert (SO : solves_ode ok f 1 Y).
  { intros t e j k Ht _. unfold Y, f. replace (- (/ (1 + t)) ^ 2) with ((0 * (1 + t) - (0 + 1) * 1) / Rsqr (1 + t)) by (unfold Rsqr; field; lra).
    apply (derivable_pt_lim_ext (fun s => 1 / (1 + s))%R); [intros s; unfold Rdiv; ring|].
    apply (derivable_pt_lim_div (fun _ => 1) (fun s => 1 + s)); [apply derivable_pt_lim_const| |lra].
    apply derivable_pt_lim_plus; [apply derivable_pt_lim_const|apply derivable_pt_lim_id]. }
  assert (SA : smooth_along ok f 1 Y (fun t v e j k => - 2 * / (1 + t) * v e j k) (fun _ v w e j k => - 2 * v e j k * w e j k) (fun _ _ _ _ _ _ _ => 0) 4 1).
  { constructor; try lra; try (intros; unfold linear; intros; ring).
    - intros t Ht e j k _. unfold f, Y. specialize (HY t Ht). rewrite Rabs_Ropp, Rabs_pos_eq by (apply pow_le; lra). nra.
    - intros t v a Ht Hv e j k Ok. specialize (HY t Ht). specialize (Hv e j k Ok). rewrite !Rabs_mult, (Rabs_pos_eq (/ (1 + t))), (Rabs_left (-2)) by lra.
      pose proof (Rabs_pos (v e j k)). nra.
    - intros t v w a b Ht Hv Hw e j k Ok. specialize (Hv e j k Ok). specialize (Hw e j k Ok). rewrite !Rabs_mult, (Rabs_left (-2)) by lra.
      pose proof (Rabs_pos (v e j k)). pose proof (Rabs_pos (w e j k)). assert (Rabs (v e j k) * Rabs (w e j k) <= a * b) by (apply Rmult_le_compat; lra).
      assert (0 <= a * b) by (apply Rmult_le_pos; lra). lra.
    - intros t v w x a b c Ht Hv Hw Hx e j k Ok. specialize (Hv e j k Ok). specialize (Hw e j k Ok). specialize (Hx e j k Ok). rewrite Rabs_R0.
      pose proof (Rabs_pos (v e j k)). pose proof (Rabs_pos (w e j k)). pose proof (Rabs_pos (x e j k)). repeat apply Rmult_le_pos; lra.
    - intros t u v b Ht Hu Hv Hb e j k Ok. specialize (HY t Ht). specialize (Hu e j k Ok). specialize (Hv e j k Ok). specialize (Hb e j k Ok). unfold minus3, f, Y in *.
      replace (- u e j k ^ 2 - - v e j k ^ 2) with (- (u e j k + v e j k) * (u e j k - v e j k)) by ring. rewrite Rabs_mult, Rabs_Ropp.
      apply Rmult_le_compat; try apply Rabs_pos; [|exact Hb]. revert Hu Hv. unfold Rabs. repeat destruct (Rcase_abs _); lra.
    - intros t v b Ht Hv Hb e j k Ok. specialize (Hv e j k Ok). unfold f, Y. match goal with |- Rabs ?x <= _ => replace x with 0 by (field; lra) end. rewrite Rabs_R0.
      pose proof (Rabs_pos (v e j k)). apply Rmult_le_pos; [lra|apply pow_le; lra]. }
  split; [exact SO|]. split; [exact SA|]. destruct (converges ok f 1 Y _ _ _ 4 1 ltac:(lra) SO SA RungeKutta4) as (C & d & HC & Hd & H). exists C, d. split; [exact HC|]. split; [exact Hd|].
  intros h n Hh Hn. apply (H h n (Y 0) Hh Hn); [|exact I]. intros e j k _. unfold minus3. rewrite Rminus_diag_eq, Rabs_R0 by reflexivity. lra.
Qed.
