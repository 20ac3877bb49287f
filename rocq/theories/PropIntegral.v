(** PropIntegral.v -- C65: the domain integrals of mass, momentum and energy do
    not change over any number of time steps (no boundary fluxes: see C24). *)
From Coq Require Import ZArith List Lia Reals Lra Bool Permutation FunctionalExtensionality.
From Verif Require Import Base RBase MeshModel MeshSpec ShapeModel ShapeProof LinAlgModel LinAlgProof PropLinAlg PhysModel PhysSpec PhysProof
  CommModel CommSpec SolverModel SolverProof SolverFaces SolverSpec SolverMesh SolverConserve SolverFlux PropMesh PropComm PropSolver PropConserve PropResidual
  StepModel StepProof PropStep.
Import ListNotations.
Local Open Scope R_scope.

(** ** Specification *)

(** Quadrature integral over the whole domain of state variable [k]: sum over
    ranks, local elements and volume points; [B]: basis values, [w]: weights,
    [dj r e q]: Jacobian determinants. *)
Definition domain_integral {A} (pm : Z -> pmesh A) (n nq nb : Z) (B : arr2) (w : arr1) (dj : Z -> arr2) (k : Z) (U : Z -> arr3) : R :=
  rsum n (fun r => rsum (pm_num_elems_part (pm r)) (fun e => rsum nq (fun q =>
    w q * dj r e q * rsum nb (fun j => B q j * U r e j k)))).

(** The views of rank r: local elements x basis functions x state variables. *)
Definition shape_of {A} (s : eshape) (pm : Z -> pmesh A) (nb r : Z) : ext3 := (pm_num_elems_part (pm r), nb, (space_dim s + 2)%Z).

(** A residual evaluation of all ranks that meets admissible face states; the
    work arrays and the residual array are reused by the next one. *)
Definition evaluation {A} (s : eshape) (m : gmesh A) ep (pm : Z -> pmesh A) n nqf gamma (D : Z -> rdata)
  (U : Z -> arr3) (w : (Z -> rviews) * (Z -> arr3)) (rs : Z -> arr3) (w' : (Z -> rviews) * (Z -> arr3)) : Prop :=
  exists UL UR, evaluates m ep pm n D U (snd w) (fst w) UL UR (fst w') rs /\ snd w' = rs /\
  (forall r lf iq, (0 <= r < n)%Z -> (0 <= lf < pm_num_ifaces_part (pm r))%Z -> (0 <= iq < nqf)%Z ->
     admissible (space_dim s) gamma (UL r lf iq) /\ admissible (space_dim s) gamma (UR r lf iq)).

(** The program all ranks run in one step: forward Euler or RK4, with any step
    size, time and previous contents of the stepper's work arrays. *)
Inductive a_step {A} (s : eshape) (pm : Z -> pmesh A) (n nb : Z) (iMM : Z -> arr3) (U : Z -> arr3) : (Z -> prog) -> Prop :=
| step_fe l order dt t : (forall r, (0 <= r < n)%Z -> elem_orders (shape_of s pm nb r) (order r)) ->
    a_step s pm n nb iMM U (fun r => FE_step l (shape_of s pm nb r) (order r) dt (iMM r) (U r) t)
| step_rk l order dt t w : (forall r, (0 <= r < n)%Z -> elem_orders (shape_of s pm nb r) (order r)) ->
    a_step s pm n nb iMM U (fun r => RK4_step l (shape_of s pm nb r) (order r) dt (iMM r) (w r) (U r) t).

Inductive stepping {A} s m ep (pm : Z -> pmesh A) n nqf nb gamma D iMM : nat -> (Z -> arr3) -> (Z -> rviews) * (Z -> arr3) -> (Z -> arr3) -> (Z -> rviews) * (Z -> arr3) -> Prop :=
| stepping_0 U w : stepping s m ep pm n nqf nb gamma D iMM 0 U w U w
| stepping_S k U w P U1 w1 U2 w2 :
    a_step s pm n nb iMM U P -> run_all n (evaluation s m ep pm n nqf gamma D) P w U1 w1 ->
    stepping s m ep pm n nqf nb gamma D iMM k U1 w1 U2 w2 -> stepping s m ep pm n nqf nb gamma D iMM (S k) U w U2 w2.

(** ** Proof *)

Fixpoint feed (p : prog) (l : list arr3) : option (arr3 * R) :=
  match p, l with
  | Done U t, [] => Some (U, t)
  | Ask _ _ k, a :: l => feed (k a) l
  | _, _ => None
  end.

Lemma run_all_feed {W} n (ev : (Z -> arr3) -> W -> (Z -> arr3) -> W -> Prop) (I : W -> Prop) (Q : (Z -> arr3) -> Prop) :
  (forall U w rs w1, I w -> ev U w rs w1 -> Q rs /\ I w1) ->
  forall P w out w', run_all n ev P w out w' -> I w -> I w' /\
  exists rss, Forall Q rss /\ forall r, (0 <= r < n)%Z -> exists t, feed (P r) (map (fun rs => rs r) rss) = Some (out r, t).
Proof.
  intros HI P w out w' H. induction H as [P w out tm H|P w t U k rs w1 out w2 H E H1 IH]; intros Hw.
  - split; [exact Hw|]. exists []. split; [constructor|]. intros r Hr. exists (tm r). rewrite H by exact Hr. reflexivity.
  - destruct (HI _ _ _ _ Hw E) as [HQ H2]. destruct (IH H2) as [H3 (rss & F & G)]. split; [exact H3|].
    exists (rs :: rss). split; [constructor; assumption|]. intros r Hr. rewrite H by exact Hr. cbn [map feed]. apply G, Hr.
Qed.

Definition solve_mass (nb : Z) (iMM rs : arr3) : arr3 := fun e i k => rsum nb (fun b => iMM e i b * rs e b k).

Lemma fe_feed l e0 e1 e2 order dt iMM U t rss out t' : fits (e0, e1, e2) -> elem_orders (e0, e1, e2) order ->
  feed (FE_step l (e0, e1, e2) order dt iMM U t) rss = Some (out, t') ->
  exists a, rss = [a] /\ forall i j k, within3 (e0, e1, e2) i j k = true -> out i j k = U i j k + dt * solve_mass e1 iMM a i j k.
Proof.
  intros HF HO E. destruct (fits_num _ HF) as [EN EX]. unfold FE_step in E. destruct rss as [|a [|b rss]]; try discriminate E.
  exists a. split; [reflexivity|]. intros i j k W. cbn [feed] in E. injection E as <- _.
  rewrite EN, axpy_data_eq by exact EX. rewrite W. cbn [nbas nst].
  rewrite (mult_inv_mass_box _ e0) by (try assumption; apply HO). unfold solve_mass. ring.
Qed.

Lemma rk_feed l e0 e1 e2 order dt iMM w U t rss out t' : fits (e0, e1, e2) -> elem_orders (e0, e1, e2) order ->
  feed (RK4_step l (e0, e1, e2) order dt iMM w U t) rss = Some (out, t') ->
  exists a b c d, rss = [a; b; c; d] /\ forall i j k, within3 (e0, e1, e2) i j k = true ->
    out i j k = U i j k + dt / 6 * (solve_mass e1 iMM a i j k + 2 * solve_mass e1 iMM b i j k + 2 * solve_mass e1 iMM c i j k + solve_mass e1 iMM d i j k).
Proof.
  intros HF HO E. destruct (fits_num _ HF) as [EN EX]. unfold RK4_step in E. cbv zeta in E. destruct rss as [|a [|b [|c [|d [|x rss]]]]]; try discriminate E.
  exists a, b, c, d. split; [reflexivity|]. intros i j k W. cbn [feed] in E. injection E as <- _.
  rewrite EN, !axpy_data_eq, !copy_data_eq by exact EX. rewrite W. cbn [nbas nst].
  rewrite !(mult_inv_mass_box _ e0) by (try assumption; apply HO). unfold solve_mass. lra.
Qed.

Lemma elem_integral nq nb (B : arr2) (w dj c X : arr1) :
  (forall q, (0 <= q < nq)%Z -> rsum nb (fun i => c i * B q i) = 1) ->
  rsum nq (fun q => w q * dj q * rsum nb (fun j => B q j * X j)) =
  rsum nb (fun i => c i * rsum nb (fun j => mass nq B w dj i j * X j)).
Proof.
  intros C.
  transitivity (rsum nq (fun q => rsum nb (fun i => rsum nb (fun j => c i * (w q * dj q * B q i * B q j) * X j)))).
  - apply rsum_ext. intros q Hq.
    transitivity (rsum nb (fun i => c i * B q i) * (w q * dj q * rsum nb (fun j => B q j * X j))); [rewrite C by exact Hq; ring|].
    rewrite <- rsum_scal_r. apply rsum_ext. intros i Hi. rewrite <- rsum_scal, <- rsum_scal. apply rsum_ext. intros j Hj. ring.
  - rewrite rsum_swap. apply rsum_ext. intros i Hi. rewrite rsum_swap, <- rsum_scal. apply rsum_ext. intros j Hj.
    unfold mass. rewrite <- rsum_scal_r, <- rsum_scal. apply rsum_ext. intros q Hq. ring.
Qed.

Lemma elem_solve nq nb (B : arr2) (w dj c R0 : arr1) (iM : arr2) :
  (forall q, (0 <= q < nq)%Z -> rsum nb (fun i => c i * B q i) = 1) -> inverse_of nb (mass nq B w dj) iM ->
  rsum nq (fun q => w q * dj q * rsum nb (fun j => B q j * rsum nb (fun b => iM j b * R0 b))) = rsum nb (fun i => c i * R0 i).
Proof.
  intros C I. rewrite (elem_integral nq nb B w dj c (fun j => rsum nb (fun b => iM j b * R0 b)) C).
  apply rsum_ext. intros i Hi. f_equal.
  transitivity (rsum nb (fun b => rsum nb (fun j => mass nq B w dj i j * iM j b) * R0 b)).
  - rewrite (rsum_ext nb _ (fun j => rsum nb (fun b => mass nq B w dj i j * iM j b * R0 b))).
    + rewrite rsum_swap. apply rsum_ext. intros b Hb. now rewrite rsum_scal_r.
    + intros j Hj. rewrite <- rsum_scal. apply rsum_ext. intros. ring.
  - rewrite (rsum_ext nb _ (fun b => R0 b * (if (b =? i)%Z then 1 else 0))).
    + now rewrite rsum_delta_r.
    + intros b Hb. rewrite (proj1 (I i b Hi Hb)), (Z.eqb_sym i b). ring.
Qed.

Section Amount.
Context {A : Type} (pm : Z -> pmesh A) (n nq nb : Z) (B : arr2) (w : arr1) (dj : Z -> arr2) (k : Z).
Let DI := domain_integral pm n nq nb B w dj k.

Lemma DI_combo (out U K : Z -> arr3) a :
  (forall r e j, (0 <= r < n)%Z -> (0 <= e < pm_num_elems_part (pm r))%Z -> (0 <= j < nb)%Z ->
     out r e j k = U r e j k + a * K r e j k) -> DI out = DI U + a * DI K.
Proof.
  intros H. unfold DI, domain_integral.
  rewrite <- rsum_scal, <- rsum_plus. apply rsum_ext. intros r Hr.
  rewrite <- rsum_scal, <- rsum_plus. apply rsum_ext. intros e He.
  rewrite <- rsum_scal, <- rsum_plus. apply rsum_ext. intros q Hq.
  rewrite (rsum_ext nb (fun j => B q j * out r e j k) (fun j => B q j * U r e j k + a * (B q j * K r e j k))).
  - rewrite rsum_plus, rsum_scal. ring.
  - intros j Hj. rewrite H by assumption. ring.
Qed.

Lemma DI_solve (iMM rs : Z -> arr3) c :
  (forall q, (0 <= q < nq)%Z -> rsum nb (fun i => c i * B q i) = 1) ->
  (forall r e, (0 <= r < n)%Z -> (0 <= e < pm_num_elems_part (pm r))%Z -> inverse_of nb (mass nq B w (dj r e)) (iMM r e)) ->
  DI (fun r => solve_mass nb (iMM r) (rs r)) = total pm n nb c k rs.
Proof.
  intros C I. unfold DI, domain_integral, total, solve_mass. apply rsum_ext. intros r Hr. apply rsum_ext. intros e He.
  exact (elem_solve nq nb B w (dj r e) c (fun b => rs r e b k) (iMM r e) C (I r e Hr He)).
Qed.
End Amount.

Theorem C65_integrals_conserved :
  forall A (zero : A) iter n m ep pm s nqf nb gamma ft fb fw D iMM c nq B w dj steps U v rs U' v' rs',
  run_wf iter n m ep -> partitioned zero iter n m ep pm ->
  faces_valid s m -> faces_distinct m -> face_points s nqf -> 1 < gamma ->
  same_setup s m pm n nqf nb gamma ft fb fw D -> normals_agree s pm n nqf D ->
  (* c: coefficients of the constant function 1, also at the points of the mass matrix's quadrature *)
  constant_one s n nqf nb fb D c -> (forall q, (0 <= q < nq)%Z -> rsum nb (fun i => c i * B q i) = 1) ->
  (forall r e, (0 <= r < n)%Z -> (0 <= e < pm_num_elems_part (pm r))%Z -> inverse_of nb (mass nq B w (dj r e)) (iMM r e)) ->
  (forall r, (0 <= r < n)%Z -> fits (shape_of s pm nb r)) ->
  boundary_zero s m pm n nqf v ->
  stepping s m ep pm n nqf nb gamma D iMM steps U (v, rs) U' (v', rs') ->
  forall k, (0 <= k < space_dim s + 2)%Z ->
    domain_integral pm n nq nb B w dj k U' = domain_integral pm n nq nb B w dj k U.
Proof.
  intros A zero iter n m ep pm s nqf nb gamma ft fb fw D iMM c nq B w dj steps U v rs U' v' rs'
    WF PT HV HD HP Hg SS NA CO CB IM FT BZ ST k Hk.
  set (I := fun x : (Z -> rviews) * (Z -> arr3) => boundary_zero s m pm n nqf (fst x)).
  set (Q := fun rs : Z -> arr3 => total pm n nb c k rs = 0).
  assert (EV : forall U x rs x1, I x -> evaluation s m ep pm n nqf gamma D U x rs x1 -> Q rs /\ I x1).
  { intros U0 x rs0 x1 H0 (UL & UR & E & _ & AD).
    destruct (C24_residual_conserves A zero iter n m ep pm s nqf nb gamma ft fb fw D U0 (snd x) (fst x) UL UR (fst x1) rs0 c
      WF PT HV HD HP Hg SS NA CO H0 E AD) as [T Z]. split; [apply T, Hk|exact Z]. }
  assert (IN : forall r e j, (0 <= r < n)%Z -> (0 <= e < pm_num_elems_part (pm r))%Z -> (0 <= j < nb)%Z ->
    within3 (pm_num_elems_part (pm r), nb, (space_dim s + 2)%Z) e j k = true) by (intros; now apply within3_intro).
  set (x0 := (v, rs)) in *. set (x1 := (v', rs')) in *. assert (I0 : I x0) by exact BZ. clearbody x0 x1. clear v rs v' rs' BZ.
  induction ST as [U x|ks U x P U1 x1 U2 x2 HS RA HN IH]; [reflexivity|].
  destruct (run_all_feed n _ I Q EV P x U1 x1 RA I0) as [I1 (rss & FQ & G)].
  rewrite (IH I1). clear IH HN.
  destruct (Z.le_gt_cases n 0) as [Hn|Hn]; [unfold domain_integral; rewrite !rsum_0 by lia; reflexivity|].
  assert (R0 : (0 <= 0 < n)%Z) by lia.
  destruct HS as [l order dt t HO|l order dt t w0 HO].
  - destruct (G 0%Z R0) as [t0 G0]. destruct (fe_feed _ _ _ _ _ _ _ _ _ _ _ _ (FT 0%Z R0) (HO 0%Z R0) G0) as (a0 & E0 & _).
    destruct rss as [|rs1 [|? ?]]; try discriminate E0. inversion_clear FQ as [|? ? Q1 _].
    rewrite (DI_combo pm n nq nb B w dj k U1 U (fun r => solve_mass nb (iMM r) (rs1 r)) dt).
    + rewrite (DI_solve pm n nq nb B w dj k iMM rs1 c CB IM), Q1. ring.
    + intros r e j Hr He Hj. destruct (G r Hr) as [t1 G1].
      destruct (fe_feed _ _ _ _ _ _ _ _ _ _ _ _ (FT r Hr) (HO r Hr) G1) as (a1 & E1 & F1). injection E1 as <-.
      apply F1, IN; assumption.
  - destruct (G 0%Z R0) as [t0 G0]. destruct (rk_feed _ _ _ _ _ _ _ _ _ _ _ _ _ (FT 0%Z R0) (HO 0%Z R0) G0) as (a0 & b0 & c0 & d0 & E0 & _).
    destruct rss as [|ra [|rb [|rc [|rd [|? ?]]]]]; try discriminate E0.
    inversion_clear FQ as [|? ? Qa FQ1]. inversion_clear FQ1 as [|? ? Qb FQ2]. inversion_clear FQ2 as [|? ? Qc FQ3]. inversion_clear FQ3 as [|? ? Qd _].
    set (K := fun (rs : Z -> arr3) r => solve_mass nb (iMM r) (rs r)).
    set (V1 := fun r e j k => U r e j k + dt / 6 * K ra r e j k).
    set (V2 := fun r e j k => V1 r e j k + dt / 3 * K rb r e j k).
    set (V3 := fun r e j k => V2 r e j k + dt / 3 * K rc r e j k).
    rewrite (DI_combo pm n nq nb B w dj k U1 V3 (K rd) (dt / 6)).
    + rewrite (DI_combo pm n nq nb B w dj k V3 V2 (K rc) (dt / 3)) by reflexivity.
      rewrite (DI_combo pm n nq nb B w dj k V2 V1 (K rb) (dt / 3)) by reflexivity.
      rewrite (DI_combo pm n nq nb B w dj k V1 U (K ra) (dt / 6)) by reflexivity.
      unfold K. rewrite !(DI_solve pm n nq nb B w dj k iMM _ c CB IM), Qa, Qb, Qc, Qd. ring.
    + intros r e j Hr He Hj. destruct (G r Hr) as [t1 G1].
      destruct (rk_feed _ _ _ _ _ _ _ _ _ _ _ _ _ (FT r Hr) (HO r Hr) G1) as (a1 & b1 & c1 & d1 & E1 & F1). injection E1 as <- <- <- <-.
      rewrite F1 by (apply IN; assumption). unfold V3, V2, V1, K. field.
Qed.
Print Assumptions C65_integrals_conserved.

(** The 2x2 mesh on three ranks takes a forward-Euler step. *)
Example C65_demo : let v0 := fun _ : Z => mkRV zero3 zero3 zero3 zero3 zero3 in
  (exists U' x', stepping EQuad demo_mesh demo_ep demo_pm 3 3 1 2 demo_D (fun _ _ _ _ => 1) 1 (fun _ => demo_U) (v0, fun _ => zero3) U' x') /\
  inverse_of 1 (mass 1 (fun _ _ => 1) (fun _ => 1) (fun _ => 1)) (fun _ _ => 1) /\
  (forall r, (0 <= r < 3)%Z -> fits (shape_of EQuad demo_pm 1 r)).
Proof.
  intros v0. split; [|split].
  - destruct demo_setup as (S1 & S2 & S3 & S4 & S5). destruct C23_demo as (_ & FV & FD & FP).
    destruct (C64_residual_well_defined Z 0%Z (fun _ l => rev l) 3 demo_mesh demo_ep demo_pm EQuad 3 1 2 HLLC _ _ demo_D (fun _ => demo_U) (fun _ => zero3)
      v0 demo_run demo_partitioned FV FD FP ltac:(lra) S1 S2) as (UL & UR & v2 & rs2 & E & _ & AD).
    + intros. now apply S4.
    + intros. apply S5.
    + eexists. exists (v2, rs2). eapply stepping_S with (w1 := (v2, rs2)); [|eapply ra_ask with (w1 := (v2, rs2)) (rs := rs2)|apply stepping_0].
      * apply (step_fe EQuad demo_pm 3 1 (fun _ _ _ _ => 1) (fun _ => demo_U) LRight (fun r _ => zseq (pm_num_elems_part (demo_pm r))) (1/10) 0).
        intros r Hr st. apply Permutation_refl.
      * intros r Hr. unfold FE_step. reflexivity.
      * exists UL, UR. split; [exact E|]. split; [reflexivity|exact AD].
      * apply ra_done with (tm := fun _ => 0 + 1 / 10). intros r Hr. reflexivity.
  - intros i j Hi Hj. unfold mass. rewrite !rsum_1. replace i with 0%Z by lia. replace j with 0%Z by lia. cbn. split; ring.
  - intros r Hr. assert (C : (r = 0 \/ r = 1 \/ r = 2)%Z) by lia. unfold fits, shape_of, extents_ok, entries.
    destruct C as [-> | [-> | ->]]; repeat split; vm_compute; congruence.
Qed.
