(** PropTotal.v -- C86: a run completes as long as the discontinuous Galerkin
    solution itself stays physical. *)
From Coq Require Import ZArith List Lia Reals Lra String Bool Permutation.
From Flocq Require Import BinarySingleNaN.
From Verif Require Import Base RBase MeshModel MeshSpec MeshProof PropMesh PhysModel PhysSpec PhysProof SolverModel SolverSpec SolverProof SolverMesh PropSolver PropConserve PropResidual.
From Verif Require SetupProof.
From Verif Require Import StepModel StepProof PropStep PropIntegral DGSpec DGProof.
Import ListNotations.
Local Open Scope R_scope.

(** * Specification *)

(** The solution with coefficients [c] is physical where the scheme looks at it:
    positive density at the volume points, positive density and pressure on
    both sides of the interior faces. *)
Definition physical (S : scheme) (m : gmesh R) (c : arr3) : Prop :=
  (forall e q, (0 <= e < gm_num_elems m)%Z -> (0 <= q < sc_nq S)%Z -> 0 < density (dg_state S c e q)) /\
  (forall f sd q, (0 <= f < gm_nIF m)%Z -> (0 <= q < sc_nqf S)%Z ->
     admissible (space_dim (sc_shape S)) (sc_gamma S) (dg_trace S c (side_elem m f sd) (side_face m f sd) q)).

(** The states at which a step evaluates the residual. *)
Definition stages (S : scheme) (m : gmesh R) (iM : arr3) (st : stepper) (dt : R) (c : arr3) : list arr3 :=
  match st with
  | ForwardEuler => [c]
  | RungeKutta4 =>
    let c2 := shift c (dt / 2) (dg_rate S m iM c) in
    let c3 := shift c (dt / 2) (dg_rate S m iM c2) in
    let c4 := shift c dt (dg_rate S m iM c3) in [c; c2; c3; c4]
  end.
Fixpoint stays_physical (S : scheme) (m : gmesh R) (iM : arr3) (steps : list (stepper * R)) (c : arr3) : Prop :=
  match steps with
  | [] => True
  | (st, dt) :: rest => Forall (physical S m) (stages S m iM st dt c) /\ stays_physical S m iM rest (dg_step S m iM st dt c)
  end.

(** * Proof *)
Section Total.
Context (zero : R) (iter : Z -> list Z -> list Z) (n : Z) (m : gmesh R) (ep : list Z) (pm : Z -> pmesh R).
Context (WF : run_wf iter n m ep) (PT : partitioned zero iter n m ep pm).
Context (S : scheme) (D : Z -> rdata) (RS : runs_scheme S m pm n D).
Let s := sc_shape S.
Let dim := space_dim s.
Let nqf := sc_nqf S.
Let nb := sc_nb S.
Context (HV : faces_valid s m) (HD : faces_distinct m) (HP : face_points s nqf) (Hg : 1 < sc_gamma S).
Context (iMM : Z -> arr3) (iM : arr3).
Context (HM : forall r le e i b, (0 <= r < n)%Z -> rd (pm_l2g_elem (pm r)) le = Ok e -> (0 <= i < nb)%Z -> (0 <= b < nb)%Z -> iMM r le i b = iM e i b).
Context (FT : forall r, (0 <= r < n)%Z -> fits (shape_of s pm nb r)).

Lemma total_evaluation c U w : physical S m c -> holds pm n nb (dim + 2) c U ->
  exists rs w1, evaluation s m ep pm n nqf (sc_gamma S) D U w rs w1.
Proof.
  intros (PV & PF) HU. pose proof (rs_same _ _ _ _ _ RS) as SS.
  assert (Hd : dim23 dim) by (unfold dim, dim23; destruct s; cbn; lia).
  destruct (C04_interior_faces R zero iter n m ep pm WF PT) as (_ & H4).
  destruct (C64_evaluates R zero iter n m ep pm s nqf nb (sc_gamma S) (sc_flux S) (sc_fval S) (sc_fwts S) D U (snd w) (fst w) WF PT HV HD HP Hg SS)
    as (UL & UR & v2 & rs2 & E & _ & AD).
  - intros r lf iq Hr Hlf Hiq. destruct (local_faces zero iter n m ep pm WF PT r lf Hr Hlf) as (f & Rf).
    destruct (rs_face _ _ _ _ _ RS r lf f iq Hr Rf Hiq) as (NZ & EN). fold dim.
    intros X. apply NZ. rewrite <- X. apply rsum_ext. intros j Hj. fold dim in EN. now rewrite !EN.
  - intros r le q Hr Hle Hq. destruct (rs_rule _ _ _ _ _ RS r Hr) as (EQ & RU). rewrite EQ in Hq.
    destruct (C01_element_ownership R zero iter n m ep pm WF PT) as (_ & _ & H1 & _). destruct (H1 r Hr) as (_ & EL). rewrite EL in Hle.
    destruct (rd_total (pm_l2g_elem (pm r)) le Hle) as (e & Re).
    assert (He : (0 <= e < gm_num_elems m)%Z) by exact (SetupProof.owned_elem zero iter n m ep pm WF PT r le e Hr Re).
    specialize (PV e q He Hq). unfold density, vol_state, dg_state in *.
    destruct (ss_sizes _ _ _ _ _ _ _ _ _ _ _ SS r Hr) as (_ & _ & _ & -> & _).
    rewrite (rsum_ext _ _ (fun j => sc_val S q j * c e j 0%Z)); [lra|]. intros j Hj. destruct (RU q Hq) as (_ & RU2). destruct (RU2 j Hj) as (-> & _).
    f_equal. apply (HU r le e); try assumption. destruct Hd; lia.
  - intros f sd e kf o r le q HS Hr Re Hq.
    destruct (face_of_side iter n m ep WF S f sd e kf o HS) as (Hf & E1 & E2 & _).
    specialize (PF f sd q Hf Hq). rewrite E1, E2 in PF.
    apply (admissible_ext _ _ (dg_trace S c e kf q)); [exact Hd| |exact PF].
    intros k Hk. unfold dg_trace, face_trace. apply rsum_ext. intros j Hj. f_equal. symmetry. now apply (HU r le e).
  - exists rs2, (v2, rs2), UL, UR. split; [exact E|]. split; [reflexivity|exact AD].
Qed.

(** One more evaluation. *)
Lemma total_ask c t U k w : (0 < n)%Z -> physical S m c -> holds pm n nb (dim + 2) c U -> boundary_zero s m pm n nqf (fst w) ->
  exists rs w1, boundary_zero s m pm n nqf (fst w1) /\
    (forall r le e i k, (0 <= r < n)%Z -> rd (pm_l2g_elem (pm r)) le = Ok e -> (0 <= i < nb)%Z -> (0 <= k < dim + 2)%Z ->
      rsum nb (fun b => iMM r le i b * rs r le b k) = dg_rate S m iM c e i k) /\
    forall U1 w2, run_all n (evaluation s m ep pm n nqf (sc_gamma S) D) (fun r => k r (rs r)) w1 U1 w2 ->
      run_all n (evaluation s m ep pm n nqf (sc_gamma S) D) (fun r => Ask (t r) (U r) (k r)) w U1 w2.
Proof.
  intros Hn PC HU BZ. destruct (total_evaluation c U w PC HU) as (rs & w1 & E).
  destruct (answer zero iter n m ep pm WF PT S D RS HV HD HP Hg iMM iM HM c U w rs w1 HU BZ E) as (B & A).
  exists rs, w1. split; [exact B|]. split; [exact A|]. intros U1 w2 RA.
  eapply ra_ask; [intros r Hr; reflexivity|exact E|exact RA].
Qed.

Lemma total_step st l order dt wk c U t w : (0 < n)%Z -> holds pm n nb (dim + 2) c U -> boundary_zero s m pm n nqf (fst w) ->
  (forall r, (0 <= r < n)%Z -> elem_orders (shape_of s pm nb r) (order r)) ->
  Forall (physical S m) (stages S m iM st dt c) ->
  exists U1 w1, run_all n (evaluation s m ep pm n nqf (sc_gamma S) D)
      (fun r => step_program st l (shape_of s pm nb r) (order r) dt (iMM r) (wk r) (U r) t) w U1 w1.
Proof.
  intros Hn HU BZ HO FP.
  assert (SH : forall r, shape_of s pm nb r = (pm_num_elems_part (pm r), nb, (dim + 2)%Z)) by reflexivity.
  assert (ENT : forall r, (0 <= r < n)%Z -> num_entries (shape_of s pm nb r) = entries (shape_of s pm nb r) /\ extents_ok (shape_of s pm nb r)).
  { intros r Hr. now apply fits_num, FT. }
  destruct st; cbn [step_program stages] in *.
  - apply Forall_inv in FP. unfold FE_step. cbv zeta.
    match goal with |- exists U1 w1, run_all n _ (fun r => Ask t (U r) (@?k r)) w U1 w1 => destruct (total_ask c (fun _ => t) U k w Hn FP HU BZ) as (rs & w1 & _ & _ & NEXT) end.
    do 2 eexists. apply NEXT. eapply ra_done. intros r Hr. reflexivity.
  - cbv zeta in FP. set (k1 := dg_rate S m iM c) in *. set (c2 := shift c (dt / 2) k1) in *. set (k2 := dg_rate S m iM c2) in *. set (c3 := shift c (dt / 2) k2) in *.
    set (k3 := dg_rate S m iM c3) in *. set (c4 := shift c dt k3) in *.
    inversion FP as [|? ? P1 FP1]; subst. inversion FP1 as [|? ? P2 FP2]; subst. inversion FP2 as [|? ? P3 FP3]; subst. inversion FP3 as [|? ? P4 _]; subst.
    clear FP FP1 FP2 FP3. unfold RK4_step. cbv zeta.
    set (H0 := fun r => copy_data l (shape_of s pm nb r) (U r) (w_Uhold (wk r))).
    assert (BOX : forall o a rr dU r le e j k, (0 <= r < n)%Z -> rd (pm_l2g_elem (pm r)) le = Ok e -> (0 <= j < nb)%Z -> (0 <= k < dim + 2)%Z ->
       rsum nb (fun b => iMM r le j b * rr r le b k) = a ->
       mult_inv_mass_matrix (order r o) (nbas (shape_of s pm nb r)) (nst (shape_of s pm nb r)) dt (iMM r) (rr r) dU le j k = dt * a).
    { intros o a rr dU r le e j k Hr Re Hj Hk Ha. pose proof (local_within zero iter n m ep pm WF PT S r le e j k Hr Re Hj Hk) as W. fold s nb in W. rewrite SH in *. cbn [nbas nst].
      rewrite (mult_inv_mass_box _ (pm_num_elems_part (pm r))) by (try exact W; exact (HO r Hr o)). now rewrite Ha. }
    assert (HH : forall r le e j k, (0 <= r < n)%Z -> rd (pm_l2g_elem (pm r)) le = Ok e -> (0 <= j < nb)%Z -> (0 <= k < dim + 2)%Z -> H0 r le j k = c e j k).
    { intros r le e j k Hr Re Hj Hk. unfold H0. destruct (ENT r Hr) as (EN & EX). rewrite copy_data_eq by exact EX.
      pose proof (local_within zero iter n m ep pm WF PT S r le e j k Hr Re Hj Hk) as W. fold s nb in W. rewrite W. now apply (HU r le e). }
    assert (UPD : forall o a (cc kk : arr3) rr dU V, (forall e j k, cc e j k = c e j k + a * dt * kk e j k) ->
       (forall r le e i k, (0 <= r < n)%Z -> rd (pm_l2g_elem (pm r)) le = Ok e -> (0 <= i < nb)%Z -> (0 <= k < dim + 2)%Z -> rsum nb (fun b => iMM r le i b * rr r le b k) = kk e i k) ->
       holds pm n nb (dim + 2) cc (fun r => update_data l (shape_of s pm nb r) (num_entries (shape_of s pm nb r)) a
         (mult_inv_mass_matrix (order r o) (nbas (shape_of s pm nb r)) (nst (shape_of s pm nb r)) dt (iMM r) (rr r) (dU r)) (H0 r) (V r))).
    { intros o a cc kk rr dU V EC A r le e j k Hr Re Hj Hk. destruct (ENT r Hr) as (EN & EX). rewrite EN, update_data_eq by exact EX.
      pose proof (local_within zero iter n m ep pm WF PT S r le e j k Hr Re Hj Hk) as W. fold s nb in W. rewrite W, (HH r le e) by assumption.
      rewrite (BOX o (kk e j k) rr _ r le e) by (auto; now apply A). rewrite EC. ring. }
    match goal with |- exists U1 w1, run_all n _ (fun r => Ask t (U r) (@?k r)) w U1 w1 => destruct (total_ask c (fun _ => t) U k w Hn P1 HU BZ) as (ra & wa & Ba & Aa & Na) end.
    cbv beta in Na. set (d1 := fun r => mult_inv_mass_matrix (order r 0%nat) (nbas (shape_of s pm nb r)) (nst (shape_of s pm nb r)) dt (iMM r) (ra r) (w_dU1 (wk r))).
    set (V1 := fun r => update_data l (shape_of s pm nb r) (num_entries (shape_of s pm nb r)) 0.5 (d1 r) (H0 r) (U r)).
    assert (HU1 : holds pm n nb (dim + 2) c2 V1). { apply (UPD 0%nat 0.5 c2 k1 ra (fun r => w_dU1 (wk r)) U); [|exact Aa]. intros. unfold c2, shift. lra. }
    match type of Na with forall U1 w2, run_all n _ (fun r => Ask ?tt ?VV (@?k r)) wa U1 w2 -> _ => destruct (total_ask c2 (fun _ => tt) V1 k wa Hn P2 HU1 Ba) as (rb & wb & Bb & Ab & Nb) end.
    cbv beta in Nb. set (d2 := fun r => mult_inv_mass_matrix (order r 1%nat) (nbas (shape_of s pm nb r)) (nst (shape_of s pm nb r)) dt (iMM r) (rb r) (w_dU2 (wk r))).
    set (V2 := fun r => update_data l (shape_of s pm nb r) (num_entries (shape_of s pm nb r)) 0.5 (d2 r) (H0 r) (V1 r)).
    assert (HU2 : holds pm n nb (dim + 2) c3 V2). { apply (UPD 1%nat 0.5 c3 k2 rb (fun r => w_dU2 (wk r)) V1); [|exact Ab]. intros. unfold c3, shift. lra. }
    match type of Nb with forall U1 w2, run_all n _ (fun r => Ask ?tt ?VV (@?k r)) wb U1 w2 -> _ => destruct (total_ask c3 (fun _ => tt) V2 k wb Hn P3 HU2 Bb) as (rc & wc & Bc & Ac & Nc) end.
    cbv beta in Nc. set (d3 := fun r => mult_inv_mass_matrix (order r 2%nat) (nbas (shape_of s pm nb r)) (nst (shape_of s pm nb r)) dt (iMM r) (rc r) (w_dU3 (wk r))).
    set (V3 := fun r => update_data l (shape_of s pm nb r) (num_entries (shape_of s pm nb r)) 1.0 (d3 r) (H0 r) (V2 r)).
    assert (HU3 : holds pm n nb (dim + 2) c4 V3). { apply (UPD 2%nat 1.0 c4 k3 rc (fun r => w_dU3 (wk r)) V2); [|exact Ac]. intros. unfold c4, shift. lra. }
    match type of Nc with forall U1 w2, run_all n _ (fun r => Ask ?tt ?VV (@?k r)) wc U1 w2 -> _ => destruct (total_ask c4 (fun _ => tt) V3 k wc Hn P4 HU3 Bc) as (re & wd & Bd & Ad & Nd) end.
    cbv beta in Nd. do 2 eexists. apply Na, Nb, Nc, Nd. eapply ra_done. intros r Hr. reflexivity.
Qed.

Lemma total_march steps : (0 < n)%Z -> forall c U w, holds pm n nb (dim + 2) c U -> boundary_zero s m pm n nqf (fst w) ->
  stays_physical S m iM steps c -> exists U' w', marching s m ep pm n nqf nb (sc_gamma S) D iMM steps U w U' w'.
Proof.
  intros Hn. induction steps as [|[st dt] steps IH]; intros c U w HU BZ SP.
  - exists U, w. apply marching_0.
  - destruct SP as (P1 & P2).
    set (order := fun r (_ : nat) => zseq (pm_num_elems_part (pm r))).
    assert (HO : forall r, (0 <= r < n)%Z -> elem_orders (shape_of s pm nb r) (order r)) by (intros r Hr st0; exact (Permutation_refl _)).
    destruct (total_step st LRight order dt (fun _ => mkRW zero3 zero3 zero3 zero3 zero3) c U 0 w Hn HU BZ HO P1) as (U1 & w1 & RA).
    destruct (one_step zero iter n m ep pm WF PT S D RS HV HD HP Hg iMM iM HM FT st LRight order dt (fun _ => mkRW zero3 zero3 zero3 zero3 zero3) c U 0 w U1 w1 HU BZ HO RA Hn) as (H1 & B1).
    destruct (IH _ U1 w1 H1 B1 P2) as (U' & w' & MA). exists U', w'.
    exact (marching_S s m ep pm n nqf nb (sc_gamma S) D iMM st dt steps LRight order 0 (fun _ => mkRW zero3 zero3 zero3 zero3 zero3) U w U1 w1 U' w' HO RA MA).
Qed.
End Total.

(** ** C86: every step can be taken *)

(** Whatever schedules have been followed so far: if the stages of the next step of
    the scheme are physical, that step completes, with any schedule (memory
    layout, loop orders, old contents of the work arrays). *)
Theorem C86_next_step : forall zero iter n m ep pm S D iMM iM c U w steps U1 w1 st dt l order t wk,
  run_wf iter n m ep -> partitioned zero iter n m ep pm -> (0 < n)%Z -> runs_scheme S m pm n D ->
  faces_valid (sc_shape S) m -> faces_distinct m -> face_points (sc_shape S) (sc_nqf S) -> 1 < sc_gamma S ->
  let s := sc_shape S in let nb := sc_nb S in
  (forall r le e i b, (0 <= r < n)%Z -> rd (pm_l2g_elem (pm r)) le = Ok e -> (0 <= i < nb)%Z -> (0 <= b < nb)%Z -> iMM r le i b = iM e i b) ->
  (forall r, (0 <= r < n)%Z -> fits (shape_of s pm nb r)) ->
  holds pm n nb (space_dim s + 2) c U -> boundary_zero s m pm n (sc_nqf S) (fst w) ->
  marching s m ep pm n (sc_nqf S) nb (sc_gamma S) D iMM steps U w U1 w1 ->
  Forall (physical S m) (stages S m iM st dt (dg_march S m iM steps c)) ->
  (forall r, (0 <= r < n)%Z -> elem_orders (shape_of s pm nb r) (order r)) ->
  exists U2 w2, run_all n (evaluation s m ep pm n (sc_nqf S) (sc_gamma S) D)
    (fun r => step_program st l (shape_of s pm nb r) (order r) dt (iMM r) (wk r) (U1 r) t) w1 U2 w2.
Proof.
  intros zero iter n m ep pm S D iMM iM c U w steps U1 w1 st dt l order t wk WF PT Hn RS HV HD HP Hg s nb HM FT HU BZ MA FP HO.
  destruct (marches zero iter n m ep pm WF PT S D RS HV HD HP Hg iMM iM HM FT steps U w U1 w1 MA c HU BZ) as (H1 & B1).
  exact (total_step zero iter n m ep pm WF PT S D RS HV HD HP Hg iMM iM HM FT st l order dt wk _ U1 t w1 Hn H1 B1 HO FP).
Qed.
Print Assumptions C86_next_step.

(** * The whole program *)
From Verif Require Import LinAlgModel PropLinAlg BasisModel PropBasis PropNormals SetupModel SetupSpec SetupProof PropSetup PropMeshRun PropInit PropPost PropDG PropHex.
From Verif Require Import IOModel PropIO PropOutput ReadModel PropRead PropCtor UtilModel TimeModel PropTime ProgramModel PropProgram PropWhole.
Local Open Scope Z_scope.

(** The discontinuous Galerkin solution of the case stays physical at every stage
    of every step. *)
Definition dg_physical (s : eshape) (m : gmesh R) (bt : basis_type) (p : Z) (S : scheme) (M : Z -> arr2) (u : (Z -> R) -> Z -> R) (steps : list (stepper * R)) : Prop :=
  exists iM c0, (forall e, 0 <= e < gm_num_elems m -> inverse_of (nfun bt p) (M e) (iM e)) /\
    projects s m bt p M u c0 /\ stays_physical S m iM steps c0.
Definition quad_physical (m : gmesh R) (bt : basis_type) (p : Z) (gamma : R) (ft : flux_type) (u : (Z -> R) -> Z -> R) (steps : list (stepper * R)) : Prop :=
  exists nq P W fp fw nq2 P2 W2, volume_quadrature EQuad p zero2 zero1 = Ok (nq, P, W) /\ face_quadrature EQuad p = Ok (p + 1, fp, fw) /\
    volume_quadrature EQuad (2 * p) zero2 zero1 = Ok (nq2, P2, W2) /\
    dg_physical EQuad m bt p (quad_scheme bt p m gamma ft nq P W (p + 1) fp fw) (PropDG.mass_matrix bt p m nq2 P2 W2) u steps.
Definition hex_physical (m : gmesh R) (bt : basis_type) (p : Z) (gamma : R) (ft : flux_type) (u : (Z -> R) -> Z -> R) (steps : list (stepper * R)) : Prop :=
  exists nq P W fp fw nq2 P2 W2, volume_quadrature EHex p zero2 zero1 = Ok (nq, P, W) /\ face_quadrature EHex p = Ok ((p + 2) * (p + 2), fp, fw) /\
    volume_quadrature EHex (2 * p) zero2 zero1 = Ok (nq2, P2, W2) /\
    dg_physical EHex m bt p (hex_scheme bt p m gamma ft nq P W ((p + 2) * (p + 2)) fp fw) (mass_matrix3 bt p m nq2 P2 W2) u steps.

(** The partition is one the mesh constructor gets through (C08): every rank has at
    least three interior faces. *)
Definition enough_faces (m : gmesh R) (ep : list Z) (n : Z) : Prop :=
  forall r, 0 <= r < n -> exists l, NoDup l /\ 3 <= zlen l /\ forall f, In f l -> face_touches m ep f r.

(** ** Proof *)

Lemma setup_exists iter n m ep pm s bt p : run_wf iter n m ep -> partitioned 0%R iter n m ep pm -> ready s bt p 1 m ->
  exists h f, all_set_up s bt p 1 m pm n h f.
Proof.
  intros WF PT RD.
  assert (SE : forall r, 0 <= r < n -> exists hf, precompute_matrix_helpers s bt p 1 (pm r) r (gm_npe m) zero2
     (zseq (pm_num_elems_part (pm r))) (zseq (pm_num_elems_part (pm r))) (zseq (pm_num_ifaces_part (pm r))) = Ok hf).
  { intros r Hr. destruct (C68_setup_geometry 0%R iter n m ep pm s bt p 1 r zero2
      (zseq (pm_num_elems_part (pm r))) (zseq (pm_num_elems_part (pm r))) (zseq (pm_num_ifaces_part (pm r))) WF PT RD Hr) as (h & f & x & w & E & _).
    - repeat split; apply Permutation_refl.
    - eauto. }
  set (G r := match precompute_matrix_helpers s bt p 1 (pm r) r (gm_npe m) zero2
     (zseq (pm_num_elems_part (pm r))) (zseq (pm_num_elems_part (pm r))) (zseq (pm_num_ifaces_part (pm r))) with Ok hf => hf | _ => (vh_empty, mkFH 0 zero3 zero1 zero3 (fun _ _ => 0) (fun _ _ => 0) zero3) end).
  exists (fun r => fst (G r)), (fun r => snd (G r)).
  intros r Hr. exists zero2, (zseq (pm_num_elems_part (pm r))), (zseq (pm_num_elems_part (pm r))), (zseq (pm_num_ifaces_part (pm r))).
  split; [repeat split; apply Permutation_refl|]. destruct (SE r Hr) as ([h f] & E). unfold G. rewrite E. reflexivity.
Qed.

Lemma init_exists iter n m ep pm s bt p h f ic ph u : run_wf iter n m ep -> partitioned 0%R iter n m ep pm -> ready s bt p 1 m ->
  all_set_up s bt p 1 m pm n h f -> starts_as (space_dim s) ic ph 0 u ->
  exists U, starting s m bt p ic ph n pm h U.
Proof.
  intros WF PT RD AS SA.
  set (po := zseq ((2 * Z.max p 1 + 2) ^ space_dim s)).
  set (I r := init_state_from_fcn s bt p 1 (pm r) (gm_npe m) (space_dim s + 2) ic ph 0 (vh_iMM (h r)) zero2 zero3 zero1 (zseq (pm_num_elems_part (pm r))) po zero3).
  exists (fun r => match I r with Ok Uc => Uc | Fail _ => zero3 end). intros r Hr.
  destruct (AS r Hr) as (jk & eo1 & eo2 & fo & LO & E0).
  destruct (C73_initial_state 0%R iter n m ep pm s bt p 1 r jk eo1 eo2 fo (h r) (f r) ic ph 0 u zero2 zero3 zero1 (zseq (pm_num_elems_part (pm r))) po zero3 WF PT RD Hr LO E0 SA (Permutation_refl _))
    as (q1 & P1 & W1 & q2 & P2 & W2 & EQ1 & EQ2 & HH).
  pose proof (rdy_order _ _ _ _ _ RD) as Op. unfold order_ok in Op.
  destruct (volume_rule s (2 * Z.max p 1) ltac:(split; lia)) as (x & xw & _ & A). destruct (A zero2 zero1) as (P' & W' & EQ' & _).
  set (np := (2 * Z.max p 1 + 2) ^ space_dim s) in *.
  rewrite EQ' in EQ2. injection EQ2 as <- _ _.
  destruct (HH (Permutation_refl _)) as (Uc & EU & _).
  exists zero2, zero3, zero1, (zseq (pm_num_elems_part (pm r))), po, zero3. split; [apply Permutation_refl|]. split; [apply Permutation_refl|].
  unfold I. rewrite EU. reflexivity.
Qed.

(** What a rank's initial state solves determines it. *)
Lemma solves_unique n M iM (x y : Z -> R) : inverse_of n M iM ->
  (forall i, 0 <= i < n -> rsum n (fun j => M i j * x j)%R = rsum n (fun j => M i j * y j)%R) -> forall i, 0 <= i < n -> x i = y i.
Proof.
  intros HI E i Hi.
  assert (REC : forall X : Z -> R, X i = rsum n (fun b => iM i b * rsum n (fun a => M b a * X a))%R).
  { intros X. rewrite (rsum_ext n _ (fun b => rsum n (fun a => iM i b * M b a * X a)%R)).
    2:{ intros b Hb. rewrite <- rsum_scal. apply rsum_ext. intros. ring. }
    rewrite rsum_swap. rewrite (rsum_ext n _ (fun a => X a * (if a =? i then 1 else 0))%R).
    - now rewrite rsum_delta_r.
    - intros a Ha. rewrite rsum_scal_r, (proj2 (HI i a Hi Ha)), (Z.eqb_sym i a). ring. }
  rewrite (REC x), (REC y). apply rsum_ext. intros b Hb. now rewrite E.
Qed.

Lemma enough_count iter n (m : gmesh R) ep pm r : run_wf iter n m ep -> partitioned 0%R iter n m ep pm -> enough_faces m ep n -> 0 <= r < n ->
  3 <= pm_num_ifaces_part (pm r).
Proof.
  intros W P EF Hr. destruct (EF r Hr) as (l & ND & L3 & T). destruct (C04_interior_faces R 0%R iter n m ep pm W P) as (IN & H).
  destruct (H r Hr) as (_ & <- & _). apply Z.le_trans with (zlen l); [exact L3|]. unfold zlen. apply Nat2Z.inj_le. apply NoDup_incl_length; [exact ND|].
  intros f Hf. apply IN; auto.
Qed.

Lemma startup_completes inputs meshes argv metis n inp m cfg ep iter junk : 1 <= n -> reads inputs meshes argv inp m -> asks_for inp cfg ->
  cf_dim cfg = 2 \/ cf_dim cfg = 3 -> cf_basis cfg <> LegendreSeg -> cf_physics cfg = Euler -> quadrature_known inp -> parts_asked inp n ->
  intended metis n m ep -> enough_faces m ep n -> (forall r, any_order (iter r)) ->
  exists md pm, md_mesh md = m /\ run_wf iter n m ep /\ partitioned 0%R iter n m ep pm /\ elem_partition_of metis n m = Ok ep /\
    forall r, 0 <= r < n -> main_start inputs meshes argv (iter r) metis junk n r = Ok (Some (cfg, md, pm r)).
Proof.
  intros Hn (name & mname & mf & md & N1 & I1 & M1 & F1 & MW & RM & EM) AF D23 BS EU QK PA IN EF AO.
  destruct (C76_mesh_constructor R 0%R iter metis (in_npart inp) (boundary_names inp) mf n MW Hn AO) as (md' & RM' & _ & H & _).
  rewrite RM in RM'. injection RM' as <-. rewrite EM in H. destruct (H ep IN) as (WF & pm & PT & CT).
  exists md, pm. split; [exact EM|]. split; [exact WF|]. split; [exact PT|]. split.
  { unfold elem_partition_of. destruct IN as [(-> & L & Z0)|(H2 & M & _)].
    - cbn. f_equal. assert (NE : 0 <= gm_num_elems m) by apply (wf_ne m (run_mesh _ _ _ _ WF)). apply rd_ext; [rewrite zlen_vec by lia; now symmetry|].
      intros i Hi. rewrite zlen_vec in Hi by lia. rewrite rd_zero by lia. symmetry. now apply Z0.
    - destruct (Z.ltb_spec 1 n); [|lia]. now rewrite M. }
  intros r Hr. apply C85_startup. exists name, inp, mname, mf. split; [exact N1|]. split; [exact I1|]. split; [exact AF|]. split; [exact D23|]. split; [exact BS|].
  split; [exact QK|]. split; [rewrite EU; discriminate|]. split; [exact M1|]. split; [exact F1|].
  assert (C : mesh_ctor 0%R (iter r) metis false (in_npart inp) (boundary_names inp) mf n r = Ok (md, pm r)) by (apply CT; [exact Hr|now apply (enough_count iter n m ep)]).
  destruct PA as [PA|PA]; [now rewrite PA|]. rewrite PA in C |- *. destruct (in_top_npart inp); exact C.
Qed.

Lemma run_exists s bt p m n iter ep pm S ft gamma nq2 P2 W2 iM c0 u ic ph steps : 1 <= n ->
  run_wf iter n m ep -> partitioned 0%R iter n m ep pm -> ready s bt p 1 m -> starts_as (space_dim s) ic ph 0 u ->
  let M := fun e i j => rsum nq2 (fun q => W2 q * jac_det s 1 (elem_nodes m e) (P2 q) * basis_fn bt p i (P2 q) * basis_fn bt p j (P2 q))%R in
  volume_quadrature s (2 * p) zero2 zero1 = Ok (nq2, P2, W2) ->
  (forall e, 0 <= e < gm_num_elems m -> inverse_of (nfun bt p) (M e) (iM e)) -> projects s m bt p M u c0 ->
  sc_shape S = s -> sc_nb S = nfun bt p -> sc_nqf S = face_count s p -> sc_gamma S = gamma ->
  (forall h f ord pord jk, all_set_up s bt p 1 m pm n h f -> inner_loops_ok pm n ord pord ->
     runs_scheme S m pm n (tables s bt p pm gamma ft h f ord pord jk)) ->
  faces_valid s m -> faces_distinct m -> face_points s (face_count s p) -> (1 < gamma)%R ->
  (forall r, 0 <= r < n -> fits (shape_of s pm (nfun bt p) r)) -> stays_physical S m iM steps c0 ->
  exists h f ord pord jk U U' w w', all_set_up s bt p 1 m pm n h f /\ inner_loops_ok pm n ord pord /\ starting s m bt p ic ph n pm h U /\
    boundary_zero s m pm n (face_count s p) (fst w) /\
    marching s m ep pm n (face_count s p) (nfun bt p) gamma (tables s bt p pm gamma ft h f ord pord jk) (fun r => vh_iMM (h r)) steps U w U' w'.
Proof.
  intros Hn WF PT RD SA M EQ2 HI (nq3 & P3 & W3 & EQ3 & PJ) E1 E2 E3 E4 RS FV FD FP Gm FT SP.
  destruct (setup_exists iter n m ep pm s bt p WF PT RD) as (h & f & AS).
  destruct (init_exists iter n m ep pm s bt p h f ic ph u WF PT RD AS SA) as (U & ST).
  set (ord := fun (r : Z) (_ : nat) => zseq (pm_num_elems_part (pm r))).
  set (pord := fun (_ : Z) (_ : nat) a b => list_prod (zseq a) (zseq b)).
  assert (IL : inner_loops_ok pm n ord pord).
  { intros r Hr. split; intros; [apply Permutation_refl|]. unfold each_once, pord. apply Permutation_refl. }
  specialize (RS h f ord pord (fun _ => zero1) AS IL).
  set (w := ((fun _ : Z => mkRV zero3 zero3 zero3 zero3 zero3), fun _ : Z => zero3)).
  assert (BZ : boundary_zero s m pm n (face_count s p) (fst w)) by (intros r le pos k Hr _; reflexivity).
  assert (HM : forall r le e i b, 0 <= r < n -> rd (pm_l2g_elem (pm r)) le = Ok e -> 0 <= i < nfun bt p -> 0 <= b < nfun bt p -> vh_iMM (h r) le i b = iM e i b).
  { intros r le e i b Hr Re Hi Hb. destruct (AS r Hr) as (jk & eo1 & eo2 & fo & LO & E0).
    destruct (C69_inverse_mass_matrices 0%R iter n m ep pm s bt p 1 r jk eo1 eo2 fo (h r) (f r) WF PT RD Hr LO E0) as (nq' & P' & W' & EQ' & Inv).
    rewrite EQ2 in EQ'. injection EQ' as <- <- <-. specialize (Inv le e Re).
    apply (inverse_unique (nfun bt p) (M e)); try assumption. apply HI. exact (SetupProof.owned_elem 0%R iter n m ep pm WF PT r le e Hr Re). }
  assert (HU : holds pm n (nfun bt p) (space_dim s + 2) c0 U).
  { intros r le e j k Hr Re Hj Hk. assert (He := SetupProof.owned_elem 0%R iter n m ep pm WF PT r le e Hr Re).
    revert j Hj. apply (solves_unique (nfun bt p) (M e) (iM e) (fun j => U r le j k) (fun j => c0 e j k)); [now apply HI|]. intros i Hi.
    rewrite (PJ e i k He Hi Hk).
    destruct (AS r Hr) as (jk & eo1 & eo2 & fo & LO & E0). destruct (ST r Hr) as (junk2 & junk3 & junk1 & eo & po & Uc0 & Pe & Po & EI).
    destruct (C73_initial_state 0%R iter n m ep pm s bt p 1 r jk eo1 eo2 fo (h r) (f r) ic ph 0 u junk2 junk3 junk1 eo po Uc0 WF PT RD Hr LO E0 SA Pe)
      as (q1 & P1 & W1 & q2 & P4 & W4 & EQ1 & EQ4 & HH).
    rewrite EQ2 in EQ1. injection EQ1 as <- <- <-. pose proof EQ4 as EQ5. rewrite EQ3 in EQ4. injection EQ4 as <- <- <-.
    assert (N3 : nq3 = (2 * Z.max p 1 + 2) ^ space_dim s).
    { pose proof (rdy_order _ _ _ _ _ RD) as Op. unfold order_ok in Op.
      destruct (volume_rule s (2 * Z.max p 1) ltac:(split; lia)) as (x & xw & _ & A). destruct (A zero2 zero1) as (P' & W' & EQ' & _).
      set (np := (2 * Z.max p 1 + 2) ^ space_dim s) in *. rewrite EQ3 in EQ'. injection EQ' as -> _ _. reflexivity. }
    rewrite N3 in HH. destruct (HH Po) as (Uc & EI' & OG). rewrite EI in EI'. injection EI' as <-. rewrite <- N3 in OG.
    rewrite <- (OG le e Re i k Hi Hk). unfold M.
    rewrite (rsum_ext (nfun bt p) _ (fun j => rsum nq2 (fun q => W2 q * jac_det s 1 (elem_nodes m e) (P2 q) * basis_fn bt p i (P2 q) * basis_fn bt p j (P2 q) * U r le j k)%R)) by (intros; now rewrite rsum_scal_r).
    rewrite rsum_swap. apply rsum_ext. intros q Hq. rewrite <- rsum_scal. apply rsum_ext. intros. ring. }
  destruct (total_march 0%R iter n m ep pm WF PT S (tables s bt p pm gamma ft h f ord pord (fun _ => zero1)) RS) with (iMM := fun r => vh_iMM (h r)) (iM := iM) (steps := steps) (c := c0) (U := U) (w := w) as (U' & w' & MA);
    rewrite ?E1, ?E2, ?E3, ?E4; try assumption; try lia.
  rewrite E1, E2, E3, E4 in MA. exists h, f, ord, pord, (fun _ => zero1), U, U', w, w'. auto.
Qed.

(** ** C86: the whole program completes *)

(** The input file names a case on a good mesh, METIS (if needed) splits it such
    that every rank gets three interior faces, and the discontinuous Galerkin
    solution of the case stays physical: then the executables run to completion.
    (By C84 the file then holds that solution.) *)
Theorem C86_completes : forall inputs meshes argv metis n inp m cfg N u ep,
  1 <= n -> reads inputs meshes argv inp m -> asks_for inp cfg -> enough_data inp cfg -> cf_physics cfg = Euler -> quadrature_known inp ->
  parts_asked inp n -> intended metis n m ep -> enough_faces m ep n -> num_iterations (cf_end cfg) (cf_dt cfg) = Ok N ->
  let bt := cf_basis cfg in let p := cf_order cfg in let gamma := ph_gamma (cf_phys cfg) in
  let steps := repeat (cf_stepper cfg, B2R (cf_dt cfg)) (Z.to_nat N) in
  (cf_dim cfg = 2 /\ good_quads m /\ basis_for EQuad bt /\ quad_physical m bt p gamma (cf_flux cfg) u steps \/
   cf_dim cfg = 3 /\ good_hexes m /\ basis_for EHex bt /\ hex_physical m bt p gamma (cf_flux cfg) u steps) ->
  supported bt p -> order_ok p -> (1 < gamma)%R ->
  starts_as (cf_dim cfg) (cf_ic cfg) (cf_phys cfg) 0 u -> small m (nfun bt p) (cf_dim cfg + 2) ->
  exists g, program inputs meshes argv metis n g.
Proof.
  intros inputs meshes argv metis n inp m cfg N u ep Hn RE AF _ EU QK PA IN EF EN bt p gamma steps CASES Sup Op Gm SA SM.
  set (iter := fun (_ : Z) (l : list Z) => l). assert (AO : forall r, any_order (iter r)) by (intros r l; apply Permutation_refl).
  assert (D23 : cf_dim cfg = 2 \/ cf_dim cfg = 3) by (destruct CASES as [(-> & _)|(-> & _)]; auto).
  assert (BS : cf_basis cfg <> LegendreSeg).
  { fold bt. destruct CASES as [(_ & _ & BF & _)|(_ & _ & BF & _)]; intros E; rewrite E in BF; destruct BF as [B|B]; discriminate B. }
  destruct (startup_completes inputs meshes argv metis n inp m cfg ep iter (0%R, 0%R) Hn RE AF D23 BS EU QK PA IN EF AO) as (md & pm & EM & WF & PT & EP & MS).
  assert (Hnb : 0 < nfun bt p) by (unfold nfun, order_ok in *; apply Z.pow_pos_nonneg; [lia|destruct bt; cbn; lia]).
  destruct CASES as [(D & [FV FD SQ CF Hne Hall] & BF & nq & P & W & fp & fw & nq2 & P2 & W2 & EQ & EFQ & EQ2 & iM & c0 & HI & PJ & SP)
                    |(D & [FV FD FH CF Hne Hall] & BF & nq & P & W & fp & fw & nq2 & P2 & W2 & EQ & EFQ & EQ2 & iM & c0 & HI & PJ & SP)].
  - rewrite D in SA, SM. change (2 + 2) with 4 in SM.
    assert (RD : ready EQuad bt p 1 m) by (constructor; auto; [lia|apply SQ|now apply convex_untangled]).
    assert (FT : forall r, 0 <= r < n -> fits (shape_of EQuad pm (nfun bt p) r)) by (intros r Hr; apply (small_state iter n m ep pm EQuad (nfun bt p) r WF PT); auto; lia).
    assert (FP : face_points EQuad (p + 1)).
    { unfold order_ok in Op. cbn. lia. }
    destruct (run_exists EQuad bt p m n iter ep pm (quad_scheme bt p m gamma (cf_flux cfg) nq P W (p + 1) fp fw) (cf_flux cfg) gamma nq2 P2 W2 iM c0 u (cf_ic cfg) (cf_phys cfg) steps)
      as (h & f & ord & pord & jk & U & U' & w & w' & AS & IL & ST & BZ & MA); auto.
    { intros h f ord pord jk AS IL.
      destruct (quad_runs 0%R iter n m ep pm bt p h f gamma (cf_flux cfg) ord pord jk WF PT FV SQ CF RD AS IL) as (nq' & P' & W' & fp' & fw' & EQ' & EF' & _ & RS).
      rewrite EQ in EQ'. injection EQ' as <- <- <-. rewrite EFQ in EF'. injection EF' as <- <-. exact RS. }
    destruct (gather 0%R iter n m ep pm U' WF PT) as (c & Hc).
    eexists. exists iter, (fun _ => (0%R, 0%R)), cfg, md, pm, ep, h, f, ord, pord, jk, U, U', w, w', N. rewrite EM, D. cbv zeta. change (elements_of 2) with EQuad.
    fold bt p gamma. fold steps. split; [exact AO|]. split; [exact MS|]. split; [exact EP|]. split; [exact AS|]. split; [exact IL|]. split; [exact ST|]. split; [exact BZ|]. split; [exact EN|]. split; [exact MA|].
    destruct SQ as ((D1 & D3) & _). cbn in D1, D3. change (2 + 2) with 4.
    apply (output_of iter n m ep (nfun bt p) 4 _ pm U' c); auto; try lia.
    + apply (small_fits iter n m ep); auto; lia.
  - rewrite D in SA, SM. change (3 + 2) with 5 in SM.
    assert (RD : ready EHex bt p 1 m) by (constructor; auto; [lia|apply FH|apply FH]).
    assert (FT : forall r, 0 <= r < n -> fits (shape_of EHex pm (nfun bt p) r)) by (intros r Hr; apply (small_state iter n m ep pm EHex (nfun bt p) r WF PT); auto; lia).
    assert (FP : face_points EHex ((p + 2) * (p + 2))).
    { unfold order_ok in Op. exists (p + 2). split; [lia|reflexivity]. }
    destruct (run_exists EHex bt p m n iter ep pm (hex_scheme bt p m gamma (cf_flux cfg) nq P W ((p + 2) * (p + 2)) fp fw) (cf_flux cfg) gamma nq2 P2 W2 iM c0 u (cf_ic cfg) (cf_phys cfg) steps)
      as (h & f & ord & pord & jk & U & U' & w & w' & AS & IL & ST & BZ & MA); auto.
    { intros h f ord pord jk AS IL.
      destruct (hex_runs 0%R iter n m ep pm bt p h f gamma (cf_flux cfg) ord pord jk WF PT FV FH CF RD AS IL) as (nq' & P' & W' & fp' & fw' & EQ' & EF' & _ & RS).
      rewrite EQ in EQ'. injection EQ' as <- <- <-. rewrite EFQ in EF'. injection EF' as <- <-. exact RS. }
    destruct (gather 0%R iter n m ep pm U' WF PT) as (c & Hc).
    eexists. exists iter, (fun _ => (0%R, 0%R)), cfg, md, pm, ep, h, f, ord, pord, jk, U, U', w, w', N. rewrite EM, D. cbv zeta. change (elements_of 3) with EHex.
    fold bt p gamma. fold steps. split; [exact AO|]. split; [exact MS|]. split; [exact EP|]. split; [exact AS|]. split; [exact IL|]. split; [exact ST|]. split; [exact BZ|]. split; [exact EN|]. split; [exact MA|].
    destruct FH as ((D1 & D3) & _). change (nfun (geom_basis EHex) 1) with 8 in D3. cbn in D1. change (3 + 2) with 5.
    apply (output_of iter n m ep (nfun bt p) 5 _ pm U' c); auto; try lia.
    + apply (small_fits iter n m ep); auto; lia.
Qed.
Print Assumptions C86_completes.

(** ** The hypotheses of C86 hold for the first step from a uniform state *)
From Verif Require Import QuadModel PropQuad MassProof SetupFaces.

Lemma uniform_dg_physical s m bt p S nq2 P2 W2 fp P u dt : ready s bt p 1 m -> 1 <= p ->
  volume_quadrature s (2 * p) zero2 zero1 = Ok (nq2, P2, W2) ->
  sc_shape S = s -> sc_nb S = nfun bt p -> sc_val S = (fun q i => basis_fn bt p i (P q)) -> sc_fval S = (fun k q i => basis_fn bt p i (face_at s k (fp q))) ->
  admissible (space_dim s) (sc_gamma S) u ->
  dg_physical s m bt p S (fun e i j => rsum nq2 (fun q => W2 q * jac_det s 1 (elem_nodes m e) (P2 q) * basis_fn bt p i (P2 q) * basis_fn bt p j (P2 q))%R)
    (fun _ k => u k) [(ForwardEuler, dt)].
Proof.
  intros RD Hp EQ2 E1 E2 E3 E4 AD. pose proof RD as [Hg Fit Un BF Op Sup]. unfold order_ok in Op.
  destruct (volume_rule s (2 * p) ltac:(split; lia)) as (x & xw & G & A). destruct (A zero2 zero1) as (P' & W' & EQ' & TR).
  set (np := (2 * p + 2) ^ space_dim s) in *. rewrite EQ2 in EQ'. injection EQ' as -> <- <-.
  set (M := fun e i j => rsum np (fun q => W2 q * jac_det s 1 (elem_nodes m e) (P2 q) * basis_fn bt p i (P2 q) * basis_fn bt p j (P2 q))%R).
  exists (fun e => invA (nfun bt p) (M e) zero2), (fun e j k => ones bt j * u k)%R.
  assert (ONE : forall y k, rsum (nfun bt p) (fun j => basis_fn bt p j y * (ones bt j * u k))%R = u k).
  { intros y k. transitivity (rsum (nfun bt p) (fun j => (ones bt j * basis_fn bt p j y) * u k)%R); [apply rsum_ext; intros; ring|]. rewrite rsum_scal_r, ones_sum by (auto; lia). ring. }
  split; [|split].
  - intros e He.
    apply (mass_inverse s bt p np (2 * p + 2) x P2 W2 (fun q i => basis_fn bt p i (P2 q)) xw (fun q => jac_det s 1 (elem_nodes m e) (P2 q)) (M e) zero2 (/ 10 ^ 30) (2 * (2 * p) + 3)); auto; try lia.
    intros q Hq. apply Un; [exact He|]. apply (rule_inside s (2 * p + 2) x xw P2 W2 _ _ G); auto; lia.
  - exists np, P2, W2. replace (Z.max p 1) with p by lia. split; [exact EQ2|]. intros e i k He Hi Hk. unfold M.
    rewrite (rsum_ext (nfun bt p) _ (fun j => rsum np (fun q => W2 q * jac_det s 1 (elem_nodes m e) (P2 q) * basis_fn bt p i (P2 q) * (basis_fn bt p j (P2 q) * (ones bt j * u k)))%R))
      by (intros; rewrite <- rsum_scal_r; apply rsum_ext; intros; ring).
    rewrite rsum_swap. apply rsum_ext. intros q Hq. rewrite rsum_scal, ONE. reflexivity.
  - split; [|exact I]. constructor; [split|constructor].
    + intros e q He Hq. unfold density, dg_state. rewrite E2, E3, ONE. apply AD.
    + intros. apply (admissible_ext _ _ u); [rewrite E1; unfold dim23; destruct s; cbn; lia| |rewrite E1; exact AD].
      intros i Hi. unfold dg_trace. rewrite E2, E4. symmetry. apply ONE.
Qed.

Lemma uniform_quads m bt p gamma ft u dt : good_quads m -> basis_for EQuad bt -> supported bt p -> order_ok p -> 1 <= p -> admissible 2 gamma u ->
  quad_physical m bt p gamma ft (fun _ k => u k) [(ForwardEuler, dt)].
Proof.
  intros [FV FD SQ CF Hne Hall] BF Sup Op Hp AD. assert (RD : ready EQuad bt p 1 m) by (constructor; auto; [lia|apply SQ|now apply convex_untangled]). unfold order_ok in Op.
  destruct (volume_rule EQuad p ltac:(split; lia)) as (x & xw & _ & A). destruct (A zero2 zero1) as (P & W & EQ & _).
  destruct (volume_rule EQuad (2 * p) ltac:(split; lia)) as (x2 & xw2 & _ & A2). destruct (A2 zero2 zero1) as (P2 & W2 & EQ2 & _).
  destruct (face_rule EQuad p ltac:(lia) ltac:(lia) ltac:(lia)) as (fx & fxw & fp & fw & _ & _ & EF).
  assert (E1 : (face_rule_points EQuad p ^ (space_dim EQuad - 1))%Z = (p + 1)%Z) by (cbn [face_rule_points space_dim]; change (2 - 1)%Z with 1%Z; apply Z.pow_1_r).
  rewrite E1 in EF.
  set (nq := (p + 2) ^ space_dim EQuad) in *. set (nq2 := (2 * p + 2) ^ space_dim EQuad) in *.
  exists nq, P, W, fp, fw, nq2, P2, W2. split; [exact EQ|]. split; [exact EF|]. split; [exact EQ2|].
  exact (uniform_dg_physical EQuad m bt p (quad_scheme bt p m gamma ft nq P W (p + 1) fp fw) nq2 P2 W2 fp P u dt RD Hp EQ2 eq_refl eq_refl eq_refl eq_refl AD).
Qed.

Lemma uniform_hexes m bt p gamma ft u dt : good_hexes m -> basis_for EHex bt -> supported bt p -> order_ok p -> 1 <= p -> admissible 3 gamma u ->
  hex_physical m bt p gamma ft (fun _ k => u k) [(ForwardEuler, dt)].
Proof.
  intros [FV FD FH CF Hne Hall] BF Sup Op Hp AD. assert (RD : ready EHex bt p 1 m) by (constructor; auto; [lia|apply FH|apply FH]). unfold order_ok in Op.
  destruct (volume_rule EHex p ltac:(split; lia)) as (x & xw & _ & A). destruct (A zero2 zero1) as (P & W & EQ & _).
  destruct (volume_rule EHex (2 * p) ltac:(split; lia)) as (x2 & xw2 & _ & A2). destruct (A2 zero2 zero1) as (P2 & W2 & EQ2 & _).
  destruct (face_rule EHex p ltac:(lia) ltac:(lia) ltac:(lia)) as (fx & fxw & fp & fw & _ & _ & EF). rewrite hex_points in EF.
  set (nq := (p + 2) ^ space_dim EHex) in *. set (nq2 := (2 * p + 2) ^ space_dim EHex) in *.
  exists nq, P, W, fp, fw, nq2, P2, W2. split; [exact EQ|]. split; [exact EF|]. split; [exact EQ2|].
  exact (uniform_dg_physical EHex m bt p (hex_scheme bt p m gamma ft nq P W ((p + 2) * (p + 2)) fp fw) nq2 P2 W2 fp P u dt RD Hp EQ2 eq_refl eq_refl eq_refl eq_refl AD).
Qed.
