(** PropSolver.v -- properties C23, C24, C56, C57 of the residual evaluation. *)
From Coq Require Import ZArith List Lia Reals Lra Bool Permutation FunctionalExtensionality.
From Verif Require Import Base RBase MeshModel MeshSpec MeshProof MeshReadProof MeshProof2 PropMesh
  LinAlgModel LinAlgProof PropLinAlg PhysModel PhysSpec PhysProof PropPhys ShapeModel CommModel CommSpec
  SolverModel SolverProof SolverFaces SolverSpec SolverMesh SolverConserve.
Import ListNotations.
Local Open Scope R_scope.
Open Scope res_scope.

(** ** C23 The per-element face buffer *)

Section Slots.
Context {A : Type} (zero : A) (iter : Z -> list Z -> list Z) (n : Z) (m : gmesh A) (ep : list Z) (pm : Z -> pmesh A).
Context (WF : run_wf iter n m ep) (PT : partitioned zero iter n m ep pm).
Context (s : eshape) (nqf : Z) (HV : faces_valid s m) (HD : faces_distinct m) (HP : face_points s nqf).

Lemma slot_of_iff r lf iq sd le pos qL qR : (0 <= r < n)%Z ->
  face_quadrature_lookup (face_order s) (pm_interior_faces (pm r)) (pm_num_ifaces_part (pm r)) nqf = Ok (qL, qR) ->
  slot_of s m pm nqf r lf iq sd le pos <->
  (0 <= lf < pm_num_ifaces_part (pm r))%Z /\ (0 <= iq < nqf)%Z /\ srank (pm_interior_faces (pm r)) lf sd = r /\
  slot (pm_interior_faces (pm r)) nqf qL qR lf sd iq = (le, pos).
Proof.
  intros Hr HQ. destruct (rows_ok zero iter n m ep pm WF PT s nqf r qL qR Hr HV HD HP HQ) as [W Q].
  destruct (C04_interior_faces A zero iter n m ep pm WF PT) as [_ H4]. destruct (H4 r Hr) as (ND & EL & _ & _).
  destruct (C01_element_ownership A zero iter n m ep pm WF PT) as (_ & HO & H3 & _). destruct (H3 r Hr) as [NDe _].
  split.
  - intros (Hiq & f & e & k & o & Rf & HS & Re & ->).
    assert (Hlf : (0 <= lf < pm_num_ifaces_part (pm r))%Z) by (apply rd_in_range in Rf; lia).
    destruct (row_side zero iter n m ep pm WF PT r lf f Hr Rf) as [_ X]. destruct (X sd) as (e' & HS' & OW & RE).
    destruct (side_fun m _ _ _ _ _ _ _ _ HS HS') as (-> & -> & ->).
    assert (ER : srank (pm_interior_faces (pm r)) lf sd = r).
    { apply rd_In in Re. apply (HO r e' Hr) in Re. unfold owned_by in *. congruence. }
    split; [easy|]. split; [easy|]. split; [easy|].
    unfold slot. rewrite (Q lf sd iq (fun _ => 0%Z)) by easy. f_equal. specialize (RE ER).
    exact (rd_NoDup_inj _ _ _ _ NDe RE Re).
  - intros (Hlf & Hiq & ER & E). split; [easy|].
    destruct (local_faces zero iter n m ep pm WF PT r lf Hr Hlf) as [f Rf].
    destruct (row_side zero iter n m ep pm WF PT r lf f Hr Rf) as [_ X]. destruct (X sd) as (e & HS & OW & RE).
    specialize (RE ER). unfold slot in E. injection E as E1 E2.
    exists f, e, (sface (pm_interior_faces (pm r)) lf sd), (sorient (pm_interior_faces (pm r)) lf sd).
    rewrite <- E1, <- E2, (Q lf sd iq (fun _ => 0%Z)) by easy. repeat split; auto; apply HS.
Qed.
End Slots.

(** On every rank, for every order in which the (face, point) iterations run and
    whatever the buffers contained: the quadrature lookup and the scatter do not
    fail; slot after slot of the buffer belongs to at most one (face, point,
    side); the slot of a left side receives minus the flux of the face point,
    the slot of a right side the flux; nothing else is written.  The gathering
    loop reads its states from the same slots. *)
Theorem C23_face_flux_slots :
  forall A (zero : A) iter n m ep pm s nqf,
  run_wf iter n m ep -> partitioned zero iter n m ep pm ->
  faces_valid s m -> faces_distinct m -> face_points s nqf ->
  forall r, (0 <= r < n)%Z ->
  let rows := pm_interior_faces (pm r) in
  let nif := pm_num_ifaces_part (pm r) in
  let mine := slot_of s m pm nqf r in
  exists qL qR, face_quadrature_lookup (face_order s) rows nif nqf = Ok (qL, qR) /\
  (* no two (face, point, side) share a slot, and slots are inside the buffer *)
  (forall lf iq sd lf' iq' sd' le pos, mine lf iq sd le pos -> mine lf' iq' sd' le pos ->
     lf = lf' /\ iq = iq' /\ sd = sd') /\
  (forall lf iq sd le pos, mine lf iq sd le pos ->
     (0 <= le < pm_num_elems_part (pm r))%Z /\ (0 <= pos < faces_per_elem s * nqf)%Z) /\
  forall ns order, (0 <= ns)%Z -> each_once order nif nqf ->
  let ext := (pm_num_elems_part (pm r), (faces_per_elem s * nqf)%Z, ns) in
  (* scatter *)
  (forall Fq Fe0, exists Fe, construct_flux_state r rows nif nqf ns ext qL qR order Fq Fe0 = Ok Fe /\
     (forall lf iq sd le pos is, mine lf iq sd le pos -> (0 <= is < ns)%Z ->
        Fe le pos is = side_sign sd * Fq lf iq is) /\
     (forall le pos is, (forall lf iq sd, ~ mine lf iq sd le pos) -> Fe le pos is = Fe0 le pos is)) /\
  (* gather *)
  (forall Uq UL0 UR0, exists UL UR, construct_face_states r rows nif nqf ns ext qL qR order Uq UL0 UR0 = Ok (UL, UR) /\
     (forall lf iq sd le pos is, mine lf iq sd le pos -> (0 <= is < ns)%Z ->
        (if sd then UR else UL) lf iq is = Uq le pos is) /\
     (forall lf iq sd is, (forall le pos, ~ mine lf iq sd le pos) ->
        (if sd then UR else UL) lf iq is = (if sd then UR0 else UL0) lf iq is)).
Proof.
  intros A zero iter n m ep pm s nqf WF PT HV HD HP r Hr rows nif mine.
  destruct (lookup_total zero iter n m ep pm WF PT s nqf r Hr) as (qL & qR & HQ).
  destruct (rows_ok zero iter n m ep pm WF PT s nqf r qL qR Hr HV HD HP HQ) as [W Q].
  assert (IFF : forall lf iq sd le pos, mine lf iq sd le pos <->
    (0 <= lf < nif)%Z /\ (0 <= iq < nqf)%Z /\ srank rows lf sd = r /\ slot rows nqf qL qR lf sd iq = (le, pos)).
  { intros. now apply (slot_of_iff zero iter n m ep pm WF PT s nqf HV HD HP). }
  exists qL, qR. split; [exact HQ|]. split; [|split].
  - intros lf iq sd lf' iq' sd' le pos H H'. apply IFF in H, H'. destruct H as (A1 & A2 & A3 & A4), H' as (B1 & B2 & B3 & B4).
    rewrite <- B4 in A4. destruct (slot_inj _ _ _ _ _ _ _ _ W _ _ _ _ _ _ A1 B1 A2 B2 A3 B3 A4) as (? & ? & ?). auto.
  - intros lf iq sd le pos H. apply IFF in H. destruct H as (A1 & A2 & A3 & A4).
    pose proof (slot_range _ _ _ _ _ _ _ _ W lf sd iq A1 A2 A3) as X. fold rows in X. rewrite A4 in X. exact X.
  - intros ns order Hns P ext. split.
    + intros Fq Fe0. destruct (flux_state_ok _ _ _ _ _ _ _ _ _ W Hns order Fq Fe0 P) as (Fe & E & H1 & H2).
      exists Fe. split; [exact E|]. split.
      * intros lf iq sd le pos is H His. apply IFF in H. destruct H as (B1 & B2 & B3 & B4).
        specialize (H1 lf sd iq is B1 B2 His B3). fold rows in H1. rewrite B4 in H1. cbn [fst snd] in H1. exact H1.
      * intros le pos is H. apply H2. intros lf sd iq B1 B2 B3 C. apply (H lf iq sd), IFF. auto.
    + intros Uq UL0 UR0. destruct (face_states_ok _ _ _ _ _ _ _ _ _ W Hns order Uq UL0 UR0 P) as (UL & UR & E & HL & HR).
      exists UL, UR. split; [exact E|]. split.
      * intros lf iq sd le pos is H His. apply IFF in H. destruct H as (B1 & B2 & B3 & B4).
        destruct sd; [rewrite HR|rewrite HL]; fold rows; rewrite B3, B4, Z.eqb_refl, !(proj2 (inb_true _ _)) by easy; reflexivity.
      * intros lf iq sd is H.
        assert (X : (inb nif lf && inb nqf iq && inb ns is && (srank rows lf sd =? r)%Z)%bool = false).
        { destruct (inb nif lf) eqn:E1, (inb nqf iq) eqn:E2, (Z.eqb_spec (srank rows lf sd) r); rewrite ?andb_false_r; auto.
          apply inb_true in E1, E2. destruct (slot rows nqf qL qR lf sd iq) as [le pos] eqn:E3.
          exfalso. apply (H le pos), IFF. auto. }
        destruct sd; [rewrite HR|rewrite HL]; fold rows nif; rewrite X; reflexivity.
Qed.
Print Assumptions C23_face_flux_slots.

(** ** C57 The residual kernels *)

Lemma euler_flux_extU dim g U U' N k : dim23 dim -> (forall i, (0 <= i < dim + 2)%Z -> U i = U' i) -> (0 <= k < dim + 2)%Z ->
  euler_flux dim g U N k = euler_flux dim g U' N k.
Proof.
  intros Hd H Hk. assert (Hd2 : (2 <= dim)%Z) by (destruct Hd; lia).
  assert (EV : forall M, vdot dim (velocity U) M = vdot dim (velocity U') M).
  { intros M. apply rsum_ext. intros i Hi. unfold velocity, momentum, density. rewrite !H by lia. reflexivity. }
  assert (EVV : vdot dim (velocity U) (velocity U) = vdot dim (velocity U') (velocity U')).
  { apply rsum_ext. intros i Hi. unfold velocity, momentum, density. rewrite !H by lia. reflexivity. }
  unfold euler_flux, pressure. rewrite EV, EVV. unfold density, energy, momentum.
  destruct (Z.eqb_spec k 0); [rewrite !H by lia; reflexivity|].
  destruct (Z.eqb_spec k (dim + 1)); rewrite ?(H 0%Z), ?(H (dim + 1)%Z), ?(H (1 + (k - 1))%Z) by lia; reflexivity.
Qed.

(** The two integral kernels on any input, in any order of the elements: every
    entry of the residual gains its full quadrature sum exactly once, entries
    outside the arrays do not change. *)
Theorem C57_integral_kernels :
  forall order ne nq nb ns nd (G : arr3) (F4 : arr4) (B : arr2) (F3 rs : arr3),
  Permutation order (zseq ne) ->
  let inside e i k := (0 <= e < ne)%Z /\ (0 <= i < nb)%Z /\ (0 <= k < ns)%Z in
  (forall e i k, inside e i k ->
     volume_flux_integral order nq nb ns nd G F4 rs e i k =
       rs e i k + rsum nq (fun q => rsum nd (fun d => G q i d * F4 e q k d)) /\
     face_flux_integral order nq nb ns B F3 rs e i k = rs e i k + rsum nq (fun q => B q i * F3 e q k)) /\
  (forall e i k, ~ inside e i k ->
     volume_flux_integral order nq nb ns nd G F4 rs e i k = rs e i k /\
     face_flux_integral order nq nb ns B F3 rs e i k = rs e i k).
Proof.
  intros order ne nq nb ns nd G F4 B F3 rs P inside.
  assert (T : forall e i k, inside e i k -> (inb ne e && inb nb i && inb ns k)%bool = true).
  { intros e i k (H1 & H2 & H3). now rewrite !(proj2 (inb_true _ _)). }
  assert (T' : forall e i k, ~ inside e i k -> (inb ne e && inb nb i && inb ns k)%bool = false).
  { intros e i k H. destruct (_ && _)%bool eqn:X; [|easy]. rewrite !andb_true_iff, !inb_true in X. destruct H. unfold inside. tauto. }
  split; intros e i k H; rewrite (volume_flux_integral_entry order ne), (face_flux_integral_entry order ne) by easy;
    rewrite ?(T _ _ _ H), ?(T' _ _ _ H); auto.
Qed.
Print Assumptions C57_integral_kernels.

(** The whole element term: the residual is overwritten with the quadrature of
    flux times physical gradient of the basis function. *)
Theorem C57_element_term :
  forall d Uc rs, (d_dim d = 2 \/ d_dim d = 3)%Z -> orders_ok d ->
  (forall e q, (0 <= e < d_ne d)%Z -> (0 <= q < d_nq d)%Z -> density (vol_state d Uc e q) <> 0) ->
  exists rs', element_residuals d Uc rs = Ok rs' /\
  (forall e i k, in_res d e i k ->
     rs' e i k = rsum (d_nq d) (fun q => d_wts d q * d_djac d e q *
        rsum (d_dim d) (fun j => euler_flux (d_dim d) (d_gamma d) (vol_state d Uc e q) (axis j) k * phys_grad d e q i j))) /\
  (forall e i k, ~ in_res d e i k -> rs' e i k = rs e i k).
Proof.
  intros d Uc rs Hd [O1 O2] HU. unfold element_residuals. cbv zeta.
  set (ns := (d_dim d + 2)%Z).
  set (Uq := evaluate_state (d_order d 0) (d_nq d) ns (d_nb d) (d_basis_val d) Uc zero3).
  assert (EU : forall e q k, (0 <= e < d_ne d)%Z -> (0 <= q < d_nq d)%Z -> (0 <= k < ns)%Z -> Uq e q k = vol_state d Uc e q k).
  { intros e q k H1 H2 H3. unfold Uq. rewrite (evaluate_state_entry _ (d_ne d)) by apply O1.
    now rewrite !(proj2 (inb_true _ _)). }
  destruct (volume_fluxes_ok (d_dim d) (d_gamma d) (d_djac d) (d_ijac d) (d_wts d) (d_garbage d) (d_garbage d)
     (d_porder d 0 (d_ne d) (d_nq d)) (d_ne d) (d_nq d) Uq zero4 Hd (O2 _ _ _)) as (Uq' & v & E & HV).
  { intros e q He Hq. unfold density. rewrite EU by (auto; unfold ns; lia). now apply HU. }
  match goal with |- exists r, bind ?X ?K = _ /\ _ => replace X with (Ok (Uq', v)) by (symmetry; exact E) end.
  rewrite bind_l. eexists. split; [reflexivity|]. cbn [snd].
  split; intros e i k H; rewrite (volume_flux_integral_entry _ (d_ne d)) by apply O1.
  - destruct H as (H1 & H2 & H3). fold ns in H3. rewrite !(proj2 (inb_true _ _)) by easy. cbn [andb].
    unfold within3. rewrite !(proj2 (Z.leb_le _ _)), !(proj2 (Z.ltb_lt _ _)) by lia. cbn [andb]. rewrite Rplus_0_l.
    apply rsum_ext. intros q Hq.
    rewrite (rsum_ext (d_dim d) _ (fun c => rsum (d_dim d) (fun j => (d_wts d q * d_djac d e q) *
       (euler_flux (d_dim d) (d_gamma d) (vol_state d Uc e q) (axis j) k * (d_basis_ref_grad d q i c * d_ijac d e q c j))))).
    + rewrite rsum_swap, <- rsum_scal. apply rsum_ext. intros j Hj. unfold phys_grad.
      rewrite <- !rsum_scal. reflexivity.
    + intros c Hc. fold ns in HV. rewrite HV, !(proj2 (inb_true _ _)) by easy. cbn [andb].
      rewrite <- rsum_scal_r, <- rsum_scal_r, <- rsum_scal. apply rsum_ext. intros j Hj.
      rewrite (euler_flux_extU (d_dim d) (d_gamma d) (Uq e q) (vol_state d Uc e q)) by (auto; intros; now apply EU). ring.
  - destruct (inb (d_ne d) e && inb (d_nb d) i && inb ns k)%bool eqn:X.
    { rewrite !andb_true_iff, !inb_true in X. destruct H. unfold in_res. fold ns. tauto. }
    destruct (within3 _ e i k) eqn:Y; [|reflexivity]. unfold within3 in Y.
    exfalso. rewrite !andb_true_iff, !Z.leb_le, !Z.ltb_lt in Y. apply H. unfold in_res. fold ns. lia.
Qed.
Print Assumptions C57_element_term.

(** ** C56 L2 projection *)

(** The quadrature mass matrix. *)
Definition mass (nq : Z) (B : arr2) (w djac : arr1) : arr2 :=
  fun i j => rsum nq (fun q => w q * djac q * B q i * B q j).

Theorem C56_projection :
  forall order nq nb ns iMM B djac w c U rhs0,
  Permutation order (zseq nq) -> inverse_of nb (mass nq B w djac) iMM ->
  let f := fun q k => rsum nb (fun j => B q j * c j k) in  (* values of the function with coefficients c *)
  (forall j k, (0 <= j < nb)%Z -> (0 <= k < ns)%Z ->
     L2_projection order nq nb ns iMM B djac w f U rhs0 j k = c j k) /\
  (forall j k, ~ ((0 <= j < nb)%Z /\ (0 <= k < ns)%Z) -> L2_projection order nq nb ns iMM B djac w f U rhs0 j k = U j k).
Proof.
  intros order nq nb ns iMM B djac w c U rhs0 P I f. split; intros j k H; rewrite L2_projection_entry by easy.
  - intros Hk. rewrite !(proj2 (inb_true _ _)) by easy. cbn [andb].
    transitivity (rsum nb (fun l => iMM j l * rsum nb (fun i => mass nq B w djac l i * c i k))).
    + apply rsum_ext. intros l Hl. f_equal. unfold f, mass.
      rewrite (rsum_ext nq _ (fun q => rsum nb (fun i => w q * djac q * B q l * B q i * c i k))).
      * rewrite rsum_swap. apply rsum_ext. intros i Hi. now rewrite rsum_scal_r.
      * intros q Hq. rewrite <- !rsum_scal. apply rsum_ext. intros i Hi. ring.
    + transitivity (rsum nb (fun i => rsum nb (fun l => iMM j l * mass nq B w djac l i) * c i k)).
      * rewrite (rsum_ext nb _ (fun l => rsum nb (fun i => iMM j l * mass nq B w djac l i * c i k))).
        -- rewrite rsum_swap. apply rsum_ext. intros i Hi. now rewrite rsum_scal_r.
        -- intros l Hl. rewrite <- rsum_scal. apply rsum_ext. intros. ring.
      * rewrite (rsum_ext nb _ (fun i => (fun i => c i k) i * (if (i =? j)%Z then 1 else 0))).
        -- now rewrite rsum_delta_r.
        -- intros i Hi. rewrite (proj2 (I j i ltac:(lia) Hi)), (Z.eqb_sym j i). ring.
  - destruct (inb nb j && inb ns k)%bool eqn:X; [|easy]. rewrite andb_true_iff, !inb_true in X. tauto.
Qed.
Print Assumptions C56_projection.

(** Two quadrature points, the functions 1 and x: the hypothesis is met. *)
Example C56_demo :
  let B := fun q j => if (j =? 0)%Z then 1 else (if (q =? 0)%Z then -1 else 1) in
  inverse_of 2 (mass 2 B (fun _ => 1) (fun _ => 3)) (fun i j => if (i =? j)%Z then 1/6 else 0).
Proof.
  intros B i j Hi Hj. unfold mass. rewrite !rsum_2.
  assert (Ci : (i = 0 \/ i = 1)%Z) by lia. assert (Cj : (j = 0 \/ j = 1)%Z) by lia.
  unfold B. destruct Ci as [-> | ->]; destruct Cj as [-> | ->]; cbn; split; lra.
Qed.

(** Example for C23: the 2x2 mesh on three ranks. *)
Example C23_demo :
  run_wf (fun _ l => rev l) 3 demo_mesh demo_ep /\
  faces_valid EQuad demo_mesh /\ faces_distinct demo_mesh /\ face_points EQuad 3.
Proof.
  split; [exact demo_run|].
  assert (X : forall f sd e k o, has_side demo_mesh f sd e k o ->
    In (f, sd, e, k, o) [(0,false,0,1,0);(0,true,1,3,1);(1,false,2,1,0);(1,true,3,3,1);(2,false,0,2,0);(2,true,2,0,1);(3,false,1,2,0);(3,true,3,0,1)]%Z).
  { intros f sd e k o (H1 & H2 & H3). unfold rd2 in *. destruct (rd (gm_IF demo_mesh) f) as [row|] eqn:E; [|discriminate].
    cbn [bind] in *. pose proof (rd_in_range _ _ _ E) as R. change (zlen (gm_IF demo_mesh)) with 4%Z in R.
    assert (C : (f = 0 \/ f = 1 \/ f = 2 \/ f = 3)%Z) by lia.
    destruct C as [-> | [-> | [-> | ->]]]; injection E as <-; destruct sd; cbv in H1, H2, H3;
      injection H1 as <-; injection H2 as <-; injection H3 as <-; cbn; auto 10. }
  split; [|split; [|cbn; lia]].
  - intros f sd e k o H. apply X in H. cbn in H.
    repeat (destruct H as [H|H]; [injection H as <- <- <- <- <-; cbn; lia|]). easy.
  - intros f sd e k o f' sd' o' H H'. apply X in H, H'. cbn in H, H'.
    repeat (destruct H as [H|H]; [injection H as <- <- <- <- <-;
      repeat (destruct H' as [H'|H']; [injection H'; intros; subst; try discriminate; auto|]); easy|]). easy.
Qed.
