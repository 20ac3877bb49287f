(** PropAsync.v -- C90: all ranks running on their own, with the threads of their
    kernels, the messages between them and the barriers interleaved in any way, end,
    and end with the discontinuous Galerkin solution on the devices. *)
From Coq Require Import ZArith List Lia Reals Lra Bool Permutation.
From Verif Require Import Base RBase PhysModel PhysSpec ShapeModel MeshModel MeshSpec MeshProof SolverModel SolverSpec PropMesh StepModel PropStep PropIntegral DGSpec DGProof PropTotal.
From Verif Require Import BasisModel PropBasis SetupModel SetupSpec PropSetup PropMeshRun PropInit PropDG PropHex PropWhole.
From Verif Require Import TeamModel TeamProof TeamKernels PropTeam TeamSetup TeamStep PropTeamStep PropDevice AsyncModel AsyncProof.
From Verif Require Import ReadModel PropRead PropCtor PropHexDemo PropHexCase.
Import ListNotations.
Local Open Scope R_scope.
Open Scope res_scope.

(** What it means that a run does its work whatever the schedule: in no state it can
    get to does a rank crash; a state from which nothing can happen any more is one
    in which all ranks have done all their items, and no message is left; there is no
    infinite schedule; from wherever a schedule has got to the run can be brought to
    its end; and at the end the memories satisfy [Q]. *)
Definition always_ends {A} (n : Z) (pm : Z -> pmesh A) (D : Z -> rdata) (order : Z -> nat -> Z -> Z -> list Z) (v0 : arr2)
  (items : list ditem) (M : Z -> mem) (Q : (Z -> mem) -> Prop) : Prop :=
  let reached := areaches n pm D order v0 (astart items M) in
  (forall s, reached s -> ~ acrashed n s) /\
  (forall s, reached s -> (forall s', ~ astep n pm D order v0 s s') -> afinished n s) /\
  (forall run : nat -> astate, run 0%nat = astart items M -> ~ forall k, astep n pm D order v0 (run k) (run (S k))) /\
  (forall s, reached s -> exists s', areaches n pm D order v0 s s' /\ reached s' /\ afinished n s') /\
  (forall s, reached s -> afinished n s -> s_net s = [] /\ Q (fun r => a_mem (s_rank s r))).

(** Every launch has threads. *)
Definition have_threads (n : Z) (items : list ditem) : Prop :=
  forall k r N T K, In (Kernels k) items -> (0 <= r < n)%Z -> In (Launch N T K) (k r) -> (0 < T)%Z.

Lemma areaches_front {A} n (pm : Z -> pmesh A) D order v0 s s1 s' : astep n pm D order v0 s s1 -> areaches n pm D order v0 s1 s' -> areaches n pm D order v0 s s'.
Proof. intros H. induction 1; [eapply ar_step; [apply ar_refl|exact H]|]. eapply ar_step; eassumption. Qed.
Lemma areaches_app {A} n (pm : Z -> pmesh A) D order v0 s s1 s' : areaches n pm D order v0 s s1 -> areaches n pm D order v0 s1 s' -> areaches n pm D order v0 s s'.
Proof. intros H. induction 1; [exact H|]. eapply ar_step; eassumption. Qed.

Lemma async_ends iter zero n m ep (pm : Z -> pmesh R) D order v0 items M :
  run_wf iter n m ep -> partitioned zero iter n m ep pm ->
  (forall r k i c, Permutation (order r k i c) (zseq c)) ->
  (forall r, (0 <= r < n)%Z -> d_nif (D r) = pm_num_ifaces_part (pm r)) ->
  have_threads n items -> device_completes n m ep pm D items M ->
  always_ends n pm D order v0 items M (device_runs n m ep pm D items M).
Proof.
  intros WF PT ORD NIF TS DC. set (reached := areaches n pm D order v0 (astart items M)).
  assert (RJ : forall s, reached s -> exists ix h, J n m ep pm D order v0 items M ix h s) by (intros s R; exact (J_reaches iter zero n m ep pm D order v0 WF PT ORD NIF items M s R)).
  assert (RA : forall s, reached s -> Acc (fun b a => astep n pm D order v0 a b) s).
  { intros s R. destruct (RJ s R) as (ix & h & HJ). exact (J_ends iter zero n m ep pm D order v0 WF PT ORD NIF items M TS ix h s HJ). }
  assert (RP : forall s, reached s -> afinished n s \/ exists s', astep n pm D order v0 s s').
  { intros s R. destruct (RJ s R) as (ix & h & HJ). exact (J_progress iter zero n m ep pm D order v0 WF PT ORD NIF items M DC ix h s HJ). }
  split; [|split; [|split; [|split]]].
  - intros s R. destruct (RJ s R) as (ix & h & HJ). exact (J_no_crash n m ep pm D order v0 items M ix h s HJ).
  - intros s R N. destruct (RP s R) as [F|(s' & X)]; [exact F|]. destruct (N s' X).
  - intros run R0 ST.
    assert (AC : forall s, Acc (fun b a => astep n pm D order v0 a b) s -> forall k, s <> run k).
    { induction 1 as [s _ IH]. intros k E. apply (IH (run (S k))) with (k := S k); [|reflexivity]. rewrite E. apply ST. }
    apply (AC (run 0%nat)) with (k := 0%nat); [|reflexivity]. apply RA. rewrite R0. apply ar_refl.
  - intros s R. assert (AC := RA s R). revert R. induction AC as [s _ IH]. intros R. destruct (RP s R) as [F|(s' & X)].
    + exists s. split; [apply ar_refl|]. auto.
    + assert (R' : reached s') by (eapply ar_step; [exact R|exact X]). destruct (IH s' X R') as (s2 & R1 & R2 & F). exists s2. split; [|auto]. eapply areaches_front; eassumption.
  - intros s R F. destruct (RJ s R) as (ix & h & HJ). destruct (J_finished iter zero n m ep pm D order v0 WF PT NIF items M DC ix h s HJ F) as [X Y]. auto.
Qed.

Lemma always_ends_imp {A} n (pm : Z -> pmesh A) D order v0 items M (Q Q' : (Z -> mem) -> Prop) : (forall M', Q M' -> Q' M') ->
  always_ends n pm D order v0 items M Q -> always_ends n pm D order v0 items M Q'.
Proof.
  intros H (A1 & A2 & A3 & A4 & A5). split; [exact A1|]. split; [exact A2|]. split; [exact A3|]. split; [exact A4|]. intros s R F. destruct (A5 s R F). auto.
Qed.

(** ** C90, any items *)

(** If executions in which the ranks do one item after the other, meeting at the
    exchanges, always complete (C89 gives this for the program's items), then so do
    executions in which the ranks, their threads and the messages are interleaved in
    any way, and they end with the same memories. *)
Theorem C90_asynchronous_runs : forall iter zero n m ep (pm : Z -> pmesh R) D order v0 items M,
  run_wf iter n m ep -> partitioned zero iter n m ep pm ->
  (forall r k i c, Permutation (order r k i c) (zseq c)) ->
  (forall r, (0 <= r < n)%Z -> d_nif (D r) = pm_num_ifaces_part (pm r)) ->
  have_threads n items -> device_completes n m ep pm D items M ->
  always_ends n pm D order v0 items M (fun M' => device_runs n m ep pm D items M M').
Proof. intros. eapply async_ends; eassumption. Qed.
Print Assumptions C90_asynchronous_runs.

Lemma residual_threads n D sc : (forall r, (0 <= r < n)%Z -> (0 < fst (sc r))%Z) -> have_threads n (residual_items D sc).
Proof.
  intros H k r N T K [E|[E|[E|[]]]] Hr HI; try discriminate; injection E as <-; specialize (H r Hr); cbn in HI;
    repeat (destruct HI as [E|HI]; [try discriminate; injection E as <- <- <-; first [exact H|lia]|]); destruct HI.
Qed.
Lemma threads_app n a b : have_threads n a -> have_threads n b -> have_threads n (a ++ b).
Proof. intros H1 H2 k r N T K HI. apply in_app_or in HI as [HI|HI]; [eapply H1|eapply H2]; eassumption. Qed.
Lemma threads_one n k : (forall r N T K, (0 <= r < n)%Z -> In (Launch N T K) (k r) -> (0 < T)%Z) -> have_threads n [Kernels k].
Proof. intros H k' r N T K [E|[]]. injection E as <-. apply H. Qed.

Lemma march_threads n D lay iMM steps : forall sch, (forall k r, (0 <= r < n)%Z -> (0 < fst (sch k r))%Z) -> have_threads n (march_items D lay iMM steps sch).
Proof.
  induction steps as [|[st dt] rest IH]; intros sch H; [intros k r N T K []|]. cbn [march_items]. apply threads_app; [|apply IH; intros k r Hr; apply H; exact Hr].
  assert (L : forall k, have_threads n (residual_items D (sch k))) by (intros k; apply residual_threads; intros r Hr; apply H; exact Hr).
  destruct st; cbn [step_items]; unfold fe_items, rk4_items; repeat (apply threads_app; [apply L|] || (apply threads_app; [apply threads_one|]) || apply threads_one);
    intros r N T K Hr HI; cbn in HI; repeat (destruct HI as [E|HI]; [try discriminate; injection E as <- <- <-; first [apply H; exact Hr|lia]|]); destruct HI.
Qed.

(** ** C90, a march in time *)

(** As C89_device_march, now with all ranks, threads and messages interleaved. *)
Theorem C90_asynchronous_march : forall zero iter n m ep pm S D iMM iM lay steps sch order v0 c M,
  run_wf iter n m ep -> partitioned zero iter n m ep pm -> runs_scheme S m pm n D ->
  faces_valid (sc_shape S) m -> faces_distinct m -> face_points (sc_shape S) (sc_nqf S) -> 1 < sc_gamma S ->
  (forall r le e i b, (0 <= r < n)%Z -> rd (pm_l2g_elem (pm r)) le = Ok e -> (0 <= i < sc_nb S)%Z -> (0 <= b < sc_nb S)%Z -> iMM r le i b = iM e i b) ->
  (forall r, (0 <= r < n)%Z -> fits (shape_of (sc_shape S) pm (sc_nb S) r)) -> (0 <= sc_nb S)%Z -> (0 <= sc_nq S)%Z ->
  (forall k r, (0 <= r < n)%Z -> thread_assignment (fst (sch k r)) (snd (sch k r))) ->
  (forall r k i c, Permutation (order r k i c) (zseq c)) ->
  stays_physical S m iM steps c ->
  holds pm n (sc_nb S) (space_dim (sc_shape S) + 2) c (fun r => view3 vUc (M r)) ->
  boundary_zero (sc_shape S) m pm n (sc_nqf S) (fun r => face_views (M r)) ->
  always_ends n pm D order v0 (march_items D lay iMM steps sch) M
    (fun M' => holds pm n (sc_nb S) (space_dim (sc_shape S) + 2) (dg_march S m iM steps c) (fun r => view3 vUc (M' r))).
Proof.
  intros zero iter n m ep pm S D iMM iM lay steps sch order v0 c M WF PT RS HV HD HP Hg HM FT Hnb Hnq TA ORD SP HU BZ.
  destruct (C89_device_march zero iter n m ep pm S D iMM iM lay steps sch c M WF PT RS HV HD HP Hg HM FT Hnb Hnq TA SP HU BZ) as [C R].
  apply always_ends_imp with (Q := device_runs n m ep pm D (march_items D lay iMM steps sch) M); [intros M' X; exact (proj1 (R M' X))|].
  apply (async_ends iter zero); auto.
  - intros r Hr. destruct (ss_sizes _ _ _ _ _ _ _ _ _ _ _ (rs_same _ _ _ _ _ RS) r Hr) as (_ & _ & _ & _ & _ & _ & X & _). exact X.
  - apply march_threads. intros k r Hr. apply (TA k r Hr).
Qed.
Print Assumptions C90_asynchronous_march.

Lemma init_threads n s bt p m pm ic ph M1 ts : initial_tasks s bt p m pm n ic ph M1 ts -> have_threads n [Kernels ts].
Proof.
  intros IT. apply threads_one. intros r N T K Hr HI. destruct (IT r Hr) as (junk & T' & own & TA & E). unfold init_tasks in E.
  destruct (volume_quadrature s (2 * Z.max p 1) zero2 zero1) as [[[nq P] W]|]; [|discriminate]. cbn [bind] in E. injection E as E. rewrite <- E in HI.
  destruct HI as [X|[]]. injection X as _ <- _. apply TA.
Qed.

(** ** C90, a run *)

(** A case in two dimensions on a good mesh, partitioned in any way: once the ranks
    have set up (C88, no messages), the initialisation and the march end and leave
    the discontinuous Galerkin solution. *)
Theorem C90_asynchronous_run : forall iter n m ep pm bt p gamma ft ic ph u steps h f ord pord jk lay sch order v0 M1 ts,
  run_wf iter n m ep -> partitioned 0 iter n m ep pm -> good_quads m -> basis_for EQuad bt -> supported bt p -> order_ok p -> 1 < gamma ->
  small m (nfun bt p) 4 -> starts_as 2 ic ph 0 u -> quad_physical m bt p gamma ft u steps ->
  devices_set_up EQuad bt p m pm n h f M1 -> inner_loops_ok pm n ord pord -> initial_tasks EQuad bt p m pm n ic ph M1 ts ->
  (forall k r, (0 <= r < n)%Z -> thread_assignment (fst (sch k r)) (snd (sch k r))) ->
  (forall r k i c, Permutation (order r k i c) (zseq c)) ->
  let D := tables EQuad bt p pm gamma ft h f ord pord jk in
  exists c, quad_solution m bt p gamma ft u steps c /\
    always_ends n pm D order v0 (Kernels ts :: march_items D lay (fun r => view3 viM (M1 r)) steps sch) M1
      (fun M' => holds pm n (nfun bt p) 4 c (fun r => view3 vUc (M' r))).
Proof.
  intros iter n m ep pm bt p gamma ft ic ph u steps h f ord pord jk lay sch order v0 M1 ts WF PT GQ BF Sup Op Gm SM SA QP DS IL IT TA ORD D.
  destruct (C89_device_run iter n m ep pm bt p gamma ft ic ph u steps h f ord pord jk lay sch M1 ts WF PT GQ BF Sup Op Gm SM SA QP DS IL IT TA) as (C & c & QS & R).
  exists c. split; [exact QS|]. eapply always_ends_imp; [exact R|]. apply (async_ends iter 0); auto.
  change (have_threads n ([Kernels ts] ++ march_items D lay (fun r => view3 viM (M1 r)) steps sch)). apply threads_app; [exact (init_threads n _ _ _ _ _ _ _ _ _ IT)|].
  apply march_threads. intros k r Hr. apply (TA k r Hr).
Qed.
Print Assumptions C90_asynchronous_run.

(** The same for hexahedra. *)
Theorem C90_asynchronous_run_hexahedra : forall iter n m ep pm bt p gamma ft ic ph u steps h f ord pord jk lay sch order v0 M1 ts,
  run_wf iter n m ep -> partitioned 0 iter n m ep pm -> good_hexes m -> basis_for EHex bt -> supported bt p -> order_ok p -> 1 < gamma ->
  small m (nfun bt p) 5 -> starts_as 3 ic ph 0 u -> hex_physical m bt p gamma ft u steps ->
  devices_set_up EHex bt p m pm n h f M1 -> inner_loops_ok pm n ord pord -> initial_tasks EHex bt p m pm n ic ph M1 ts ->
  (forall k r, (0 <= r < n)%Z -> thread_assignment (fst (sch k r)) (snd (sch k r))) ->
  (forall r k i c, Permutation (order r k i c) (zseq c)) ->
  let D := tables EHex bt p pm gamma ft h f ord pord jk in
  exists c, hex_solution m bt p gamma ft u steps c /\
    always_ends n pm D order v0 (Kernels ts :: march_items D lay (fun r => view3 viM (M1 r)) steps sch) M1
      (fun M' => holds pm n (nfun bt p) 5 c (fun r => view3 vUc (M' r))).
Proof.
  intros iter n m ep pm bt p gamma ft ic ph u steps h f ord pord jk lay sch order v0 M1 ts WF PT GQ BF Sup Op Gm SM SA QP DS IL IT TA ORD D.
  destruct (C89_device_run_hexahedra iter n m ep pm bt p gamma ft ic ph u steps h f ord pord jk lay sch M1 ts WF PT GQ BF Sup Op Gm SM SA QP DS IL IT TA) as (C & c & QS & R).
  exists c. split; [exact QS|]. eapply always_ends_imp; [exact R|]. apply (async_ends iter 0); auto.
  change (have_threads n ([Kernels ts] ++ march_items D lay (fun r => view3 viM (M1 r)) steps sch)). apply threads_app; [exact (init_threads n _ _ _ _ _ _ _ _ _ IT)|].
  apply march_threads. intros k r Hr. apply (TA k r Hr).
Qed.
Print Assumptions C90_asynchronous_run_hexahedra.

Definition backwards : Z -> nat -> Z -> Z -> list Z := fun _ _ _ c => rev (zseq c).
Lemma backwards_ok r k i c : Permutation (backwards r k i c) (zseq c).
Proof. apply Permutation_sym, Permutation_rev. Qed.

(** Four squares on three ranks, order 2, threads of teams of three taking turns,
    the loops that pack and unpack messages running backwards, a uniform state: some
    schedule takes the ranks to the end of the initialisation and a step. *)
Example C90_demo : exists pm h f M1 ts c s,
  let ph := Build_phys 2 1 (fun k => if (k =? 3)%Z then 5 else if (k =? 0)%Z then 1 else 0) in
  let D := tables EQuad LagrangeQuad 2 pm 2 HLLC h f (any_ord pm) any_pord (fun _ => zero1) in
  partitioned 0 (fun _ l => rev l) 3 demo_rmesh demo_ep pm /\ devices_set_up EQuad LagrangeQuad 2 demo_rmesh pm 3 h f M1 /\
  initial_tasks EQuad LagrangeQuad 2 demo_rmesh pm 3 Uniform ph M1 ts /\
  areaches 3 pm D backwards zero2 (astart (Kernels ts :: march_items D LLeft (fun r => view3 viM (M1 r)) [(ForwardEuler, 1 / 10)] (fun _ _ => (3%Z, in_turns 3))) M1) s /\ afinished 3 s /\ s_net s = [] /\
  quad_solution demo_rmesh LagrangeQuad 2 2 HLLC (fun _ k => ph_IC ph k) [(ForwardEuler, 1 / 10)] c /\
  holds pm 3 9 4 c (fun r => view3 vUc (a_mem (s_rank s r))).
Proof.
  destruct demo_straight as (SQ & CF & FV & FD).
  assert (GQ : good_quads demo_rmesh) by (constructor; auto; [reflexivity|exact case_nodes]).
  destruct (C05_partitioned_exists R 0 (fun _ l => rev l) 3%Z demo_rmesh demo_ep demo_rrun) as (pm & PT).
  assert (RD : ready EQuad LagrangeQuad 2 1 demo_rmesh) by (constructor; auto; [lia|apply SQ|now apply convex_untangled|now left|unfold order_ok; lia|now left]).
  set (ph := Build_phys 2 1 (fun k => if (k =? 3)%Z then 5 else if (k =? 0)%Z then 1 else 0)).
  destruct (devices_start _ _ _ _ pm EQuad LagrangeQuad 2 Uniform ph 3 ltac:(lia) demo_rrun PT RD) as (h & f & M1 & ts & DS & IT).
  destruct (C90_asynchronous_run _ _ _ _ pm LagrangeQuad 2 2 HLLC Uniform ph (fun _ k => ph_IC ph k) [(ForwardEuler, 1 / 10)] h f (any_ord pm) any_pord (fun _ => zero1) LLeft (fun _ _ => (3%Z, in_turns 3)) backwards zero2 M1 ts demo_rrun PT GQ)
    as (c & QS & _ & _ & _ & EN & FI); auto.
  - now left.
  - now left.
  - unfold order_ok. lia.
  - lra.
  - split; reflexivity.
  - apply uniform_starts. lia.
  - apply uniform_quads; auto; try lia; [now left|now left|unfold order_ok; lia|].
    unfold admissible, pressure, density, energy, vdot, velocity, momentum. rewrite rsum_2. unfold density. cbn. lra.
  - apply any_ok.
  - intros k r _. apply in_turns_ok. reflexivity.
  - exact backwards_ok.
  - destruct (EN _ (ar_refl _ _ _ _ _ _)) as (s & _ & RE & F). destruct (FI s RE F) as (NE & HO). exists pm, h, f, M1, ts, c, s. cbv zeta. fold ph.
    split; [exact PT|]. split; [exact DS|]. split; [exact IT|]. split; [exact RE|]. split; [exact F|]. split; [exact NE|]. split; [exact QS|exact HO].
Qed.

(** The same for four cubes on two ranks. *)
Example C90_hexahedra_demo : exists pm h f M1 ts c s,
  let ph := ProgramModel.cf_phys cube_config in
  let D := tables EHex LagrangeHex 1 pm 2 HLLC h f (any_ord pm) any_pord (fun _ => zero1) in
  partitioned 0 (fun _ l => l) 2 four_cubes (cube_ep 2) pm /\ devices_set_up EHex LagrangeHex 1 four_cubes pm 2 h f M1 /\
  initial_tasks EHex LagrangeHex 1 four_cubes pm 2 Uniform ph M1 ts /\
  areaches 2 pm D backwards zero2 (astart (Kernels ts :: march_items D LRight (fun r => view3 viM (M1 r)) [(ForwardEuler, 1 / 10)] (fun _ _ => (4%Z, in_turns 4))) M1) s /\ afinished 2 s /\ s_net s = [] /\
  hex_solution four_cubes LagrangeHex 1 2 HLLC (fun _ k => ph_IC ph k) [(ForwardEuler, 1 / 10)] c /\
  holds pm 2 8 5 c (fun r => view3 vUc (a_mem (s_rank s r))).
Proof.
  destruct cube_good as [FV FD FH CF Hne Hall].
  assert (RW : run_wf (fun _ l => l) 2 four_cubes (cube_ep 2)).
  { destruct (C76_mesh_constructor R 0 (fun _ l => l) case_metis None [] cube_file 2 cube_wf ltac:(lia) (fun r l => Permutation_refl l)) as (md & RM & _ & H & _).
    assert (EM : md_mesh md = four_cubes). { destruct (ltac:(cbv -[IZR]; eexists; split; reflexivity) : exists md, read_mesh [] cube_file = Ok md /\ md_mesh md = four_cubes) as (md' & E1 & E2). rewrite E1 in RM. injection RM as <-. exact E2. }
    rewrite EM in H. exact (proj1 (H (cube_ep 2) (cube_intended 2 ltac:(auto)))). }
  destruct (C05_partitioned_exists R 0 (fun _ l => l) 2%Z four_cubes (cube_ep 2) RW) as (pm & PT).
  assert (RD : ready EHex LagrangeHex 1 1 four_cubes) by (constructor; auto; [lia|apply FH|apply FH|now left|unfold order_ok; lia|now left]).
  set (ph := ProgramModel.cf_phys cube_config).
  destruct (devices_start _ _ _ _ pm EHex LagrangeHex 1 Uniform ph 4 ltac:(lia) RW PT RD) as (h & f & M1 & ts & DS & IT).
  destruct (C90_asynchronous_run_hexahedra _ _ _ _ pm LagrangeHex 1 2 HLLC Uniform ph (fun _ k => ph_IC ph k) [(ForwardEuler, 1 / 10)] h f (any_ord pm) any_pord (fun _ => zero1) LRight (fun _ _ => (4%Z, in_turns 4)) backwards zero2 M1 ts RW PT cube_good)
    as (c & QS & _ & _ & _ & EN & FI); auto.
  - now left.
  - now left.
  - unfold order_ok. lia.
  - lra.
  - split; reflexivity.
  - apply uniform_starts. lia.
  - apply uniform_hexes; [exact cube_good|now left|now left|unfold order_ok; lia|lia|exact cube_admissible].
  - apply any_ok.
  - intros k r _. apply in_turns_ok. reflexivity.
  - exact backwards_ok.
  - destruct (EN _ (ar_refl _ _ _ _ _ _)) as (s & _ & RE & F). destruct (FI s RE F) as (NE & HO). exists pm, h, f, M1, ts, c, s. cbv zeta. fold ph.
    split; [exact PT|]. split; [exact DS|]. split; [exact IT|]. split; [exact RE|]. split; [exact F|]. split; [exact NE|]. split; [exact QS|exact HO].
Qed.
