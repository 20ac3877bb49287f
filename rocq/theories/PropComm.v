(** PropComm.v -- property theorems C12-C16 (communication between ranks).
    The vocabulary is that of CommSpec.v; the model is CommModel.v. *)
From Coq Require Import ZArith List Lia Bool Permutation Sorted.
From Verif Require Import Base MeshModel MeshSpec MeshProof MeshReadProof MeshProof2 PropMesh
  CommModel CommSpec CommProof CommInv CommRun.
Import ListNotations.
Local Open Scope Z_scope.
Open Scope res_scope.

(** * Facts used below *)

Lemma hist_history {A V} iter zero (m : gmesh A) ep (c : cfg A V) s0 :
  comm_wf iter zero m ep c -> sized (c_n c) (c_pm c) s0 ->
  history m ep c s0 (hist m ep c s0) (fun k => exch m ep c (hist m ep c s0 k)).
Proof.
  intros CW Hs. split; [reflexivity|]. split; [intros k; now apply (hist_sized iter zero m ep c CW)|].
  split; [|reflexivity]. intros k. apply (exch_ok iter zero m ep c CW).
  now apply (hist_sized iter zero m ep c CW).
Qed.

Lemma packed_own {A V} iter zero (m : gmesh A) ep (c : cfg A V) S r s :
  comm_wf iter zero m ep c -> sized (c_n c) (c_pm c) S -> 0 <= r < c_n c -> s <> r ->
  Forall2 (own_block m ep (c_pm c) S r) (between m ep r s) (packed m ep c (S r) r s).
Proof.
  intros CW HS Hr Hne. unfold packed.
  assert (X : forall l, (forall f, In f l -> In f (between m ep r s)) ->
     Forall2 (own_block m ep (c_pm c) S r) l (map (own m ep c (S r) r) l)).
  { induction l as [|f l IH]; intros Hl; cbn; constructor; [|apply IH; intros; apply Hl; now right].
    pose proof (between_in m ep c r s f Hr (Hl f (or_introl eq_refl))) as (HF & Hf & G & O & Eo).
    destruct (pmf iter zero m ep c CW r Hr) as (_ & EF & _ & _ & _ & _ & EL).
    assert (Hfit : fits m ep r (S r)) by (unfold fits, F; unfold F in EL; rewrite <- EL; now apply HS).
    destruct (rd_val iter zero m ep c CW r (S r) f Hr Hfit HF) as [RL RR].
    exists (lid m ep r f). rewrite EF. split; [now apply (F_lookup iter zero m ep c CW r f Hr HF)|].
    pose proof (face_ranks_rk m (c_n c) ep (run_mesh _ _ _ _ (cw_run _ _ _ _ _ CW))
      (run_ep _ _ _ _ (cw_run _ _ _ _ _ CW)) f) as FR.
    unfold own, other, on_rank in *. rewrite Z.eqb_sym in Eo.
    destruct (Z.eqb_spec (rkL m ep f) r) as [E|E].
    - left. exists s. split; [easy|]. split; [|exact RL]. apply FR. auto.
    - right. exists s. split; [easy|]. split; [|exact RR]. apply FR. split; [easy|]. split; [easy|].
      rewrite orb_true_iff, !Z.eqb_eq in O. destruct O; congruence. }
  apply X. auto.
Qed.

Lemma steps_trans {A V} (c : cfg A V) k1 k2 g1 g2 g3 :
  steps c k1 g1 g2 -> steps c k2 g2 g3 -> steps c (k1 + k2) g1 g3.
Proof.
  intros H1 H2. revert H1. induction H2 as [g2|k2 g2 g3 g4 H2 IH S]; intros H1.
  - now rewrite Nat.add_0_r.
  - rewrite <- plus_n_Sm. econstructor; [apply IH|]; eauto.
Qed.

(** ** C12: when a rank has left communicate_face_solution in exchange number k
    (all neighbours unpacked), its state is that of a correct exchange of the
    states all ranks had at entry of exchange number k; and when all ranks have
    finished, the state is that after all exchanges.  Every schedule, every
    time at which MPI reads a send buffer. *)
Theorem C12_exchange_delivers :
  forall A V iter (zero : A) m ep (c : cfg A V) s0,
  comm_wf iter zero m ep c -> c_device c = false -> sized (c_n c) (c_pm c) s0 ->
  exists E X, history m ep c s0 E X /\
  forall k g, steps c k (init c s0) g ->
    (forall r i, 0 <= r < c_n c -> k_ph (g_rk g r) = PUnpack i ->
       pm_num_neighbor_ranks (c_pm c r) <= i -> k_st (g_rk g r) = X (k_rnd (g_rk g r)) r) /\
    (finished c g -> forall r, 0 <= r < c_n c -> k_st (g_rk g r) = E (c_rounds c) r).
Proof.
  intros A V iter zero m ep c s0 CW Hdev Hs.
  exists (hist m ep c s0), (fun k => exch m ep c (hist m ep c s0 k)).
  split; [eapply hist_history; eauto|]. intros k g St.
  pose proof (steps_Inv iter zero m ep c CW Hdev s0 Hs k g St) as HI. split.
  - intros r i Hr Eph Hi. pose proof (ri_st _ _ _ _ _ _ (inv_rk _ _ _ _ _ HI r Hr)) as X.
    unfold st_ok in X. rewrite Eph in X. rewrite X. unfold exch. f_equal.
    destruct (pmf iter zero m ep c CW r Hr) as (Enn & _). rewrite Enn in Hi. unfold nn, zlen in Hi.
    apply firstn_all2. lia.
  - intros HF r Hr. now apply (Inv_finished_state m ep c s0 g r HI HF Hr).
Qed.
Print Assumptions C12_exchange_delivers.

(** A single exchange with nothing done afterwards: the final state is exactly
    the exchanged initial state. *)
Theorem C12_single_exchange :
  forall A V iter (zero : A) m ep (c : cfg A V) s0,
  comm_wf iter zero m ep c -> c_device c = false -> sized (c_n c) (c_pm c) s0 ->
  c_rounds c = 1%nat -> (forall k r s, c_compute c k r s = s) ->
  forall k g, steps c k (init c s0) g -> finished c g ->
  exchanged (c_n c) m ep (c_pm c) s0 (fun r => k_st (g_rk g r)).
Proof.
  intros A V iter zero m ep c s0 CW Hdev Hs HK Hid k g St HF.
  destruct (C12_exchange_delivers A V iter zero m ep c s0 CW Hdev Hs) as (E & X & (H0 & H1 & H2 & H3) & HH).
  destruct (HH k g St) as [_ HE]. specialize (HE HF). rewrite HK in HE.
  destruct (H2 O) as [S1 S2].
  assert (EX : forall r, 0 <= r < c_n c -> k_st (g_rk g r) = X O r).
  { intros r Hr. rewrite HE, H3, Hid by easy. reflexivity. }
  split.
  - intros r Hr. rewrite EX by easy. now apply S1.
  - intros r lf f rL rR Hr R FR. rewrite EX by easy. rewrite <- !H0. now apply (S2 r lf f rL rR).
Qed.
Print Assumptions C12_single_exchange.

(** ** C13: no crash, no deadlock, bounded length, completion from every
    reachable state, nothing left in flight. *)
Theorem C13_exchange_terminates :
  forall A V iter (zero : A) m ep (c : cfg A V) s0,
  comm_wf iter zero m ep c -> c_device c = false -> sized (c_n c) (c_pm c) s0 ->
  forall k g, steps c k (init c s0) g ->
    ~ crashed c g /\
    (finished c g \/ exists g', step c g g') /\
    Z.of_nat k <= 2 * Z.of_nat (c_rounds c) *
      sumZ (map (fun r => 4 * (pm_num_neighbor_ranks (c_pm c r) + 1) + 2) (zseq (c_n c))) /\
    (exists k' g', steps c k' g g' /\ finished c g') /\
    (finished c g -> g_net g = []).
Proof.
  intros A V iter zero m ep c s0 CW Hdev Hs k g St.
  pose proof (steps_Inv iter zero m ep c CW Hdev s0 Hs k g St) as HI.
  pose proof (steps_bound iter zero m ep c CW Hdev s0 Hs) as HB.
  split; [eapply Inv_no_crash; eauto|].
  split; [eapply progress; eauto|].
  split.
  { pose proof (HB k g St) as B. pose proof (phi_nonneg m ep c s0 g HI).
    rewrite (phi_init iter zero m ep c CW s0) in B. lia. }
  split; [|intros HF; eapply Inv_finished_net; eauto].
  assert (X : forall f k g, steps c k (init c s0) g -> phi c g < Z.of_nat f ->
     exists k' g', steps c k' g g' /\ finished c g').
  { induction f as [|f IH]; intros k1 g1 S1 Hf.
    - pose proof (phi_nonneg m ep c s0 g1 (steps_Inv iter zero m ep c CW Hdev s0 Hs k1 g1 S1)). lia.
    - pose proof (steps_Inv iter zero m ep c CW Hdev s0 Hs k1 g1 S1) as HI1.
      destruct (progress iter zero m ep c CW s0 g1 HI1) as [HF|(g2 & S2)].
      + exists O, g1. split; [constructor|exact HF].
      + pose proof (phi_step iter zero m ep c CW Hdev s0 Hs g1 g2 HI1 S2) as Hp.
        destruct (IH (S k1) g2 (steps_S c k1 _ _ _ S1 S2)) as (k' & g' & S' & HF); [lia|].
        exists (1 + k')%nat, g'. split; [|exact HF].
        eapply steps_trans; [|exact S']. eapply steps_S; [apply steps_0|exact S2]. }
  apply (X (Z.to_nat (phi c g + 1)) k g St). pose proof (phi_nonneg m ep c s0 g HI). lia.
Qed.
Print Assumptions C13_exchange_terminates.

(** ** C14: whatever the number of exchanges and the schedule: a message in
    flight from rank s to rank d contains -- whenever MPI reads it -- for every
    face joining s and d, in order, the own block of s of the exchange s is in;
    and what a rank has received when it reaches the barrier are the blocks of
    the exchange the rank itself is in. *)
Theorem C14_rounds_do_not_mix :
  forall A V iter (zero : A) m ep (c : cfg A V) s0,
  comm_wf iter zero m ep c -> c_device c = false -> sized (c_n c) (c_pm c) s0 ->
  exists E X, history m ep c s0 E X /\
  forall k g, steps c k (init c s0) g ->
    (forall x, In x (g_net g) ->
       exists i gf data, 0 <= m_src x < c_n c /\
         rd (pm_neighbor_ranks (c_pm c (m_src x))) i = Ok (m_dst x) /\
         rd (pm_ghost_faces (c_pm c (m_src x))) i = Ok gf /\
         msg_content g x = Ok data /\
         Forall2 (own_block m ep (c_pm c) (E (k_rnd (g_rk g (m_src x)))) (m_src x)) gf data) /\
    (forall r i s gf, 0 <= r < c_n c ->
       (k_ph (g_rk g r) = PEnter \/ k_ph (g_rk g r) = PWait \/ exists j, k_ph (g_rk g r) = PUnpack j) ->
       rd (pm_neighbor_ranks (c_pm c r)) i = Ok s -> rd (pm_ghost_faces (c_pm c r)) i = Ok gf ->
       exists data, rd (k_recv (g_rk g r)) i = Ok data /\
         Forall2 (own_block m ep (c_pm c) (E (k_rnd (g_rk g r))) s) gf data).
Proof.
  intros A V iter zero m ep c s0 CW Hdev Hs.
  exists (hist m ep c s0), (fun k => exch m ep c (hist m ep c s0 k)).
  split; [eapply hist_history; eauto|]. intros k g St.
  pose proof (steps_Inv iter zero m ep c CW Hdev s0 Hs k g St) as HI. split.
  - intros x Hx. destruct (inv_msg _ _ _ _ _ HI x Hx) as [M1 M2 M3 (i & Ri & Er & Hi) M5 M6 M7].
    destruct (pmf iter zero m ep c CW _ M1) as (_ & _ & _ & _ & EG & _ & _).
    destruct (nb_facts iter zero m ep c CW _ M1) as (_ & _ & HNb).
    destruct (HNb _ (rd_In _ _ _ Ri)) as (_ & _ & Hne).
    exists i. do 2 eexists. split; [exact M1|]. split; [exact Ri|].
    rewrite EG. split; [apply (rd_map _ _ _ _ Ri)|].
    split; [exact (msg_content_ok m ep c s0 g x HI Hx)|].
    eapply packed_own; eauto. apply (hist_sized iter zero m ep c CW s0 _ Hs).
  - intros r i s gf Hr Hph Ri Rg.
    destruct (pmf iter zero m ep c CW r Hr) as (_ & _ & _ & _ & EG & _ & _).
    destruct (nb_facts iter zero m ep c CW r Hr) as (_ & _ & HNb).
    destruct (HNb s (rd_In _ _ _ Ri)) as (Hsr & _ & Hne).
    rewrite EG, (rd_map _ _ _ _ Ri) in Rg. injection Rg as <-.
    destruct (inv_rk _ _ _ _ _ HI r Hr) as [R1 R2 R3 R4 R5 R6].
    destruct R6 as (_ & _ & R6); [intros E; rewrite E in Hph; destruct Hph as [Hph|[Hph|[j Hph]]]; discriminate|].
    destruct (R6 i s Ri) as [_ (b & Rb & _ & Eb)]. exists b. split; [exact Rb|].
    rewrite Eb.
    + rewrite between_sym. eapply packed_own; eauto. apply (hist_sized iter zero m ep c CW s0 _ Hs).
    + apply rd_in_range in Ri. change (zlen (pm_neighbor_ranks (c_pm c r))) with (nn c r) in Ri.
      destruct Hph as [E|[E|[j E]]]; rewrite E; cbn; lia.
Qed.
Print Assumptions C14_rounds_do_not_mix.

(** The demo run: three ranks, two exchanges; blocks are numbers, the solver
    adds one to every block between exchanges, loops run backwards. *)
Definition demo_pm (r : Z) : pmesh Z :=
  match partition_tables 0 (fun l => rev l) 3 3 r demo_mesh demo_ep with
  | Ok p => p
  | Fail _ => mkPMesh 0 0 0 0 0 [] [] [] [] [] [] [] [] []
  end.

Definition demo_cfg (device : bool) : cfg Z Z :=
  mkCfg 3 demo_pm 2 device (fun _ _ s => mkFS (map (Z.add 1) (fs_L s)) (map (Z.add 1) (fs_R s)))
    (fun _ _ _ cnt => rev (zseq cnt)) 0.

Definition demo_s0 (r : Z) : fstate Z :=
  let l := zseq (pm_num_ifaces_part (demo_pm r)) in
  mkFS (map (fun x => 100 * r + x) l) (map (fun x => 100 * r + 50 + x) l).

Example demo_cfg_ok device : comm_wf (fun _ l => rev l) 0 demo_mesh demo_ep (demo_cfg device).
Proof.
  constructor.
  - exact demo_run.
  - intros r Hr. assert (X : r = 0 \/ r = 1 \/ r = 2) by (cbn in Hr; lia).
    destruct X as [->|[->| ->]]; vm_compute; reflexivity.
  - intros. cbn. symmetry. apply Permutation_rev.
  - intros k S HS r Hr. cbn. rewrite !zlen_map. apply HS. exact Hr.
Qed.

Example demo_s0_ok : sized 3 demo_pm demo_s0.
Proof. intros r Hr. assert (X : r = 0 \/ r = 1 \/ r = 2) by lia. destruct X as [->|[->| ->]]; split; reflexivity. Qed.

(** The hypotheses of C12-C14 are met, and complete runs exist. *)
Example demo_completes : exists k g, steps (demo_cfg false) k (init (demo_cfg false) demo_s0) g /\
  finished (demo_cfg false) g.
Proof.
  destruct (C13_exchange_terminates Z Z (fun _ l => rev l) 0 demo_mesh demo_ep (demo_cfg false) demo_s0
    (demo_cfg_ok false) eq_refl demo_s0_ok O _ (steps_0 _ _)) as (_ & _ & _ & X & _). exact X.
Qed.

(** Running a schedule: [inl r] a step of rank r, [inr j] MPI reads message j. *)
Fixpoint run_sched {A V} (c : cfg A V) (l : list (Z + nat)) (g : gstate V) : option (gstate V) :=
  match l with
  | [] => Some g
  | a :: l =>
      match (match a with inl r => if (0 <=? r) && (r <? c_n c) then rank_step c r g else None
                        | inr j => copy_step j g end) with
      | Some g' => run_sched c l g'
      | None => None
      end
  end.

Lemma run_sched_steps {A V} (c : cfg A V) l g0 k g g' :
  steps c k g0 g -> run_sched c l g = Some g' -> exists k', steps c k' g0 g'.
Proof.
  revert k g; induction l as [|a l IH]; intros k g S0; cbn.
  - intros [= <-]. eauto.
  - destruct a as [r|j].
    + destruct ((0 <=? r) && (r <? c_n c)) eqn:E; [|discriminate].
      rewrite andb_true_iff, Z.leb_le, Z.ltb_lt in E.
      destruct (rank_step c r g) as [g1|] eqn:E1; [|discriminate].
      apply IH with (k := S k). eapply steps_S; [exact S0|]. eapply step_rank; eauto.
    + destruct (copy_step j g) as [g1|] eqn:E1; [|discriminate].
      apply IH with (k := S k). eapply steps_S; [exact S0|]. eapply step_copy; eauto.
Qed.

(** ** C15: false.  When the state is in device memory the temporary host copy
    given to MPI_Isend is destroyed at the end of the loop iteration; a schedule
    in which MPI reads the buffer afterwards touches freed memory. *)
Theorem C15_device_send_buffer_refuted :
  exists A V iter (zero : A) m ep (c : cfg A V) s0 k g,
    comm_wf iter zero m ep c /\ c_device c = true /\ sized (c_n c) (c_pm c) s0 /\
    steps c k (init c s0) g /\
    exists r, 0 <= r < c_n c /\ k_ph (g_rk g r) = PCrash NullDeref.
Proof.
  set (c := demo_cfg true).
  pose (sch := [inl 0; inl 0; inl 0; inl 0; inl 0; inr O] : list (Z + nat)).
  assert (E : exists g', run_sched c sch (init c demo_s0) = Some g' /\ k_ph (g_rk g' 0) = PCrash NullDeref).
  { eexists. split; vm_compute; reflexivity. }
  destruct E as (g & E & Hc).
  destruct (run_sched_steps c sch _ O _ g (steps_0 c _) E) as (k & St).
  exists Z, Z, (fun _ l => rev l), 0, demo_mesh, demo_ep, c, demo_s0, k, g.
  split; [apply demo_cfg_ok|]. split; [reflexivity|]. split; [exact demo_s0_ok|]. split; [exact St|].
  exists 0. split; [cbn; lia|exact Hc].
Qed.
Print Assumptions C15_device_send_buffer_refuted.

(** * C16: rank-ordered print *)

(** What must appear: header, the blocks in rank order, footer. *)
Definition full_output (n : Z) : list out := Header :: map Block (zseq n) ++ [Footer].

Section Print.
Variable n : Z.
Hypothesis Hn : 0 < n.

Definition did (p : pphase) : Z := match p with PB j | PW j | PA j => j | PEnd => n + 2 end.
Definition in_bar (p : pphase) : Z := match p with PW _ | PA _ => 1 | _ => 0 end.
Definition left_bar (p : pphase) : Z := match p with PA j => j + 1 | PB j | PW j => j | PEnd => n + 2 end.
Definition emitter (j : Z) : Z := if (j =? 0) || (j =? n + 1) then 0 else j - 1.
Definition pidx (p : pphase) : Prop := match p with PB j | PW j | PA j => 0 <= j <= n + 1 | PEnd => True end.

Record PI (g : pstate) : Prop := {
  pi_idx : forall r, 0 <= r < n -> pidx (p_ph g r);
  pi_ent : forall r, 0 <= r < n -> Z.of_nat (p_ent g r) = did (p_ph g r) + in_bar (p_ph g r);
  pi_sync : forall r s, 0 <= r < n -> 0 <= s < n -> left_bar (p_ph g r) <= Z.of_nat (p_ent g s);
  pi_out : exists k, 0 <= k <= n + 2 /\ p_out g = firstn (Z.to_nat k) (full_output n) /\
     forall j, 0 <= j <= n + 1 -> (j < did (p_ph g (emitter j)) <-> j < k)
}.

Lemma emitter_range j : 0 <= j <= n + 1 -> 0 <= emitter j < n.
Proof. intros Hj. unfold emitter. destruct (Z.eqb_spec j 0), (Z.eqb_spec j (n + 1)); cbn; lia. Qed.

Lemma PI_init : PI print_init.
Proof.
  constructor; cbn; intros; try lia. exists 0. split; [lia|]. split; [reflexivity|]. intros; lia.
Qed.

Lemma full_nth k : 0 <= k <= n + 1 ->
  firstn (Z.to_nat (k + 1)) (full_output n) = firstn (Z.to_nat k) (full_output n) ++
    (if k =? 0 then [Header] else if k =? n + 1 then [Footer] else [Block (k - 1)]).
Proof.
  intros Hk. assert (Hlen : length (full_output n) = Z.to_nat (n + 2)).
  { unfold full_output. cbn. rewrite app_length, map_length. cbn. pose proof (zlen_zseq n ltac:(lia)). unfold zlen in H. lia. }
  replace (Z.to_nat (k + 1)) with (S (Z.to_nat k)) by lia.
  assert (Hn1 : nth_error (full_output n) (Z.to_nat k) =
    Some (if k =? 0 then Header else if k =? n + 1 then Footer else Block (k - 1))).
  { unfold full_output. destruct (Z.eqb_spec k 0) as [->|Hk0]; [reflexivity|].
    replace (Z.to_nat k) with (S (Z.to_nat (k - 1))) by lia. cbn [nth_error].
    assert (Hl : length (map Block (zseq n)) = Z.to_nat n).
    { rewrite map_length. pose proof (zlen_zseq n ltac:(lia)). unfold zlen in H. lia. }
    destruct (Z.eqb_spec k (n + 1)) as [->|Hk1].
    - rewrite nth_error_app2 by lia. rewrite Hl. replace (Z.to_nat (n + 1 - 1) - Z.to_nat n)%nat with O by lia. reflexivity.
    - rewrite nth_error_app1 by lia. rewrite nth_error_map.
      rewrite nth_error_zseq by lia. reflexivity. }
  replace (if k =? 0 then [Header] else if k =? n + 1 then [Footer] else [Block (k - 1)])
    with [if k =? 0 then Header else if k =? n + 1 then Footer else Block (k - 1)]
    by (destruct (k =? 0), (k =? n + 1); reflexivity).
  revert Hn1. generalize (Z.to_nat k) as q. generalize (full_output n) as l.
  generalize (if k =? 0 then Header else if k =? n + 1 then Footer else Block (k - 1)) as o. clear.
  induction l as [|a l IH]; intros [|q]; cbn [nth_error]; try discriminate.
  - intros [= ->]. reflexivity.
  - intros E. rewrite 2!firstn_cons, (IH _ E). reflexivity.
Qed.

Lemma PI_step g r g' : PI g -> 0 <= r < n -> print_step n r g = Some g' -> PI g'.
Proof.
  intros [P1 P2 P3 (k & Hk & Eo & Hj)] Hr. unfold print_step.
  pose proof (P1 r Hr) as Q1. pose proof (P2 r Hr) as Q2.
  destruct (p_ph g r) as [j|j|j|] eqn:Eph; cbn in Q1, Q2; [| | |discriminate].
  - intros E; apply Some_inj in E; subst g'. constructor; cbn [p_ph p_ent p_out].
    + intros s Hs. destruct (Z.eqb_spec s r) as [->|]; [exact Q1|auto].
    + intros s Hs. destruct (Z.eqb_spec s r) as [->|]; [cbn; lia|auto].
    + intros a b Ha Hb. pose proof (P3 a b Ha Hb). pose proof (P3 r b Hr Hb) as X. rewrite Eph in X; cbn in X.
      destruct (Z.eqb_spec a r) as [->|], (Z.eqb_spec b r) as [->|]; cbn [left_bar]; lia.
    + exists k. split; [easy|]. split; [easy|]. intros i Hi. rewrite <- (Hj i Hi).
      destruct (Z.eqb_spec (emitter i) r) as [->|]; [rewrite Eph; reflexivity|reflexivity].
  - destruct (forallb _ _) eqn:Eall; [|discriminate]. intros E; apply Some_inj in E; subst g'.
    assert (Hall : forall s, 0 <= s < n -> (p_ent g r <= p_ent g s)%nat).
    { intros s Hs. rewrite forallb_forall in Eall. apply Nat.leb_le, Eall. now apply In_zseq. }
    constructor; cbn [p_ph p_ent p_out].
    + intros s Hs. destruct (Z.eqb_spec s r) as [->|]; [exact Q1|auto].
    + intros s Hs. destruct (Z.eqb_spec s r) as [->|]; [exact Q2|auto].
    + intros a b Ha Hb. pose proof (P3 a b Ha Hb). destruct (Z.eqb_spec a r) as [->|]; [|easy].
      cbn. pose proof (Hall b Hb). lia.
    + exists k. split; [easy|]. split; [easy|]. intros i Hi. rewrite <- (Hj i Hi).
      destruct (Z.eqb_spec (emitter i) r) as [->|]; [rewrite Eph; reflexivity|reflexivity].
  - intros E; apply Some_inj in E; subst g'.
    set (p' := if j =? n + 1 then PEnd else PB (j + 1)).
    assert (D1 : did p' = j + 1) by (unfold p'; destruct (Z.eqb_spec j (n + 1)); cbn; lia).
    assert (D2 : in_bar p' = 0) by (unfold p'; destruct (Z.eqb_spec j (n + 1)); reflexivity).
    assert (D3 : left_bar p' = j + 1) by (unfold p'; destruct (Z.eqb_spec j (n + 1)); cbn; lia).
    assert (D4 : pidx p') by (unfold p'; destruct (Z.eqb_spec j (n + 1)); cbn; lia).
    constructor; cbn [p_ph p_ent p_out].
    + intros s Hs. destruct (Z.eqb_spec s r) as [->|]; auto.
    + intros s Hs. destruct (Z.eqb_spec s r) as [->|]; [lia|auto].
    + intros a b Ha Hb. pose proof (P3 a b Ha Hb) as X. destruct (Z.eqb_spec a r) as [->|]; [|easy].
      rewrite Eph in X; cbn in X. lia.
    + assert (Hge : forall i, 0 <= i < j -> i < k).
      { intros i Hi. apply Hj; [lia|]. pose proof (emitter_range i ltac:(lia)) as Hem.
        pose proof (P3 r (emitter i) Hr Hem) as X. rewrite Eph, (P2 _ Hem) in X. cbn in X.
        assert (in_bar (p_ph g (emitter i)) <= 1) by (destruct (p_ph g (emitter i)); cbn; lia). lia. }
      assert (Ejk : j <= k).
      { destruct (Z.eq_dec j 0) as [->|]; [lia|]. pose proof (Hge (j - 1) ltac:(lia)). lia. }
      destruct (Z.eq_dec (emitter j) r) as [Em|Em].
      * assert (k = j).
        { pose proof (Hj j Q1) as X. rewrite Em, Eph in X. cbn in X. lia. }
        subst k. exists (j + 1). split; [lia|]. split.
        -- rewrite full_nth by lia. rewrite Eo. f_equal. unfold emitter in Em.
           destruct (Z.eqb_spec j 0) as [->|]; cbn in Em.
           ++ rewrite <- Em. reflexivity.
           ++ destruct (Z.eqb_spec j (n + 1)) as [->|]; cbn in Em.
              ** rewrite <- Em. reflexivity.
              ** rewrite Em, Z.eqb_refl. reflexivity.
        -- intros i Hi. pose proof (Hj i Hi) as X. destruct (Z.eqb_spec (emitter i) r) as [Ei|].
           ++ rewrite D1. reflexivity.
           ++ rewrite X. assert (i <> j) by (intros ->; congruence). lia.
      * exists k. split; [lia|]. split.
        -- rewrite Eo. replace (if j =? 0 then _ else _) with (@nil out); [apply app_nil_r|].
           unfold emitter in Em. destruct (Z.eqb_spec j 0) as [->|]; cbn in Em.
           ++ rewrite (proj2 (Z.eqb_neq r 0)) by congruence. reflexivity.
           ++ destruct (Z.eqb_spec j (n + 1)) as [->|]; cbn in Em.
              ** rewrite (proj2 (Z.eqb_neq r 0)) by congruence. reflexivity.
              ** rewrite (proj2 (Z.eqb_neq (j - 1) r)) by congruence. reflexivity.
        -- intros i Hi. pose proof (Hj i Hi) as X. destruct (Z.eqb_spec (emitter i) r) as [Ei|]; [|exact X].
           rewrite <- X, Ei, Eph, D1. cbn. assert (i <> j) by (intros ->; congruence). lia.
Qed.

Lemma reach_PI g : print_reach n g -> PI g.
Proof. induction 1; [exact PI_init|eapply PI_step; eauto]. Qed.

Lemma print_progress g : PI g ->
  (forall r, 0 <= r < n -> p_ph g r = PEnd) \/
  exists r g', 0 <= r < n /\ print_step n r g = Some g'.
Proof.
  intros [P1 P2 P3 P4].
  destruct (min_ent_nat (fun r => p_ent g r) (Z.to_nat n)) as (r & Hr & Hm); [lia|].
  rewrite Z2Nat.id in Hr, Hm by lia.
  assert (Hw : forall s j, 0 <= s < n -> p_ph g s = PW j -> p_ent g s = p_ent g r ->
     exists r g', 0 <= r < n /\ print_step n r g = Some g').
  { intros s j Hs E Em. eexists s, _. split; [easy|]. unfold print_step. rewrite E.
    assert (X : forallb (fun a => Nat.leb (p_ent g s) (p_ent g a)) (zseq n) = true).
    { apply forallb_forall. intros a Ha. apply In_zseq in Ha. apply Nat.leb_le. rewrite Em. now apply Hm. }
    rewrite X. reflexivity. }
  assert (Hg : forall s, 0 <= s < n -> (exists r g', 0 <= r < n /\ print_step n r g = Some g') \/
     p_ph g s = PEnd \/ exists j, p_ph g s = PW j).
  { intros s Hs. destruct (p_ph g s) as [j|j|j|] eqn:E.
    - left. eexists s, _. split; [easy|]. unfold print_step. rewrite E. reflexivity.
    - right; right; eauto.
    - left. eexists s, _. split; [easy|]. unfold print_step. rewrite E. reflexivity.
    - right; now left. }
  destruct (Hg r Hr) as [X|[E|(j & E)]]; [now right| |right; eapply Hw; eauto].
  pose proof (P2 r Hr) as Er. rewrite E in Er. cbn in Er.
  assert (D : forall k, (forall s, 0 <= s < Z.of_nat k -> s < n -> p_ph g s = PEnd) \/
     exists r g', 0 <= r < n /\ print_step n r g = Some g').
  { induction k as [|k [IH|IH]]; [left; lia| |now right].
    destruct (Z_lt_dec (Z.of_nat k) n) as [Hlt|]; [|left; intros s Hs1 Hs2; apply IH; lia].
    destruct (Hg (Z.of_nat k) ltac:(lia)) as [X|[Ek|(j & Ek)]]; [now right| |].
    - left. intros s Hs1 Hs2. destruct (Z.eq_dec s (Z.of_nat k)) as [->|]; [easy|]. apply IH; lia.
    - right. apply (Hw (Z.of_nat k) j); [lia|easy|].
      pose proof (Hm (Z.of_nat k) ltac:(lia)) as Q; cbn in Q.
      pose proof (P2 (Z.of_nat k) ltac:(lia)) as Q2. pose proof (P1 (Z.of_nat k) ltac:(lia)) as Q1.
      rewrite Ek in Q1, Q2. cbn in Q1, Q2. lia. }
  destruct (D (Z.to_nat n)) as [X|X]; [left; intros s Hs; apply X; lia|now right].
Qed.
End Print.

(** Whatever the schedule: at every moment the output is a prefix of header,
    block 0, ..., block n-1, footer; it is complete when all ranks have left the
    call; the ranks never get stuck. *)
Theorem C16_print_in_rank_order :
  forall n g, 0 < n -> print_reach n g ->
  (exists rest, p_out g ++ rest = full_output n) /\
  ((forall r, 0 <= r < n -> p_ph g r = PEnd) -> p_out g = full_output n) /\
  ((forall r, 0 <= r < n -> p_ph g r = PEnd) \/
   exists r g', 0 <= r < n /\ print_step n r g = Some g').
Proof.
  intros n g Hn R. pose proof (reach_PI n Hn g R) as HI. split; [|split].
  - destruct (pi_out _ _ HI) as (k & Hk & E & _). exists (skipn (Z.to_nat k) (full_output n)).
    rewrite E. apply firstn_skipn.
  - intros HF. destruct (pi_out _ _ HI) as (k & Hk & E & Hj). rewrite E. apply firstn_all2.
    assert (n + 1 < k).
    { apply (Hj (n + 1)); [lia|]. rewrite HF; [cbn; lia|]. apply emitter_range; lia. }
    unfold full_output. cbn. rewrite app_length, map_length. cbn. pose proof (zlen_zseq n ltac:(lia)) as X. unfold zlen in X. lia.
  - exact (print_progress n Hn g HI).
Qed.
Print Assumptions C16_print_in_rank_order.

(** Two ranks, a schedule in which rank 1 always runs first when it can. *)
Fixpoint run_print (n : Z) (l : list Z) (g : pstate) : option pstate :=
  match l with
  | [] => Some g
  | r :: l => match print_step n r g with Some g' => run_print n l g' | None => None end
  end.
Example C16_two_ranks :
  match run_print 2 [1;0;1;1;1;0;0;0;1;0;0;0;1;1;1;0;0;0;1;1;1;0;0;1] print_init with
  | Some g => p_out g = [Header; Block 0; Block 1; Footer] /\ p_ph g 0 = PEnd /\ p_ph g 1 = PEnd
  | None => False
  end.
Proof. vm_compute. repeat split. Qed.
