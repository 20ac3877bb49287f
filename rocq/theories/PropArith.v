(** PropArith.v -- C97: what a run computes is reproducible to the last bit. *)
From Coq Require Import ZArith Reals List Lia Bool Permutation.
From Verif Require Import Base RBase MeshModel MeshSpec MeshProof MeshReadProof MeshProof2 PropMesh ShapeModel ShapeProof PropShape CommModel CommSpec
  SolverModel SetupModel SolverSpec PhysModel LinAlgProof SolverFaces SolverMesh ArithModel ArithProof ArithSetup ArithRun.
From Verif Require CommProof.
Import ListNotations.
Local Open Scope Z_scope.

(** * Vocabulary *)

(** The case fits the mesh: dimension and nodes per element are the ones of the
    shape and of the geometric order, the interior faces are well formed, table
    sizes are not negative, the initial condition reads the point and writes all
    state variables. *)
Record case_fits (K : arith) (C : kcase K) (m : gmesh (num K)) : Prop := {
  cf_dim : gm_dim m = space_dim (c_shape K C);
  cf_npe : gm_npe m = (c_g K C + 1) ^ space_dim (c_shape K C);
  cf_g : 1 <= c_g K C;
  cf_gnb : c_gnb K C <= gm_npe m;
  cf_valid : faces_valid (c_shape K C) m;
  cf_distinct : faces_distinct m;
  cf_points : face_points (c_shape K C) (c_nqf K C);
  cf_TV : 0 <= vt_nq (c_TV K C);
  cf_TM : 0 <= vt_nq (c_TM K C);
  cf_TI : 0 <= vt_nq (c_TI K C);
  cf_ic : ic_reads K C
}.

(** Two runs hold the same numbers: the coefficients of every element, wherever
    it lives, are equal -- equal elements of the type of numbers, so every bit of
    them, not only their values. *)
Definition same_bits (K : arith) (C : kcase K) (n1 n2 : Z) (pm1 pm2 : Z -> pmesh (num K)) (U1 U2 : Z -> Z -> Z -> Z -> num K) : Prop :=
  forall e r1 le1 r2 le2, 0 <= r1 < n1 -> 0 <= r2 < n2 ->
    rd (pm_l2g_elem (pm1 r1)) le1 = Ok e -> rd (pm_l2g_elem (pm2 r2)) le2 = Ok e ->
    forall ib is, 0 <= ib < c_nb K C -> 0 <= is < space_dim (c_shape K C) + 2 -> U1 r1 le1 ib is = U2 r2 le2 ib is.

(** An interior face lies within one rank. *)
Definition within_rank {A} (m : gmesh A) (ep : list Z) (f : Z) : Prop :=
  exists eL eR r, left_of m f eL /\ right_of m f eR /\ owned_by ep eL r /\ owned_by ep eR r.

(** The numerical flux through a point of face [f] is the same, for any states on
    the two sides, with the normal computed from the left element and with the
    one computed from the right element. *)
Definition normals_match (K : arith) (L : library (num K)) (C : kcase K) (m : gmesh (num K)) (f : Z) : Prop :=
  forall iq, 0 <= iq < c_nqf K C ->
    same_flux K C (side_normal K L m (c_shape K C) (c_g K C) (c_fgrad K C) f false iq) (side_normal K L m (c_shape K C) (c_g K C) (c_fgrad K C) f true iq).
(** In particular if the two normals are the same numbers. *)
Lemma equal_normals_match K L C m f :
  (forall iq d, 0 <= iq < c_nqf K C -> 0 <= d < space_dim (c_shape K C) ->
    side_normal K L m (c_shape K C) (c_g K C) (c_fgrad K C) f false iq d = side_normal K L m (c_shape K C) (c_g K C) (c_fgrad K C) f true iq d) ->
  normals_match K L C m f.
Proof. intros H iq Hq. apply same_flux_agree. intros d Hd. now apply H. Qed.

(** * Every run computes the same function of the mesh file, the case and the normals *)
Section Main.
Context (K : arith) (L : library (num K)) (LR : lib_reads L) (C : kcase K) (m : gmesh (num K)) (CF : case_fits K C m).
Notation N := (num K).
Let snorm := side_normal K L m (c_shape K C) (c_g K C) (c_fgrad K C).

(** Rank of the element of face [f] on side [sd]. *)
Definition side_rank (ep : list Z) (f : Z) (sd : bool) : res Z := rd ep (felem K m f sd).
Definition split_face (ep : list Z) (f : Z) : bool :=
  match side_rank ep f false, side_rank ep f true with Ok a, Ok b => negb (a =? b) | _, _ => false end.
Definition used_normal (ep : list Z) (f : Z) (sd : bool) : Z -> Z -> N := snorm f (split_face ep f && sd).

Lemma run_ref iter n ep pm steps U nor : computes K L C iter n m ep steps pm U ->
  (forall f sd iq, 0 <= f < gm_nIF m -> 0 <= iq < c_nqf K C -> same_flux K C (used_normal ep f sd iq) (nor f sd iq)) ->
  kholds K C n pm (ref_march K L C m nor steps (fun e => ref_init K L m C (gnode K m e))) U.
Proof.
  intros (WF & PT & D & U0 & v0 & HS & HM) HN. destruct CF.
  assert (RO : forall r, 0 <= r < n -> rank_ok K L C m pm nor r (D r)).
  { intros r Hr. destruct (HS r Hr) as ((junk & eo1 & eo2 & fo & qL & qR & ord & pord & junk1 & P1 & P2 & P3 & P4 & P5 & P6 & LK & ED) & _).
    cbv zeta in ED. rewrite ED. split.
    - intros k. apply P4.
    - exact P5.
    - intros k. apply P6.
    - cbn. repeat (split; [reflexivity|]). reflexivity.
    - exact LK.
    - intros le e He. cbn [k_geom].
      exact (geometry_ref K L LR iter n m ep pm WF PT (space_dim (c_shape K C)) (c_nb K C) (c_TM K C) (c_TV K C) cf_dim0 (space_dim23 _) cf_TM0 cf_TV0 r junk eo1 eo2 Hr P1 P2 le e He).
    - intros lf f iq sd Rf Hq SR. cbn [k_normals].
      destruct (row_side (f0 K) iter n m ep pm WF PT r lf f Hr Rf) as [_ HSD].
      destruct (HSD false) as (eL & SL & OL & _). destruct (HSD true) as (eR & SR' & OR & _).
      destruct (face_side_has K iter n m ep WF f false _ _ _ SL) as (Hf & EL & _).
      destruct (face_side_has K iter n m ep WF f true _ _ _ SR') as (_ & ER & _).
      eapply same_flux_trans; [|apply (HN f sd iq Hf Hq)]. apply same_flux_agree.
      eapply agree_trans; [exact (normals_ref K L LR iter n m ep pm WF PT (c_shape K C) (c_g K C) (c_nqf K C) (c_fgrad K C) cf_g0 cf_dim0 cf_npe0 cf_valid0 r junk fo Hr P3 lf f iq eL Rf Hq (proj1 SL))|].
      unfold used_normal, snorm, split_face, side_rank. rewrite EL, ER. unfold owned_by in OL, OR. rewrite OL, OR.
      destruct sd.
      + rewrite SR in OR. rewrite SR. rewrite andb_true_r. apply agree_refl.
      + rewrite SR, Z.eqb_refl. rewrite andb_false_r. apply agree_refl. }
  assert (H0 : kholds K C n pm (fun e => ref_init K L m C (gnode K m e)) U0).
  { intros r le e Hr He. destruct (HS r Hr) as (SU & (junk & eo & V0 & PE & ->) & _).
    apply (init_ref K L LR iter n m ep pm WF PT C cf_dim0 cf_gnb0 cf_TI0 cf_ic0 r _ junk eo V0 Hr PE le e He).
    destruct (RO r Hr) as [_ _ _ _ _ GE _]. apply (GE le e He). }
  assert (B0 : buffer_zero K C n m pm v0).
  { intros r le e p k Hr He Hp Hk _. now apply (HS r Hr). }
  exact (march_ref K L LR C iter n m ep pm WF PT cf_valid0 cf_distinct0 cf_points0 nor D RO steps _ U0 v0 U H0 B0 HM).
Qed.
End Main.

(** * The theorems *)

(** Two runs of one case on one mesh, on any numbers of ranks and any assignments
    of the elements, in any orders of all parallel loops, any interleaving of the
    messages and with any content of uninitialised memory, end with the same
    bits, if every interior face is inside a rank in both runs or in neither, or
    its flux is the same with the normals seen from its two elements. *)
Theorem C97_partitions : forall (K : arith) (L : library (num K)) (C : kcase K) (m : gmesh (num K)) steps,
  lib_reads L -> case_fits K C m ->
  forall iter1 n1 ep1 pm1 U1 iter2 n2 ep2 pm2 U2,
  computes K L C iter1 n1 m ep1 steps pm1 U1 -> computes K L C iter2 n2 m ep2 steps pm2 U2 ->
  (forall f, 0 <= f < gm_nIF m -> (within_rank m ep1 f <-> within_rank m ep2 f) \/ normals_match K L C m f) ->
  same_bits K C n1 n2 pm1 pm2 U1 U2.
Proof.
  intros K L C m steps LR CF iter1 n1 ep1 pm1 U1 iter2 n2 ep2 pm2 U2 R1 R2 HF.
  pose proof (run_ref K L LR C m CF iter1 n1 ep1 pm1 steps U1 (used_normal K L C m ep1) R1 ltac:(intros; apply same_flux_agree, agree_refl)) as H1.
  assert (H2 : kholds K C n2 pm2 (ref_march K L C m (used_normal K L C m ep1) steps (fun e => ref_init K L m C (gnode K m e))) U2).
  { apply (run_ref K L LR C m CF iter2 n2 ep2 pm2 steps U2 _ R2). intros f sd iq Hf Hq.
    destruct R1 as (WF1 & _). destruct R2 as (WF2 & _).
    assert (SF : forall iter n ep, run_wf iter n m ep -> (split_face K m ep f = false <-> within_rank m ep f)).
    { intros iter n ep WF. pose proof (file_side K C iter n m ep WF f false Hf) as SL. pose proof (file_side K C iter n m ep WF f true Hf) as SR.
      assert (TOT : forall sd, exists r, side_rank K m ep f sd = Ok r).
      { intros sd'. pose proof (file_side K C iter n m ep WF f sd' Hf) as S. pose proof (side_nonneg iter n m ep WF _ _ _ _ _ S) as (_ & _ & S3).
        apply rd_total. destruct (run_ep _ _ _ _ WF) as [LE _]. lia. }
      destruct (TOT false) as [a Ea]. destruct (TOT true) as [b Eb]. unfold split_face. rewrite Ea, Eb. split.
      - intros E. apply negb_false_iff, Z.eqb_eq in E. subst b. exists (felem K m f false), (felem K m f true), a.
        split; [exact (proj1 SL)|]. split; [exact (proj1 SR)|]. split; [exact Ea|exact Eb].
      - intros (eL & eR & r & HL & HR & OL & OR). unfold left_of in HL. unfold right_of in HR. rewrite (proj1 SL) in HL. rewrite (proj1 SR) in HR.
        injection HL as <-. injection HR as <-. unfold side_rank in Ea, Eb. unfold owned_by in OL, OR.
        rewrite OL in Ea. rewrite OR in Eb. injection Ea as <-. injection Eb as <-. now rewrite Z.eqb_refl. }
    unfold used_normal. destruct (HF f Hf) as [HW|HN].
    - assert (split_face K m ep2 f = split_face K m ep1 f) as ->; [|apply same_flux_agree, agree_refl].
      pose proof (SF _ _ _ WF1) as X1. pose proof (SF _ _ _ WF2) as X2.
      destruct (split_face K m ep1 f), (split_face K m ep2 f); try reflexivity.
      + assert (true = false) as Y by (apply X1, HW, X2; reflexivity). discriminate Y.
      + assert (true = false) as Y by (apply X2, HW, X1; reflexivity). discriminate Y.
    - destruct (split_face K m ep2 f && sd)%bool, (split_face K m ep1 f && sd)%bool;
        [apply same_flux_agree, agree_refl|apply same_flux_sym; now apply HN|now apply HN|apply same_flux_agree, agree_refl]. }
  intros e r1 le1 r2 le2 Hr1 Hr2 E1 E2 ib is Hb Hs.
  rewrite (H1 r1 le1 e Hr1 E1 ib is Hb Hs), (H2 r2 le2 e Hr2 E2 ib is Hb Hs). reflexivity.
Qed.
Print Assumptions C97_partitions.

(** Repeating a run: the same case, mesh, number of ranks and assignment. *)
Theorem C97_repeatable : forall (K : arith) (L : library (num K)) (C : kcase K) (m : gmesh (num K)) steps iter iter' n ep pm pm' U U',
  lib_reads L -> case_fits K C m ->
  computes K L C iter n m ep steps pm U -> computes K L C iter' n m ep steps pm' U' ->
  same_bits K C n n pm pm' U U'.
Proof.
  intros K L C m steps iter iter' n ep pm pm' U U' LR CF R1 R2.
  apply (C97_partitions K L C m steps LR CF iter n ep pm U iter' n ep pm' U' R1 R2). intros f Hf. left. reflexivity.
Qed.
Print Assumptions C97_repeatable.

(** A numbering of the ranks does not matter: an assignment and its composition
    with a one-to-one renumbering of the ranks. *)
Theorem C97_rank_numbers : forall (K : arith) (L : library (num K)) (C : kcase K) (m : gmesh (num K)) steps iter iter' n ep pm pm' U U' (p : Z -> Z),
  lib_reads L -> case_fits K C m -> (forall a b, 0 <= a < n -> 0 <= b < n -> p a = p b -> a = b) ->
  computes K L C iter n m ep steps pm U -> computes K L C iter' n m (map p ep) steps pm' U' ->
  same_bits K C n n pm pm' U U'.
Proof.
  intros K L C m steps iter iter' n ep pm pm' U U' p LR CF HP R1 R2.
  apply (C97_partitions K L C m steps LR CF iter n ep pm U iter' n (map p ep) pm' U' R1 R2). intros f Hf. left.
  destruct R1 as (WF & _). destruct (run_ep _ _ _ _ WF) as [_ FA]. rewrite Forall_forall in FA.
  split.
  - intros (eL & eR & r & HL & HR & OL & OR). exists eL, eR, (p r). unfold owned_by in *.
    split; [exact HL|]. split; [exact HR|]. split; now apply MeshProof.rd_map.
  - intros (eL & eR & r & HL & HR & OL & OR). exists eL, eR.
    unfold owned_by in OL, OR.
    destruct (CommProof.rd_map_inv p ep eL r OL) as (a & Ea & Pa). destruct (CommProof.rd_map_inv p ep eR r OR) as (b & Eb & Pb).
    assert (a = b) as <- by (apply HP; [apply FA; eapply rd_In; eauto|apply FA; eapply rd_In; eauto|congruence]).
    exists a. unfold owned_by. auto.
Qed.
Print Assumptions C97_rank_numbers.
