(** ArithExact.v -- the set-up kernels of ArithModel.v over the real numbers are
    those of SetupModel.v; fields that a step does not read are exchangeable.
    Lemmas for PropExact.v. *)
From Coq Require Import ZArith Reals List Lia Lra Bool FunctionalExtensionality Permutation.
From Verif Require Import Base RBase MeshModel MeshSpec CommModel CommSpec LinAlgModel LinAlgProof QuadModel BasisModel PhysModel SolverModel SolverSpec
  ShapeModel SetupModel ArithModel ArithLibrary ArithReal.
From Verif Require LinAlgProof ArithProof ArithSetup SolverProof SetupProof.
Import ListNotations.
Local Open Scope R_scope.

(** * Other normals, equal in range; other unread tables *)
Definition refit (d : kdata reals) (N : arr3) (gv : arr2) (gg : arr3) (J : arr4) : kdata reals :=
  mkKD reals (k_rank reals d) (k_shape reals d) (k_gamma reals d) (k_flux reals d) (k_ne reals d) (k_nb reals d) (k_nqf reals d) (k_nif reals d) (k_rows reals d)
    (mkVT R (vt_nq (k_T reals d)) (vt_wts (k_T reals d)) (vt_val (k_T reals d)) (vt_grad (k_T reals d)) gv gg)
    (mkKG reals J (g_djac reals (k_geom reals d)) (g_ijac reals (k_geom reals d)) (g_iMM reals (k_geom reals d)))
    (k_fval reals d) (k_fwts reals d) N (k_qL reals d) (k_qR reals d) (k_order reals d) (k_porder reals d) (k_junk reals d).

Definition same_normals (d : kdata reals) (N : arr3) : Prop :=
  forall lf iq, In (lf, iq) (k_porder reals d 2) -> forall j, (0 <= j < k_dim reals d)%Z -> k_normals reals d lf iq j = N lf iq j.

Lemma refit_after d N gv gg J UL UR v rs : same_normals d N ->
  kface_after reals RL (refit d N gv gg J) UL UR v rs = kface_after reals RL d UL UR v rs.
Proof.
  intros H. unfold kface_after.
  assert (E : foreach (k_porder reals (refit d N gv gg J) 2) (kface_flux reals (refit d N gv gg J) UL UR) (kv_Fq reals v) =
    foreach (k_porder reals d 2) (kface_flux reals d UL UR) (kv_Fq reals v)).
  { change (k_porder reals (refit d N gv gg J) 2) with (k_porder reals d 2). unfold same_normals in H. revert H. generalize (kv_Fq reals v).
    induction (k_porder reals d 2) as [|[lf iq] l IH]; intros F0 H; [reflexivity|]. cbn [foreach].
    assert (E1 : kface_flux reals (refit d N gv gg J) UL UR (lf, iq) F0 = kface_flux reals d UL UR (lf, iq) F0).
    { unfold kface_flux. cbv zeta. 
      change (k_dim reals (refit d N gv gg J)) with (k_dim reals d). change (k_ns reals (refit d N gv gg J)) with (k_ns reals d).
      change (k_flux reals (refit d N gv gg J)) with (k_flux reals d). change (k_gamma reals (refit d N gv gg J)) with (k_gamma reals d).
      change (k_junk reals (refit d N gv gg J)) with (k_junk reals d). change (k_fwts reals (refit d N gv gg J)) with (k_fwts reals d).
      change (k_normals reals (refit d N gv gg J)) with N.
      pose proof (ArithProof.knumflux_agree reals (k_flux reals d) (k_dim reals d) (k_gamma reals d) (UL lf iq) (UL lf iq) (UR lf iq) (UR lf iq) (N lf iq) (k_normals reals d lf iq)
        (k_junk reals d) (k_junk reals d) (k_junk reals d) (k_junk reals d)) as S.
      specialize (S (ArithProof.space_dim23 _) (fun _ _ => eq_refl) (fun _ _ => eq_refl) (fun j Hj => eq_sym (H lf iq (or_introl eq_refl) j Hj))).
      unfold ArithProof.same_res in S.
      destruct (knumflux reals _ _ _ _ _ (N lf iq) _ _) as [F|], (knumflux reals _ _ _ _ _ (k_normals reals d lf iq) _ _) as [F'|]; cbn [bind]; try easy; [|congruence].
      f_equal. apply functional_extensionality; intros a. apply functional_extensionality; intros b. apply functional_extensionality; intros k.
      unfold set2. destruct ((a =? lf)%Z && (b =? iq)%Z)%bool; [|reflexivity]. destruct (inb (k_ns reals d) k) eqn:Ek; [|reflexivity].
      rewrite S; [reflexivity|]. apply inb_true in Ek. exact Ek. }
    rewrite E1. destruct (kface_flux reals d UL UR (lf, iq) F0) as [F1|]; cbn [bind]; [|reflexivity].
    apply IH. intros a b Hab. apply H. now right. }
  rewrite E. reflexivity.
Qed.

Section Refit.
Context (n : Z) (m : gmesh R) (ep : list Z) (pm : Z -> pmesh R) (D : Z -> kdata reals) (N : Z -> arr3) (gv : arr2) (gg : arr3) (J : Z -> arr4).
Context (HN : forall r, (0 <= r < n)%Z -> same_normals (D r) (N r)).
Notation D' := (fun r => refit (D r) (N r) gv gg (J r)).

Lemma refit_evaluates U v rs v' : kevaluates reals RL m ep pm n D U v rs v' -> kevaluates reals RL m ep pm n D' U v rs v'.
Proof.
  intros (rs0 & X & UL & UR & E & H). exists rs0, X, UL, UR. split; [exact E|]. intros r Hr. destruct (H r Hr) as (H1 & H2 & H3).
  split; [exact H1|]. split; [exact H2|]. cbv beta. rewrite refit_after by (now apply HN). exact H3.
Qed.

Lemma refit_march dt kind k U v U' : kmarch reals RL m ep pm n D dt kind k U v U' -> kmarch reals RL m ep pm n D' dt kind k U v U'.
Proof.
  induction 1 as [U v|k U v U1 v1 U2 ST _ IH]; [apply km_done|]. eapply km_step; [|exact IH]. clear IH. destruct kind.
  - destruct ST as (rs & w & E & H). exists rs, w. split; [now apply refit_evaluates|]. exact H.
  - destruct ST as (w1 & w2 & w3 & w4 & wh & rs1 & rs2 & rs3 & rs4 & Ua & Ub & Uc & va & vb & vc & E1 & H1 & E2 & H2 & E3 & H3 & E4 & H4).
    exists w1, w2, w3, w4, wh, rs1, rs2, rs3, rs4, Ua, Ub, Uc, va, vb, vc. cbv zeta.
    split; [now apply refit_evaluates|]. split; [exact H1|]. split; [now apply refit_evaluates|]. split; [exact H2|].
    split; [now apply refit_evaluates|]. split; [exact H3|]. split; [now apply refit_evaluates|]. exact H4.
Qed.
End Refit.

(** * Geometry *)
Lemma zfor_0 {S} n (f : Z -> S -> res S) x : (n <= 0)%Z -> zfor n f x = Ok x.
Proof. intros H. unfold zfor. replace (zseq n) with (@nil Z) by (destruct n; try lia; reflexivity). reflexivity. Qed.

(** A successful double loop over checked values. *)
Lemma fill2_inv n m (f : Z -> Z -> res R) (g : Z -> Z -> R) c c' : (forall i j x, f i j = Ok x -> x = g i j) ->
  zfor n (fun i c => zfor m (fun j c => v <- f i j ;; Ok (upd2 c i j v)) c)%res c = Ok c' ->
  c' = fun i j => if (inb n i && inb m j)%bool then g i j else c i j.
Proof.
  intros HF.
  assert (In : forall i c c', zfor m (fun j c => v <- f i j ;; Ok (upd2 c i j v))%res c = Ok c' ->
     forall a b, c' a b = if ((a =? i)%Z && inb m b)%bool then g i b else c a b).
  { intros i. destruct (Z.le_gt_cases 0 m) as [Hm|Hm].
    - revert Hm. induction m as [m H|m H IH] using zind; intros Hm c0 c1 E a b.
      + rewrite zfor_0 in E by lia. apply Ok_inj in E. subst. replace (inb m b) with false by (symmetry; apply inb_false; lia). now rewrite andb_false_r.
      + rewrite zfor_S in E by lia. apply bind_inv in E. destruct E as (c2 & E1 & E). apply bind_inv in E. destruct E as (x & Ex & E). apply Ok_inj in E. subst c1.
        apply HF in Ex. subst x. rewrite LinAlgProof.inb_S by lia. unfold upd2. destruct (Z.eqb_spec a i) as [->|Na]; cbn [andb].
        * destruct (Z.eqb_spec b m) as [->|Nb]; [now rewrite orb_true_r|]. rewrite orb_false_r. rewrite (IH ltac:(lia) _ _ E1), Z.eqb_refl. reflexivity.
        * rewrite (IH ltac:(lia) _ _ E1). destruct (Z.eqb_spec a i); [lia|]. reflexivity.
    - intros c0 c1 E a b. rewrite zfor_0 in E by lia. apply Ok_inj in E. subst. replace (inb m b) with false by (symmetry; apply inb_false; lia). now rewrite andb_false_r. }
  intros E. apply functional_extensionality; intros a. apply functional_extensionality; intros b.
  destruct (Z.le_gt_cases 0 n) as [Hn|Hn].
  - revert Hn c' E. induction n as [n H|n H IH] using zind; intros Hn c' E.
    + rewrite zfor_0 in E by lia. apply Ok_inj in E. subst. now replace (inb n a) with false by (symmetry; apply inb_false; lia).
    + rewrite zfor_S in E by lia. apply bind_inv in E. destruct E as (c2 & E1 & E). rewrite (In _ _ _ E), (IH ltac:(lia) _ E1).
      rewrite LinAlgProof.inb_S by lia. destruct (Z.eqb_spec a n) as [->|Na].
      * rewrite orb_true_r. cbn [andb]. destruct (inb m b); [reflexivity|]. now rewrite andb_false_r.
      * rewrite orb_false_r. reflexivity.
  - rewrite zfor_0 in E by lia. apply Ok_inj in E. subst. now replace (inb n a) with false by (symmetry; apply inb_false; lia).
Qed.

Lemma coords_reals (pm : pmesh R) npe dim e c0 c : elem_coords_from_elem_ID pm npe dim e c0 = Ok c -> kcoords reals pm npe dim e c0 = c.
Proof.
  intros H. unfold elem_coords_from_elem_ID in H.
  rewrite (fill2_inv npe dim (fun i j => nd <- rd2 (pm_elem_to_node pm) e i ;; rd2 (pm_node_coords pm) nd j)%res
    (fun i j => match (nd <- rd2 (pm_elem_to_node pm) e i ;; rd2 (pm_node_coords pm) nd j)%res with Ok v => v | Fail _ => 0 end) c0 c).
  - reflexivity.
  - intros i j x ->. reflexivity.
  - rewrite <- H. apply SetupProof.zfor_ext. intros i a Hi. apply SetupProof.zfor_ext. intros j b Hj.
    destruct (rd2 (pm_elem_to_node pm) e i); reflexivity.
Qed.

Lemma jacobians_reals nq s npe ggrad c st : kjacobians reals RL nq (space_dim s) npe ggrad c st = get_element_jacobian nq (space_dim s) npe ggrad c st.
Proof.
  unfold kjacobians, get_element_jacobian. apply zloop_ext. intros q [[j d] ij] Hq. cbv beta iota zeta.
  rewrite gemm_reals, inv_reals. change (f1 reals) with 1. change (if false then 1 else 0) with 0.
  change (gemm (space_dim s) (space_dim s) npe 1 (fun i p => c p i) (ggrad q) 0 (j q)) with (cATxB_to_C (space_dim s) (space_dim s) npe 1 c (ggrad q) (j q)).
  set (a := cATxB_to_C (space_dim s) (space_dim s) npe 1 c (ggrad q) (j q)).
  assert (E : forall B : Type, forall F : arr2 -> B, F (setr (j : arr3) q a q) = F a) by (intros; unfold setr; now rewrite Z.eqb_refl).
  pose proof (E _ (fun x => (setr (j : arr3) q a, upd1 d q (det (space_dim s) x (d q)), setr (ij : arr3) q (invA (space_dim s) x (ij q))))) as E2. cbv beta in E2.
  refine (eq_trans _ (eq_sym E2)). rewrite (det_reals (space_dim s) a (d q)) by (destruct s; cbn; auto). reflexivity.
Qed.

Lemma row_scale n c (A : arr1) j : cA_to_A1 n c A j = if inb n j then c * A j else A j.
Proof.
  unfold cA_to_A1. destruct (Z.le_gt_cases 0 n) as [Hn|Hn].
  - revert Hn j. induction n as [n H|n H IH] using zind; intros Hn j.
    + rewrite zloop_0 by lia. now replace (inb n j) with false by (symmetry; apply inb_false; lia).
    + rewrite zloop_S by lia. rewrite inb_S by lia. unfold upd1 at 1. destruct (Z.eqb_spec j n) as [->|N].
      * rewrite orb_true_r. rewrite IH by lia. now replace (inb n n) with false by (symmetry; apply inb_false; lia).
      * rewrite orb_false_r. apply IH. lia.
  - rewrite zloop_0 by lia. now replace (inb n j) with false by (symmetry; apply inb_false; lia).
Qed.

Lemma copy2_entry e0 e1 A B i j : copy_A_to_B e0 e1 A B i j = if (inb e0 i && inb e1 j)%bool then A i j else B i j.
Proof.
  unfold copy_A_to_B. rewrite zloop_fill2. unfold inb. now rewrite !andb_assoc.
Qed.

Lemma inv_mass_reals nq nb wts bval djac MM0 sb0 iMM :
  kinv_mass reals RL nq nb wts bval djac MM0 iMM = get_inv_mass_matrices nq nb wts bval djac MM0 sb0 iMM.
Proof.
  unfold kinv_mass, get_inv_mass_matrices. cbv zeta. rewrite inv_reals. f_equal. rewrite gemm_reals. unfold cATxB_to_C.
  apply functional_extensionality; intros i. apply functional_extensionality; intros j. rewrite !gemm_entry.
  destruct (inb nb i && inb nb j)%bool eqn:E; [|reflexivity]. apply andb_true_iff in E. destruct E as [_ Ej].
  do 2 f_equal. apply rsum_ext. intros q Hq. f_equal.
  set (S0 := copy_A_to_B nq nb bval sb0).
  assert (X : forall k, (0 <= k <= nq)%Z -> forall a b, zloop k (fun iq sb => fun i j => if (i =? iq)%Z then cA_to_A1 nb (wts iq * djac iq) (sb iq) j else sb i j) S0 a b =
    if inb k a then cA_to_A1 nb (wts a * djac a) (S0 a) b else S0 a b).
  { intros k. induction k as [k H|k H IH] using zind; intros Hk a b.
    - rewrite zloop_0 by lia. now replace (inb k a) with false by (symmetry; apply inb_false; lia).
    - rewrite zloop_S by lia. rewrite inb_S by lia. destruct (Z.eqb_spec a k) as [->|Na].
      + rewrite orb_true_r. assert (R0 : zloop k (fun iq sb => fun i j => if (i =? iq)%Z then cA_to_A1 nb (wts iq * djac iq) (sb iq) j else sb i j) S0 k = S0 k).
        { apply functional_extensionality; intros b'. rewrite IH by lia. now replace (inb k k) with false by (symmetry; apply inb_false; lia). }
        rewrite R0. reflexivity.
      + rewrite orb_false_r. apply IH. lia. }
  rewrite X by lia. rewrite (proj2 (inb_true nq q)) by lia. rewrite row_scale, Ej. unfold S0. rewrite copy2_entry, Ej, (proj2 (inb_true nq q)) by lia. reflexivity.
Qed.

(** The tables and the element views of the volume helper. *)
Definition tab (h : vhelpers) : vtable R := mkVT R (vh_nq h) (vh_wts h) (vh_val h) (vh_grad h) (vh_gval h) (vh_ggrad h).
Definition geo (h : vhelpers) : kgeom reals := mkKG reals (vh_jac h) (vh_djac h) (vh_ijac h) (vh_iMM h).

Lemma mass_team_reals s pm npe nb junk e h h' : inv_mass_team s pm npe nb junk e h = Ok h' ->
  tab h' = tab h /\ vh_pts h' = vh_pts h /\ kmass_team reals RL pm (space_dim s) npe nb (tab h) junk e (geo h) = geo h'.
Proof.
  intros H. unfold inv_mass_team in H. cbv zeta in H. apply bind_inv in H. destruct H as (c & EC & H).
  destruct (get_element_jacobian (vh_nq h) (space_dim s) npe (vh_ggrad h) c (vh_jac h e, vh_djac h e, vh_ijac h e)) as [[jac djac] ijac] eqn:EJ.
  apply Ok_inj in H. subst h'. split; [reflexivity|]. split; [reflexivity|].
  unfold kmass_team. cbv zeta. rewrite (coords_reals _ _ _ _ _ _ EC). cbn [vt_nq vt_ggrad tab]. cbn [g_jac g_djac g_ijac g_iMM geo].
  match goal with |- context [kjacobians ?k ?l ?a ?b ?u ?v ?w ?x] => replace (kjacobians k l a b u v w x) with (jac, djac, ijac)
    by (symmetry; exact (eq_trans (jacobians_reals (vh_nq h) s npe (vh_ggrad h) c (vh_jac h e, vh_djac h e, vh_ijac h e)) EJ)) end.
  rewrite (inv_mass_reals _ _ _ _ _ _ junk). reflexivity.
Qed.

Lemma volume_team_reals s pm npe gnb junk e h h' : volume_team s pm npe gnb junk e h = Ok h' ->
  tab h' = tab h /\ vh_pts h' = vh_pts h /\ kvolume_team reals RL pm (space_dim s) npe (tab h) junk e (geo h) = geo h'.
Proof.
  intros H. unfold volume_team in H. cbv zeta in H. apply bind_inv in H. destruct H as (c & EC & H).
  destruct (get_element_jacobian (vh_nq h) (space_dim s) npe (vh_ggrad h) c (vh_jac h e, vh_djac h e, vh_ijac h e)) as [[jac djac] ijac] eqn:EJ.
  apply Ok_inj in H. subst h'. split; [reflexivity|]. split; [reflexivity|].
  unfold kvolume_team. cbv zeta. rewrite (coords_reals _ _ _ _ _ _ EC). cbn [vt_nq vt_ggrad tab]. cbn [g_jac g_djac g_ijac g_iMM geo].
  match goal with |- context [kjacobians ?k ?l ?a ?b ?u ?v ?w ?x] => replace (kjacobians k l a b u v w x) with (jac, djac, ijac)
    by (symmetry; exact (eq_trans (jacobians_reals (vh_nq h) s npe (vh_ggrad h) c (vh_jac h e, vh_djac h e, vh_ijac h e)) EJ)) end.
  reflexivity.
Qed.

Lemma teams_reals (f : Z -> vhelpers -> res vhelpers) (k : vtable R -> Z -> kgeom reals -> kgeom reals) order :
  (forall e h h', f e h = Ok h' -> tab h' = tab h /\ vh_pts h' = vh_pts h /\ k (tab h) e (geo h) = geo h') ->
  forall h h', foreach order f h = Ok h' -> tab h' = tab h /\ vh_pts h' = vh_pts h /\ ploop order (k (tab h)) (geo h) = geo h'.
Proof.
  intros HF. induction order as [|e l IH]; intros h h' H; cbn [foreach] in H.
  - apply Ok_inj in H. subst. auto.
  - apply bind_inv in H. destruct H as (h1 & E1 & H). destruct (HF _ _ _ E1) as (A1 & A2 & A3). destruct (IH _ _ H) as (B1 & B2 & B3).
    split; [congruence|]. split; [congruence|]. cbn [ploop fold_left]. rewrite A3, <- A1. exact B3.
Qed.

(** helpers.cpp 116-183 reads and writes the tables only. *)
Lemma reference_tab s bt p g qo h h1 k : tab h = tab h1 -> vh_pts h = vh_pts h1 -> reference_data s bt p g qo h = Ok k ->
  geo k = geo h /\ exists k1, reference_data s bt p g qo h1 = Ok k1 /\ tab k = tab k1.
Proof.
  intros HT HP H. unfold reference_data in *. injection HT as E1 E2 E3 E4 E5 E6. rewrite <- HP, <- E2, <- E3, <- E4, <- E5, <- E6.
  apply bind_inv in H. destruct H as ([[nq pts] wts] & EQ & H). rewrite EQ. cbn [bind]. cbv zeta. cbv zeta in H. apply Ok_inj in H. subst k.
  split; [reflexivity|]. eexists. split; [reflexivity|]. reflexivity.
Qed.

(** * Normals *)
Lemma extract_entry dim nn x nodes out i d : (0 <= dim)%Z -> (0 <= nn)%Z ->
  extract_node_coordinates dim nn x nodes out i d = if (inb nn i && inb dim d)%bool then x (nodes i) d else out i d.
Proof.
  intros Hd Hn. unfold extract_node_coordinates. revert Hd. induction dim as [dim H|dim H IH] using zind; intros Hd.
  - rewrite zloop_0 by lia. replace (inb dim d) with false by (symmetry; apply inb_false; lia). now rewrite andb_false_r.
  - rewrite zloop_S by lia. match goal with |- zloop nn _ ?s i d = _ => set (s0 := s) in * end.
    assert (X : forall k, (0 <= k <= nn)%Z -> zloop k (fun inode out => upd2 out inode dim (x (nodes inode) dim)) s0 i d = if (inb k i && (d =? dim)%Z)%bool then x (nodes i) dim else s0 i d).
    { intros k. induction k as [k H'|k H' IHk] using zind; intros Hk.
      - rewrite zloop_0 by lia. now replace (inb k i) with false by (symmetry; apply inb_false; lia).
      - rewrite zloop_S by lia. rewrite inb_S by lia. unfold upd2 at 1. destruct (Z.eqb_spec i k) as [->|Ni]; cbn [andb].
        + rewrite orb_true_r. cbn [andb]. destruct (d =? dim)%Z eqn:Ed; [reflexivity|]. rewrite IHk by lia. now rewrite andb_false_r.
        + rewrite orb_false_r. apply IHk. lia. }
    rewrite X by lia. rewrite IH by lia. rewrite inb_S by lia. destruct (Z.eqb_spec d dim) as [->|Nd].
    + rewrite orb_true_r, !andb_true_r. destruct (inb nn i); [reflexivity|]. reflexivity.
    + rewrite orb_false_r, andb_false_r. reflexivity.
Qed.

Definition face_gradients (s : eshape) (g nqf : Z) (pts0 : arr2) : arr3 :=
  match s with EQuad => face_grad_for_normals_quad | EHex => face_grad_for_normals_hex end g nqf pts0.

Lemma face_product a b s k g c (fg xg0 : arr2) i j : (0 <= g)%Z -> (a = space_dim s)%Z -> (0 <= i < a)%Z -> (0 <= j < b)%Z ->
  kgemm reals RL a b (face_nodes_count s g) (f1 reals) (fun d p => c (face_node s k g p) d) fg false xg0 i j =
  cATxB_to_C a b (face_nodes_count s g) 1 (extract_node_coordinates a (face_nodes_count s g) c (face_node s k g) (fun _ _ => 0)) fg (fun _ _ => 0) i j.
Proof.
  intros Hg -> Hi Hj. rewrite gemm_reals. unfold cATxB_to_C. rewrite !gemm_entry.
  rewrite (proj2 (inb_true _ i)) by lia. rewrite (proj2 (inb_true _ j)) by lia. cbn [andb]. rewrite !Rmult_0_l. do 2 f_equal.
  apply rsum_ext. intros p Hp. rewrite extract_entry by (destruct s; cbn; nia). rewrite (proj2 (inb_true _ i)) by lia. rewrite (proj2 (inb_true _ p)) by lia. reflexivity.
Qed.

Lemma normal_reals s sign k g nqf c pts0 ip xg0 d : (0 <= g)%Z -> (0 <= d < space_dim s)%Z ->
  knormal reals RL s sign k g (face_gradients s g nqf pts0 ip) c xg0 d =
  (match s with EQuad => face_normal_quad | EHex => face_normal_hex end) sign k g nqf c pts0 ip d.
Proof.
  intros Hg Hd. unfold knormal. cbv zeta.
  destruct s; cbn [face_gradients space_dim] in *.
  - unfold face_normal_quad, normal_quad. cbv zeta.
    rewrite !(face_product 2 1 EQuad k g c) by (cbn; lia). cbn [face_nodes_count face_node].
    unfold upd1. assert (d = 0 \/ d = 1)%Z as [-> | ->] by lia; cbn [Z.eqb Pos.eqb]; kred; reflexivity.
  - unfold face_normal_hex, normal_hex. cbv zeta.
    rewrite !(face_product 3 2 EHex k g c) by (cbn; lia). cbn [face_nodes_count face_node].
    unfold cA_to_A1. cbn [l_scale kokkos]. kred.
    assert (d = 0 \/ d = 1 \/ d = 2)%Z as [-> | [-> | ->]] by lia; reflexivity.
Qed.

Definition normals_agree (s : eshape) (nqf : Z) (N M : arr3) : Prop :=
  forall lf iq d, (0 <= iq < nqf)%Z -> (0 <= d < space_dim s)%Z -> N lf iq d = M lf iq d.

Lemma normals_row n (f : Z -> arr1) dim (row : arr2) i d :
  zloop n (fun ip row => fun i d => if ((i =? ip) && (0 <=? d) && (d <? dim))%Z%bool then f ip d else row i d) row i d =
  if (inb n i && inb dim d)%bool then f i d else row i d.
Proof.
  destruct (Z.le_gt_cases 0 n) as [Hn|Hn]; [|rewrite zloop_0 by lia; now replace (inb n i) with false by (symmetry; apply inb_false; lia)].
  revert Hn. induction n as [n H|n H IH] using zind; intros Hn; [rewrite zloop_0 by lia; now replace (inb n i) with false by (symmetry; apply inb_false; lia)|].
  rewrite zloop_S by lia. rewrite inb_S by lia. destruct (Z.eqb_spec i n) as [->|Ni]; cbn [andb].
  - rewrite orb_true_r. cbn [andb]. fold (inb dim d). destruct (inb dim d); [reflexivity|]. rewrite IH by lia. now rewrite andb_false_r.
  - rewrite orb_false_r. apply IH. lia.
Qed.

Lemma normals_team_reals s pm rank npe g nqf pts0 junk iface N N' M : (0 <= g)%Z -> normals_agree s nqf N M ->
  normals_team s pm rank npe g nqf pts0 junk iface N = Ok N' ->
  normals_agree s nqf N' (knormals_team reals RL s pm rank npe g nqf (face_gradients s g nqf pts0) junk iface M).
Proof.
  intros Hg HA H. unfold normals_team in H. apply bind_inv in H. destruct H as (rL & E1 & H). apply bind_inv in H. destruct H as (rR & E2 & H).
  unfold knormals_team. cbv zeta. change (num reals) with R. rewrite (rd2_ent _ _ _ _ E1), (rd2_ent _ _ _ _ E2). destruct (face_side rank rL rR) as [onleft|]; [|discriminate].
  apply bind_inv in H. destruct H as (el & E3 & H). apply bind_inv in H. destruct H as (fa & E4 & H). cbv zeta in H.
  apply bind_inv in H. destruct H as (c & E5 & H). apply Ok_inj in H. subst N'.
  rewrite (rd2_ent _ _ _ _ E3), (rd2_ent _ _ _ _ E4), (coords_reals _ _ _ _ _ _ E5).
  intros lf iq d Hq Hd. unfold setr. destruct (Z.eqb_spec lf iface) as [->|Nl]; [|now apply HA].
  rewrite normals_row. rewrite (proj2 (inb_true nqf iq)) by lia. rewrite (proj2 (inb_true _ d)) by lia. cbn [andb].
  rewrite normal_reals by assumption. destruct onleft; reflexivity.
Qed.

Lemma normals_teams_reals s pm rank npe g nqf pts0 junk order : (0 <= g)%Z -> forall N N' M, normals_agree s nqf N M ->
  foreach order (normals_team s pm rank npe g nqf pts0 junk) N = Ok N' ->
  normals_agree s nqf N' (ploop order (knormals_team reals RL s pm rank npe g nqf (face_gradients s g nqf pts0) junk) M).
Proof.
  intros Hg. induction order as [|f l IH]; intros N N' M HA H; cbn [foreach] in H; [apply Ok_inj in H; now subst|].
  apply bind_inv in H. destruct H as (N1 & E1 & H). cbn [ploop fold_left]. apply (IH N1); [|exact H]. now apply (normals_team_reals _ _ _ _ _ _ _ _ _ N).
Qed.

(** * The initial state *)
Lemma ic_loop dim ic ph x t n : forall f f', zfor n (fun iq f => U <- call_IC dim ic ph (x iq) t (f iq) ;; Ok (setr f iq U))%res f = Ok f' ->
  forall iq, (0 <= iq < n)%Z -> call_IC dim ic ph (x iq) t (f iq) = Ok (f' iq).
Proof.
  intros f f' H. assert (X : forall iq, if inb n iq then call_IC dim ic ph (x iq) t (f iq) = Ok (f' iq) else f' iq = f iq).
  { destruct (Z.le_gt_cases 0 n) as [Hn|Hn].
    2:{ intros iq. rewrite zfor_0 in H by lia. apply Ok_inj in H. subst. now replace (inb n iq) with false by (symmetry; apply inb_false; lia). }
    revert Hn f' H. induction n as [n Hn'|n Hn' IH] using zind; intros Hn f' H iq.
    - rewrite zfor_0 in H by lia. apply Ok_inj in H. subst. now replace (inb n iq) with false by (symmetry; apply inb_false; lia).
    - rewrite zfor_S in H by lia. apply bind_inv in H. destruct H as (f1 & E1 & H). apply bind_inv in H. destruct H as (U & E2 & H). apply Ok_inj in H. subst f'.
      pose proof (IH ltac:(lia) f1 E1 iq) as IQ. pose proof (IH ltac:(lia) f1 E1 n) as IN. replace (inb n n) with false in IN by (symmetry; apply inb_false; lia).
      rewrite inb_S by lia. unfold setr. destruct (Z.eqb_spec iq n) as [->|Ni]; [rewrite orb_true_r, <- IN; exact E2|]. rewrite orb_false_r. exact IQ. }
  intros iq Hq. specialize (X iq). rewrite (proj2 (inb_true n iq)) in X by lia. exact X.
Qed.

Lemma det_fresh s nn c (B X Y : arr2) d0 d1 : det (space_dim s) (cATxB_to_C (space_dim s) (space_dim s) nn 1 c B X) d0 = det (space_dim s) (cATxB_to_C (space_dim s) (space_dim s) nn 1 c B Y) d1.
Proof.
  assert (E : forall i j, (0 <= i < space_dim s)%Z -> (0 <= j < space_dim s)%Z -> cATxB_to_C (space_dim s) (space_dim s) nn 1 c B X i j = cATxB_to_C (space_dim s) (space_dim s) nn 1 c B Y i j).
  { intros i j Hi Hj. unfold cATxB_to_C. rewrite !gemm_entry. rewrite (proj2 (inb_true _ i)) by lia. rewrite (proj2 (inb_true _ j)) by lia. cbn [andb]. lra. }
  destruct s; cbn [space_dim] in *; unfold det; cbn [Z.eqb Pos.eqb]; rewrite !E by lia; reflexivity.
Qed.

Lemma jac_snd nq dim npe ggrad c (j : arr3) (d : arr1) (ij : arr3) q : (0 <= q < nq)%Z ->
  snd (fst (get_element_jacobian nq dim npe ggrad c (j, d, ij))) q = det dim (cATxB_to_C dim dim npe 1 c (ggrad q) (j q)) (d q).
Proof.
  intros Hq. pose proof (SetupProof.jac_loop nq dim npe ggrad c j d ij q ltac:(lia)) as J.
  destruct (get_element_jacobian nq dim npe ggrad c (j, d, ij)) as [[jb db] ib]. rewrite (proj2 (inb_true nq q)) in J by lia.
  destruct J as (J1 & J2 & _). cbn [fst snd]. rewrite J2, J1. reflexivity.
Qed.
Lemma jacdet_snd nq dim npe ggrad c (j : arr3) (d : arr1) q : (0 <= q < nq)%Z ->
  snd (get_element_jacobian_det nq dim npe ggrad c (j, d)) q = det dim (cATxB_to_C dim dim npe 1 c (ggrad q) (j q)) (d q).
Proof.
  intros Hq. pose proof (SetupProof.jacdet_loop nq dim npe ggrad c j d q ltac:(lia)) as J.
  destruct (get_element_jacobian_det nq dim npe ggrad c (j, d)) as [jb db]. rewrite (proj2 (inb_true nq q)) in J by lia.
  destruct J as (J1 & J2). cbn [snd]. rewrite J2, J1. reflexivity.
Qed.

Lemma init_team_reals (C : kcase reals) s nb gnb nq wts bval gr gval ggrad ic ph t (pm : pmesh R) npe iMM junk2 junk3 junk1 porder e Uc Uc' :
  c_shape reals C = s -> c_nb reals C = nb -> c_gnb reals C = gnb -> c_TI reals C = mkVT R nq wts bval gr gval ggrad ->
  c_ic reals C = (fun x old => match call_IC (space_dim s) ic ph x t old with Ok U => U | Fail _ => old end) ->
  (0 <= nq)%Z -> Permutation porder (zseq nq) ->
  (c <- elem_coords_from_elem_ID pm npe (space_dim s) e junk2 ;;
   let x := ref_to_phys nq (space_dim s) gnb gval c junk2 in
   f <- zfor nq (fun iq f => U <- call_IC (space_dim s) ic ph (x iq) t (f iq) ;; Ok (setr f iq U)) junk2 ;;
   let djac := snd (get_element_jacobian_det nq (space_dim s) npe ggrad c (junk3, junk1)) in
   Ok (setr Uc e (L2_projection porder nq nb (space_dim s + 2) (iMM e) bval djac wts f (Uc e) junk2)))%res = Ok Uc' ->
  kinit_team reals RL C pm npe iMM junk2 e Uc = Uc'.
Proof.
  intros E1 E2 E3 E4 E5 Hnq PO H. apply bind_inv in H. destruct H as (c & EC & H). cbv zeta in H. apply bind_inv in H. destruct H as (f & EF & H).
  apply Ok_inj in H. subst Uc'. unfold kinit_team. cbv zeta. rewrite E1, E2, E3, E4, E5. cbn [vt_nq vt_wts vt_val vt_gval vt_ggrad].
  rewrite (coords_reals _ _ _ _ _ _ EC). unfold setr at 1 2. apply functional_extensionality; intros e'. destruct (e' =? e)%Z; [|reflexivity].
  apply functional_extensionality; intros i. apply functional_extensionality; intros k.
  rewrite (SolverProof.L2_projection_entry _ _ _ _ _ _ _ _ _ _ _ _ _ PO). rewrite !gemm_reals, gemm_entry.
  destruct (inb nb i && inb (space_dim s + 2) k)%bool eqn:EI; [|reflexivity]. apply andb_true_iff in EI. destruct EI as [_ Ek].
  rewrite Rmult_0_l, Rplus_0_l. change (f1 reals) with 1. rewrite Rmult_1_l. apply rsum_ext. intros j Hj. f_equal.
  rewrite gemm_entry, Ek, (proj2 (inb_true nb j)) by lia. cbn [andb].
  rewrite Rmult_0_l, Rplus_0_l. change (f1 reals) with 1. rewrite Rmult_1_l. apply rsum_ext. intros q Hq. f_equal.
  rewrite jacobians_reals. pose proof (ic_loop _ _ _ _ _ _ _ _ EF q Hq) as EQ. unfold ref_to_phys, cAxB_to_C in EQ. 
  cbn [l_scale kokkos]. kred. f_equal.
  - f_equal. refine (eq_trans (jac_snd nq (space_dim s) npe ggrad c (fun _ => junk2) (junk2 0%Z) (fun _ => junk2) q Hq) _).
    refine (eq_trans _ (eq_sym (jacdet_snd nq (space_dim s) npe ggrad c junk3 junk1 q Hq))). apply det_fresh.
  - match goal with |- context [call_IC ?a ?b ?c' ?d ?e0 ?g] => replace (call_IC a b c' d e0 g) with (Ok (f q)) by (symmetry; exact EQ) end. reflexivity.
Qed.
