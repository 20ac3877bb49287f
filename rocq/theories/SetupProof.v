(** SetupProof.v -- lemmas about the set-up: quadrature rules, element
    coordinates, Jacobians, inverse mass matrices. *)
From Coq Require Import ZArith List Lia Reals Lra Bool Permutation.
From Coquelicot Require Import Coquelicot.
From Verif Require Import Base RBase LinAlgModel LinAlgProof PropLinAlg QuadModel QuadProof PropQuad BasisModel BasisProof PropBasis PropSolver PropNormals.
From Verif Require Import MeshModel MeshSpec MeshProof PropMesh SolverSpec SetupModel SetupSpec MassProof.
Import ListNotations.
Local Open Scope R_scope.
Open Scope res_scope.

(** ** Loops over rows *)
Lemma foreach_rows {S} (body : Z -> S -> res S) (Inv : S -> Prop) (Pre Row : Z -> S -> Prop) l s :
  NoDup l -> Inv s -> (forall e, In e l -> Pre e s) ->
  (forall e s, In e l -> Inv s -> Pre e s -> exists s', body e s = Ok s' /\ Inv s' /\ Row e s' /\
     (forall e', e' <> e -> Pre e' s -> Pre e' s') /\ (forall e', e' <> e -> Row e' s -> Row e' s')) ->
  exists s', foreach l body s = Ok s' /\ Inv s' /\ forall e, In e l -> Row e s'.
Proof.
  intros ND I0 P0 H.
  assert (G : forall l', (forall e, In e l' -> In e l) -> NoDup l' -> forall s, Inv s -> (forall e, In e l' -> Pre e s) ->
    exists s', foreach l' body s = Ok s' /\ Inv s' /\ (forall e, In e l' -> Row e s') /\ (forall e, In e l -> ~ In e l' -> Row e s -> Row e s')).
  { induction l' as [|a l' IH]; intros Sub ND' s1 I1 P1.
    - exists s1. cbn. split; [reflexivity|]. split; [exact I1|]. split; [intros e []|auto].
    - inversion ND' as [|? ? NI ND'']; subst.
      destruct (H a s1) as (s2 & E & I2 & R2 & K1 & K2); [apply Sub; now left|exact I1|apply P1; now left|].
      destruct (IH ltac:(intros; apply Sub; now right) ND'' s2 I2) as (s3 & E3 & I3 & R3 & K3).
      { intros e He. apply K1; [intros ->; contradiction|]. apply P1. now right. }
      exists s3. cbn. rewrite E. cbn [bind]. split; [exact E3|]. split; [exact I3|]. split.
      + intros e [<- | He]; [|now apply R3]. apply K3; [apply Sub; now left|exact NI|exact R2].
      + intros e He N R. apply K3; [exact He|intros C; apply N; now right|]. apply K2; [intros ->; apply N; now left|exact R]. }
  destruct (G l ltac:(auto) ND s I0 P0) as (s' & E & I & R & _). eauto.
Qed.

(** ** Quadrature rules *)
Lemma good_rule_diff n d eps x w : good_rule n d eps x w -> different n x.
Proof.
  intros (_ & M & _) i j Hi Hj E. destruct (Z.lt_trichotomy i j) as [L|[L|L]]; [|exact L|].
  - specialize (M i j ltac:(lia) ltac:(lia)). lra.
  - specialize (M j i ltac:(lia) ltac:(lia)). lra.
Qed.

Lemma volume_rule s o : tabulated o -> exists x w, good_rule (o + 2) (2 * o + 3) (/ 10 ^ 30) x w /\
  forall P0 W0, exists P W, volume_quadrature s o P0 W0 = Ok ((o + 2) ^ space_dim s, P, W)%Z /\ tensor_rule (space_dim s) (o + 2) x w P W.
Proof.
  intros (T & T17). destruct (C37_orders_tabulated_partial o 0 T T17) as (En & X & Wt & LX & LW & Seg & G).
  exists (arr_of X), (arr_of Wt).
  assert (EO : get_gausslegendre_quadrature_order o = (2 * o + 3)%Z) by (unfold get_gausslegendre_quadrature_order; lia).
  rewrite EO in *.
  assert (N1 : forall d, get_number_of_quadrature_points (2 * o + 3) d 0 = (o + 2, (o + 2) ^ d)%Z).
  { intros d. unfold get_number_of_quadrature_points in En |- *. cbn [fst] in En. cbv zeta in En |- *. rewrite En. reflexivity. }
  rewrite En in *. split; [exact G|]. intros P0 W0.
  assert (VO : volume_quadrature_order s o = (2 * o + 3)%Z).
  { destruct s; cbn [volume_quadrature_order]; [unfold quadrilateral_gl_order, segment_gl_order; lia|exact EO]. }
  unfold volume_quadrature. rewrite VO, N1. cbn [fst snd].
  assert (L0 : zlen (vec (o + 2) 0%Z) = (o + 2)%Z) by (unfold zlen, vec; rewrite repeat_length; lia).
  destruct s; unfold quadrilateral_quadrature, hexahedron_quadrature; rewrite (Seg _ _ L0 L0); cbn [bind fst snd space_dim].
  - do 2 eexists. split; [reflexivity|]. intros q Hq.
    pose proof (quad_tensor_spec (o + 2) (arr_of X) (arr_of Wt) P0 W0 q ltac:(lia)) as Q. cbv zeta in Q.
    replace ((0 <=? q) && (q <? (o + 2) * (o + 2)))%Z%bool with true in Q by (symmetry; apply andb_true_intro; split; [apply Z.leb_le|apply Z.ltb_lt]; nia).
    injection Q as Q0 Q1 Q2. split.
    + intros d Hd. assert (C : (d = 0 \/ d = 1)%Z) by lia. destruct C as [-> | ->]; [rewrite digit0; exact Q0|]. rewrite digit1_top by lia. exact Q1.
    + rewrite rprod_2, digit0, digit1_top by lia. exact Q2.
  - do 2 eexists. split; [reflexivity|]. intros q Hq.
    pose proof (hex_tensor_spec (o + 2) (arr_of X) (arr_of Wt) P0 W0 q ltac:(lia)) as Q. cbv zeta in Q.
    assert (N3 : ((o + 2) ^ 3 = (o + 2) * (o + 2) * (o + 2))%Z) by ring.
    replace ((0 <=? q) && (q <? (o + 2) * (o + 2) * (o + 2)))%Z%bool with true in Q by (symmetry; apply andb_true_intro; split; [apply Z.leb_le|apply Z.ltb_lt]; lia).
    injection Q as Q0 Q1 Q2 Q3. split.
    + intros d Hd. assert (C : (d = 0 \/ d = 1 \/ d = 2)%Z) by lia. destruct C as [-> | [-> | ->]]; [rewrite digit0; exact Q0|rewrite digit1; exact Q1|].
      rewrite digit2_top by lia. exact Q2.
    + rewrite rprod_3, digit0, digit1, digit2_top by lia. exact Q3.
Qed.

Lemma rule_inside s n x w P W d eps : good_rule n d eps x w -> (0 < n)%Z -> tensor_rule (space_dim s) n x w P W ->
  forall q, (0 <= q < n ^ space_dim s)%Z -> inside s (P q) /\ 0 < W q.
Proof.
  intros (G & _) Hn T q Hq. destruct (T q Hq) as (T1 & T2). split.
  - intros i Hi. rewrite T1 by exact Hi. apply G. apply digit_range. lia.
  - rewrite T2. assert (K : forall d, 0 < w (digit n d q)) by (intros; apply G; apply digit_range; lia).
    destruct s; cbn [space_dim]; rewrite ?rprod_2, ?rprod_3; repeat apply Rmult_lt_0_compat; apply K.
Qed.

(** ** Element coordinates *)
Lemma zfor_ext {S} n (f g : Z -> S -> res S) s : (forall i s, (0 <= i < n)%Z -> f i s = g i s) -> zfor n f s = zfor n g s.
Proof.
  revert s. induction n as [n H|n H IH] using zind; intros s E.
  - unfold zfor. rewrite zseq_neg by lia. reflexivity.
  - rewrite !zfor_S by lia. rewrite (IH s) by (intros; apply E; lia). destruct (zfor n g s); cbn [bind]; [apply E; lia|reflexivity].
Qed.
Lemma zfor_fill2 n m (f : Z -> Z -> res R) (g : Z -> Z -> R) c : (0 <= n)%Z -> (0 <= m)%Z ->
  (forall i j, (0 <= i < n)%Z -> (0 <= j < m)%Z -> f i j = Ok (g i j)) ->
  exists c', zfor n (fun i c => zfor m (fun j c => v <- f i j ;; Ok (upd2 c i j v)) c) c = Ok c' /\
    forall i j, c' i j = if (inb n i && inb m j)%bool then g i j else c i j.
Proof.
  intros Hn Hm F.
  assert (In : forall i c, (0 <= i < n)%Z -> exists c', zfor m (fun j c => v <- f i j ;; Ok (upd2 c i j v)) c = Ok c' /\
     forall i' j, c' i' j = if ((i' =? i)%Z && inb m j)%bool then g i j else c i' j).
  { intros i c0 Hi. assert (W : forall k, (0 <= k <= m)%Z -> exists c', zfor k (fun j c => v <- f i j ;; Ok (upd2 c i j v)) c0 = Ok c' /\
       forall i' j, c' i' j = if ((i' =? i)%Z && inb k j)%bool then g i j else c0 i' j).
    { intros k. induction k as [k H|k H IH] using zind; intros Hk.
      - assert (k = 0)%Z as -> by lia. exists c0. split; [reflexivity|]. intros i' j. replace (inb 0 j) with false by (symmetry; apply inb_false; lia). now rewrite andb_false_r.
      - destruct IH as (c1 & E & V); [lia|]. rewrite zfor_S by lia. rewrite E. cbn [bind]. rewrite F by lia. cbn [bind]. eexists. split; [reflexivity|].
        intros i' j. unfold upd2. rewrite V. rewrite inb_S by lia.
        destruct (Z.eqb_spec i' i) as [->|]; destruct (Z.eqb_spec j k) as [->|]; cbn [andb orb]; rewrite ?orb_true_r, ?orb_false_r; auto. }
    apply W. lia. }
  assert (W : forall k, (0 <= k <= n)%Z -> exists c', zfor k (fun i c => zfor m (fun j c => v <- f i j ;; Ok (upd2 c i j v)) c) c = Ok c' /\
       forall i j, c' i j = if (inb k i && inb m j)%bool then g i j else c i j).
  { intros k. induction k as [k H|k H IH] using zind; intros Hk.
    - assert (k = 0)%Z as -> by lia. exists c. split; [reflexivity|]. intros i j. now replace (inb 0 i) with false by (symmetry; apply inb_false; lia).
    - destruct IH as (c1 & E & V); [lia|]. rewrite zfor_S by lia. rewrite E. cbn [bind]. destruct (In k c1 ltac:(lia)) as (c2 & E2 & V2).
      exists c2. split; [exact E2|]. intros i j. rewrite V2, V. rewrite inb_S by lia.
      destruct (Z.eqb_spec i k) as [->|]; destruct (inb m j); cbn [andb orb]; rewrite ?orb_true_r, ?orb_false_r, ?andb_false_r; auto. }
  apply W. lia.
Qed.

Section Coords.
Context (zero : R) (iter : Z -> list Z -> list Z) (n : Z) (m : gmesh R) (ep : list Z) (pm : Z -> pmesh R).
Context (WF : run_wf iter n m ep) (PT : partitioned zero iter n m ep pm).

Lemma elem_coords_ok r le e junk : (0 <= r < n)%Z -> rd (pm_l2g_elem (pm r)) le = Ok e ->
  exists c, elem_coords_from_elem_ID (pm r) (gm_npe m) (gm_dim m) le junk = Ok c /\
    forall i d, (0 <= i < gm_npe m)%Z -> (0 <= d < gm_dim m)%Z -> c i d = elem_nodes m e i d.
Proof.
  intros Hr He. pose proof (C03_local_connectivity R zero iter n m ep pm WF PT r Hr) as (_ & Con & Crd & _).
  pose proof (run_mesh _ _ _ _ WF) as MW.
  destruct (zfor_fill2 (gm_npe m) (gm_dim m) (fun i j => nd <- rd2 (pm_elem_to_node (pm r)) le i ;; rd2 (pm_node_coords (pm r)) nd j)
     (elem_nodes m e) junk (wf_npe _ MW) (wf_dim _ MW)) as (c & E & V).
  - intros i j Hi Hj. destruct (Con le e i He Hi) as (ln & gn & E1 & E2 & E3). rewrite E1. cbn [bind].
    destruct (Crd ln gn E2) as (row & E4 & E5). unfold elem_nodes. rewrite E3. unfold rd2. rewrite E4, E5. cbn [bind].
    destruct (rd_total row j) as (v & Ev); [|now rewrite Ev].
    assert (In row (gm_coord m)) by (eapply rd_In; exact E5).
    pose proof (wf_coord _ MW) as FA. rewrite Forall_forall in FA. rewrite (FA row); auto.
  - exists c. split.
    + rewrite <- E. unfold elem_coords_from_elem_ID. apply zfor_ext. intros i c1 Hi. apply zfor_ext. intros j c2 Hj.
      destruct (rd2 (pm_elem_to_node (pm r)) le i); reflexivity.
    + intros i d Hi Hd. rewrite V. rewrite (proj2 (inb_true _ _) Hi), (proj2 (inb_true _ _) Hd). reflexivity.
Qed.

Lemma owned_elem r le e : (0 <= r < n)%Z -> rd (pm_l2g_elem (pm r)) le = Ok e -> (0 <= e < gm_num_elems m)%Z.
Proof.
  intros Hr He. pose proof (C01_element_ownership R zero iter n m ep pm WF PT) as (_ & Own & _).
  apply rd_In in He. apply (Own r e Hr) in He. unfold owned_by in He. apply rd_in_range in He.
  pose proof (run_ep _ _ _ _ WF) as (L & _). lia.
Qed.
End Coords.

(** ** Jacobians *)
Lemma jac_loop nq dim npe ggrad c jac djac ijac q : (0 <= nq)%Z ->
  let '(jac', djac', ijac') := get_element_jacobian nq dim npe ggrad c (jac, djac, ijac) in
  if inb nq q then jac' q = cATxB_to_C dim dim npe 1 c (ggrad q) (jac q) /\ djac' q = det dim (jac' q) (djac q) /\ ijac' q = invA dim (jac' q) (ijac q)
  else jac' q = jac q /\ djac' q = djac q /\ ijac' q = ijac q.
Proof.
  intros Hn. unfold get_element_jacobian. match goal with |- context [zloop nq ?f _] => set (B := f) end. induction nq as [nq H|nq H IH] using zind.
  - rewrite zloop_0 by lia. replace (inb nq q) with false by (symmetry; apply inb_false; lia). auto.
  - rewrite zloop_S by lia. specialize (IH ltac:(lia)).
    destruct (zloop nq B (jac, djac, ijac)) as [[j1 d1] i1]. unfold B. rewrite inb_S by lia.
    unfold setr, upd1. destruct (Z.eqb_spec q nq) as [->|N].
    + replace (inb nq nq) with false in IH by (symmetry; apply inb_false; lia). destruct IH as (-> & -> & ->).
      rewrite orb_true_r, !Z.eqb_refl. auto.
    + rewrite orb_false_r. exact IH.
Qed.

Lemma jacdet_loop nq dim npe ggrad c jac djac q : (0 <= nq)%Z ->
  let '(jac', djac') := get_element_jacobian_det nq dim npe ggrad c (jac, djac) in
  if inb nq q then jac' q = cATxB_to_C dim dim npe 1 c (ggrad q) (jac q) /\ djac' q = det dim (jac' q) (djac q)
  else jac' q = jac q /\ djac' q = djac q.
Proof.
  intros Hn. unfold get_element_jacobian_det. match goal with |- context [zloop nq ?f _] => set (B := f) end. induction nq as [nq H|nq H IH] using zind.
  - rewrite zloop_0 by lia. replace (inb nq q) with false by (symmetry; apply inb_false; lia). auto.
  - rewrite zloop_S by lia. specialize (IH ltac:(lia)).
    destruct (zloop nq B (jac, djac)) as [j1 d1]. unfold B. rewrite inb_S by lia.
    unfold setr, upd1. destruct (Z.eqb_spec q nq) as [->|N].
    + replace (inb nq nq) with false in IH by (symmetry; apply inb_false; lia). destruct IH as (-> & ->).
      rewrite orb_true_r, !Z.eqb_refl. auto.
    + rewrite orb_false_r. exact IH.
Qed.

Lemma small_det_ext n A B : (1 <= n <= 3)%Z -> (forall i j, (0 <= i < n)%Z -> (0 <= j < n)%Z -> A i j = B i j) -> small_det n A = small_det n B.
Proof.
  intros Hn E. unfold small_det, det1, det2, det3, minor2.
  destruct (Z.eqb_spec n 1) as [->|]; [apply E; lia|]. destruct (Z.eqb_spec n 2) as [->|].
  - rewrite (E 0 0)%Z, (E 0 1)%Z, (E 1 0)%Z, (E 1 1)%Z by lia. reflexivity.
  - rewrite (E 0 0)%Z, (E 0 1)%Z, (E 0 2)%Z, (E 1 0)%Z, (E 1 1)%Z, (E 1 2)%Z, (E 2 0)%Z, (E 2 1)%Z, (E 2 2)%Z by lia. reflexivity.
Qed.

Lemma inverse_of_ext n A B X : (forall i j, (0 <= i < n)%Z -> (0 <= j < n)%Z -> A i j = B i j) -> inverse_of n A X -> inverse_of n B X.
Proof.
  intros E H i j Hi Hj. destruct (H i j Hi Hj) as (H1 & H2). split.
  - rewrite <- H1. apply rsum_ext. intros k Hk. now rewrite E.
  - rewrite <- H2. apply rsum_ext. intros k Hk. now rewrite E.
Qed.

Lemma is_derive_rsum n (f : Z -> R -> R) (l : Z -> R) x :
  (forall i, (0 <= i < n)%Z -> is_derive (f i) x (l i)) -> is_derive (fun t => rsum n (fun i => f i t)) x (rsum n l).
Proof.
  induction n as [n H|n H IH] using zind; intros D.
  - apply (is_derive_ext (fun _ => 0)); [intros; rewrite rsum_0 by lia; reflexivity|]. rewrite rsum_0 by lia. apply (is_derive_const (V := R_NormedModule)).
  - apply (is_derive_ext (fun t => rsum n (fun i => f i t) + f n t)); [intros; rewrite rsum_S by lia; reflexivity|]. rewrite rsum_S by lia.
    apply (is_derive_plus (V := R_NormedModule)); [apply IH; intros; apply D; lia|apply D; lia].
Qed.

Lemma geom_facts s g : dim (geom_basis s) = space_dim s /\ is_lagrange (geom_basis s) = true /\ supported (geom_basis s) g.
Proof. destruct s; cbn; repeat split; left; reflexivity. Qed.

Lemma place_derive s g nq P grad0 X q j d : (1 <= g)%Z -> (0 <= q < nq)%Z -> (0 <= d < space_dim s)%Z ->
  is_derive (fun t => place s g X (with_coord (P q) d t) j) (P q d)
    (rsum (nfun (geom_basis s) g) (fun k => X k j * get_grads (geom_basis s) g nq P grad0 q k d)).
Proof.
  intros Hg Hq Hd. destruct (geom_facts s g) as (Ed & _ & Sup).
  pose proof (C33_basis_gradients (geom_basis s) g nq P grad0 ltac:(lia) Sup ltac:(lia)) as (D & _).
  unfold place, elem_map. apply is_derive_rsum. intros k Hk.
  apply (is_derive_ext (fun t => X k j * basis_fn (geom_basis s) g k (with_coord (P q) d t))); [intros t; apply Rmult_comm|].
  apply is_derive_scal_R. apply D; [exact Hq|exact Hk|rewrite Ed; exact Hd].
Qed.

(** The entries the code computes for one element from node coordinates that
    agree with [X]. *)
Lemma jac_entry s g nq P grad0 c X J0 q : (1 <= g)%Z -> (0 <= q < nq)%Z ->
  (forall i d, (0 <= i < nfun (geom_basis s) g)%Z -> (0 <= d < space_dim s)%Z -> c i d = X i d) ->
  let J := cATxB_to_C (space_dim s) (space_dim s) (nfun (geom_basis s) g) 1 c (get_grads (geom_basis s) g nq P grad0 q) J0 in
  forall j d, (0 <= j < space_dim s)%Z -> (0 <= d < space_dim s)%Z ->
    is_derive (fun t => place s g X (with_coord (P q) d t) j) (P q d) (J j d) /\ J j d = jacobian s g X (P q) j d.
Proof.
  intros Hg Hq HX J j d Hj Hd.
  assert (E : J j d = rsum (nfun (geom_basis s) g) (fun k => X k j * get_grads (geom_basis s) g nq P grad0 q k d)).
  { unfold J, cATxB_to_C. rewrite gemm_entry, (proj2 (inb_true _ _) Hj), (proj2 (inb_true _ _) Hd). cbn [andb].
    rewrite Rmult_0_l, Rplus_0_l, Rmult_1_l. apply rsum_ext. intros k Hk. now rewrite HX. }
  pose proof (place_derive s g nq P grad0 X q j d Hg Hq Hd) as D. rewrite E. split; [exact D|].
  symmetry. unfold jacobian. apply is_derive_unique. exact D.
Qed.

Lemma space_dim_range s : (1 <= space_dim s <= 3)%Z. Proof. destruct s; cbn; lia. Qed.

Lemma jac_row s g nq P grad0 c X jac djac ijac : (1 <= g)%Z -> (0 <= nq)%Z ->
  (forall i d, (0 <= i < nfun (geom_basis s) g)%Z -> (0 <= d < space_dim s)%Z -> c i d = X i d) ->
  let '(jac', djac', ijac') := get_element_jacobian nq (space_dim s) (nfun (geom_basis s) g) (get_grads (geom_basis s) g nq P grad0) c (jac, djac, ijac) in
  forall q, (0 <= q < nq)%Z ->
    (forall j d, (0 <= j < space_dim s)%Z -> (0 <= d < space_dim s)%Z ->
       is_derive (fun t => place s g X (with_coord (P q) d t) j) (P q d) (jac' q j d)) /\
    djac' q = jac_det s g X (P q) /\
    (jac_det s g X (P q) <> 0 -> inverse_of (space_dim s) (jacobian s g X (P q)) (ijac' q)).
Proof.
  intros Hg Hn HX.
  pose proof (fun q => jac_loop nq (space_dim s) (nfun (geom_basis s) g) (get_grads (geom_basis s) g nq P grad0) c jac djac ijac q Hn) as L.
  destruct (get_element_jacobian _ _ _ _ _ _) as [[j1 d1] i1]. intros q Hq. specialize (L q).
  rewrite (proj2 (inb_true _ _) Hq) in L. destruct L as (L1 & L2 & L3).
  pose proof (jac_entry s g nq P grad0 c X (jac q) q Hg Hq HX) as E. cbv zeta in E. rewrite <- L1 in E.
  pose proof (space_dim_range s) as SD.
  destruct (C28_small_inverse (space_dim s) (j1 q) (ijac q) SD) as (Dt & Inv & _).
  assert (ED : small_det (space_dim s) (j1 q) = jac_det s g X (P q)).
  { unfold jac_det. apply small_det_ext; [exact SD|]. intros i j Hi Hj. now apply E. }
  split; [intros j d Hj Hd; now apply E|]. split.
  - rewrite L2, Dt. exact ED.
  - intros N. rewrite <- ED in N. apply (inverse_of_ext _ (j1 q)); [intros i j Hi Hj; now apply E|]. rewrite L3. now apply Inv.
Qed.

(** ** Inverse mass matrices *)
Lemma scale_rows nq nb (k : Z -> R) sb0 q i :
  zloop nq (fun iq sb => fun i j => if (i =? iq)%Z then cA_to_A1 nb (k iq) (sb iq) j else sb i j) sb0 q i =
  if (inb nq q && inb nb i)%bool then k q * sb0 q i else sb0 q i.
Proof.
  match goal with |- context [zloop nq ?f _] => set (B := f) end.
  induction nq as [nq H|nq H IH] using zind.
  - rewrite zloop_0 by lia. now replace (inb nq q) with false by (symmetry; apply inb_false; lia).
  - rewrite zloop_S by lia.
    rewrite inb_S by lia. destruct (Z.eqb_spec q nq) as [->|N].
    + unfold B at 1. rewrite Z.eqb_refl, cA_to_A1_entry, orb_true_r. rewrite IH.
      replace (inb nq nq) with false by (symmetry; apply inb_false; lia). reflexivity.
    + rewrite orb_false_r, <- IH. unfold B at 1. destruct (Z.eqb_spec q nq); [contradiction|reflexivity].
Qed.

Lemma mass_matrix nq nb w B dj MM0 sb0 i j : (0 <= i < nb)%Z -> (0 <= j < nb)%Z ->
  let sb := copy_A_to_B nq nb B sb0 in
  let sb := zloop nq (fun iq sb => fun i j => if (i =? iq)%Z then cA_to_A1 nb (w iq * dj iq) (sb iq) j else sb i j) sb in
  cATxB_to_C nb nb nq 1 B sb MM0 i j = mass nq B w dj i j.
Proof.
  intros Hi Hj sb0' sb. unfold cATxB_to_C. rewrite gemm_entry, (proj2 (inb_true _ _) Hi), (proj2 (inb_true _ _) Hj). cbn [andb].
  rewrite Rmult_0_l, Rplus_0_l, Rmult_1_l. unfold mass. apply rsum_ext. intros q Hq.
  unfold sb. rewrite (scale_rows nq nb (fun iq => w iq * dj iq)). unfold sb0'. rewrite copy_entry.
  rewrite (proj2 (inb_true _ _) Hq), (proj2 (inb_true _ _) Hj). cbn [andb]. ring.
Qed.

Lemma basis_for_dim s bt : basis_for s bt -> dim bt = space_dim s.
Proof. destruct s; intros [-> | ->]; reflexivity. Qed.

Lemma basis_fn_ext bt p i y y' : (forall d, (0 <= d < dim bt)%Z -> y d = y' d) -> basis_fn bt p i y = basis_fn bt p i y'.
Proof. intros E. unfold basis_fn. apply rprod_ext. intros d Hd. now rewrite E. Qed.

Lemma nfun_big bt p : (1 <= p)%Z -> (2 <= dim bt)%Z -> (4 <= nfun bt p)%Z.
Proof.
  intros Hp Hd. unfold nfun. apply Z.le_trans with (2 ^ dim bt)%Z.
  - change 4%Z with (2 ^ 2)%Z. apply Z.pow_le_mono_r; lia.
  - apply Z.pow_le_mono_l. lia.
Qed.

Lemma mass_inverse s bt p nq n x P W B w dj MM iMM0 eps dd : (0 <= p < n)%Z -> supported bt p -> basis_for s bt ->
  nq = (n ^ space_dim s)%Z -> good_rule n dd eps x w -> tensor_rule (space_dim s) n x w P W ->
  (forall q i, (0 <= q < nq)%Z -> (0 <= i < nfun bt p)%Z -> B q i = basis_fn bt p i (P q)) ->
  (forall q, (0 <= q < nq)%Z -> 0 < dj q) ->
  (forall i j, (0 <= i < nfun bt p)%Z -> (0 <= j < nfun bt p)%Z -> MM i j = mass nq B W dj i j) ->
  (forall i j, (0 <= i < nfun bt p)%Z -> (0 <= j < nfun bt p)%Z -> i <> j -> iMM0 i j = 0) ->
  inverse_of (nfun bt p) (mass nq (fun q i => basis_fn bt p i (P q)) W dj) (invA (nfun bt p) MM iMM0).
Proof.
  intros Hp Sup BF Enq G T HB Dj HM I0. pose proof (basis_for_dim s bt BF) as Ed.
  pose proof (mass_pos_def nq (nfun bt p) B W dj) as (Sy & PD).
  - intros q Hq. rewrite Enq in Hq. apply Rmult_lt_0_compat; [apply (rule_inside s n x w P W dd eps G); auto; lia|]. apply Dj. lia.
  - intros c Hc. apply (unisolvent bt p n x P c Hp Sup (good_rule_diff _ _ _ _ _ G)).
    + intros q d Hq Hd. rewrite Ed in Hq, Hd. now apply T.
    + intros q Hq. rewrite Ed, <- Enq in Hq. rewrite <- (Hc q Hq). apply rsum_ext. intros i Hi. now rewrite HB.
  - apply (inverse_of_ext _ MM).
    { intros i j Hi Hj. rewrite HM by assumption. unfold mass. apply rsum_ext. intros q Hq. rewrite !HB by assumption. reflexivity. }
    assert (Pos : forall c, (exists i, (0 <= i < nfun bt p)%Z /\ c i <> 0) -> 0 < rsum (nfun bt p) (fun i => rsum (nfun bt p) (fun j => c i * (MM i j * c j)))).
    { intros c Hc. eapply Rlt_le_trans; [apply (PD c Hc)|]. right. apply rsum_ext. intros i Hi. apply rsum_ext. intros j Hj. now rewrite HM. }
    destruct (Z.eq_dec p 0) as [->|Np].
    + assert (E1 : nfun bt 0 = 1%Z) by (unfold nfun; apply Z.pow_1_l; rewrite Ed; destruct s; cbn; lia). rewrite E1 in *.
      destruct (C28_small_inverse 1 MM iMM0 ltac:(lia)) as (_ & Inv & _). apply Inv.
      specialize (Pos (fun _ => 1)). rewrite !rsum_1 in Pos. cbn. unfold det1. intros Z0. rewrite Z0 in Pos.
      assert (0 < 1 * (0 * 1)); [|lra]. apply Pos. exists 0%Z. split; [lia|lra].
    + apply C59_spd_inverse; [|intros i j Hi Hj; rewrite !HM by assumption; apply Sy|exact Pos|exact I0].
      pose proof (nfun_big bt p ltac:(lia)). rewrite Ed in H. specialize (H ltac:(destruct s; cbn; lia)). lia.
Qed.
