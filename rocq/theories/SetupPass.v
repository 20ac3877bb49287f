(** SetupPass.v -- the two passes over the elements and the pass over the faces. *)
From Coq Require Import ZArith List Lia Reals Lra Bool Permutation.
From Coquelicot Require Import Coquelicot.
From Verif Require Import Base RBase LinAlgModel LinAlgProof PropLinAlg QuadModel QuadProof PropQuad BasisModel BasisProof PropBasis PropSolver PropNormals.
From Verif Require Import ShapeModel ShapeProof PropShape MeshModel MeshSpec MeshProof PropMesh SolverModel SolverSpec SolverProof SolverMesh SetupModel SetupSpec MassProof SetupProof.
Import ListNotations.
Local Open Scope R_scope.
Open Scope res_scope.

Section Pass.
Context (zero : R) (iter : Z -> list Z -> list Z) (n : Z) (m : gmesh R) (ep : list Z) (pm : Z -> pmesh R).
Context (WF : run_wf iter n m ep) (PT : partitioned zero iter n m ep pm).
Context (s : eshape) (bt : basis_type) (p g : Z).
Context (Hg : (1 <= g)%Z) (Hp : (0 <= p)%Z) (Sup : supported bt p) (BF : basis_for s bt).
Context (Fit : mesh_fits s g m).

Lemma local_elem r le : (0 <= r < n)%Z -> (0 <= le < pm_num_elems_part (pm r))%Z -> exists e, rd (pm_l2g_elem (pm r)) le = Ok e.
Proof.
  intros Hr Hle. pose proof (C01_element_ownership R zero iter n m ep pm WF PT) as (_ & _ & C & _). destruct (C r Hr) as (_ & EL).
  apply rd_total. lia.
Qed.

Lemma coords_ok r le e junk : (0 <= r < n)%Z -> rd (pm_l2g_elem (pm r)) le = Ok e ->
  exists c, elem_coords_from_elem_ID (pm r) (gm_npe m) (space_dim s) le junk = Ok c /\
    forall i d, (0 <= i < nfun (geom_basis s) g)%Z -> (0 <= d < space_dim s)%Z -> c i d = elem_nodes m e i d.
Proof.
  intros Hr He. destruct Fit as (F1 & F2). destruct (elem_coords_ok zero iter n m ep pm WF PT r le e junk Hr He) as (c & E & V).
  rewrite F1, F2 in *. eauto.
Qed.

Lemma nb_eq b o : (0 <= o)%Z -> supported b o -> num_basis_coeff b o = nfun b o.
Proof. intros Ho So. apply (C33_basis_values b o 0 zero2 zero2 Ho So). Qed.

Lemma reference_ok o h : tabulated o -> exists x w P W, good_rule (o + 2) (2 * o + 3) (/ 10 ^ 30) x w /\ tensor_rule (space_dim s) (o + 2) x w P W /\
  volume_quadrature s o (vh_pts h) (vh_wts h) = Ok ((o + 2) ^ space_dim s, P, W)%Z /\
  let nq := ((o + 2) ^ space_dim s)%Z in
  reference_data s bt p g o h = Ok (mkVH nq P W
    (get_values bt p nq (nfun bt p) P (vh_val h)) (get_grads bt p nq P (vh_grad h))
    (get_values (geom_basis s) g nq (nfun (geom_basis s) g) P (vh_gval h)) (get_grads (geom_basis s) g nq P (vh_ggrad h))
    (vh_jac h) (vh_djac h) (vh_ijac h) (vh_x h) (vh_vol h) (vh_iMM h)).
Proof.
  intros T. destruct (volume_rule s o T) as (x & w & G & A). destruct (A (vh_pts h) (vh_wts h)) as (P & W & E & TR).
  exists x, w, P, W. split; [exact G|]. split; [exact TR|]. split; [exact E|]. cbv zeta. unfold reference_data. rewrite E. cbn [bind].
  rewrite !nb_eq; [reflexivity|lia|apply geom_facts|exact Hp|exact Sup].
Qed.

Lemma nq_nonneg o : (0 <= (o + 2) ^ space_dim s)%Z \/ (o + 2 < 0)%Z.
Proof. destruct (Z_lt_le_dec (o + 2) 0); [now right|left; apply Z.pow_nonneg; lia]. Qed.

(** First pass: inverse mass matrices. *)
Lemma inv_mass_pass r junk eo : (0 <= r < n)%Z -> tabulated (2 * p) -> untangled s g m ->
  Permutation eo (zseq (pm_num_elems_part (pm r))) ->
  exists h nq P W, compute_inv_mass_matrices s bt p g (pm r) (gm_npe m) junk eo vh_empty = Ok h /\
    volume_quadrature s (2 * p) zero2 zero1 = Ok (nq, P, W) /\
    (p = 0%Z -> forall q i d, vh_grad h q i d = 0) /\
    forall le e, rd (pm_l2g_elem (pm r)) le = Ok e ->
      inverse_of (nfun bt p) (mass nq (fun q i => basis_fn bt p i (P q)) W (fun q => jac_det s g (elem_nodes m e) (P q))) (vh_iMM h le).
Proof.
  intros Hr T Un Pe. unfold compute_inv_mass_matrices.
  destruct (reference_ok (2 * p) vh_empty T) as (x & w & P & W & G & TR & EQ & E). cbv zeta in E. rewrite E. cbn [bind].
  set (nq := ((2 * p + 2) ^ space_dim s)%Z) in *.
  assert (Hnq : (0 <= nq)%Z) by (apply Z.pow_nonneg; lia).
  set (h0 := mkVH _ _ _ _ _ _ _ _ _ _ _ _ _).
  destruct (foreach_rows (inv_mass_team s (pm r) (gm_npe m) (num_basis_coeff bt p) junk)
     (fun h => vh_nq h = nq /\ vh_wts h = W /\ vh_val h = vh_val h0 /\ vh_ggrad h = vh_ggrad h0 /\ vh_grad h = vh_grad h0)
     (fun le h => forall i j, vh_iMM h le i j = 0)
     (fun le h => forall e, rd (pm_l2g_elem (pm r)) le = Ok e ->
        inverse_of (nfun bt p) (mass nq (fun q i => basis_fn bt p i (P q)) W (fun q => jac_det s g (elem_nodes m e) (P q))) (vh_iMM h le))
     eo h0) as (h & EF & I & Rows).
  - apply (Permutation_NoDup (Permutation_sym Pe)). apply NoDup_zseq.
  - repeat split.
  - intros e He i j. reflexivity.
  - intros le h Hin (I1 & I2 & I3 & I4 & I5) Pre. apply (Permutation_in _ Pe) in Hin. apply In_zseq in Hin.
    destruct (local_elem r le Hr Hin) as (e & He). destruct (coords_ok r le e junk Hr He) as (c & Ec & Vc).
    unfold inv_mass_team. rewrite Ec. cbn [bind]. rewrite I1, I2, I3, I4.
    destruct Fit as (F1 & F2). rewrite F2 in *. cbn [vh_ggrad vh_val h0].
    pose proof (jac_row s g nq P (vh_ggrad vh_empty) c (elem_nodes m e) (vh_jac h le) (vh_djac h le) (vh_ijac h le) Hg Hnq Vc) as JR.
    destruct (get_element_jacobian _ _ _ _ _ _) as [[j1 d1] i1].
    eexists. split; [reflexivity|]. cbn [vh_nq vh_wts vh_val vh_ggrad vh_grad vh_iMM]. split; [repeat split; assumption|].
    assert (K : forall e', e' <> le -> setr (vh_iMM h) le (get_inv_mass_matrices nq (num_basis_coeff bt p) W (get_values bt p nq (nfun bt p) P (vh_val vh_empty)) d1 junk junk (vh_iMM h le)) e' = vh_iMM h e').
    { intros e' Ne. unfold setr. destruct (Z.eqb_spec e' le); [contradiction|reflexivity]. }
    split; [|split].
    + intros e' He'. rewrite He in He'. injection He' as <-. unfold setr. rewrite Z.eqb_refl. unfold get_inv_mass_matrices.
      rewrite nb_eq by assumption.
      apply (mass_inverse s bt p nq (2 * p + 2) x P W (get_values bt p nq (nfun bt p) P (vh_val vh_empty)) w
        (fun q => jac_det s g (elem_nodes m e) (P q)) _ _ (/ 10 ^ 30) (2 * (2 * p) + 3)); try assumption; try lia; try reflexivity.
      * intros q i Hq Hi. rewrite <- (nb_eq bt p) by assumption. apply (C33_basis_values bt p nq P (vh_val vh_empty) Hp Sup); assumption.
      * intros q Hq. apply Un; [eapply owned_elem; eassumption|]. apply (rule_inside s (2 * p + 2) x w P W _ _ G); auto; lia.
      * intros i j Hi Hj. rewrite mass_matrix by assumption. unfold mass. apply rsum_ext. intros q Hq. destruct (JR q Hq) as (_ & -> & _). reflexivity.
      * intros i j _ _ _. apply Pre.
    + intros e' Ne Pr i j. rewrite K by assumption. apply Pr.
    + intros e' Ne Rw e2 He2. rewrite K by assumption. now apply Rw.
  - exists h, nq, P, W. split; [exact EF|]. split; [exact EQ|]. destruct I as (_ & _ & _ & _ & I5). split.
    + intros -> q i d. rewrite I5. reflexivity.
    + intros le e He. apply Rows; [|exact He]. apply (Permutation_in _ (Permutation_sym Pe)). apply In_zseq.
      apply rd_in_range in He. pose proof (C01_element_ownership R zero iter n m ep pm WF PT) as (_ & _ & C & _). destruct (C r Hr) as (_ & EL). lia.
Qed.

(** Second pass: the volume tables. *)
Definition volume_row (nq : Z) (P : arr2) (W : arr1) (e : Z) (jac : arr3) (djac : arr1) (ijac : arr3) (x : arr2) (vol : R) : Prop :=
  let X := elem_nodes m e in
  (forall q, (0 <= q < nq)%Z ->
    (forall j, (0 <= j < space_dim s)%Z -> x q j = place s g X (P q) j) /\
    (forall j d, (0 <= j < space_dim s)%Z -> (0 <= d < space_dim s)%Z ->
       is_derive (fun t => place s g X (with_coord (P q) d t) j) (P q d) (jac q j d)) /\
    djac q = jac_det s g X (P q) /\
    (jac_det s g X (P q) <> 0 -> inverse_of (space_dim s) (jacobian s g X (P q)) (ijac q))) /\
  vol = rsum nq (fun q => W q * jac_det s g X (P q)).

Lemma volume_pass r junk eo h1 : (0 <= r < n)%Z -> tabulated p ->
  Permutation eo (zseq (pm_num_elems_part (pm r))) -> (p = 0%Z -> forall q i d, vh_grad h1 q i d = 0) ->
  exists h x w, compute_volume_helpers s bt p g (pm r) (gm_npe m) junk eo h1 = Ok h /\
    good_rule (p + 2) (2 * p + 3) (/ 10 ^ 30) x w /\ vh_nq h = ((p + 2) ^ space_dim s)%Z /\
    tensor_rule (space_dim s) (p + 2) x w (vh_pts h) (vh_wts h) /\
    (forall q i, (0 <= q < vh_nq h)%Z -> (0 <= i < nfun bt p)%Z -> vh_val h q i = basis_fn bt p i (vh_pts h q)) /\
    (forall q i d, (0 <= q < vh_nq h)%Z -> (0 <= i < nfun bt p)%Z -> (0 <= d < space_dim s)%Z ->
       is_derive (fun t => basis_fn bt p i (with_coord (vh_pts h q) d t)) (vh_pts h q d) (vh_grad h q i d)) /\
    vh_iMM h = vh_iMM h1 /\
    forall le e, rd (pm_l2g_elem (pm r)) le = Ok e ->
      volume_row (vh_nq h) (vh_pts h) (vh_wts h) e (vh_jac h le) (vh_djac h le) (vh_ijac h le) (vh_x h le) (vh_vol h le).
Proof.
  intros Hr T Pe G0. unfold compute_volume_helpers.
  destruct (reference_ok p h1 T) as (x & w & P & W & G & TR & EQ & E). cbv zeta in E. rewrite E. cbn [bind].
  set (nq := ((p + 2) ^ space_dim s)%Z) in *.
  assert (Hnq : (0 <= nq)%Z) by (apply Z.pow_nonneg; lia).
  set (h0 := mkVH _ _ _ _ _ _ _ _ _ _ _ _ _).
  destruct (geom_facts s g) as (Ed & Lg & Sg).
  destruct (foreach_rows (volume_team s (pm r) (gm_npe m) (num_basis_coeff (geom_basis s) g) junk)
     (fun h => vh_nq h = nq /\ vh_pts h = P /\ vh_wts h = W /\ vh_val h = vh_val h0 /\ vh_grad h = vh_grad h0 /\
        vh_gval h = vh_gval h0 /\ vh_ggrad h = vh_ggrad h0 /\ vh_iMM h = vh_iMM h1)
     (fun _ _ => True)
     (fun le h => forall e, rd (pm_l2g_elem (pm r)) le = Ok e ->
        volume_row nq P W e (vh_jac h le) (vh_djac h le) (vh_ijac h le) (vh_x h le) (vh_vol h le))
     eo h0) as (h & EF & I & Rows).
  - apply (Permutation_NoDup (Permutation_sym Pe)). apply NoDup_zseq.
  - repeat split.
  - auto.
  - intros le h Hin (I1 & I2 & I3 & I4 & I5 & I6 & I7 & I8) _. apply (Permutation_in _ Pe) in Hin. apply In_zseq in Hin.
    destruct (local_elem r le Hr Hin) as (e & He). destruct (coords_ok r le e junk Hr He) as (c & Ec & Vc).
    unfold volume_team. rewrite Ec. cbn [bind]. rewrite I1, I3, I6, I7.
    destruct Fit as (F1 & F2). rewrite F2 in *. cbn [vh_ggrad vh_gval h0].
    pose proof (jac_row s g nq P (vh_ggrad h1) c (elem_nodes m e) (vh_jac h le) (vh_djac h le) (vh_ijac h le) Hg Hnq Vc) as JR.
    destruct (get_element_jacobian _ _ _ _ _ _) as [[j1 d1] i1].
    eexists. split; [reflexivity|]. cbn [vh_nq vh_pts vh_wts vh_val vh_gval vh_ggrad vh_grad vh_iMM vh_jac vh_djac vh_ijac vh_x vh_vol].
    split; [repeat split; assumption|]. split; [|split; [auto|]].
    + intros e' He'. rewrite He in He'. injection He' as <-. unfold setr, upd1. rewrite Z.eqb_refl. split.
      * intros q Hq. destruct (JR q Hq) as (J1 & J2 & J3). split; [|auto]. intros j Hj.
        unfold ref_to_phys, cAxB_to_C. rewrite gemm_entry, (proj2 (inb_true _ _) Hq), (proj2 (inb_true _ _) Hj). cbn [andb].
        rewrite Rmult_0_l, Rplus_0_l, Rmult_1_l. rewrite nb_eq by (auto; lia). unfold place, elem_map. apply rsum_ext. intros k Hk.
        rewrite Vc by assumption. f_equal. rewrite <- (nb_eq (geom_basis s) g) by (auto; lia).
        apply (C33_basis_values (geom_basis s) g nq P (vh_gval h1)); auto; lia.
      * unfold get_element_volume. rewrite (zloop_acc nq (fun iq => W iq * d1 iq)). rewrite Rplus_0_l.
        apply rsum_ext. intros q Hq. destruct (JR q Hq) as (_ & -> & _). reflexivity.
    + intros e' Ne Rw e2 He2. unfold setr, upd1. destruct (Z.eqb_spec e' le); [contradiction|]. now apply Rw.
  - destruct I as (I1 & I2 & I3 & I4 & I5 & I6 & I7 & I8). exists h, x, w. rewrite I1, I2, I3, I4, I5.
    split; [exact EF|]. split; [exact G|]. split; [reflexivity|]. split; [exact TR|]. split; [|split; [|split; [exact I8|]]].
    + intros q i Hq Hi. cbn [vh_val h0]. rewrite <- (nb_eq bt p) by assumption. apply (C33_basis_values bt p nq P (vh_val h1) Hp Sup); assumption.
    + intros q i d Hq Hi Hd. cbn [vh_grad h0]. apply (C33_basis_gradients bt p nq P (vh_grad h1) Hp Sup G0); auto. rewrite (basis_for_dim s bt BF). exact Hd.
    + intros le e He. apply Rows; [|exact He]. apply (Permutation_in _ (Permutation_sym Pe)). apply In_zseq.
      apply rd_in_range in He. pose proof (C01_element_ownership R zero iter n m ep pm WF PT) as (_ & _ & C & _). destruct (C r Hr) as (_ & EL). lia.
Qed.
End Pass.
