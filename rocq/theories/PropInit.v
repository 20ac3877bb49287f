(** PropInit.v -- C73: the initial state is the projection of the initial
    condition on the solution space. *)
From Coq Require Import ZArith List Lia Reals Lra Bool Permutation.
From Coquelicot Require Import Coquelicot.
From Verif Require Import Base RBase LinAlgModel LinAlgProof PropLinAlg QuadModel PropQuad BasisModel BasisProof PropBasis PropNormals
  PhysModel PhysSpec ShapeModel MeshModel MeshSpec MeshProof PropMesh SolverModel SolverProof SolverSpec PropSolver SetupModel SetupSpec MassProof SetupProof SetupPass SetupFaces PropSetup PropVortex PropMeshRun.
Import ListNotations.
Local Open Scope R_scope.
Open Scope res_scope.

(** The selected initial condition is, at time [t], the function [u] of the
    physical coordinates (whatever the state array held before). *)
Definition starts_as (dim : Z) (ic : ic_type) (ph : phys) (t : R) (u : (Z -> R) -> Z -> R) : Prop :=
  (forall x U0, exists V, call_IC dim ic ph x t U0 = Ok V /\ forall k, (0 <= k < dim + 2)%Z -> V k = u x k) /\
  (forall x y k, (forall d, (0 <= d < dim)%Z -> x d = y d) -> u x k = u y k).

Lemma jacdet_row s g nq P c X jac djac q : (1 <= g)%Z -> (0 <= q < nq)%Z ->
  (forall i d, (0 <= i < nfun (geom_basis s) g)%Z -> (0 <= d < space_dim s)%Z -> c i d = X i d) ->
  snd (get_element_jacobian_det nq (space_dim s) (nfun (geom_basis s) g) (get_grads (geom_basis s) g nq P zero3) c (jac, djac)) q = jac_det s g X (P q).
Proof.
  intros Hg Hq HX. 
  pose proof (jacdet_loop nq (space_dim s) (nfun (geom_basis s) g) (get_grads (geom_basis s) g nq P zero3) c jac djac q ltac:(lia)) as A.
  pose proof (jac_loop nq (space_dim s) (nfun (geom_basis s) g) (get_grads (geom_basis s) g nq P zero3) c jac djac zero3 q ltac:(lia)) as B.
  pose proof (jac_row s g nq P zero3 c X jac djac zero3 Hg ltac:(lia) HX) as C.
  destruct (get_element_jacobian_det _ _ _ _ _ _) as [j1 d1]. destruct (get_element_jacobian _ _ _ _ _ _) as [[j2 d2] i2].
  rewrite (proj2 (inb_true _ _) Hq) in A, B. destruct A as (A1 & A2), B as (B1 & B2 & _). destruct (C q Hq) as (_ & C2 & _).
  cbn [snd]. rewrite A2, A1, <- B1, <- B2. exact C2.
Qed.

Theorem C73_initial_state : forall zero iter n m ep pm s bt p g r junk eo1 eo2 fo h f ic ph t u junk2 junk3 junk1 eo po Uc0,
  run_wf iter n m ep -> partitioned zero iter n m ep pm -> ready s bt p g m ->
  (0 <= r < n)%Z -> loops_ok (pm r) eo1 eo2 fo ->
  precompute_matrix_helpers s bt p g (pm r) r (gm_npe m) junk eo1 eo2 fo = Ok (h, f) ->
  starts_as (space_dim s) ic ph t u ->
  Permutation eo (zseq (pm_num_elems_part (pm r))) ->
  exists nq P W nq' P' W',
    volume_quadrature s (2 * p) zero2 zero1 = Ok (nq, P, W) /\ volume_quadrature s (2 * Z.max p 1) zero2 zero1 = Ok (nq', P', W') /\
    (Permutation po (zseq nq') ->
     exists Uc, init_state_from_fcn s bt p g (pm r) (gm_npe m) (space_dim s + 2) ic ph t (vh_iMM h) junk2 junk3 junk1 eo po Uc0 = Ok Uc /\
     forall le e, rd (pm_l2g_elem (pm r)) le = Ok e -> let X := elem_nodes m e in
       (* tested with every basis function, the state and the initial condition agree *)
       forall i k, (0 <= i < nfun bt p)%Z -> (0 <= k < space_dim s + 2)%Z ->
         rsum nq (fun q => W q * jac_det s g X (P q) * basis_fn bt p i (P q) * rsum (nfun bt p) (fun j => basis_fn bt p j (P q) * Uc le j k)) =
         rsum nq' (fun q => W' q * jac_det s g X (P' q) * basis_fn bt p i (P' q) * u (place s g X (P' q)) k)).
Proof.
  intros zero iter n m ep pm s bt p g r junk eo1 eo2 fo h f ic ph t u junk2 junk3 junk1 eo po Uc0 WF PT RD Hr LO E0 (SA & SX) Pe.
  destruct (C69_inverse_mass_matrices zero iter n m ep pm s bt p g r junk eo1 eo2 fo h f WF PT RD Hr LO E0) as (nq & P & W & EQ & Inv).
  destruct RD as [Hg Fit Un BF Op Sup]. unfold order_ok in Op.
  destruct (volume_rule s (2 * Z.max p 1) ltac:(split; lia)) as (x & w & _ & A). destruct (A zero2 zero1) as (P' & W' & EQ' & _).
  set (nq' := ((2 * Z.max p 1 + 2) ^ space_dim s)%Z) in *.
  exists nq, P, W, nq', P', W'. split; [exact EQ|]. split; [exact EQ'|]. intros Po.
  assert (Hnq : (0 <= nq')%Z) by (apply Z.pow_nonneg; lia).
  destruct (geom_facts s g) as (Ed & Lg & Sg).
  unfold init_state_from_fcn. rewrite EQ'. cbn [bind]. rewrite !(nb_eq (geom_basis s) g) by (auto; lia). rewrite (nb_eq bt p) by (auto; lia).
  destruct Fit as (F1 & F2).
  set (bval := get_values bt p nq' (nfun bt p) P' zero2). set (ggrad := get_grads (geom_basis s) g nq' P' zero3).
  set (gval := get_values (geom_basis s) g nq' (nfun (geom_basis s) g) P' zero2).
  match goal with |- context [foreach eo ?b Uc0] => set (body := b) end.
  destruct (foreach_rows body (fun _ => True) (fun _ _ => True)
     (fun le Uc => forall e, rd (pm_l2g_elem (pm r)) le = Ok e -> forall j k, (0 <= j < nfun bt p)%Z -> (0 <= k < space_dim s + 2)%Z ->
        Uc le j k = rsum (nfun bt p) (fun l => vh_iMM h le j l * rsum nq' (fun q => basis_fn bt p l (P' q) * (W' q * jac_det s g (elem_nodes m e) (P' q) * u (place s g (elem_nodes m e) (P' q)) k))))
     eo Uc0) as (Uc & EF & _ & Rows).
  - apply (Permutation_NoDup (Permutation_sym Pe)). apply NoDup_zseq.
  - exact I.
  - auto.
  - intros le Uc Hin _ _. apply (Permutation_in _ Pe) in Hin. apply In_zseq in Hin.
    destruct (local_elem zero iter n m ep pm WF PT r le Hr Hin) as (e & He).
    destruct (coords_ok zero iter n m ep pm WF PT s g (conj F1 F2) r le e junk2 Hr He) as (c & Ec & Vc).
    unfold body. rewrite Ec. cbn [bind].
    set (xp := ref_to_phys nq' (space_dim s) (nfun (geom_basis s) g) gval c junk2).
    assert (XP : forall q d, (0 <= q < nq')%Z -> (0 <= d < space_dim s)%Z -> xp q d = place s g (elem_nodes m e) (P' q) d).
    { intros q d Hq Hd. unfold xp, ref_to_phys, cAxB_to_C. rewrite gemm_entry, (proj2 (inb_true _ _) Hq), (proj2 (inb_true _ _) Hd). cbn [andb].
      rewrite Rmult_0_l, Rplus_0_l, Rmult_1_l. unfold place, elem_map. apply rsum_ext. intros k Hk.
      rewrite Vc by assumption. f_equal. unfold gval. rewrite <- (nb_eq (geom_basis s) g) by (auto; lia).
      apply (C33_basis_values (geom_basis s) g nq' P' zero2); auto; lia. }
    destruct (zfor_inv (fun kq (F : arr2) => forall q k, (0 <= q < kq)%Z -> (0 <= k < space_dim s + 2)%Z -> F q k = u (place s g (elem_nodes m e) (P' q)) k)
      nq' (fun iq f0 => U <- call_IC (space_dim s) ic ph (xp iq) t (f0 iq) ;; Ok (setr f0 iq U)) junk2) as (F & EFF & VF).
    + exact Hnq.
    + lia.
    + intros iq f0 Hiq IH. destruct (SA (xp iq) (f0 iq)) as (V & EV & VV). rewrite EV. cbn [bind]. eexists. split; [reflexivity|].
      intros q k Hq Hk. unfold setr. destruct (Z.eqb_spec q iq) as [->|N]; [|apply IH; [lia|exact Hk]].
      rewrite VV by exact Hk. apply SX. intros d Hd. now apply XP.
    + match goal with |- context [bind (zfor nq' ?b junk2) _] => replace (zfor nq' b junk2) with (Ok F) by (symmetry; exact EFF) end. cbn [bind]. eexists. split; [reflexivity|]. split; [exact I|]. split; [|split; [auto|]].
      * intros e' He'. rewrite He in He'. injection He' as <-. intros j k Hj Hk. unfold setr. rewrite Z.eqb_refl.
        rewrite L2_projection_entry by exact Po. rewrite (proj2 (inb_true _ _) Hj), (proj2 (inb_true _ _) Hk). cbn [andb].
        apply rsum_ext. intros l Hl. f_equal. apply rsum_ext. intros q Hq. rewrite VF by assumption. f_equal.
        -- unfold bval. rewrite <- (nb_eq bt p) by (auto; lia). apply (C33_basis_values bt p nq' P' zero2 ltac:(lia) Sup); [exact Hq|exact Hl].
        -- f_equal. f_equal. unfold ggrad. rewrite F2. apply (jacdet_row s g nq' P' c (elem_nodes m e) junk3 junk1 q Hg Hq Vc).
      * intros e' Ne Rw e2 He2 j k Hj Hk. unfold setr. destruct (Z.eqb_spec e' le); [contradiction|]. now apply Rw.
  - exists Uc. split; [exact EF|]. intros le e He i k Hi Hk. set (X := elem_nodes m e) in *.
    assert (Row := Rows le). assert (Hin : In le eo).
    { apply (Permutation_in _ (Permutation_sym Pe)). apply In_zseq. apply rd_in_range in He.
      pose proof (C01_element_ownership R zero iter n m ep pm WF PT) as (_ & _ & C & _). destruct (C r Hr) as (_ & EL). lia. }
    specialize (Row Hin e He). fold X in Row. specialize (Inv le e He). cbv zeta in Inv. fold X in Inv.
    set (b := fun l => rsum nq' (fun q => basis_fn bt p l (P' q) * (W' q * jac_det s g X (P' q) * u (place s g X (P' q)) k))).
    assert (Rw : forall j, (0 <= j < nfun bt p)%Z -> Uc le j k = rsum (nfun bt p) (fun l => vh_iMM h le j l * b l)) by (intros j Hj; now apply Row).
    transitivity (rsum (nfun bt p) (fun j => rsum nq (fun q => W q * jac_det s g X (P q) * basis_fn bt p i (P q) * basis_fn bt p j (P q)) * Uc le j k)).
    { rewrite (rsum_ext nq _ (fun q => rsum (nfun bt p) (fun j => W q * jac_det s g X (P q) * basis_fn bt p i (P q) * basis_fn bt p j (P q) * Uc le j k))).
      - rewrite rsum_swap. apply rsum_ext. intros j Hj. now rewrite rsum_scal_r.
      - intros q Hq. rewrite <- rsum_scal. apply rsum_ext. intros. ring. }
    rewrite (rsum_ext (nfun bt p) _ (fun j => rsum (nfun bt p) (fun l => rsum nq (fun q => W q * jac_det s g X (P q) * basis_fn bt p i (P q) * basis_fn bt p j (P q)) * vh_iMM h le j l * b l))).
    2:{ intros j Hj. rewrite Rw by exact Hj. rewrite <- rsum_scal. apply rsum_ext. intros. ring. }
    rewrite rsum_swap. rewrite (rsum_ext (nfun bt p) _ (fun l => b l * (if (l =? i)%Z then 1 else 0))).
    + rewrite rsum_delta_r by exact Hi. unfold b. apply rsum_ext. intros. ring.
    + intros l Hl. rewrite rsum_scal_r. rewrite (proj1 (Inv i l Hi Hl)), (Z.eqb_sym i l). ring.
Qed.
Print Assumptions C73_initial_state.

(** For order 1 and higher both rules are the same; then no choice of
    coefficients is closer to the initial condition, in the quadrature norm of
    any element, than the initial state. *)
Theorem C73_best_approximation : forall zero iter n m ep pm s bt p g r junk eo1 eo2 fo h f ic ph t u junk2 junk3 junk1 eo Uc0,
  run_wf iter n m ep -> partitioned zero iter n m ep pm -> ready s bt p g m -> (1 <= p)%Z ->
  (0 <= r < n)%Z -> loops_ok (pm r) eo1 eo2 fo ->
  precompute_matrix_helpers s bt p g (pm r) r (gm_npe m) junk eo1 eo2 fo = Ok (h, f) ->
  starts_as (space_dim s) ic ph t u ->
  Permutation eo (zseq (pm_num_elems_part (pm r))) ->
  exists nq P W, volume_quadrature s (2 * p) zero2 zero1 = Ok (nq, P, W) /\ (forall q, (0 <= q < nq)%Z -> inside s (P q) /\ 0 < W q) /\
    forall po, Permutation po (zseq nq) ->
     exists Uc, init_state_from_fcn s bt p g (pm r) (gm_npe m) (space_dim s + 2) ic ph t (vh_iMM h) junk2 junk3 junk1 eo po Uc0 = Ok Uc /\
     forall le e k, rd (pm_l2g_elem (pm r)) le = Ok e -> (0 <= k < space_dim s + 2)%Z ->
       let X := elem_nodes m e in
       let distance c := rsum nq (fun q => W q * jac_det s g X (P q) * (rsum (nfun bt p) (fun j => basis_fn bt p j (P q) * c j) - u (place s g X (P q)) k) ^ 2) in
       (forall c, distance (fun j => Uc le j k) <= distance c) /\
       (forall c, distance c = distance (fun j => Uc le j k) -> forall j, (0 <= j < nfun bt p)%Z -> c j = Uc le j k).
Proof.
  intros zero iter n m ep pm s bt p g r junk eo1 eo2 fo h f ic ph t u junk2 junk3 junk1 eo Uc0 WF PT RD Hp Hr LO E0 SA Pe.
  assert (EM : Z.max p 1 = p) by lia.
  pose proof RD as [Hg Fit Un BF Op Sup]. unfold order_ok in Op.
  destruct (volume_rule s (2 * p) ltac:(split; lia)) as (x & w & G & A). destruct (A zero2 zero1) as (P & W & EQ & TR).
  set (nq := ((2 * p + 2) ^ space_dim s)%Z) in *.
  assert (IN : forall q, (0 <= q < nq)%Z -> inside s (P q) /\ 0 < W q).
  { intros q Hq. apply (rule_inside s (2 * p + 2) x w P W _ _ G); auto; lia. }
  exists nq, P, W. split; [exact EQ|]. split; [exact IN|]. intros po Po.
  destruct (C73_initial_state zero iter n m ep pm s bt p g r junk eo1 eo2 fo h f ic ph t u junk2 junk3 junk1 eo po Uc0 WF PT RD Hr LO E0 SA Pe)
    as (nq1 & P1 & W1 & nq2 & P2 & W2 & EQ1 & EQ2 & HH).
  rewrite EM in EQ2. rewrite EQ in EQ1, EQ2. injection EQ1 as <- <- <-. injection EQ2 as <- <- <-.
  destruct (HH Po) as (Uc & EI & OG). clear HH. exists Uc. split; [exact EI|]. intros le e k He Hk X distance.
  assert (He' : (0 <= e < gm_num_elems m)%Z) by (eapply owned_elem; eassumption).
  specialize (OG le e He). cbv zeta in OG. fold X in OG.
  set (phi := fun j q => basis_fn bt p j (P q)). set (V := fun q => W q * jac_det s g X (P q)).
  set (U := fun q => rsum (nfun bt p) (fun j => phi j q * Uc le j k)). set (uq := fun q => u (place s g X (P q)) k).
  assert (VP : forall q, (0 <= q < nq)%Z -> 0 < V q).
  { intros q Hq. destruct (IN q Hq) as (I1 & I2). apply Rmult_lt_0_compat; [exact I2|]. apply Un; assumption. }
  (* the error is orthogonal to every function of the space *)
  assert (Orth : forall c, rsum nq (fun q => V q * rsum (nfun bt p) (fun j => phi j q * c j) * (U q - uq q)) = 0).
  { intros c. rewrite (rsum_ext nq _ (fun q => rsum (nfun bt p) (fun j => c j * (V q * phi j q * (U q - uq q))))).
    2:{ intros q Hq. rewrite <- (rsum_scal _ (V q)), <- rsum_scal_r. apply rsum_ext. intros. ring. }
    rewrite rsum_swap. apply rsum_zero. intros j Hj. rewrite rsum_scal.
    assert (E : rsum nq (fun q => V q * phi j q * (U q - uq q)) = 0); [|rewrite E; ring].
    rewrite (rsum_ext nq _ (fun q => V q * phi j q * U q - V q * phi j q * uq q)) by (intros; ring). rewrite rsum_minus.
    apply Rminus_diag_eq. exact (OG j k Hj Hk). }
  assert (Split : forall c, distance c = distance (fun j => Uc le j k) +
     rsum nq (fun q => V q * (rsum (nfun bt p) (fun j => phi j q * (c j - Uc le j k))) ^ 2)).
  { intros c. unfold distance. fold X. 
    pose proof (Orth (fun j => c j - Uc le j k)) as O.
    rewrite (rsum_ext nq (fun q => W q * jac_det s g X (P q) * _ ^ 2)
       (fun q => (V q * (U q - uq q) ^ 2 + V q * (rsum (nfun bt p) (fun j => phi j q * (c j - Uc le j k))) ^ 2)
                 + 2 * (V q * rsum (nfun bt p) (fun j => phi j q * (c j - Uc le j k)) * (U q - uq q)))).
    - rewrite !rsum_plus, rsum_scal, O. rewrite Rmult_0_r, Rplus_0_r. reflexivity.
    - intros q Hq. fold (V q). fold (uq q).
      assert (E : rsum (nfun bt p) (fun j => phi j q * (c j - Uc le j k)) = rsum (nfun bt p) (fun j => basis_fn bt p j (P q) * c j) - U q).
      { unfold U. rewrite <- rsum_minus. apply rsum_ext. intros. unfold phi. ring. }
      rewrite E. ring. }
  assert (Sq : forall c q, (0 <= q < nq)%Z -> 0 <= V q * (rsum (nfun bt p) (fun j => phi j q * (c j - Uc le j k))) ^ 2).
  { intros c q Hq. apply Rmult_le_pos; [left; now apply VP|apply pow2_ge_0]. }
  split.
  - intros c. rewrite (Split c).
    assert (0 <= rsum nq (fun q => V q * (rsum (nfun bt p) (fun j => phi j q * (c j - Uc le j k))) ^ 2)); [|lra].
    rewrite <- (rsum_zero nq (fun _ => 0)) by auto. apply rsum_le. intros q Hq. now apply Sq.
  - intros c Ec j Hj. rewrite (Split c) in Ec.
    assert (Z0 : rsum nq (fun q => V q * (rsum (nfun bt p) (fun j => phi j q * (c j - Uc le j k))) ^ 2) = 0) by lra.
    assert (Vanish : forall q, (0 <= q < nq)%Z -> rsum (nfun bt p) (fun j => phi j q * (c j - Uc le j k)) = 0).
    { intros q Hq. pose proof (rsum_nonneg_zero nq _ (fun q Hq => Sq c q Hq) Z0 q Hq) as Zq.
      apply Rmult_integral in Zq. destruct Zq as [Zq|Zq]; [specialize (VP q Hq); lra|].
      now apply Rsqr_0_uniq; unfold Rsqr; rewrite <- Zq; ring. }
    pose proof (basis_for_dim s bt BF) as Ed.
    assert (C0 : c j - Uc le j k = 0); [|lra].
    refine (unisolvent bt p (2 * p + 2) x P (fun j => c j - Uc le j k) ltac:(lia) Sup (good_rule_diff _ _ _ _ _ G) _ _ j Hj).
    + intros q d Hq Hd. rewrite Ed in Hq, Hd. now apply TR.
    + intros q Hq. rewrite Ed in Hq. rewrite <- (Vanish q Hq). apply rsum_ext. intros i Hi. unfold phi. ring.
Qed.
Print Assumptions C73_best_approximation.

(** A uniform initial condition is reproduced exactly, at every point of every
    element. *)
Lemma uniform_starts dim ph t : (dim = 2 \/ dim = 3)%Z -> starts_as dim Uniform ph t (fun _ k => ph_IC ph k).
Proof.
  intros Hd. split; [|auto]. intros x U0. destruct (C63_uniform_partial dim ph x t U0 Hd) as (U & E & _ & V & _). exists U. auto.
Qed.

Theorem C73_uniform_state : forall zero iter n m ep pm s bt p g r junk eo1 eo2 fo h f ph t junk2 junk3 junk1 eo po Uc0 nq P W Uc,
  run_wf iter n m ep -> partitioned zero iter n m ep pm -> ready s bt p g m -> (1 <= p)%Z ->
  (0 <= r < n)%Z -> loops_ok (pm r) eo1 eo2 fo ->
  precompute_matrix_helpers s bt p g (pm r) r (gm_npe m) junk eo1 eo2 fo = Ok (h, f) ->
  Permutation eo (zseq (pm_num_elems_part (pm r))) ->
  volume_quadrature s (2 * p) zero2 zero1 = Ok (nq, P, W) -> Permutation po (zseq nq) ->
  init_state_from_fcn s bt p g (pm r) (gm_npe m) (space_dim s + 2) Uniform ph t (vh_iMM h) junk2 junk3 junk1 eo po Uc0 = Ok Uc ->
  forall le k y, (0 <= le < pm_num_elems_part (pm r))%Z -> (0 <= k < space_dim s + 2)%Z ->
    rsum (nfun bt p) (fun j => basis_fn bt p j y * Uc le j k) = ph_IC ph k.
Proof.
  intros zero iter n m ep pm s bt p g r junk eo1 eo2 fo h f ph t junk2 junk3 junk1 eo po Uc0 nq P W Uc WF PT RD Hp Hr LO E0 Pe EQ Po EI le k y Hle Hk.
  assert (SA : starts_as (space_dim s) Uniform ph t (fun _ k => ph_IC ph k)) by (apply uniform_starts; destruct s; cbn; lia).
  destruct (C73_best_approximation zero iter n m ep pm s bt p g r junk eo1 eo2 fo h f Uniform ph t _ junk2 junk3 junk1 eo Uc0 WF PT RD Hp Hr LO E0 SA Pe)
    as (nq' & P' & W' & EQ' & _ & HH).
  rewrite EQ in EQ'. injection EQ' as <- <- <-. destruct (HH po Po) as (Uc' & EI' & D). rewrite EI in EI'. injection EI' as <-.
  destruct (local_elem zero iter n m ep pm WF PT r le Hr Hle) as (e & He). destruct (D le e k He Hk) as (D1 & D2). cbv zeta in D1, D2.
  pose proof RD as [Hg Fit Un BF Op Sup]. unfold order_ok in Op.
  set (c := fun j => ones bt j * ph_IC ph k).
  assert (S1 : forall y, rsum (nfun bt p) (fun j => basis_fn bt p j y * c j) = ph_IC ph k).
  { intros z. unfold c. rewrite (rsum_ext _ _ (fun j => ones bt j * basis_fn bt p j z * ph_IC ph k)) by (intros; ring). rewrite rsum_scal_r, ones_sum by (auto; lia). ring. }
  rewrite (rsum_ext _ _ (fun j => basis_fn bt p j y * c j)); [apply S1|]. intros j Hj. f_equal. symmetry. revert j Hj. apply D2.
  apply Rle_antisym; [|apply D1].
  assert (Z0 : forall f : Z -> R, (forall q, f q = 0) -> rsum nq f = 0) by (intros; apply rsum_zero; auto).
  rewrite Z0 by (intros q; rewrite S1; ring).
  rewrite <- (rsum_zero nq (fun _ => 0)) by auto. apply rsum_le. intros q Hq.
  destruct (volume_rule s (2 * p) ltac:(split; lia)) as (x & w & G & A). destruct (A zero2 zero1) as (P'' & W'' & EQ'' & TR).
  rewrite EQ in EQ''. injection EQ'' as -> -> ->. destruct (rule_inside s (2 * p + 2) x w P'' W'' _ _ G ltac:(lia) TR q Hq) as (I1 & I2).
  apply Rmult_le_pos; [|apply pow2_ge_0]. apply Rmult_le_pos; [lra|]. left. apply Un; [eapply owned_elem; eassumption|exact I1].
Qed.
Print Assumptions C73_uniform_state.

(** The initial conditions that qualify: besides the uniform one, the vortex. *)
Example C73_vortex ph t : ph_R ph = 1 -> 1 < ph_gamma ph -> 0 < ph_IC ph 0%Z -> 0 < ph_IC ph 3%Z ->
  weak_vortex (ph_gamma ph) (ph_IC ph 0%Z) (ph_IC ph 3%Z) (ph_IC ph 4%Z) ->
  exists u, starts_as 2 IsentropicVortex ph t u.
Proof.
  intros H1 H2 H3 H4 H5. destruct (C62_vortex_exact ph H1 H2 H3 H4 H5) as (U & E & _).
  exists (fun x k => U (x 0%Z) (x 1%Z) t k). split.
  - intros x U0. destruct (E x t U0) as (V & EV & VV). exists V. split; [|exact VV].
    cbn in EV |- *. destruct (vortex2 ph x t U0); cbn in EV; [injection EV as ->; reflexivity|discriminate].
  - intros x y k H. rewrite (H 0%Z), (H 1%Z) by lia. reflexivity.
Qed.

(** On the four-element mesh of C71 on three ranks, order 2: setup and
    initialisation succeed for the uniform state. *)
Example C73_demo : exists pm, partitioned 0 (fun _ l => rev l) 3 demo_rmesh demo_ep pm /\
  forall r, (0 <= r < 3)%Z -> exists h f Uc nq P W,
    precompute_matrix_helpers EQuad LagrangeQuad 2 1 (pm r) r (gm_npe demo_rmesh) zero2
      (zseq (pm_num_elems_part (pm r))) (zseq (pm_num_elems_part (pm r))) (zseq (pm_num_ifaces_part (pm r))) = Ok (h, f) /\
    volume_quadrature EQuad 4 zero2 zero1 = Ok (nq, P, W) /\
    init_state_from_fcn EQuad LagrangeQuad 2 1 (pm r) (gm_npe demo_rmesh) 4 Uniform (Build_phys 1.4 1 (fun k => IZR k + 1)) 0 (vh_iMM h)
      zero2 zero3 zero1 (zseq (pm_num_elems_part (pm r))) (zseq nq) zero3 = Ok Uc.
Proof.
  destruct demo_straight as (SQ & CF & FV & FD).
  assert (RD : ready EQuad LagrangeQuad 2 1 demo_rmesh).
  { constructor; [lia|apply SQ|now apply convex_untangled|now left|unfold order_ok; lia|now left]. }
  destruct (C05_partitioned_exists R 0 (fun _ l => rev l) 3 demo_rmesh demo_ep demo_rrun) as (pm & PT).
  exists pm. split; [exact PT|]. intros r Hr.
  assert (LO : loops_ok (pm r) (zseq (pm_num_elems_part (pm r))) (zseq (pm_num_elems_part (pm r))) (zseq (pm_num_ifaces_part (pm r)))) by (repeat split; apply Permutation_refl).
  destruct (C68_setup_geometry 0 (fun _ l => rev l) 3 demo_rmesh demo_ep pm EQuad LagrangeQuad 2 1 r zero2 _ _ _ demo_rrun PT RD Hr LO) as (h & f & x & w & E & _).
  destruct (C73_best_approximation 0 (fun _ l => rev l) 3 demo_rmesh demo_ep pm EQuad LagrangeQuad 2 1 r zero2 _ _ _ h f Uniform (Build_phys 1.4 1 (fun k => IZR k + 1)) 0 _
     zero2 zero3 zero1 (zseq (pm_num_elems_part (pm r))) zero3 demo_rrun PT RD ltac:(lia) Hr LO E (uniform_starts 2 _ 0 ltac:(lia)) (Permutation_refl _))
    as (nq & P & W & EQ & _ & HH).
  destruct (HH (zseq nq) (Permutation_refl _)) as (Uc & EU & _).
  exists h, f, Uc, nq, P, W. auto.
Qed.
