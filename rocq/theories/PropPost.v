(** PropPost.v -- C74, C75: the error norm the post-processing program prints. *)
From Coq Require Import ZArith List Lia Reals Lra Bool Permutation.
From Coquelicot Require Import Coquelicot.
From Verif Require Import Base RBase LinAlgModel LinAlgProof PropLinAlg QuadModel PropQuad BasisModel BasisProof PropBasis PropNormals
  PhysModel PhysSpec ShapeModel MeshModel MeshSpec MeshProof PropMesh SolverModel SolverProof SolverSpec PropSolver SetupModel SetupSpec MassProof SetupProof SetupPass SetupFaces PropSetup PropVortex PropMeshRun PropInit IOModel IOProof PropIO PostModel.
Import ListNotations.
Local Open Scope R_scope.
Open Scope res_scope.

(** The exact solution the program knows for the initial condition is, at time
    [t], the function [u] of the physical coordinates. *)
Definition solution_is (dim : Z) (ic : ic_type) (ph : phys) (t : R) (u : (Z -> R) -> Z -> R) : Prop :=
  (forall x U0, exists V b, call_exact_solution dim ic ph x t U0 = Ok (V, b) /\ forall k, (0 <= k < dim + 2)%Z -> V k = u x k) /\
  (forall x y k, (forall d, (0 <= d < dim)%Z -> x d = y d) -> u x k = u y k).

(** A sum over the elements of every rank is the sum over the elements of the mesh. *)
Lemma lsum_in f : forall l N, NoDup l -> (forall e, In e l -> (0 <= e < N)%Z) ->
  lsum l f = rsum N (fun e => if in_dec Z.eq_dec e l then f e else 0).
Proof.
  induction l as [|a l IH]; intros N ND Hin.
  - rewrite rsum_zero; [reflexivity|]. intros e He. destruct (in_dec Z.eq_dec e []) as [[]|]. reflexivity.
  - inversion ND as [|? ? Na ND']; subst. assert (Ha : (0 <= a < N)%Z) by (apply Hin; now left).
    change (lsum (a :: l) f) with (f a + lsum l f). rewrite (IH N ND') by (intros; apply Hin; now right).
    rewrite (rsum_ext N (fun e => if in_dec Z.eq_dec e (a :: l) then f e else 0)
      (fun e => f e * (if (e =? a)%Z then 1 else 0) + (if in_dec Z.eq_dec e l then f e else 0))).
    + rewrite rsum_plus, rsum_delta_r by exact Ha. reflexivity.
    + intros e He. destruct (Z.eqb_spec e a) as [->|Ne].
      * destruct (in_dec Z.eq_dec a l) as [I|I]; [contradiction|]. destruct (in_dec Z.eq_dec a (a :: l)) as [I'|I']; [ring|exfalso; apply I'; now left].
      * destruct (in_dec Z.eq_dec e l) as [I|I], (in_dec Z.eq_dec e (a :: l)) as [I'|I']; try ring.
        -- exfalso. apply I'. now right.
        -- destruct I' as [->|I']; contradiction.
Qed.

Lemma lsum_rd (l : list Z) (F G : Z -> R) : (forall i e, rd l i = Ok e -> F i = G e) -> rsum (zlen l) F = lsum l G.
Proof.
  revert F. induction l as [|a l IH]; intros F H.
  - now rewrite rsum_0 by (cbn; lia).
  - change (lsum (a :: l) G) with (G a + lsum l G).
    assert (L : zlen (a :: l) = (1 + zlen l)%Z) by (unfold zlen; cbn [length]; lia).
    pose proof (zlen_nonneg l).
    rewrite <- (IH (fun i => F (i + 1)%Z)).
    + rewrite L, <- (H 0%Z a) by reflexivity. rewrite !rsum_lsum. unfold lsum.
      assert (E : zseq (1 + zlen l) = 0%Z :: map (fun i => (i + 1)%Z) (zseq (zlen l))).
      { unfold zseq. rewrite Z2Nat.inj_add by lia. change (Z.to_nat 1) with 1%nat. cbn [Nat.add seq map]. f_equal.
        rewrite <- seq_shift, !map_map. apply map_ext. intros. lia. }
      rewrite E. cbn [map fold_right]. now rewrite map_map.
    + intros i e E. apply H. pose proof (rd_in_range _ _ _ E). revert E. unfold rd.
      destruct (Z.ltb_spec i 0), (Z.ltb_spec (i + 1) 0); try lia.
      replace (Z.to_nat (i + 1)) with (S (Z.to_nat i)) by lia. cbn. auto.
Qed.

Lemma ranks_sum A (zero : A) iter n m ep pm (F : Z -> Z -> R) (G : Z -> R) : run_wf iter n m ep -> partitioned zero iter n m ep pm ->
  (forall r le e, (0 <= r < n)%Z -> rd (pm_l2g_elem (pm r)) le = Ok e -> F r le = G e) ->
  rsum n (fun r => rsum (pm_num_elems_part (pm r)) (F r)) = rsum (gm_num_elems m) G.
Proof.
  intros WF PT H. destruct (C01_element_ownership A zero iter n m ep pm WF PT) as (U & O & C & _).
  transitivity (rsum n (fun r => rsum (gm_num_elems m) (fun e => if in_dec Z.eq_dec e (pm_l2g_elem (pm r)) then G e else 0))).
  - apply rsum_ext. intros r Hr. destruct (C r Hr) as (ND & E). rewrite E, (lsum_rd (pm_l2g_elem (pm r)) (F r) G) by (intros; now apply H).
    apply lsum_in; [exact ND|]. intros e He. apply (O r e Hr) in He. 
    unfold owned_by in He. apply rd_in_range in He. pose proof (run_ep _ _ _ _ WF) as (L & _). lia.
  - rewrite rsum_swap. apply rsum_ext. intros e He. destruct (U e He) as (r & (Hr & Ir) & Uq).
    rewrite (rsum_ext n _ (fun r' => G e * (if (r' =? r)%Z then 1 else 0))).
    + now rewrite rsum_delta_r.
    + intros r' Hr'. destruct (in_dec Z.eq_dec e (pm_l2g_elem (pm r'))) as [I|I].
      * rewrite (Uq r' (conj Hr' I)), Z.eqb_refl. ring.
      * destruct (Z.eqb_spec r' r) as [->|]; [contradiction|ring].
Qed.

(** The rule of the volume helpers is the rule of the order, on every rank. *)
Lemma volume_points s bt p g pm npe junk eo h1 h : compute_volume_helpers s bt p g pm npe junk eo h1 = Ok h ->
  volume_quadrature s p (vh_pts h1) (vh_wts h1) = Ok (vh_nq h, vh_pts h, vh_wts h).
Proof.
  unfold compute_volume_helpers, reference_data. intros E.
  destruct (volume_quadrature s p (vh_pts h1) (vh_wts h1)) as [[[nq P] W]|]; [|discriminate]. cbn [bind] in E.
  set (h0 := mkVH _ _ _ _ _ _ _ _ _ _ _ _ _) in E.
  assert (K : forall l a b, vh_nq a = nq /\ vh_pts a = P /\ vh_wts a = W ->
    foreach l (volume_team s pm npe (num_basis_coeff (geom_basis s) g) junk) a = Ok b -> vh_nq b = nq /\ vh_pts b = P /\ vh_wts b = W).
  { induction l as [|e l IH]; intros a b Ha Eb; cbn in Eb; [injection Eb as <-; exact Ha|].
    apply bind_Ok in Eb. destruct Eb as (a' & E1 & E2). apply (IH a' b); [|exact E2].
    unfold volume_team in E1. apply bind_Ok in E1. destruct E1 as (c & _ & E1).
    destruct (get_element_jacobian _ _ _ _ _ _) as [[j d] i]. injection E1 as <-. exact Ha. }
  destruct (K eo h0 h) as (-> & -> & ->); [now repeat split|exact E|reflexivity].
Qed.

Lemma jac_det_point s g X y y' : (forall d, (0 <= d < space_dim s)%Z -> y d = y' d) -> jac_det s g X y = jac_det s g X y'.
Proof.
  intros H. unfold jac_det. apply small_det_ext; [destruct s; cbn; lia|]. intros i d Hi Hd. unfold jacobian. rewrite (H d Hd). apply Derive_ext.
  intros t. unfold place, elem_map. apply rsum_ext. intros k Hk. f_equal. apply basis_fn_ext. intros d' Hd'.
  destruct (geom_facts s g) as (Ed & _). rewrite Ed in Hd'. unfold with_coord. destruct (Z.eqb_spec d' d); auto.
Qed.

Lemma rule_volume zero iter n m ep pm s bt p g r junk eo1 eo2 fo h f le e :
  run_wf iter n m ep -> partitioned zero iter n m ep pm -> ready s bt p g m -> (0 <= r < n)%Z -> loops_ok (pm r) eo1 eo2 fo ->
  precompute_matrix_helpers s bt p g (pm r) r (gm_npe m) junk eo1 eo2 fo = Ok (h, f) ->
  rd (pm_l2g_elem (pm r)) le = Ok e ->
  exists nq P W, volume_quadrature s p zero2 zero1 = Ok (nq, P, W) /\
    vh_vol h le = rsum nq (fun q => W q * jac_det s g (elem_nodes m e) (P q)).
Proof.
  intros WF PT RD Hr LO E0 He.
  destruct (setup_master zero iter n m ep pm WF PT s bt p g RD r junk eo1 eo2 fo Hr LO) as (h1 & h2 & f2 & E & _ & E2 & _).
  rewrite E in E0. injection E0 as -> ->. pose proof (volume_points _ _ _ _ _ _ _ _ _ _ E2) as VQ.
  destruct (C68_setup_geometry zero iter n m ep pm s bt p g r junk eo1 eo2 fo WF PT RD Hr LO) as (h' & f' & x' & w' & E' & _ & _ & _ & _ & _ & Rows).
  rewrite E in E'. injection E' as <- <-. destruct (Rows le e He) as (_ & Vol). 
  destruct RD as [Hg Fit Un BF Op Sup]. unfold order_ok in Op.
  destruct (volume_rule s p ltac:(split; lia)) as (x & w & G & A).
  destruct (A zero2 zero1) as (P & W & EQ & TR). exists ((p + 2) ^ space_dim s)%Z, P, W. split; [exact EQ|].
  destruct (A (vh_pts h1) (vh_wts h1)) as (P1 & W1 & EQ1 & TR1). rewrite VQ in EQ1. injection EQ1 as EN <- <-. rewrite EN in Vol. rewrite Vol.
  apply rsum_ext. intros q Hq. destruct (TR q Hq) as (T1 & T2), (TR1 q Hq) as (T3 & T4). f_equal; [congruence|].
  apply jac_det_point. intros d Hd. rewrite T1, T3; auto.
Qed.

Lemma zloop_sum n f : (0 <= n)%Z -> zloop n (fun i v => v + f i) 0 = rsum n f.
Proof. intros H. rewrite zloop_acc. ring. Qed.

Lemma element_error_entry nq ns ord Uq u wts djac err k : (0 <= nq)%Z -> (0 <= k < ns)%Z ->
  element_error nq ns ord Uq u wts djac err k = rsum nq (fun q => (Uq q k - u q k) ^ ord * wts q * djac q).
Proof.
  intros Hq Hk. unfold element_error.
  rewrite (zloop_fill1 ns (fun is => zloop nq (fun iq sum => sum + (Uq iq is - u iq is) ^ ord * wts iq * djac iq) 0)).
  fold (inb ns k). rewrite (proj2 (inb_true _ _) Hk). now apply zloop_sum.
Qed.

(** What one rank contributes: a sum over its elements. *)
Lemma rank_error_ok zero iter n m ep pm s bt p g r ic ph t u ord normalize vol junk2 junk3 junk1 uo eo Uc :
  run_wf iter n m ep -> partitioned zero iter n m ep pm -> ready s bt p g m -> (0 <= r < n)%Z ->
  solution_is (space_dim s) ic ph t u ->
  Permutation uo (zseq (pm_num_elems_part (pm r))) -> Permutation eo (zseq (pm_num_elems_part (pm r))) ->
  exists nq P W E, volume_quadrature s (2 * Z.max p 1) zero2 zero1 = Ok (nq, P, W) /\
    rank_error s bt p g (pm r) (gm_npe m) (space_dim s + 2) ic ph t ord normalize vol junk2 junk3 junk1 uo eo Uc = Ok (E, error_volume normalize (pm_num_elems_part (pm r)) vol) /\
    forall k, (0 <= k < space_dim s + 2)%Z -> E k = rsum (pm_num_elems_part (pm r)) (fun le =>
      match rd (pm_l2g_elem (pm r)) le with
      | Ok e => rsum nq (fun q => W q * jac_det s g (elem_nodes m e) (P q) *
           (rsum (nfun bt p) (fun j => basis_fn bt p j (P q) * Uc le j k) - u (place s g (elem_nodes m e) (P q)) k) ^ ord)
      | Fail _ => 0
      end).
Proof.
  intros WF PT RD Hr (SA & SX) Pu Pe. 
  destruct RD as [Hg Fit Un BF Op Sup]. unfold order_ok in Op.
  destruct (volume_rule s (2 * Z.max p 1) ltac:(split; lia)) as (x & w & _ & A). destruct (A zero2 zero1) as (P & W & EQ & _).
  set (nq := ((2 * Z.max p 1 + 2) ^ space_dim s)%Z) in *.
  assert (Hnq : (0 <= nq)%Z) by (apply Z.pow_nonneg; lia).
  destruct (geom_facts s g) as (Ed & Lg & Sg).
  unfold rank_error. rewrite EQ. cbn [bind]. rewrite !(nb_eq (geom_basis s) g) by (auto; lia). rewrite (nb_eq bt p) by (auto; lia).
  set (ne := pm_num_elems_part (pm r)) in *. assert (Hne : (0 <= ne)%Z).
  { destruct (C01_element_ownership R zero iter n m ep pm WF PT) as (_ & _ & C & _). destruct (C r Hr) as (_ & EL). unfold ne. rewrite EL. apply zlen_nonneg. }
  destruct Fit as (F1 & F2).
  set (bval := get_values bt p nq (nfun bt p) P zero2). set (ggrad := get_grads (geom_basis s) g nq P zero3).
  set (gval := get_values (geom_basis s) g nq (nfun (geom_basis s) g) P zero2).
  set (Uq := evaluate_state uo nq (space_dim s + 2) (nfun bt p) bval Uc zero3).
  match goal with |- context [foreach eo ?b zero2] => set (body := b) end.
  destruct (foreach_rows body (fun _ => True) (fun _ _ => True)
     (fun le (err : arr2) => forall e, rd (pm_l2g_elem (pm r)) le = Ok e -> forall k, (0 <= k < space_dim s + 2)%Z ->
        err le k = rsum nq (fun q => W q * jac_det s g (elem_nodes m e) (P q) *
           (rsum (nfun bt p) (fun j => basis_fn bt p j (P q) * Uc le j k) - u (place s g (elem_nodes m e) (P q)) k) ^ ord))
     eo zero2) as (err & EF & _ & Rows).
  - apply (Permutation_NoDup (Permutation_sym Pe)). apply NoDup_zseq.
  - exact I.
  - auto.
  - intros le err Hin _ _. apply (Permutation_in _ Pe) in Hin. apply In_zseq in Hin.
    destruct (local_elem zero iter n m ep pm WF PT r le Hr Hin) as (e & He).
    destruct (coords_ok zero iter n m ep pm WF PT s g (conj F1 F2) r le e junk2 Hr He) as (c & Ec & Vc).
    unfold body. rewrite Ec. cbn [bind].
    set (xp := ref_to_phys nq (space_dim s) (nfun (geom_basis s) g) gval c junk2).
    assert (XP : forall q d, (0 <= q < nq)%Z -> (0 <= d < space_dim s)%Z -> xp q d = place s g (elem_nodes m e) (P q) d).
    { intros q d Hq Hd. unfold xp, ref_to_phys, cAxB_to_C. rewrite gemm_entry, (proj2 (inb_true _ _) Hq), (proj2 (inb_true _ _) Hd). cbn [andb].
      rewrite Rmult_0_l, Rplus_0_l, Rmult_1_l. unfold place, elem_map. apply rsum_ext. intros k Hk.
      rewrite Vc by assumption. f_equal. unfold gval. rewrite <- (nb_eq (geom_basis s) g) by (auto; lia).
      apply (C33_basis_values (geom_basis s) g nq P zero2); auto; lia. }
    destruct (zfor_inv (fun kq (F : arr2) => forall q k, (0 <= q < kq)%Z -> (0 <= k < space_dim s + 2)%Z -> F q k = u (place s g (elem_nodes m e) (P q)) k)
      nq (fun iq f0 => U <- call_exact_solution (space_dim s) ic ph (xp iq) t (f0 iq) ;; Ok (setr f0 iq (fst U))) junk2) as (F & EFF & VF).
    + exact Hnq.
    + lia.
    + intros iq f0 Hiq IH. destruct (SA (xp iq) (f0 iq)) as (V & b & EV & VV). rewrite EV. cbn [bind fst]. eexists. split; [reflexivity|].
      intros q k Hq Hk. unfold setr. destruct (Z.eqb_spec q iq) as [->|N]; [|apply IH; [lia|exact Hk]].
      rewrite VV by exact Hk. apply SX. intros d Hd. now apply XP.
    + match goal with |- context [bind (zfor nq ?b junk2) _] => replace (zfor nq b junk2) with (Ok F) by (symmetry; exact EFF) end. cbn [bind]. eexists. split; [reflexivity|]. split; [exact I|]. split; [|split; [auto|]].
      * intros e' He'. rewrite He in He'. injection He' as <-. intros k Hk. unfold setr. rewrite Z.eqb_refl.
        rewrite element_error_entry by assumption. apply rsum_ext. intros q Hq. rewrite VF by assumption.
        unfold Uq. rewrite (evaluate_state_entry _ ne) by exact Pu.
        rewrite (proj2 (inb_true _ _) Hin), (proj2 (inb_true _ _) Hq), (proj2 (inb_true _ _) Hk). cbn [andb].
        assert (EJ : snd (get_element_jacobian_det nq (space_dim s) (gm_npe m) ggrad c (junk3, junk1)) q = jac_det s g (elem_nodes m e) (P q)).
        { unfold ggrad. rewrite F2. apply (jacdet_row s g nq P c (elem_nodes m e) junk3 junk1 q Hg Hq Vc). }
        rewrite EJ. rewrite (rsum_ext _ (fun j => bval q j * Uc le j k) (fun j => basis_fn bt p j (P q) * Uc le j k)); [ring|].
        intros j Hj. f_equal. unfold bval. rewrite <- (nb_eq bt p) by (auto; lia). apply (C33_basis_values bt p nq P zero2 ltac:(lia) Sup); [exact Hq|exact Hj].
      * intros e' Ne Rw e2 He2 k Hk. unfold setr. destruct (Z.eqb_spec e' le); [contradiction|]. now apply Rw.
  - rewrite EF. cbn [bind]. exists nq, P, W. eexists. split; [reflexivity|]. split; [reflexivity|]. intros k Hk.
    rewrite (zloop_fill1 (space_dim s + 2) (fun is => zloop ne (fun ie sum => sum + err ie is) 0)). fold (inb (space_dim s + 2) k). rewrite (proj2 (inb_true _ _) Hk), zloop_sum by exact Hne.
    apply rsum_ext. intros le Hle. destruct (local_elem zero iter n m ep pm WF PT r le Hr Hle) as (e & He). rewrite He.
    apply Rows; [|exact He|exact Hk]. apply (Permutation_in _ (Permutation_sym Pe)). now apply In_zseq.
Qed.

(** The coefficients the ranks hold are those of one solution on the mesh:
    [c e] are the coefficients on global element [e]. *)
Definition holds_solution (pm : Z -> pmesh R) (n nb ns : Z) (c : arr3) (U : Z -> arr3) : Prop :=
  forall r le e j k, (0 <= r < n)%Z -> rd (pm_l2g_elem (pm r)) le = Ok e -> (0 <= j < nb)%Z -> (0 <= k < ns)%Z -> U r le j k = c e j k.

(** Mean square over the mesh, under the rule [(nq, P, W)] on every element, of the
    difference between the polynomial with coefficients [c] and the function [u];
    the volume of the mesh under a rule. *)
Definition mesh_volume (s : eshape) (g : Z) (m : gmesh R) (nq : Z) (P : arr2) (W : arr1) : R :=
  rsum (gm_num_elems m) (fun e => rsum nq (fun q => W q * jac_det s g (elem_nodes m e) (P q))).
Definition square_distance (s : eshape) (bt : basis_type) (p g : Z) (m : gmesh R) (nq : Z) (P : arr2) (W : arr1)
  (c : arr3) (u : (Z -> R) -> Z -> R) (k : Z) : R :=
  rsum (gm_num_elems m) (fun e => rsum nq (fun q => W q * jac_det s g (elem_nodes m e) (P q) *
    (rsum (nfun bt p) (fun j => basis_fn bt p j (P q) * c e j k) - u (place s g (elem_nodes m e) (P q)) k) ^ 2)).

Lemma root_sqrt x : 0 <= x -> c_root x 2 = Ok (sqrt x).
Proof.
  intros H. unfold c_root. destruct (Rlt_dec x 0); [lra|]. destruct (Rlt_dec 0 x) as [L|L].
  - f_equal. replace (1 / INR 2) with (/ 2) by (cbn; field). now apply Rpower_sqrt.
  - replace x with 0 by lra. now rewrite sqrt_0.
Qed.

Lemma jac_sum_pos s bt p g m o nq P W : ready s bt p g m -> tabulated o -> volume_quadrature s o zero2 zero1 = Ok (nq, P, W) ->
  (forall e q, (0 <= e < gm_num_elems m)%Z -> (0 <= q < nq)%Z -> 0 < W q * jac_det s g (elem_nodes m e) (P q)) /\ (0 < nq)%Z.
Proof.
  intros [Hg Fit Un BF Op Sup] T EQ. destruct (volume_rule s o T) as (x & w & G & A). destruct (A zero2 zero1) as (P' & W' & EQ' & TR).
  rewrite EQ in EQ'. injection EQ' as -> -> ->. destruct T as (T & _). split.
  - intros e q He Hq. destruct (rule_inside s (o + 2) x w P' W' _ _ G ltac:(lia) TR q Hq) as (I1 & I2).
    apply Rmult_lt_0_compat; [exact I2|]. now apply Un.
  - apply Z.pow_pos_nonneg; [lia|]. destruct s; cbn; lia.
Qed.

Lemma rsum_pos n f : (0 < n)%Z -> (forall i, (0 <= i < n)%Z -> 0 < f i) -> 0 < rsum n f.
Proof.
  intros Hn H. assert (0 <= rsum n f) as [L|L]; [|exact L|].
  - rewrite <- (rsum_zero n (fun _ => 0)) by auto. apply rsum_le. intros. left. auto.
  - symmetry in L. pose proof (rsum_nonneg_zero n f ltac:(intros; left; auto) L 0%Z ltac:(lia)). specialize (H 0%Z ltac:(lia)). lra.
Qed.

Theorem C74_error_norm : forall zero iter n m ep pm s bt p g h f ic ph t u c U junk2 junk3 junk1 uo eo,
  run_wf iter n m ep -> partitioned zero iter n m ep pm -> ready s bt p g m -> (0 < gm_num_elems m)%Z ->
  all_set_up s bt p g m pm n h f -> solution_is (space_dim s) ic ph t u ->
  holds_solution pm n (nfun bt p) (space_dim s + 2) c U ->
  (forall r, (0 <= r < n)%Z -> Permutation (uo r) (zseq (pm_num_elems_part (pm r))) /\ Permutation (eo r) (zseq (pm_num_elems_part (pm r)))) ->
  exists E nq P W nv Pv Wv,
    volume_quadrature s (2 * Z.max p 1) zero2 zero1 = Ok (nq, P, W) /\ volume_quadrature s p zero2 zero1 = Ok (nv, Pv, Wv) /\
    (forall r, (0 <= r < n)%Z ->
       rank_error s bt p g (pm r) (gm_npe m) (space_dim s + 2) ic ph t 2 true (vh_vol (h r)) (junk2 r) (junk3 r) (junk1 r) (uo r) (eo r) (U r) = Ok (E r)) /\
    0 < mesh_volume s g m nv Pv Wv /\
    forall k, (0 <= k < space_dim s + 2)%Z ->
      total_error n 2 E k = Ok (sqrt (square_distance s bt p g m nq P W c u k / mesh_volume s g m nv Pv Wv)).
Proof.
  intros zero iter n m ep pm s bt p g h f ic ph t u c U junk2 junk3 junk1 uo eo WF PT RD Hne AS SI HS Po.
  pose proof RD as [Hg Fit Un BF Op Sup]. unfold order_ok in Op.
  destruct (volume_rule s (2 * Z.max p 1) ltac:(split; lia)) as (x & w & _ & A). destruct (A zero2 zero1) as (P & W & EQ & _).
  destruct (volume_rule s p ltac:(split; lia)) as (x' & w' & _ & A'). destruct (A' zero2 zero1) as (Pv & Wv & EQv & _).
  set (nq := ((2 * Z.max p 1 + 2) ^ space_dim s)%Z) in *. set (nv := ((p + 2) ^ space_dim s)%Z) in *.
  destruct (jac_sum_pos s bt p g m (2 * Z.max p 1) nq P W RD ltac:(split; lia) EQ) as (J1 & J2).
  destruct (jac_sum_pos s bt p g m p nv Pv Wv RD ltac:(split; lia) EQv) as (J3 & J4).
  assert (VP : 0 < mesh_volume s g m nv Pv Wv) by (apply rsum_pos; [exact Hne|]; intros e He; apply rsum_pos; [exact J4|]; intros q Hq; now apply J3).
  exists (fun r => match rank_error s bt p g (pm r) (gm_npe m) (space_dim s + 2) ic ph t 2 true (vh_vol (h r)) (junk2 r) (junk3 r) (junk1 r) (uo r) (eo r) (U r)
                  with Ok E => E | Fail _ => (zero1, 0) end).
  exists nq, P, W, nv, Pv, Wv. split; [exact EQ|]. split; [exact EQv|].
  assert (RE : forall r, (0 <= r < n)%Z -> exists E, rank_error s bt p g (pm r) (gm_npe m) (space_dim s + 2) ic ph t 2 true (vh_vol (h r)) (junk2 r) (junk3 r) (junk1 r) (uo r) (eo r) (U r)
      = Ok (E, rsum (pm_num_elems_part (pm r)) (vh_vol (h r))) /\
      forall k, (0 <= k < space_dim s + 2)%Z -> E k = rsum (pm_num_elems_part (pm r)) (fun le =>
        match rd (pm_l2g_elem (pm r)) le with
        | Ok e => rsum nq (fun q => W q * jac_det s g (elem_nodes m e) (P q) *
             (rsum (nfun bt p) (fun j => basis_fn bt p j (P q) * U r le j k) - u (place s g (elem_nodes m e) (P q)) k) ^ 2)
        | Fail _ => 0
        end)).
  { intros r Hr. destruct (Po r Hr) as (P1 & P2).
    destruct (rank_error_ok zero iter n m ep pm s bt p g r ic ph t u 2 true (vh_vol (h r)) (junk2 r) (junk3 r) (junk1 r) (uo r) (eo r) (U r) WF PT RD Hr SI P1 P2)
      as (nq' & P' & W' & E & EQ' & ER & VE). rewrite EQ in EQ'. injection EQ' as <- <- <-. exists E. split; [|exact VE].
    rewrite ER. unfold error_volume, get_total_volume. rewrite zloop_sum; [reflexivity|].
    destruct (C01_element_ownership R zero iter n m ep pm WF PT) as (_ & _ & C & _). destruct (C r Hr) as (_ & EL). rewrite EL. apply zlen_nonneg. }
  split. { intros r Hr. destruct (RE r Hr) as (E & -> & _). reflexivity. }
  split; [exact VP|]. intros k Hk.
  assert (Hn : (0 <= n)%Z).
  { destruct (C01_element_ownership R zero iter n m ep pm WF PT) as (O & _). destruct (O 0%Z ltac:(lia)) as (r & (Hr & _) & _). lia. }
  match goal with |- total_error _ _ ?E _ = _ => set (EE := E) end.
  unfold total_error. rewrite (zloop_sum n (fun r => snd (EE r))), (zloop_sum n (fun r => fst (EE r) k)) by exact Hn.
  assert (EV : rsum n (fun r => snd (EE r)) = mesh_volume s g m nv Pv Wv).
  { rewrite (rsum_ext n _ (fun r => rsum (pm_num_elems_part (pm r)) (vh_vol (h r)))).
    - unfold mesh_volume. apply (ranks_sum R zero iter n m ep pm (fun r => vh_vol (h r)) _ WF PT). intros r le e Hr He.
      destruct (AS r Hr) as (jk & eo1 & eo2 & fo & LO & E0).
      destruct (rule_volume zero iter n m ep pm s bt p g r jk eo1 eo2 fo (h r) (f r) le e WF PT RD Hr LO E0 He) as (nv' & Pv' & Wv' & EQ' & ->).
      rewrite EQv in EQ'. injection EQ' as <- <- <-. reflexivity.
    - intros r Hr. unfold EE. destruct (RE r Hr) as (E & -> & _). reflexivity. }
  assert (ES : rsum n (fun r => fst (EE r) k) = square_distance s bt p g m nq P W c u k).
  { rewrite (rsum_ext n _ (fun r => rsum (pm_num_elems_part (pm r)) (fun le =>
        match rd (pm_l2g_elem (pm r)) le with
        | Ok e => rsum nq (fun q => W q * jac_det s g (elem_nodes m e) (P q) *
             (rsum (nfun bt p) (fun j => basis_fn bt p j (P q) * U r le j k) - u (place s g (elem_nodes m e) (P q)) k) ^ 2)
        | Fail _ => 0
        end))).
    - unfold square_distance. apply (ranks_sum R zero iter n m ep pm _ _ WF PT). intros r le e Hr He. rewrite He. apply rsum_ext. intros q Hq.
      do 2 f_equal. f_equal. apply rsum_ext. intros j Hj. f_equal. now apply (HS r le e j k).
    - intros r Hr. unfold EE. destruct (RE r Hr) as (E & -> & VE). now apply VE. }
  rewrite EV, ES. destruct (Req_EM_T (mesh_volume s g m nv Pv Wv) 0); [lra|]. apply root_sqrt.
  apply Rdiv_le_0_compat; [|exact VP]. unfold square_distance.
  rewrite <- (rsum_zero (gm_num_elems m) (fun _ => 0)) by auto. apply rsum_le. intros e He.
  rewrite <- (rsum_zero nq (fun _ => 0)) by auto. apply rsum_le. intros q Hq. apply Rmult_le_pos; [left; now apply J1|apply pow2_ge_0].
Qed.
Print Assumptions C74_error_norm.

(** However the mesh is partitioned, on however many ranks, in whatever order the
    loops run: the same numbers are printed. *)
Theorem C74_any_partition : forall zero s bt p g m ic ph t u c
    iter n ep pm h f U junk2 junk3 junk1 uo eo E iter' n' ep' pm' h' f' U' junk2' junk3' junk1' uo' eo' E',
  run_wf iter n m ep -> partitioned zero iter n m ep pm -> run_wf iter' n' m ep' -> partitioned zero iter' n' m ep' pm' ->
  ready s bt p g m -> (0 < gm_num_elems m)%Z -> solution_is (space_dim s) ic ph t u ->
  all_set_up s bt p g m pm n h f -> all_set_up s bt p g m pm' n' h' f' ->
  holds_solution pm n (nfun bt p) (space_dim s + 2) c U -> holds_solution pm' n' (nfun bt p) (space_dim s + 2) c U' ->
  (forall r, (0 <= r < n)%Z -> Permutation (uo r) (zseq (pm_num_elems_part (pm r))) /\ Permutation (eo r) (zseq (pm_num_elems_part (pm r)))) ->
  (forall r, (0 <= r < n')%Z -> Permutation (uo' r) (zseq (pm_num_elems_part (pm' r))) /\ Permutation (eo' r) (zseq (pm_num_elems_part (pm' r)))) ->
  (forall r, (0 <= r < n)%Z ->
     rank_error s bt p g (pm r) (gm_npe m) (space_dim s + 2) ic ph t 2 true (vh_vol (h r)) (junk2 r) (junk3 r) (junk1 r) (uo r) (eo r) (U r) = Ok (E r)) ->
  (forall r, (0 <= r < n')%Z ->
     rank_error s bt p g (pm' r) (gm_npe m) (space_dim s + 2) ic ph t 2 true (vh_vol (h' r)) (junk2' r) (junk3' r) (junk1' r) (uo' r) (eo' r) (U' r) = Ok (E' r)) ->
  forall k, (0 <= k < space_dim s + 2)%Z -> exists v, total_error n 2 E k = Ok v /\ total_error n' 2 E' k = Ok v.
Proof.
  intros zero s bt p g m ic ph t u c iter n ep pm h f U junk2 junk3 junk1 uo eo E iter' n' ep' pm' h' f' U' junk2' junk3' junk1' uo' eo' E'
    WF PT WF' PT' RD Hne SI AS AS' HS HS' Po Po' HE HE' k Hk.
  destruct (C74_error_norm zero iter n m ep pm s bt p g h f ic ph t u c U junk2 junk3 junk1 uo eo WF PT RD Hne AS SI HS Po)
    as (E1 & nq & P & W & nv & Pv & Wv & EQ & EQv & R1 & _ & T1).
  destruct (C74_error_norm zero iter' n' m ep' pm' s bt p g h' f' ic ph t u c U' junk2' junk3' junk1' uo' eo' WF' PT' RD Hne AS' SI HS' Po')
    as (E2 & nq' & P' & W' & nv' & Pv' & Wv' & EQ' & EQv' & R2 & _ & T2).
  rewrite EQ in EQ'. injection EQ' as <- <- <-. rewrite EQv in EQv'. injection EQv' as <- <- <-.
  assert (Same : forall n F G, (forall r, (0 <= r < n)%Z -> F r = G r) -> total_error n 2 F k = total_error n 2 G k).
  { intros n0 F G H. unfold total_error. rewrite (zloop_ext n0 (fun r v => v + snd (F r)) (fun r v => v + snd (G r))) by (intros; now rewrite H).
    rewrite (zloop_ext n0 (fun r v => v + fst (F r) k) (fun r v => v + fst (G r) k)) by (intros; now rewrite H). reflexivity. }
  eexists. split.
  - rewrite (Same n E E1); [now apply T1|]. intros r Hr. specialize (R1 r Hr). rewrite HE in R1 by exact Hr. now injection R1.
  - rewrite (Same n' E' E2); [now apply T2|]. intros r Hr. specialize (R2 r Hr). rewrite HE' in R2 by exact Hr. now injection R2.
Qed.
Print Assumptions C74_any_partition.

(** The whole program on a solution file: the solution saved at time [T] is
    compared with the exact solution at time zero (see C43). *)
Theorem C75_post_time_refuted : forall zero iter right n m ep pm s bt p g T U order ic ph u0 c h0 Uc0 junk2 junk3 junk1 eo1 eo2 fo uo eo,
  run_wf iter n m ep -> partitioned zero iter n m ep pm -> ready s bt p g m -> (0 < gm_num_elems m)%Z ->
  (forall k, Permutation (order k) (zseq n)) -> holds_solution pm n (nfun bt p) (space_dim s + 2) c U ->
  (forall r, (0 <= r < n)%Z -> zlen (pm_l2g_elem (pm r)) * nfun bt p * (space_dim s + 2) <= 2 ^ 32)%Z ->
  solution_is (space_dim s) ic ph 0 u0 ->
  (forall r, (0 <= r < n)%Z -> loops_ok (pm r) (eo1 r) (eo2 r) (fo r) /\
     Permutation (uo r) (zseq (pm_num_elems_part (pm r))) /\ Permutation (eo r) (zseq (pm_num_elems_part (pm r)))) ->
  exists file E nq P W nv Pv Wv,
    saved zero right n m (nfun bt p) (space_dim s + 2) T pm U order file /\ sf_time file = T /\
    volume_quadrature s (2 * Z.max p 1) zero2 zero1 = Ok (nq, P, W) /\ volume_quadrature s p zero2 zero1 = Ok (nv, Pv, Wv) /\
    (forall r, (0 <= r < n)%Z ->
      post_rank s bt p g n r (pm r) (gm_npe m) (space_dim s + 2) ic ph file h0 Uc0 (junk2 r) (junk3 r) (junk1 r) (eo1 r) (eo2 r) (fo r) (uo r) (eo r) = Ok (E r)) /\
    forall k, (0 <= k < space_dim s + 2)%Z ->
      total_error n 2 E k = Ok (sqrt (square_distance s bt p g m nq P W c u0 k / mesh_volume s g m nv Pv Wv)) /\
      forall u, square_distance s bt p g m nq P W c u k <> square_distance s bt p g m nq P W c u0 k ->
        total_error n 2 E k <> Ok (sqrt (square_distance s bt p g m nq P W c u k / mesh_volume s g m nv Pv Wv)).
Proof.
  intros zero iter right n m ep pm s bt p g T U order ic ph u0 c h0 Uc0 junk2 junk3 junk1 eo1 eo2 fo uo eo WF PT RD Hne PO HS HB SI Po.
  assert (Hn : (0 < n)%Z).
  { destruct (C01_element_ownership R zero iter n m ep pm WF PT) as (O & _). destruct (O 0%Z ltac:(lia)) as (r & (Hr & _) & _). lia. }
  assert (Hnb : (0 <= nfun bt p)%Z) by (apply Z.pow_nonneg; destruct RD as [_ _ _ _ Op _]; unfold order_ok in Op; lia).
  assert (Hns : (0 <= space_dim s + 2)%Z) by (destruct s; cbn; lia).
  destruct (C42_restart_round_trip R zero iter right n m ep (nfun bt p) (space_dim s + 2) T pm U order WF PT Hn Hnb Hns PO) as (file & SV & RT).
  destruct (C43_restart_time_refuted R zero iter right n m ep (nfun bt p) (space_dim s + 2) T pm U order WF PT Hn Hnb Hns PO) as (file' & SV' & ET & RT').
  assert (file' = file) as ->.
  { destruct SV as (ws & S1 & S2), SV' as (ws' & S1' & S2'). rewrite S1 in S1'. injection S1' as <-. rewrite S2 in S2'. now injection S2'. }
  set (U2 := fun r => match read_in_coefficients n r file h0 (mkSS 0 Uc0) with Ok st => ss_Uc st | Fail _ => zero3 end).
  assert (RI : forall r, (0 <= r < n)%Z -> exists st, read_in_coefficients n r file h0 (mkSS 0 Uc0) = Ok st /\ ss_time st = 0 /\ ss_Uc st = U2 r).
  { intros r Hr. destruct (RT r Hr (HB r Hr) h0 (mkSS 0 Uc0)) as (st & E & _). exists st. split; [exact E|]. split; [apply (RT' r h0 _ st E)|].
    unfold U2. now rewrite E. }
  assert (HS2 : holds_solution pm n (nfun bt p) (space_dim s + 2) c U2).
  { intros r le e j k Hr He Hj Hk. destruct (RT r Hr (HB r Hr) h0 (mkSS 0 Uc0)) as (st & E & V). unfold U2. rewrite E.
    rewrite V; [now apply (HS r le e)| |exact Hj|exact Hk]. now apply rd_in_range in He. }
  set (hf := fun r => match precompute_matrix_helpers s bt p g (pm r) r (gm_npe m) (junk2 r) (eo1 r) (eo2 r) (fo r) with
     Ok hf => hf | Fail _ => (vh_empty, mkFH 0 zero3 zero1 zero3 (fun _ _ => 0%Z) (fun _ _ => 0%Z) zero3) end).
  assert (PH : forall r, (0 <= r < n)%Z -> precompute_matrix_helpers s bt p g (pm r) r (gm_npe m) (junk2 r) (eo1 r) (eo2 r) (fo r) = Ok (hf r)).
  { intros r Hr. destruct (Po r Hr) as (LO & _).
    destruct (C68_setup_geometry zero iter n m ep pm s bt p g r (junk2 r) (eo1 r) (eo2 r) (fo r) WF PT RD Hr LO) as (h & f & x & w & E & _).
    unfold hf. now rewrite E. }
  assert (AS : all_set_up s bt p g m pm n (fun r => fst (hf r)) (fun r => snd (hf r))).
  { intros r Hr. exists (junk2 r), (eo1 r), (eo2 r), (fo r). destruct (Po r Hr) as (LO & _). split; [exact LO|]. rewrite PH by exact Hr. now destruct (hf r). }
  destruct (C74_error_norm zero iter n m ep pm s bt p g _ _ ic ph 0 u0 c U2 junk2 junk3 junk1 uo eo WF PT RD Hne AS SI HS2 ltac:(intros r Hr; apply (Po r Hr)))
    as (E & nq & P & W & nv & Pv & Wv & EQ & EQv & R1 & VP & T1).
  exists file, E, nq, P, W, nv, Pv, Wv. split; [exact SV|]. split; [exact ET|]. split; [exact EQ|]. split; [exact EQv|]. split.
  - intros r Hr. unfold post_rank. rewrite PH by exact Hr. cbn [bind]. destruct (RI r Hr) as (st & -> & E1 & E2). cbn [bind]. rewrite E1, E2. now apply R1.
  - intros k Hk. split; [now apply T1|]. intros u Nu. rewrite T1 by exact Hk. intros EE. injection EE as EE. apply Nu.
    assert (Pos : forall v, 0 <= square_distance s bt p g m nq P W c v k / mesh_volume s g m nv Pv Wv).
    { intros v. apply Rdiv_le_0_compat; [|exact VP].
      pose proof RD as [_ _ _ _ Op _]. unfold order_ok in Op.
      destruct (jac_sum_pos s bt p g m (2 * Z.max p 1) nq P W RD ltac:(split; lia) EQ) as (J1 & J2).
      unfold square_distance. rewrite <- (rsum_zero (gm_num_elems m) (fun _ => 0)) by auto. apply rsum_le. intros e He.
      rewrite <- (rsum_zero nq (fun _ => 0)) by auto. apply rsum_le. intros q Hq. apply Rmult_le_pos; [left; now apply J1|apply pow2_ge_0]. }
    apply sqrt_inj in EE; [|apply Pos|apply Pos]. symmetry. apply (Rmult_eq_reg_r (/ mesh_volume s g m nv Pv Wv)); [exact EE|]. apply Rinv_neq_0_compat. lra.
Qed.
Print Assumptions C75_post_time_refuted.

(** The exact solutions that qualify. *)
Lemma uniform_solution dim ph t : (dim = 2 \/ dim = 3)%Z -> solution_is dim Uniform ph t (fun _ k => ph_IC ph k).
Proof.
  intros Hd. split; [|auto]. intros x U0. destruct (C63_uniform_partial dim ph x t U0 Hd) as (U & _ & E & V & _). exists U, false. auto.
Qed.
Example C74_vortex ph t : ph_R ph = 1 -> 1 < ph_gamma ph -> 0 < ph_IC ph 0%Z -> 0 < ph_IC ph 3%Z ->
  weak_vortex (ph_gamma ph) (ph_IC ph 0%Z) (ph_IC ph 3%Z) (ph_IC ph 4%Z) -> exists u, solution_is 2 IsentropicVortex ph t u.
Proof.
  intros H1 H2 H3 H4 H5. destruct (C62_vortex_exact ph H1 H2 H3 H4 H5) as (U & E & _).
  exists (fun x k => U (x 0%Z) (x 1%Z) t k). split.
  - intros x U0. destruct (E x t U0) as (V & EV & VV). now exists V, false.
  - intros x y k H. rewrite (H 0%Z), (H 1%Z) by lia. reflexivity.
Qed.

(** On the four-element mesh of C71 on three ranks, order 2: for the uniform
    solution all hypotheses hold, and the printed error is zero. *)
Example C74_demo : exists pm h f U E, partitioned 0 (fun _ l => rev l) 3 demo_rmesh demo_ep pm /\
  all_set_up EQuad LagrangeQuad 2 1 demo_rmesh pm 3 h f /\
  (forall r, (0 <= r < 3)%Z -> rank_error EQuad LagrangeQuad 2 1 (pm r) (gm_npe demo_rmesh) 4 Uniform (Build_phys 1.4 1 (fun k => IZR k + 1)) 5 2 true
     (vh_vol (h r)) zero2 zero3 zero1 (zseq (pm_num_elems_part (pm r))) (rev (zseq (pm_num_elems_part (pm r)))) (U r) = Ok (E r)) /\
  total_error 3 2 E 1 = Ok 0.
Proof.
  destruct demo_straight as (SQ & CF & FV & FD).
  assert (RD : ready EQuad LagrangeQuad 2 1 demo_rmesh).
  { constructor; [lia|apply SQ|now apply convex_untangled|now left|unfold order_ok; lia|now left]. }
  destruct (C05_partitioned_exists R 0 (fun _ l => rev l) 3 demo_rmesh demo_ep demo_rrun) as (pm & PT).
  set (hf := fun r => match precompute_matrix_helpers EQuad LagrangeQuad 2 1 (pm r) r (gm_npe demo_rmesh) zero2
      (zseq (pm_num_elems_part (pm r))) (zseq (pm_num_elems_part (pm r))) (zseq (pm_num_ifaces_part (pm r))) with
     Ok hf => hf | Fail _ => (vh_empty, mkFH 0 zero3 zero1 zero3 (fun _ _ => 0%Z) (fun _ _ => 0%Z) zero3) end).
  set (c := fun (e : Z) j k => ones LagrangeQuad j * (IZR k + 1)).
  assert (AS : all_set_up EQuad LagrangeQuad 2 1 demo_rmesh pm 3 (fun r => fst (hf r)) (fun r => snd (hf r))).
  { intros r Hr. exists zero2, (zseq (pm_num_elems_part (pm r))), (zseq (pm_num_elems_part (pm r))), (zseq (pm_num_ifaces_part (pm r))).
    assert (LO : loops_ok (pm r) (zseq (pm_num_elems_part (pm r))) (zseq (pm_num_elems_part (pm r))) (zseq (pm_num_ifaces_part (pm r)))) by (repeat split; apply Permutation_refl).
    split; [exact LO|]. destruct (C68_setup_geometry 0 (fun _ l => rev l) 3 demo_rmesh demo_ep pm EQuad LagrangeQuad 2 1 r zero2 _ _ _ demo_rrun PT RD Hr LO) as (h & f & x & w & E & _).
    unfold hf. now rewrite E. }
  destruct (C74_error_norm 0 (fun _ l => rev l) 3 demo_rmesh demo_ep pm EQuad LagrangeQuad 2 1 _ _ Uniform (Build_phys 1.4 1 (fun k => IZR k + 1)) 5 _ c (fun r => c)
     (fun _ => zero2) (fun _ => zero3) (fun _ => zero1) (fun r => zseq (pm_num_elems_part (pm r))) (fun r => rev (zseq (pm_num_elems_part (pm r))))
     demo_rrun PT RD ltac:(cbn; lia) AS (uniform_solution 2 _ 5 ltac:(lia)) ltac:(intros r le e j k _ _ _ _; reflexivity)
     ltac:(intros r _; split; [apply Permutation_refl|apply Permutation_sym, Permutation_rev]))
    as (E & nq & P & W & nv & Pv & Wv & _ & _ & RE & VP & TE).
  exists pm, (fun r => fst (hf r)), (fun r => snd (hf r)), (fun _ => c), E. split; [exact PT|]. split; [exact AS|]. split; [exact RE|].
  rewrite (TE 1%Z) by (cbn; lia). f_equal.
  assert (Z0 : square_distance EQuad LagrangeQuad 2 1 demo_rmesh nq P W c (fun _ k => IZR k + 1) 1 = 0).
  { unfold square_distance. apply rsum_zero. intros e He. apply rsum_zero. intros q Hq.
    unfold c. rewrite (rsum_ext _ _ (fun j => ones LagrangeQuad j * basis_fn LagrangeQuad 2 j (P q) * (IZR 1 + 1))) by (intros; ring).
    rewrite rsum_scal_r, ones_sum by (try lia; now left). ring. }
  cbn [ph_IC]. rewrite Z0. unfold Rdiv. rewrite Rmult_0_l. apply sqrt_0.
Qed.
