(** PropSetup.v -- properties C68-C71: the tables the solver computes before the
    first time step. *)
From Coq Require Import ZArith List Lia Reals Lra Bool Permutation.
From Coquelicot Require Import Coquelicot.
From Verif Require Import Base RBase LinAlgModel LinAlgProof PropLinAlg QuadModel QuadProof PropQuad BasisModel BasisProof PropBasis PropSolver PropNormals.
From Verif Require Import ShapeModel ShapeProof PropShape MeshModel MeshSpec MeshProof PropMesh PhysModel PhysSpec SolverModel SolverSpec SolverProof SolverMesh.
From Verif Require Import SetupModel SetupSpec MassProof SetupProof SetupPass SetupFaces.
Import ListNotations.
Local Open Scope R_scope.
Open Scope res_scope.

(** What the set-up needs: a mesh of elements of the shape and geometric order,
    none of them folded over; a solution basis of that shape, of an order whose
    quadrature rules are tabulated. *)
Record ready (s : eshape) (bt : basis_type) (p g : Z) (m : gmesh R) : Prop := {
  rdy_geom : (1 <= g)%Z;
  rdy_mesh : mesh_fits s g m;
  rdy_untangled : untangled s g m;
  rdy_basis : basis_for s bt;
  rdy_order : order_ok p;
  rdy_supported : supported bt p
}.

(** Parallel loops over local elements and faces run each iteration once. *)
Definition loops_ok (pm : pmesh R) (eo1 eo2 fo : list Z) : Prop :=
  Permutation eo1 (zseq (pm_num_elems_part pm)) /\ Permutation eo2 (zseq (pm_num_elems_part pm)) /\
  Permutation fo (zseq (pm_num_ifaces_part pm)).

Section Master.
Context (zero : R) (iter : Z -> list Z -> list Z) (n : Z) (m : gmesh R) (ep : list Z) (pm : Z -> pmesh R).
Context (WF : run_wf iter n m ep) (PT : partitioned zero iter n m ep pm).
Context (s : eshape) (bt : basis_type) (p g : Z) (RD : ready s bt p g m).

Lemma setup_master r junk eo1 eo2 fo : (0 <= r < n)%Z -> loops_ok (pm r) eo1 eo2 fo ->
  exists h1 h f, precompute_matrix_helpers s bt p g (pm r) r (gm_npe m) junk eo1 eo2 fo = Ok (h, f) /\
    compute_inv_mass_matrices s bt p g (pm r) (gm_npe m) junk eo1 vh_empty = Ok h1 /\
    compute_volume_helpers s bt p g (pm r) (gm_npe m) junk eo2 h1 = Ok h /\
    compute_interior_face_helpers s bt p g (pm r) r (gm_npe m) junk fo = Ok f.
Proof.
  intros Hr (P1 & P2 & P3). destruct RD as [Hg Fit Un BF Op Sup]. unfold order_ok in Op.
  destruct (inv_mass_pass zero iter n m ep pm WF PT s bt p g Hg ltac:(lia) Sup BF Fit r junk eo1 Hr ltac:(split; lia) Un P1) as (h1 & nq & P & W & E1 & _ & G0 & _).
  destruct (volume_pass zero iter n m ep pm WF PT s bt p g Hg ltac:(lia) Sup BF Fit r junk eo2 h1 Hr ltac:(split; lia) P2 G0) as (h & x & w & E2 & _).
  destruct (faces_pass zero iter n m ep pm WF PT s bt p g ltac:(lia) Sup BF Fit r junk fo Hr Op P3) as (f & x' & w' & fp & E3 & _).
  exists h1, h, f. unfold precompute_matrix_helpers. rewrite E1. cbn [bind]. rewrite E2. cbn [bind]. rewrite E3. cbn [bind]. auto.
Qed.
End Master.

(** ** C68: geometry *)

(** The set-up of every rank succeeds.  Its quadrature rule is the tensor product
    of a one-dimensional rule with p+2 points inside (-1,1) and positive weights
    that integrates polynomials of degree 2p+3 up to 1e-30; the tables hold the
    values and partial derivatives of the basis functions at its points; and for
    each local element, numbered [e] in the mesh file, they hold: the images of
    the points under the element map, the partial derivatives of the map, their
    determinant (positive), their inverse matrix, and the sum of weight times
    determinant as the volume.  The order of the parallel loops and the content
    of the scratch memory ([junk]) do not matter. *)
Theorem C68_setup_geometry : forall zero iter n m ep pm s bt p g r junk eo1 eo2 fo,
  run_wf iter n m ep -> partitioned zero iter n m ep pm -> ready s bt p g m ->
  (0 <= r < n)%Z -> loops_ok (pm r) eo1 eo2 fo ->
  exists h f x w, precompute_matrix_helpers s bt p g (pm r) r (gm_npe m) junk eo1 eo2 fo = Ok (h, f) /\
    good_rule (p + 2) (2 * p + 3) (/ 10 ^ 30) x w /\ vh_nq h = ((p + 2) ^ space_dim s)%Z /\
    tensor_rule (space_dim s) (p + 2) x w (vh_pts h) (vh_wts h) /\
    (forall q, (0 <= q < vh_nq h)%Z -> inside s (vh_pts h q) /\ 0 < vh_wts h q) /\
    (forall q i, (0 <= q < vh_nq h)%Z -> (0 <= i < nfun bt p)%Z ->
       vh_val h q i = basis_fn bt p i (vh_pts h q) /\
       forall d, (0 <= d < space_dim s)%Z -> is_derive (fun t => basis_fn bt p i (with_coord (vh_pts h q) d t)) (vh_pts h q d) (vh_grad h q i d)) /\
    (forall le e, rd (pm_l2g_elem (pm r)) le = Ok e -> let X := elem_nodes m e in
       (forall q, (0 <= q < vh_nq h)%Z -> let y := vh_pts h q in
          (forall j, (0 <= j < space_dim s)%Z -> vh_x h le q j = place s g X y j) /\
          (forall j d, (0 <= j < space_dim s)%Z -> (0 <= d < space_dim s)%Z ->
             is_derive (fun t => place s g X (with_coord y d t) j) (y d) (vh_jac h le q j d)) /\
          vh_djac h le q = jac_det s g X y /\ 0 < vh_djac h le q /\
          inverse_of (space_dim s) (jacobian s g X y) (vh_ijac h le q)) /\
       vh_vol h le = rsum (vh_nq h) (fun q => vh_wts h q * jac_det s g X (vh_pts h q))).
Proof.
  intros zero iter n m ep pm s bt p g r junk eo1 eo2 fo WF PT RD Hr LO.
  destruct (setup_master zero iter n m ep pm WF PT s bt p g RD r junk eo1 eo2 fo Hr LO) as (h1 & h & f & E & E1 & E2 & _).
  destruct RD as [Hg Fit Un BF Op Sup]. unfold order_ok in Op. destruct LO as (P1 & P2 & P3).
  destruct (inv_mass_pass zero iter n m ep pm WF PT s bt p g Hg ltac:(lia) Sup BF Fit r junk eo1 Hr ltac:(split; lia) Un P1) as (h1' & nq & P & W & E1' & _ & G0 & _).
  rewrite E1 in E1'. injection E1' as <-.
  destruct (volume_pass zero iter n m ep pm WF PT s bt p g Hg ltac:(lia) Sup BF Fit r junk eo2 h1 Hr ltac:(split; lia) P2 G0) as (h' & x & w & E2' & G & Nq & TR & V & D & _ & Rows).
  rewrite E2 in E2'. injection E2' as <-.
  exists h, f, x, w. split; [exact E|]. split; [exact G|]. split; [exact Nq|]. split; [exact TR|].
  assert (In : forall q, (0 <= q < vh_nq h)%Z -> inside s (vh_pts h q) /\ 0 < vh_wts h q).
  { intros q Hq. rewrite Nq in Hq. apply (rule_inside s (p + 2) x w (vh_pts h) (vh_wts h) _ _ G); auto; lia. }
  split; [exact In|]. split; [intros q i Hq Hi; split; [now apply V|intros d Hd; now apply D]|].
  intros le e He X. destruct (Rows le e He) as (Rq & Vol). split; [|exact Vol].
  intros q Hq y. destruct (Rq q Hq) as (A1 & A2 & A3 & A4).
  assert (Pos : 0 < jac_det s g X y) by (apply Un; [eapply owned_elem; eassumption|now apply In]).
  split; [exact A1|]. split; [exact A2|]. split; [exact A3|]. split; [rewrite A3; exact Pos|]. apply A4. apply Rgt_not_eq. exact Pos.
Qed.
Print Assumptions C68_setup_geometry.

(** ** C69: inverse mass matrices *)

(** The inverse mass matrix stored for a local element is the two-sided inverse
    of the mass matrix of that element -- the Gram matrix of the basis functions
    under the quadrature rule of twice the order. *)
Theorem C69_inverse_mass_matrices : forall zero iter n m ep pm s bt p g r junk eo1 eo2 fo h f,
  run_wf iter n m ep -> partitioned zero iter n m ep pm -> ready s bt p g m ->
  (0 <= r < n)%Z -> loops_ok (pm r) eo1 eo2 fo ->
  precompute_matrix_helpers s bt p g (pm r) r (gm_npe m) junk eo1 eo2 fo = Ok (h, f) ->
  exists nq P W, volume_quadrature s (2 * p) zero2 zero1 = Ok (nq, P, W) /\
    forall le e, rd (pm_l2g_elem (pm r)) le = Ok e ->
      inverse_of (nfun bt p) (fun i j => rsum nq (fun q => W q * jac_det s g (elem_nodes m e) (P q) * basis_fn bt p i (P q) * basis_fn bt p j (P q)))
        (vh_iMM h le).
Proof.
  intros zero iter n m ep pm s bt p g r junk eo1 eo2 fo h f WF PT RD Hr LO E0.
  destruct (setup_master zero iter n m ep pm WF PT s bt p g RD r junk eo1 eo2 fo Hr LO) as (h1 & h' & f' & E & E1 & E2 & _).
  rewrite E in E0. injection E0 as -> ->.
  destruct RD as [Hg Fit Un BF Op Sup]. unfold order_ok in Op. destruct LO as (P1 & P2 & P3).
  destruct (inv_mass_pass zero iter n m ep pm WF PT s bt p g Hg ltac:(lia) Sup BF Fit r junk eo1 Hr ltac:(split; lia) Un P1) as (h1' & nq & P & W & E1' & EQ & G0 & Inv).
  rewrite E1 in E1'. injection E1' as <-.
  destruct (volume_pass zero iter n m ep pm WF PT s bt p g Hg ltac:(lia) Sup BF Fit r junk eo2 h1 Hr ltac:(split; lia) P2 G0) as (h' & x & w & E2' & _ & _ & _ & _ & _ & EM & _).
  rewrite E2 in E2'. injection E2' as <-.
  exists nq, P, W. split; [exact EQ|]. intros le e He. rewrite EM. exact (Inv le e He).
Qed.
Print Assumptions C69_inverse_mass_matrices.

(** ** C70: the tables of different ranks fit together *)

(** Coefficients of the constant function 1. *)
Definition ones (bt : basis_type) : arr1 := fun i => if is_lagrange bt then 1 else if (i =? 0)%Z then 1 else 0.

Lemma ones_sum bt p y : (0 <= p)%Z -> supported bt p -> rsum (nfun bt p) (fun i => ones bt i * basis_fn bt p i y) = 1.
Proof.
  intros Hp Sup. unfold ones. destruct (is_lagrange bt) eqn:L.
  - destruct (C33_lagrange_nodal bt p 1 (fun _ => y) zero2 zero2 Hp L) as (_ & S & _). specialize (S 0%Z ltac:(lia)).
    destruct (C33_basis_values bt p 1 (fun _ => y) zero2 Hp Sup) as (En & V & _). rewrite En in S. etransitivity; [|exact S]. apply rsum_ext. intros i Hi.
    rewrite En in V. rewrite Rmult_1_l. symmetry. apply (V 0%Z i); [lia|exact Hi].
  - rewrite (rsum_ext _ _ (fun i => if (i =? 0)%Z then basis_fn bt p i y else 0)) by (intros i _; destruct (i =? 0)%Z; ring).
    assert (0 < nfun bt p)%Z by (unfold nfun; apply Z.pow_pos_nonneg; [lia|destruct bt; cbn; lia]).
    rewrite rsum_delta by lia. unfold basis_fn. apply rprod_one. intros d Hd. unfold fn1. rewrite L.
    replace (digit (p + 1) d 0) with 0%Z; [reflexivity|]. unfold digit. rewrite Z.div_0_l by (apply Z.pow_nonzero; lia). symmetry. apply Z.mod_0_l. lia.
Qed.

Lemma ones_grad bt p y d (G : Z -> R) : (0 <= p)%Z -> supported bt p ->
  (forall i, (0 <= i < nfun bt p)%Z -> is_derive (fun t => basis_fn bt p i (with_coord y d t)) (y d) (G i)) ->
  rsum (nfun bt p) (fun i => ones bt i * G i) = 0.
Proof.
  intros Hp Sup HG.
  assert (D : is_derive (fun t => rsum (nfun bt p) (fun i => ones bt i * basis_fn bt p i (with_coord y d t))) (y d) (rsum (nfun bt p) (fun i => ones bt i * G i))).
  { apply is_derive_rsum. intros i Hi. apply is_derive_scal_R. now apply HG. }
  assert (D0 : is_derive (fun t => rsum (nfun bt p) (fun i => ones bt i * basis_fn bt p i (with_coord y d t))) (y d) 0).
  { apply (is_derive_ext (fun _ => 1)); [intros t; symmetry; now apply ones_sum|]. apply (is_derive_const (V := R_NormedModule)). }
  apply is_derive_unique in D. apply is_derive_unique in D0. congruence.
Qed.

(** The tables of all ranks of a run. *)
Definition all_set_up (s : eshape) (bt : basis_type) (p g : Z) (m : gmesh R) (pm : Z -> pmesh R) (n : Z)
  (h : Z -> vhelpers) (f : Z -> fhelpers) : Prop :=
  forall r, (0 <= r < n)%Z -> exists junk eo1 eo2 fo, loops_ok (pm r) eo1 eo2 fo /\
    precompute_matrix_helpers s bt p g (pm r) r (gm_npe m) junk eo1 eo2 fo = Ok (h r, f r).

(** The data the residual evaluation of rank r reads. *)
Definition tables (s : eshape) (bt : basis_type) (p : Z) (pm : Z -> pmesh R) (gamma : R) (ft : flux_type)
  (h : Z -> vhelpers) (f : Z -> fhelpers) (ord : Z -> nat -> list Z) (pord : Z -> nat -> Z -> Z -> list (Z * Z)) (junk : Z -> arr1) : Z -> rdata :=
  fun r => residual_data s bt p (pm r) r gamma ft (h r) (f r) (ord r) (pord r) (junk r).

Definition inner_loops_ok (pm : Z -> pmesh R) (n : Z) (ord : Z -> nat -> list Z) (pord : Z -> nat -> Z -> Z -> list (Z * Z)) : Prop :=
  forall r, (0 <= r < n)%Z -> (forall k, Permutation (ord r k) (zseq (pm_num_elems_part (pm r)))) /\ forall k a b, each_once (pord r k a b) a b.

(** Whatever the parallel schedules, the tables of all ranks describe the same
    quadrature rule and basis: the hypotheses of the residual theorems (C24, C64,
    C65) about sizes, point numbering, face tables and the constant function hold. *)
Theorem C70_setup_consistent : forall zero iter n m ep pm s bt p g h f gamma ft ord pord junk,
  run_wf iter n m ep -> partitioned zero iter n m ep pm -> ready s bt p g m ->
  all_set_up s bt p g m pm n h f -> inner_loops_ok pm n ord pord ->
  let nqf := (face_rule_points s p ^ (space_dim s - 1))%Z in
  let D := tables s bt p pm gamma ft h f ord pord junk in
  exists fp fw, face_quadrature s p = Ok (nqf, fp, fw) /\ face_points s nqf /\
    let fb := fun k q i => basis_fn bt p i (face_at s k (fp q)) in
    same_setup s m pm n nqf (nfun bt p) gamma ft fb fw D /\
    constant_one s n nqf (nfun bt p) fb D (ones bt).
Proof.
  intros zero iter n m ep pm s bt p g h f gamma ft ord pord junk WF PT RD AS IL nqf D.
  pose proof RD as [Hg Fit Un BF Op Sup]. pose proof Op as Op'. unfold order_ok in Op'.
  destruct (face_rule s p ltac:(lia) ltac:(lia) ltac:(lia)) as (x & w & fp & fw & G & TR & EF). fold nqf in EF.
  exists fp, fw. split; [exact EF|].
  split. { destruct s; cbn [face_points]; [apply Z.pow_nonneg; cbn; lia|]. exists (p + 2)%Z. split; [lia|]. unfold nqf. cbn [face_rule_points space_dim]. change (3 - 1)%Z with 2%Z. apply Z.pow_2_r. }
  intros fb.
  assert (FF : forall r, (0 <= r < n)%Z -> fh_nq (f r) = nqf /\ fh_wts (f r) = fw /\
     face_quadrature_lookup (face_order s) (pm_interior_faces (pm r)) (pm_num_ifaces_part (pm r)) nqf = Ok (fh_qL (f r), fh_qR (f r)) /\
     (forall k q i, (0 <= k < faces_per_elem s)%Z -> (0 <= q < nqf)%Z -> (0 <= i < nfun bt p)%Z -> fh_val (f r) k q i = fb k q i)).
  { intros r Hr. destruct (AS r Hr) as (jk & eo1 & eo2 & fo & LO & E0).
    destruct (setup_master zero iter n m ep pm WF PT s bt p g RD r jk eo1 eo2 fo Hr LO) as (h1 & h' & f' & E & _ & _ & E3).
    rewrite E in E0. injection E0 as -> ->. destruct LO as (P1 & P2 & P3).
    destruct (faces_pass zero iter n m ep pm WF PT s bt p g ltac:(lia) Sup BF Fit r jk fo Hr Op P3) as (f' & x' & w' & fp' & E3' & _ & Nq & _ & EQ & Pts & LK & _).
    rewrite E3 in E3'. injection E3' as <-. rewrite EF in EQ. injection EQ as EQ1 EQ2 EQ3. subst fp' fw.
    rewrite <- EQ1 in *. split; [reflexivity|]. split; [reflexivity|]. split; [exact LK|].
    intros k q i Hk Hq Hi. destruct (Pts k Hk) as (_ & P4 & P5). rewrite P5 by assumption. unfold fb. apply basis_fn_ext. rewrite (basis_for_dim s bt BF).
    intros d Hd. now apply P4. }
  split.
  - constructor.
    + intros r Hr. destruct (FF r Hr) as (A1 & A2 & A3 & A4). unfold D, tables, residual_data. cbn. rewrite (nb_eq bt p ltac:(lia) Sup). auto 10.
    + intros r Hr. destruct (FF r Hr) as (A1 & A2 & A3 & A4). exact A3.
    + intros r Hr. destruct (IL r Hr) as (I1 & I2). split; [exact I1|exact I2].
    + intros r Hr. destruct (FF r Hr) as (A1 & A2 & A3 & A4). unfold D, tables, residual_data. cbn. auto.
    + intros r k q b Hr Hk Hq Hb. destruct (FF r Hr) as (A1 & A2 & A3 & A4). exact (A4 k q b Hk Hq Hb).
  - split.
    + intros k q Hk Hq. apply ones_sum; [lia|exact Sup].
    + intros r q j Hr Hq Hj. destruct (AS r Hr) as (jk & eo1 & eo2 & fo & LO & E0).
      destruct (C68_setup_geometry zero iter n m ep pm s bt p g r jk eo1 eo2 fo WF PT RD Hr LO) as (h' & f' & x' & w' & E & _ & _ & _ & _ & V & _).
      rewrite E in E0. injection E0 as -> ->.
      unfold D, tables, residual_data in *. cbn in Hq |- *.
      apply (ones_grad bt p (vh_pts (h r) q) j (fun i => vh_grad (h r) q i j)); [lia|exact Sup|].
      intros i Hi. apply (V q i); assumption.
Qed.
Print Assumptions C70_setup_consistent.
