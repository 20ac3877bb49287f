(** PropSize.v -- C58: sizes computed in different places agree. *)
From Coq Require Import ZArith List Lia Bool.
From Verif Require Import Base RBase QuadModel BasisModel PropQuad PropBasis SizeModel.
Import ListNotations.
Local Open Scope Z_scope.

(** Bases the solver can run with: their element shape. *)
Definition solver_basis (t : BasisType) : option ShapeType :=
  match t with
  | LagrangeSeg => Some Segment
  | LagrangeQuad | LegendreQuad => Some Quadrilateral
  | LagrangeHex | LegendreHex => Some Hexahedron
  | _ => None
  end.

Lemma ceil_half_spec n : ceil_half (n + 1) = n / 2 + 1.
Proof.
  unfold ceil_half. pose proof (Z.div_mod n 2 ltac:(lia)). pose proof (Z.mod_pos_bound n 2 ltac:(lia)).
  pose proof (Z.div_mod (- (n + 1)) 2 ltac:(lia)). pose proof (Z.mod_pos_bound (- (n + 1)) 2 ltac:(lia)). lia.
Qed.

Theorem C58_sizes_agree :
  forall t s p g, solver_basis t = Some s -> 0 <= p -> 0 <= g ->
  (exists np, NumericsParams t p g = Ok np /\
     (* basis functions: numerics parameters, Basis object, powers of the 1D number *)
     basis_nb t p = Ok (np_nb np) /\ np_nb np = np_nb1d np ^ NDIMS s /\ np_nb np = (p + 1) ^ NDIMS s /\
     (* faces, orientations, geometric nodes: numerics parameters and Shape object *)
     np_nface np = NFACES s /\ np_norient np = NUM_ORIENT_PER_FACE s /\ basis_shape (np_gbasis np) = Ok s /\
     np_gnb np = get_num_nodes_per_elem s g /\ basis_nb (np_gbasis np) g = Ok (get_num_nodes_per_elem s g)) /\
  (* nodes of a face: nodes of an element of the face's shape; corners: order 1 *)
  (forall f, face_type s = Some f -> get_num_nodes_per_face s g = get_num_nodes_per_elem f g /\ NDIMS f = NDIMS s - 1) /\
  NCORNERS s = get_num_nodes_per_elem s 1 /\
  (* quadrature points: numerics parameters and quadrature classes *)
  (forall order nq0, 0 <= order ->
     get_number_of_quadrature_points order (NDIMS s) nq0 = (get_num_quad_1d GaussLegendre order, get_num_quad GaussLegendre (NDIMS s) order)).
Proof.
  intros t s p g Ht Hp Hg. split; [|split; [|split]].
  - assert (P1 : forall x, x = x ^ 1) by (intros; ring). assert (P2 : forall x, x * x = x ^ 2) by (intros; ring).
    assert (P3 : forall x, x * x * x = x ^ 3) by (intros; ring).
    destruct t; cbn in Ht; try discriminate Ht; injection Ht as <-; eexists; (split; [reflexivity|]); cbn [np_nb np_nb1d np_nface np_norient np_gbasis np_gnb basis_nb basis_shape bind NDIMS NFACES NUM_ORIENT_PER_FACE get_num_basis_coeff get_num_nodes_per_elem];
      repeat split; auto.
  - intros f Hf. destruct s; cbn in Hf; try discriminate Hf; injection Hf as <-; split; reflexivity.
  - destruct s; reflexivity.
  - intros order nq0 Ho. pose proof (npts order nq0 Ho) as N.
    unfold get_number_of_quadrature_points in *. cbn [fst] in N. rewrite N.
    unfold get_num_quad_1d, get_num_quad. rewrite ceil_half_spec. reflexivity.
Qed.
Print Assumptions C58_sizes_agree.
Example C58_demo : solver_basis LegendreHex = Some Hexahedron /\ basis_nb LegendreHex 3 = Ok 64.
Proof. split; reflexivity. Qed.

(** A basis name of the input file that passes the numerics parameters but for
    which the Basis object calls an unset function pointer; and one the numerics
    parameters reject although the Basis class has it. *)
Theorem C67_accepted_bases_refuted :
  (forall t p g, In t [LagrangeGLL1D; LagrangeGLL2D; LagrangeGLL3D; LagrangeGL2D; LagrangeGL3D; TriangleLagrange] ->
     (exists np, NumericsParams t p g = Ok np) /\ basis_nb t p = Fail Uninitialised) /\
  (forall p g, NumericsParams LegendreSeg p g = Fail Thrown /\ basis_nb LegendreSeg p = Ok (p + 1)).
Proof.
  split.
  - intros t p g H. cbn in H. repeat (destruct H as [<-|H]; [split; [eexists; reflexivity|reflexivity]|]). contradiction.
  - intros p g. split; reflexivity.
Qed.
Print Assumptions C67_accepted_bases_refuted.

(** Exactly the bases of [solver_basis] work throughout. *)
Theorem C67_accepted_bases_partial :
  forall t p g, solver_basis t <> None <-> (exists np nb, NumericsParams t p g = Ok np /\ basis_nb t p = Ok nb).
Proof.
  intros t p g. split.
  - intros H. destruct t; cbn in H; try congruence; do 2 eexists; split; reflexivity.
  - intros (np & nb & H1 & H2). destruct t; cbn in *; congruence.
Qed.
Print Assumptions C67_accepted_bases_partial.

(** Plot parameters: sub-cells of a refined element have the shape's corners,
    and their points are the nodes of an element of that order (at least 1). *)
Theorem C58_solution_file_sizes :
  forall t s p, solver_basis t = Some s -> s <> Segment -> 0 <= p ->
  get_solfile_params t p = Ok (get_num_nodes_per_elem s (Z.max p 1), Z.max p 1 ^ NDIMS s, NCORNERS s).
Proof.
  intros t s p Ht Hs Hp. destruct t; cbn in Ht; try discriminate Ht; injection Ht as <-; try (now destruct Hs); cbn [get_solfile_params get_num_nodes_per_elem NDIMS NCORNERS];
    do 3 f_equal; ring.
Qed.
Print Assumptions C58_solution_file_sizes.

(** Memory of the inverse mass matrices: every scheme but the structured Legendre
    one has room for exactly the entries of an nb x nb matrix, that one for the
    entries of its diagonal. *)
Theorem C58_inverse_mass_size :
  forall scheme nb, 0 <= nb ->
  (scheme <> LegendreStruct -> forall a, 0 <= a < get_iMM_size scheme nb <-> exists i j, 0 <= i < nb /\ 0 <= j < nb /\ a = i * nb + j) /\
  (forall a, 0 <= a < get_iMM_size LegendreStruct nb <-> 0 <= a < nb).
Proof.
  intros sc nb Hnb. split.
  - intros H a. assert (E : get_iMM_size sc nb = nb * nb) by (destruct sc; (reflexivity || now destruct H)). rewrite E. split.
    + intros Ha. assert (0 < nb) by nia. exists (a / nb), (a mod nb). pose proof (Z.mod_pos_bound a nb ltac:(lia)).
      pose proof (Z.div_mod a nb ltac:(lia)). repeat split; try lia; [apply Z.div_pos; lia|apply Z.div_lt_upper_bound; lia].
    + intros (i & j & Hi & Hj & ->). nia.
  - intros a. cbn [get_iMM_size]. reflexivity.
Qed.
Print Assumptions C58_inverse_mass_size.

(** Numbers of points of the quadrature rules. In one dimension a Gauss-Legendre
    rule with n points is exact up to degree 2n - 1, a Gauss-Lobatto rule up to
    degree 2n - 3 (two points are given): the number of points of either rule is
    the least that reaches the order, so Lobatto has one more, and in [dim]
    dimensions it is the number of points of the tensor product. The rule on the
    triangle made of Gauss-Legendre points needs one degree more, for the
    collapsed coordinate. The table of Dunavant's rules never loses points when the order
    grows, has at least the dimension of the polynomials of half the order (no
    rule exact to that order has less), no more than the collapsed rule, and 0 or 1
    points fixed by the turns of the triangle; beyond order 20 it falls back to 1. *)
Definition least_points (n : Z) (exact : Z -> Z) (order : Z) : Prop :=
  order <= exact n /\ forall k, 0 <= k -> order <= exact k -> n <= k.
Theorem C58_point_counts :
  forall order, 0 <= order ->
  least_points (get_num_quad_1d GaussLegendre order) (fun n => 2 * n - 1) order /\
  least_points (get_num_quad_1d GaussLobatto order) (fun n => 2 * n - 3) order /\
  get_num_quad_1d GaussLobatto order = get_num_quad_1d GaussLegendre order + 1 /\
  (forall T dim, In T [GaussLegendre; GaussLobatto] -> get_num_quad T dim order = get_num_quad_1d T order ^ dim) /\
  (exists n, least_points n (fun n => 2 * n - 1) (order + 1) /\ forall dim, get_num_quad TriangleGaussLegendre dim order = n ^ dim) /\
  get_num_quad TriangleDunavant 1 order = get_num_quad GaussLegendre 1 order /\
  (order <= 20 -> let nq := get_num_quad TriangleDunavant 2 in
     (forall o, 0 <= o < order -> nq o <= nq order /\ (0 < o -> nq o < nq order)) /\
     (order / 2 + 1) * (order / 2 + 2) / 2 <= nq order <= get_num_quad TriangleGaussLegendre 2 order /\
     (nq order mod 3 = 0 \/ nq order mod 3 = 1)) /\
  (20 < order -> get_num_quad TriangleDunavant 2 order = 1).
Proof.
  intros p Hp.
  assert (C : forall a, 2 * ceil_half a - 1 <= a <= 2 * ceil_half a).
  { intros a. unfold ceil_half. pose proof (Z.div_mod (- a) 2 ltac:(lia)). pose proof (Z.mod_pos_bound (- a) 2 ltac:(lia)). lia. }
  unfold least_points, get_num_quad_1d. pose proof (C (p + 1)) as C1. pose proof (C (p + 2)) as C2.
  split; [split; [lia|intros; lia]|]. split; [split; [lia|intros; lia]|]. split; [lia|].
  split; [intros T d HT; cbn in HT; destruct HT as [<-|[<-|[]]]; reflexivity|].
  split; [exists (ceil_half (p + 2)); split; [split; [lia|intros; lia]|intros d; reflexivity]|].
  split; [reflexivity|]. split.
  - intros H20. set (nq := get_num_quad TriangleDunavant 2).
    assert (T : forallb (fun k => forallb (fun o => (nq o <=? nq k) && ((o =? 0) || (nq o <? nq k))) (zseq k)
       && ((k / 2 + 1) * (k / 2 + 2) / 2 <=? nq k) && (nq k <=? get_num_quad TriangleGaussLegendre 2 k)
       && ((nq k mod 3 =? 0) || (nq k mod 3 =? 1))) (zseq 21) = true) by reflexivity.
    rewrite forallb_forall in T. specialize (T p). cbv beta in T.
    assert (I : In p (zseq 21)) by (apply In_zseq; lia). specialize (T I).
    rewrite !andb_true_iff, orb_true_iff, !Z.leb_le, !Z.eqb_eq in T. destruct T as [[[T1 T2] T3] T4].
    rewrite forallb_forall in T1.
    split; [|split; [split; assumption|exact T4]].
    intros o Ho. specialize (T1 o). cbv beta in T1. assert (J : In o (zseq p)) by (apply In_zseq; lia). specialize (T1 J).
    rewrite andb_true_iff, orb_true_iff, Z.leb_le, Z.ltb_lt, Z.eqb_eq in T1. split; [lia|intros; lia].
  - intros H. unfold get_num_quad. replace (2 =? 1) with false by reflexivity. unfold dunavant.
    destruct (Z.leb_spec p 20); [lia|]. now rewrite andb_false_r.
Qed.
Print Assumptions C58_point_counts.
Example C58_points_demo : get_num_quad_1d GaussLegendre 5 = 3 /\ get_num_quad_1d GaussLobatto 5 = 4 /\ get_num_quad GaussLobatto 3 5 = 64 /\
  get_num_quad TriangleDunavant 2 8 = 16.
Proof. repeat split. Qed.
