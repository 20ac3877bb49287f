(** SetupFaces.v -- the interior-face tables. *)
From Coq Require Import ZArith List Lia Reals Lra Bool Permutation.
From Coquelicot Require Import Coquelicot.
From Verif Require Import Base RBase LinAlgModel LinAlgProof PropLinAlg QuadModel QuadProof PropQuad BasisModel BasisProof PropBasis PropSolver PropNormals.
From Verif Require Import ShapeModel ShapeProof PropShape MeshModel MeshSpec MeshProof PropMesh SolverModel SolverSpec SolverProof SolverMesh SetupModel SetupSpec MassProof SetupProof SetupPass.
Import ListNotations.
Local Open Scope R_scope.
Open Scope res_scope.

Lemma face_rule s o : (0 <= o <= 23)%Z -> o <> 17%Z -> o <> 18%Z -> let n := face_rule_points s o in
  exists x w fp fw, good_rule n (2 * n - 1) (/ 10 ^ 30) x w /\ tensor_rule (space_dim s - 1) n x w fp fw /\
    face_quadrature s o = Ok (n ^ (space_dim s - 1), fp, fw)%Z.
Proof.
  intros Ho N17 N18. destruct s; cbn [face_rule_points space_dim]; cbv zeta.
  - destruct (C36_gl_rules_partial (2 * o + 1) 0) as (_ & X & Wt & LX & LW & Seg & G); try lia.
    assert (En : get_number_of_quadrature_points (2 * o + 1) 1 0 = (o + 1, (o + 1) ^ 1)%Z).
    { unfold get_number_of_quadrature_points. replace (2 * o + 1 + 1)%Z with ((o + 1) * 2)%Z by lia.
      rewrite Z.rem_mul, Z.quot_mul by lia. reflexivity. }
    rewrite En in *. cbn [fst] in *. cbv zeta in *. exists (arr_of X), (arr_of Wt).
    unfold face_quadrature. cbn [face_quadrature_order space_dim]. unfold segment_gl_order. change (2 - 1)%Z with 1%Z. rewrite En. cbn [fst snd].
    rewrite Z.pow_1_r.
    assert (L0 : zlen (vec (o + 1) 0%Z) = (o + 1)%Z) by (unfold zlen, vec; rewrite repeat_length; lia).
    rewrite (Seg _ _ L0 L0). cbn [bind fst snd]. do 2 eexists. split; [exact G|]. split; [|reflexivity].
    intros q Hq. rewrite Z.pow_1_r in Hq. split.
    + intros d Hd. assert (d = 0)%Z as -> by lia. rewrite digit0, Z.mod_small by lia. reflexivity.
    + rewrite rprod_1, digit0, Z.mod_small by lia. reflexivity.
  - destruct (volume_rule EQuad o ltac:(split; lia)) as (x & w & G & A). destruct (A zero2 zero1) as (P & W & E & TR).
    exists x, w, P, W. replace (2 * (o + 2) - 1)%Z with (2 * o + 3)%Z by lia. split; [exact G|]. split; [exact TR|].
    unfold volume_quadrature in E. unfold face_quadrature. cbn [volume_quadrature_order face_quadrature_order space_dim] in *. change (3 - 1)%Z with 2%Z.
    exact E.
Qed.

Lemma zloop_setr {A} n (F : Z -> A -> A) (v0 : Z -> A) k :
  zloop n (fun i v => setr v i (F i (v i))) v0 k = if inb n k then F k (v0 k) else v0 k.
Proof.
  match goal with |- context [zloop n ?f _] => set (B := f) end.
  induction n as [n H|n H IH] using zind.
  - rewrite zloop_0 by lia. now replace (inb n k) with false by (symmetry; apply inb_false; lia).
  - rewrite zloop_S by lia. rewrite inb_S by lia. unfold B at 1, setr. destruct (Z.eqb_spec k n) as [->|N].
    + rewrite orb_true_r. f_equal. rewrite IH. now replace (inb n n) with false by (symmetry; apply inb_false; lia).
    + rewrite orb_false_r. exact IH.
Qed.

Lemma point_on_face s k nq fp e : (0 <= nq)%Z -> (0 <= k < faces_per_elem s)%Z ->
  exists P, points_on_face s k nq fp e = Ok P /\ forall q d, (0 <= q < nq)%Z -> (0 <= d < space_dim s)%Z -> P q d = face_at s k (fp q) d.
Proof.
  intros Hn Hk. unfold points_on_face. destruct s; cbn [faces_per_elem space_dim face_at] in *.
  - destruct (points_quad_spec k 0 nq fp e Hn ltac:(lia) ltac:(lia)) as (P & E & V). rewrite E. exists P. split; [reflexivity|].
    intros q d Hq Hd. rewrite V. replace (((0 <=? q) && (q <? nq)) && ((0 <=? d) && (d <? 2)))%Z%bool with true; [reflexivity|].
    symmetry. rewrite !andb_true_iff, !Z.leb_le, !Z.ltb_lt. lia.
  - destruct (points_hex_spec k 0 nq fp e Hn ltac:(lia) ltac:(lia)) as (P & E & V). rewrite E. exists P. split; [reflexivity|].
    intros q d Hq Hd. rewrite V. replace (((0 <=? q) && (q <? nq)) && ((0 <=? d) && (d <? 3)))%Z%bool with true; [reflexivity|].
    symmetry. rewrite !andb_true_iff, !Z.leb_le, !Z.ltb_lt. lia.
Qed.

Lemma all_points_ok s nq fp : (0 <= nq)%Z -> exists pts, all_face_points s nq fp = Ok pts /\
  forall k, (0 <= k < faces_per_elem s)%Z -> points_on_face s k nq fp zero2 = Ok (pts k) /\
    forall q d, (0 <= q < nq)%Z -> (0 <= d < space_dim s)%Z -> pts k q d = face_at s k (fp q) d.
Proof.
  intros Hn. unfold all_face_points, zfor.
  destruct (foreach_rows (fun ifa P => Q <- points_on_face s ifa nq fp (P ifa) ;; Ok (setr P ifa Q)) (fun _ => True)
    (fun k P => P k = zero2)
    (fun k P => points_on_face s k nq fp zero2 = Ok (P k) /\ forall q d, (0 <= q < nq)%Z -> (0 <= d < space_dim s)%Z -> P k q d = face_at s k (fp q) d)
    (zseq (faces_per_elem s)) zero3) as (P & E & _ & Rw).
  - apply NoDup_zseq.
  - exact I.
  - reflexivity.
  - intros k P Hk _ Pre. apply In_zseq in Hk. destruct (point_on_face s k nq fp (P k) Hn Hk) as (Q & EQ & V). rewrite EQ. cbn [bind].
    eexists. split; [reflexivity|]. split; [exact I|]. split.
    + unfold setr. rewrite Z.eqb_refl. split; [rewrite <- EQ, Pre; reflexivity|exact V].
    + split; intros e' Ne; unfold setr; destruct (Z.eqb_spec e' k); try contradiction; auto.
  - exists P. split; [exact E|]. intros k Hk. apply Rw. apply In_zseq. exact Hk.
Qed.

Section Faces.
Context (zero : R) (iter : Z -> list Z -> list Z) (n : Z) (m : gmesh R) (ep : list Z) (pm : Z -> pmesh R).
Context (WF : run_wf iter n m ep) (PT : partitioned zero iter n m ep pm).
Context (s : eshape) (bt : basis_type) (p g : Z).
Context (Hg : (1 <= g)%Z) (Hp : (0 <= p)%Z) (Sup : supported bt p) (BF : basis_for s bt).
Context (Fit : mesh_fits s g m).

Definition shape_normal (sign : R) (face nqf : Z) (c pts0 : arr2) (ip : Z) : arr1 :=
  (match s with EQuad => face_normal_quad | EHex => face_normal_hex end) sign face g nqf c pts0 ip.

(** The normals of local face [lf]: from the left element if this rank has it,
    else from the right one. *)
Definition normals_row (r nqf : Z) (pts0 : arr2) (lf : Z) (N : arr2) : Prop :=
  forall f, rd (pm_l2g_iface (pm r)) lf = Ok f ->
  exists sd e k o le c, has_side m f sd e k o /\ rd (pm_l2g_elem (pm r)) le = Ok e /\ owned_by ep e r /\
    (sd = true -> forall e' k' o', has_side m f false e' k' o' -> ~ owned_by ep e' r) /\
    (forall i d, (0 <= i < nfun (geom_basis s) g)%Z -> (0 <= d < space_dim s)%Z -> c i d = elem_nodes m e i d) /\
    forall ip d, (0 <= ip < nqf)%Z -> (0 <= d < space_dim s)%Z -> N ip d = shape_normal (if sd then -1 else 1) k nqf c pts0 ip d.

Lemma normals_fill nqf (G : Z -> arr1) row ip d : (0 <= nqf)%Z -> (0 <= ip < nqf)%Z -> (0 <= d < space_dim s)%Z ->
  zloop nqf (fun ip row => fun i d => if ((i =? ip) && (0 <=? d) && (d <? space_dim s))%Z%bool then G ip d else row i d) row ip d = G ip d.
Proof.
  intros Hn Hi Hd.
  match goal with |- context [zloop nqf ?f _] => set (B := f) end.
  assert (H : forall k, (0 <= k <= nqf)%Z -> zloop k B row ip d = if inb k ip then G ip d else row ip d).
  { intros k. induction k as [k H|k H IH] using zind; intros Hk.
    - rewrite zloop_0 by lia. now replace (inb k ip) with false by (symmetry; apply inb_false; lia).
    - rewrite zloop_S by lia. unfold B at 1. rewrite inb_S by lia. rewrite IH by lia.
      replace (0 <=? d)%Z with true by (symmetry; apply Z.leb_le; lia). replace (d <? space_dim s)%Z with true by (symmetry; apply Z.ltb_lt; lia).
      rewrite !andb_true_r. destruct (Z.eqb_spec ip k) as [->|]; [now rewrite orb_true_r|now rewrite orb_false_r]. }
  rewrite H by lia. now rewrite (proj2 (inb_true _ _) Hi).
Qed.

Lemma normals_pass r nqf pts0 junk fo : (0 <= r < n)%Z -> (0 <= nqf)%Z -> Permutation fo (zseq (pm_num_ifaces_part (pm r))) ->
  exists N, foreach fo (normals_team s (pm r) r (gm_npe m) g nqf pts0 junk) zero3 = Ok N /\ forall lf, normals_row r nqf pts0 lf (N lf).
Proof.
  intros Hr Hn Pe.
  destruct (C04_interior_faces R zero iter n m ep pm WF PT) as (Touch & H4). destruct (H4 r Hr) as (ND & EL & EL2 & Rw4).
  destruct (foreach_rows (normals_team s (pm r) r (gm_npe m) g nqf pts0 junk) (fun _ => True) (fun _ _ => True)
    (fun lf N => normals_row r nqf pts0 lf (N lf)) fo zero3) as (N & E & _ & Rw).
  - apply (Permutation_NoDup (Permutation_sym Pe)). apply NoDup_zseq.
  - exact I.
  - auto.
  - intros lf N Hin _ _. apply (Permutation_in _ Pe) in Hin. apply In_zseq in Hin.
    destruct (rd_total (pm_l2g_iface (pm r)) lf ltac:(lia)) as (f & Ef).
    destruct (Rw4 lf f Ef) as (eL & fL & oL & eR & fR & oR & rL & rR & lL & lR & E1 & O1 & O2 & E2 & A1 & A2).
    assert (HL : has_side m f false eL fL oL) by (unfold has_side, rd2; rewrite E1; repeat split).
    assert (HR : has_side m f true eR fR oR) by (unfold has_side, rd2; rewrite E1; repeat split).
    unfold normals_team. unfold rd2. rewrite E2. cbn [bind].
    change (rd [rL; lL; fL; oL; rR; lR; fR; oR] 0) with (Ok rL). change (rd [rL; lL; fL; oL; rR; lR; fR; oR] 4) with (Ok rR). cbn [bind].
    unfold face_side. destruct (Z.eqb_spec rL r) as [->|NL].
    + change (rd [r; lL; fL; oL; rR; lR; fR; oR] 1) with (Ok lL). change (rd [r; lL; fL; oL; rR; lR; fR; oR] 2) with (Ok fL). cbn [bind].
      destruct (coords_ok zero iter n m ep pm WF PT s g Fit r lL eL junk Hr A1) as (c & Ec & Vc). rewrite Ec. cbn [bind].
      eexists. split; [reflexivity|]. split; [exact I|]. split.
      * intros f' Ef'. rewrite Ef in Ef'. injection Ef' as <-. exists false, eL, fL, oL, lL, c.
        split; [exact HL|]. split; [exact A1|]. split; [exact O1|]. split; [discriminate|]. split; [exact Vc|].
        intros ip d Hi Hd. unfold setr. rewrite Z.eqb_refl. rewrite (normals_fill nqf (fun ip d => _)) by assumption. reflexivity.
      * split; [auto|]. intros e' Ne H. unfold setr. destruct (Z.eqb_spec e' lf); [contradiction|exact H].
    + destruct (Z.eqb_spec rR r) as [->|NR].
      * change (rd [rL; lL; fL; oL; r; lR; fR; oR] 5) with (Ok lR). change (rd [rL; lL; fL; oL; r; lR; fR; oR] 6) with (Ok fR). cbn [bind].
        destruct (coords_ok zero iter n m ep pm WF PT s g Fit r lR eR junk Hr A2) as (c & Ec & Vc). rewrite Ec. cbn [bind].
        eexists. split; [reflexivity|]. split; [exact I|]. split.
        -- intros f' Ef'. rewrite Ef in Ef'. injection Ef' as <-. exists true, eR, fR, oR, lR, c.
           split; [exact HR|]. split; [exact A2|]. split; [exact O2|]. split.
           { intros _ e' k' o' HS Ow. destruct HL as (HL1 & _). destruct HS as (HS1 & _). rewrite HL1 in HS1. injection HS1 as <-.
             unfold owned_by in *. rewrite O1 in Ow. injection Ow as Ow. contradiction. }
           split; [exact Vc|].
           intros ip d Hi Hd. unfold setr. rewrite Z.eqb_refl. rewrite (normals_fill nqf (fun ip d => _)) by assumption. reflexivity.
        -- split; [auto|]. intros e' Ne H. unfold setr. destruct (Z.eqb_spec e' lf); [contradiction|exact H].
      * exfalso. assert (In f (pm_l2g_iface (pm r))) by (eapply rd_In; exact Ef).
        apply (Touch r f Hr) in H. destruct H as (e & [Le | Re] & Ow).
        -- destruct HL as (HL1 & _). unfold left_of in Le. rewrite HL1 in Le. injection Le as <-. unfold owned_by in *. rewrite O1 in Ow. injection Ow as Ow. contradiction.
        -- destruct HR as (HR1 & _). unfold right_of in Re. rewrite HR1 in Re. injection Re as <-. unfold owned_by in *. rewrite O2 in Ow. injection Ow as Ow. contradiction.
  - exists N. split; [exact E|]. intros lf f Ef. apply (Rw lf); [|exact Ef]. apply (Permutation_in _ (Permutation_sym Pe)). apply In_zseq.
    apply rd_in_range in Ef. lia.
Qed.

Lemma faces_pass r junk fo : (0 <= r < n)%Z -> order_ok p -> Permutation fo (zseq (pm_num_ifaces_part (pm r))) ->
  let n1 := face_rule_points s p in
  exists f x w fp, compute_interior_face_helpers s bt p g (pm r) r (gm_npe m) junk fo = Ok f /\
    good_rule n1 (2 * n1 - 1) (/ 10 ^ 30) x w /\ fh_nq f = (n1 ^ (space_dim s - 1))%Z /\
    tensor_rule (space_dim s - 1) n1 x w fp (fh_wts f) /\
    face_quadrature s p = Ok (fh_nq f, fp, fh_wts f) /\
    (forall k, (0 <= k < faces_per_elem s)%Z -> points_on_face s k (fh_nq f) fp zero2 = Ok (fh_pts f k) /\
      (forall q d, (0 <= q < fh_nq f)%Z -> (0 <= d < space_dim s)%Z -> fh_pts f k q d = face_at s k (fp q) d) /\
      (forall q i, (0 <= q < fh_nq f)%Z -> (0 <= i < nfun bt p)%Z -> fh_val f k q i = basis_fn bt p i (fh_pts f k q))) /\
    face_quadrature_lookup (face_order s) (pm_interior_faces (pm r)) (pm_num_ifaces_part (pm r)) (fh_nq f) = Ok (fh_qL f, fh_qR f) /\
    (forall lf, normals_row r (fh_nq f) (fh_pts f 0%Z) lf (fh_normals f lf)).
Proof.
  intros Hr Op Pe n1. unfold order_ok in Op. unfold compute_interior_face_helpers.
  destruct (face_rule s p ltac:(lia) ltac:(lia) ltac:(lia)) as (x & w & fp & fw & G & TR & E). fold n1 in G, TR, E.
  rewrite E. cbn [bind]. set (nqf := (n1 ^ (space_dim s - 1))%Z) in *.
  assert (Hn : (0 <= nqf)%Z) by (apply Z.pow_nonneg; unfold n1; destruct s; cbn; lia).
  destruct (all_points_ok s nqf fp Hn) as (pts & EP & VP). rewrite EP. cbn [bind].
  destruct (lookup_total zero iter n m ep pm WF PT s nqf r Hr) as (qL & qR & EK). rewrite EK. cbn [bind].
  destruct (normals_pass r nqf (pts 0%Z) junk fo Hr Hn Pe) as (N & EN & VN). rewrite EN. cbn [bind fst snd].
  do 4 eexists. split; [reflexivity|]. cbn [fh_nq fh_wts fh_pts fh_val fh_qL fh_qR fh_normals].
  split; [exact G|]. split; [reflexivity|]. split; [exact TR|]. split; [reflexivity|]. split; [|split; [exact EK|exact VN]].
  intros k Hk. destruct (VP k Hk) as (VP1 & VP2). split; [exact VP1|]. split; [exact VP2|]. intros q i Hq Hi. unfold all_face_values.
  rewrite (zloop_setr (faces_per_elem s) (fun ifa v => get_values bt p nqf (num_basis_coeff bt p) (pts ifa) v)).
  rewrite (proj2 (inb_true _ _) Hk). apply (C33_basis_values bt p nqf (pts k) (zero3 k) Hp Sup); assumption.
Qed.
End Faces.
