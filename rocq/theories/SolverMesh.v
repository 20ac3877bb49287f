(** SolverMesh.v -- the face tables of a partitioned mesh are usable by the
    gather/scatter kernels. *)
From Coq Require Import ZArith List Lia Reals Lra Bool Permutation FunctionalExtensionality.
From Verif Require Import Base RBase MeshModel MeshSpec MeshProof MeshReadProof MeshProof2 PropMesh
  LinAlgModel LinAlgProof PhysModel PhysSpec PhysProof QuadModel QuadProof BasisModel BasisProof ShapeModel ShapeProof PropBasis PropShape CommModel CommSpec CommProof
  SolverModel SolverProof SolverFaces SolverSpec.
Import ListNotations.
Local Open Scope Z_scope.
Open Scope res_scope.

Lemma lookup_ok shape_order rows nif nqf : 0 <= nif ->
  (forall lf j, 0 <= lf < nif -> j = 3 \/ j = 7 -> rd2 rows lf j = Ok (ent rows lf j)) ->
  exists qL qR, face_quadrature_lookup shape_order rows nif nqf = Ok (qL, qR) /\
    forall lf sd, 0 <= lf < nif -> exists o0, forall iq, 0 <= iq < nqf ->
      qidx qL qR sd lf iq = shape_order (sorient rows lf sd) nqf o0 iq.
Proof.
  intros Hn HR. unfold face_quadrature_lookup.
  match goal with |- exists qL qR, bind (zfor nif ?b ?s0) _ = _ /\ _ =>
    destruct (zfor_inv (fun i (s : iarr * iarr * (Z -> Z -> Z) * (Z -> Z -> Z)) =>
      let '(_, _, qL, qR) := s in forall lf sd, 0 <= lf < i -> exists o0, forall iq, 0 <= iq < nqf ->
      qidx qL qR sd lf iq = shape_order (sorient rows lf sd) nqf o0 iq) nif b s0) as ([[[oL oR] qL] qR] & E & H) end.
  - easy.
  - cbn. lia.
  - intros i [[[oL oR] qL] qR] Hi IH. rewrite (HR i 3), (HR i 7) by auto. cbn [bind]. eexists. split; [reflexivity|].
    cbn beta iota.
    set (oL' := shape_order (ent rows i 3) nqf oL). set (oR' := shape_order (ent rows i 7) nqf oR).
    assert (X : forall nq, 0 <= nq -> let q := zloop nq (fun iq q => let '(qL, qR) := q in
      ((fun i0 j => if ((i0 =? i) && (j =? iq))%bool then oL' iq else qL i0 j),
       (fun i0 j => if ((i0 =? i) && (j =? iq))%bool then oR' iq else qR i0 j))) (qL, qR) in
      forall lf iq, fst q lf iq = (if (lf =? i) && inb nq iq then oL' iq else qL lf iq)%bool /\
                    snd q lf iq = (if (lf =? i) && inb nq iq then oR' iq else qR lf iq)%bool).
    { intros nq. induction nq as [nq H|nq H IHq] using zind; intros Hq; cbv zeta.
      - intros lf iq. rewrite zloop_0 by easy. rewrite (proj2 (inb_false nq iq)) by lia. rewrite andb_false_r. easy.
      - rewrite zloop_S by easy. specialize (IHq H). cbv zeta in IHq.
        destruct (zloop nq _ (qL, qR)) as [a b]. cbn [fst snd] in *. intros lf iq. rewrite inb_S by easy.
        destruct (IHq lf iq) as [-> ->].
        destruct (Z.eqb_spec lf i), (Z.eqb_spec iq nq); subst; cbn [andb]; rewrite ?orb_true_r, ?orb_false_r; easy. }
    intros lf sd Hlf.
    destruct (Z_le_gt_dec 0 nqf) as [Hq|Hq]; [|exists (fun _ => 0); intros; lia].
    destruct (Z.eq_dec lf i) as [->|Hne].
    + exists (if sd then oR else oL). intros iq Hiq. destruct (X nqf Hq i iq) as [X1 X2].
      rewrite Z.eqb_refl, (proj2 (inb_true nqf iq)) in X1, X2 by easy. cbn [andb] in X1, X2.
      destruct sd; cbn [qidx]; [rewrite X2|rewrite X1]; reflexivity.
    + destruct (IH lf sd) as (o0 & Ho); [lia|]. exists o0. intros iq Hiq. rewrite <- Ho by easy.
      destruct (X nqf Hq lf iq) as [X1 X2]. rewrite (proj2 (Z.eqb_neq lf i)) in X1, X2 by easy. cbn [andb] in X1, X2.
      destruct sd; cbn [qidx]; [rewrite X2|rewrite X1]; reflexivity.
  - exists qL, qR. rewrite E. cbn [bind]. split; [reflexivity|exact H].
Qed.

Lemma order_perm s nqf o o0 : face_points s nqf -> 0 <= o < face_orientations s ->
  (forall iq, 0 <= iq < nqf -> 0 <= face_order s o nqf o0 iq < nqf) /\
  (forall i j, 0 <= i < nqf -> 0 <= j < nqf -> face_order s o nqf o0 i = face_order s o nqf o0 j -> i = j).
Proof.
  destruct s; cbn [face_points face_orientations face_order].
  - intros Hn Ho. assert (E : forall i, 0 <= i < nqf -> face_pts_order_quad o nqf o0 i = if o =? 0 then i else nqf - 1 - i).
    { intros i Hi. rewrite face_pts_order_quad_spec, rng_true by lia. reflexivity. }
    split.
    + intros i Hi. rewrite E by easy. destruct (o =? 0); lia.
    + intros i j Hi Hj. rewrite !E by easy. destruct (o =? 0); lia.
  - intros (n & Hn & ->) Ho.
    assert (E : forall i j, 0 <= i < n -> 0 <= j < n -> face_pts_order_hex o (n * n) o0 (j * n + i) = hex_src o n i j).
    { intros i j Hi Hj. rewrite face_pts_order_hex_spec, rng_true, idx2_mod, idx2_div by nia. reflexivity. }
    split.
    + intros k Hk. destruct (divmod_range n k Hn Hk) as (R1 & R2 & R3). pose proof (E _ _ R1 R2) as X. rewrite <- R3 in X. rewrite X.
      destruct (hex_src_pair o n (k mod n) (k / n) ltac:(lia) R1 R2) as (i' & j' & -> & I1 & I2 & _). nia.
    + intros k k' Hk Hk'. destruct (divmod_range n k Hn Hk) as (R1 & R2 & R3). destruct (divmod_range n k' Hn Hk') as (R1' & R2' & R3').
      pose proof (E _ _ R1 R2) as X. rewrite <- R3 in X. pose proof (E _ _ R1' R2') as X'. rewrite <- R3' in X'. rewrite X, X'.
      intros H. apply hex_src_inj in H; auto; lia.
Qed.

(** The order does not depend on the previous content of the buffer. *)
Lemma order_any s nqf o o0 o1 iq : face_points s nqf -> 0 <= o < face_orientations s -> 0 <= iq < nqf ->
  face_order s o nqf o0 iq = face_order s o nqf o1 iq.
Proof.
  destruct s; cbn [face_points face_orientations face_order].
  - intros Hn Ho Hi. rewrite !face_pts_order_quad_spec, !rng_true by lia. reflexivity.
  - intros (n & Hn & ->) Ho Hi. rewrite !face_pts_order_hex_spec, !rng_true by nia. reflexivity.
Qed.

Section Mesh.
Context {A : Type} (zero : A) (iter : Z -> list Z -> list Z) (n : Z) (m : gmesh A) (ep : list Z) (pm : Z -> pmesh A).
Context (WF : run_wf iter n m ep) (PT : partitioned zero iter n m ep pm).

(** Row of a local face, by side. *)
Lemma row_side r lf f : 0 <= r < n -> rd (pm_l2g_iface (pm r)) lf = Ok f ->
  let rows := pm_interior_faces (pm r) in
  (forall j, 0 <= j < 8 -> rd2 rows lf j = Ok (ent rows lf j)) /\
  forall sd, exists e, has_side m f sd e (sface rows lf sd) (sorient rows lf sd) /\
    owned_by ep e (srank rows lf sd) /\
    (srank rows lf sd = r -> rd (pm_l2g_elem (pm r)) (selem rows lf sd) = Ok e).
Proof.
  intros Hr R rows.
  destruct (C04_interior_faces A zero iter n m ep pm WF PT) as [_ H]. destruct (H r Hr) as (_ & _ & _ & HF).
  destruct (HF lf f R) as (eL & fL & oL & eR & fR & oR & rL & rR & lL & lR & E1 & OL & OR & E2 & EL & ER).
  assert (C : forall j, 0 <= j < 8 -> exists x, rd2 rows lf j = Ok x).
  { intros j Hj. unfold rd2, rows. rewrite E2. cbn [bind].
    assert (j = 0 \/ j = 1 \/ j = 2 \/ j = 3 \/ j = 4 \/ j = 5 \/ j = 6 \/ j = 7) as D by lia.
    destruct D as [-> | [-> | [-> | [-> | [-> | [-> | [-> | ->]]]]]]]; eexists; reflexivity. }
  split.
  { intros j Hj. destruct (C j Hj) as [x Hx]. unfold ent. now rewrite Hx. }
  unfold srank, selem, sface, sorient, ent, has_side, rd2, rows. rewrite E1, E2. cbn [bind].
  intros [|]; cbn [col].
  - exists eR. split; [repeat split; reflexivity|]. split; [exact OR|].
    intros C'. change (rR = r) in C'. rewrite (proj2 (Z.eqb_eq _ _) C') in ER. exact ER.
  - exists eL. split; [repeat split; reflexivity|]. split; [exact OL|].
    intros C'. change (rL = r) in C'. rewrite (proj2 (Z.eqb_eq _ _) C') in EL. exact EL.
Qed.

Lemma side_nonneg f sd e k o : has_side m f sd e k o -> 0 <= k /\ 0 <= o /\ 0 <= e < gm_num_elems m.
Proof.
  intros (H1 & H2 & H3). unfold rd2 in *. destruct (rd (gm_IF m) f) as [row|] eqn:E; [|discriminate]. cbn [bind] in *.
  pose proof (wf_if m (run_mesh _ _ _ _ WF)) as WI. rewrite Forall_forall in WI.
  destruct (WI row (rd_In _ _ _ E)) as (eL & fL & oL & eR & fR & oR & -> & HL & HR & ? & ? & ? & ?).
  destruct sd; cbv in H1, H2, H3; injection H1 as <-; injection H2 as <-; injection H3 as <-; auto.
Qed.

Lemma side_fun f sd e k o e' k' o' : has_side m f sd e k o -> has_side m f sd e' k' o' -> e = e' /\ k = k' /\ o = o'.
Proof. intros (H1 & H2 & H3) (H1' & H2' & H3'). repeat split; congruence. Qed.

Lemma local_faces r lf : 0 <= r < n -> 0 <= lf < pm_num_ifaces_part (pm r) -> exists f, rd (pm_l2g_iface (pm r)) lf = Ok f.
Proof.
  intros Hr Hlf. destruct (C04_interior_faces A zero iter n m ep pm WF PT) as [_ H]. destruct (H r Hr) as (_ & E & _ & _).
  apply rd_total. lia.
Qed.

Lemma rows_ok s nqf r qL qR : 0 <= r < n -> faces_valid s m -> faces_distinct m -> face_points s nqf ->
  face_quadrature_lookup (face_order s) (pm_interior_faces (pm r)) (pm_num_ifaces_part (pm r)) nqf = Ok (qL, qR) ->
  rows_wf r (pm_interior_faces (pm r)) (pm_num_ifaces_part (pm r)) nqf (pm_num_elems_part (pm r)) (faces_per_elem s) (qidx qL qR) /\
  forall lf sd iq o0, 0 <= lf < pm_num_ifaces_part (pm r) -> 0 <= iq < nqf ->
    qidx qL qR sd lf iq = face_order s (sorient (pm_interior_faces (pm r)) lf sd) nqf o0 iq.
Proof.
  intros Hr HV HD HP HQ. set (rows := pm_interior_faces (pm r)) in *. set (nif := pm_num_ifaces_part (pm r)) in *.
  destruct (C04_interior_faces A zero iter n m ep pm WF PT) as [_ H4]. destruct (H4 r Hr) as (ND & EL & _ & _). fold nif in EL.
  assert (Hnif : 0 <= nif) by (rewrite <- EL; apply zlen_nonneg).
  assert (RW : forall lf j, 0 <= lf < nif -> 0 <= j < 8 -> rd2 rows lf j = Ok (ent rows lf j)).
  { intros lf j Hlf Hj. destruct (local_faces r lf Hr Hlf) as [f R]. now apply (row_side r lf f Hr R). }
  destruct (lookup_ok (face_order s) rows nif nqf Hnif) as (qL' & qR' & EQ & Q).
  { intros lf j Hlf Hj. apply RW; lia. }
  rewrite EQ in HQ. injection HQ as -> ->.
  assert (OR : forall lf sd, 0 <= lf < nif -> 0 <= sorient rows lf sd < face_orientations s).
  { intros lf sd Hlf. destruct (local_faces r lf Hr Hlf) as [f R]. destruct (row_side r lf f Hr R) as [_ X].
    destruct (X sd) as (e & HS & _). pose proof (side_nonneg _ _ _ _ _ HS). pose proof (HV _ _ _ _ _ HS). unfold rows. lia. }
  assert (QS : forall lf sd iq o0, 0 <= lf < nif -> 0 <= iq < nqf ->
     qidx qL qR sd lf iq = face_order s (sorient rows lf sd) nqf o0 iq).
  { intros lf sd iq o0 Hlf Hiq. destruct (Q lf sd Hlf) as (o1 & Q1). rewrite (Q1 iq Hiq). apply order_any; auto. }
  split; [|exact QS].
  constructor.
  - exact RW.
  - intros lf sd Hlf Hrk. destruct (local_faces r lf Hr Hlf) as [f R]. destruct (row_side r lf f Hr R) as [_ X].
    destruct (X sd) as (e & HS & HO & HL). fold rows in HS, HO, HL. specialize (HL Hrk).
    destruct (C01_element_ownership A zero iter n m ep pm WF PT) as (_ & _ & H3 & _). destruct (H3 r Hr) as [_ EN].
    rewrite EN. split; [now apply rd_in_range in HL|].
    pose proof (side_nonneg _ _ _ _ _ HS). pose proof (HV _ _ _ _ _ HS). lia.
  - intros lf sd lf' sd' Hlf Hlf' Hrk Hrk' Ee Ek.
    destruct (local_faces r lf Hr Hlf) as [f R]. destruct (row_side r lf f Hr R) as [_ X].
    destruct (local_faces r lf' Hr Hlf') as [f' R']. destruct (row_side r lf' f' Hr R') as [_ X'].
    destruct (X sd) as (e & HS & HO & HL). destruct (X' sd') as (e' & HS' & HO' & HL').
    fold rows in HS, HO, HL, HS', HO', HL'. specialize (HL Hrk). specialize (HL' Hrk'). rewrite Ee in HL.
    assert (e = e') by congruence. subst e'. rewrite Ek in HS.
    destruct (HD _ _ _ _ _ _ _ _ HS HS') as [-> ->]. split; [|easy]. now apply (rd_NoDup_inj _ lf lf' f' ND).
  - intros lf sd iq Hlf Hiq. rewrite (QS lf sd iq (fun _ => 0)) by easy. apply order_perm; auto.
  - intros lf sd iq iq' Hlf Hiq Hiq'. rewrite (QS lf sd iq (fun _ => 0)), (QS lf sd iq' (fun _ => 0)) by easy.
    apply order_perm; auto.
Qed.

Lemma lookup_total s nqf r : 0 <= r < n ->
  exists qL qR, face_quadrature_lookup (face_order s) (pm_interior_faces (pm r)) (pm_num_ifaces_part (pm r)) nqf = Ok (qL, qR).
Proof.
  intros Hr. destruct (C04_interior_faces A zero iter n m ep pm WF PT) as [_ H4]. destruct (H4 r Hr) as (ND & EL & _ & _).
  destruct (lookup_ok (face_order s) (pm_interior_faces (pm r)) (pm_num_ifaces_part (pm r)) nqf) as (qL & qR & E & _).
  - rewrite <- EL. apply zlen_nonneg.
  - intros lf j Hlf Hj. destruct (local_faces r lf Hr Hlf) as [f R]. apply (row_side r lf f Hr R). lia.
  - eauto.
Qed.
End Mesh.
