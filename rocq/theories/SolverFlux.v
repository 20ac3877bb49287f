(** SolverFlux.v -- the face flux functor and the flattened face basis. *)
From Coq Require Import ZArith List Lia Reals Lra Bool Permutation FunctionalExtensionality.
From Verif Require Import Base RBase MeshModel MeshSpec 
  LinAlgModel LinAlgProof QuadModel QuadProof PhysModel PhysSpec PhysProof PropPhys ShapeModel CommModel CommSpec
  SolverModel SolverProof SolverFaces SolverSpec.
Import ListNotations.
Local Open Scope R_scope.
Open Scope res_scope.

Lemma numflux_ok t dim g UL UR N work : dim23 dim -> 1 < g -> admissible dim g UL -> admissible dim g UR ->
  vdot dim N N <> 0 ->
  returns_flux dim (fun F0 => get_conv_flux_numerical t dim g UL UR N F0 work) (numflux t dim g UL UR N).
Proof.
  intros Hd Hg HL HR HN F0. destruct t; cbn [get_conv_flux_numerical numflux].
  - exact (laxfriedrichs_ok dim g UL UR N F0 work Hd Hg HL HR HN).
  - exact (C51_hllc_total dim g UL UR N Hd Hg HL HR HN F0).
Qed.

(** The flux depends on the dim components of the normal only. *)
Definition same_vec (dim : Z) (a b : arr1) : Prop := forall i, (0 <= i < dim)%Z -> a i = b i.

Lemma vdot_ext_r dim a n n' : same_vec dim n n' -> vdot dim a n = vdot dim a n'.
Proof. intros H. apply rsum_ext. intros i Hi. now rewrite H. Qed.
Lemma vdot_ext2 dim n n' : same_vec dim n n' -> vdot dim n n = vdot dim n' n'.
Proof. intros H. apply rsum_ext. intros i Hi. now rewrite H. Qed.

Lemma euler_flux_ext dim g U n n' k : same_vec dim n n' -> (0 <= k < dim + 2)%Z ->
  euler_flux dim g U n k = euler_flux dim g U n' k.
Proof.
  intros H Hk. unfold euler_flux. rewrite (vdot_ext_r dim _ n n' H).
  destruct (Z.eqb_spec k 0); [easy|]. destruct (Z.eqb_spec k (dim + 1)); [easy|]. rewrite H by lia. reflexivity.
Qed.

Lemma star_flux_ext dim g U n n' S Sm k : same_vec dim n n' -> (0 <= k < dim + 2)%Z ->
  star_flux dim g U n S Sm k = star_flux dim g U n' S Sm k.
Proof.
  intros H Hk. unfold star_flux, star_state, un. rewrite (euler_flux_ext dim g U n n' k H Hk), (vdot_ext_r dim _ n n' H).
  destruct (Z.eqb_spec k 0); [easy|]. destruct (Z.eqb_spec k (dim + 1)); [easy|]. rewrite H by lia. reflexivity.
Qed.

Lemma toro_ext dim g UL UR n n' k : same_vec dim n n' -> (0 <= k < dim + 2)%Z ->
  toro_hllc dim g UL UR n k = toro_hllc dim g UL UR n' k.
Proof.
  intros H Hk.
  assert (EU : forall U, un dim U n = un dim U n') by (intros; now apply vdot_ext_r).
  assert (EP : p_star dim g UL UR n = p_star dim g UL UR n') by (unfold p_star; now rewrite !EU).
  assert (EL : wave_L dim g UL UR n = wave_L dim g UL UR n') by (unfold wave_L; now rewrite EP, !EU).
  assert (ER : wave_R dim g UL UR n = wave_R dim g UL UR n') by (unfold wave_R; now rewrite EP, !EU).
  assert (ES : wave_star dim g UL UR n = wave_star dim g UL UR n') by (unfold wave_star; now rewrite EL, ER, !EU).
  unfold toro_hllc. rewrite EL, ER, ES, !(euler_flux_ext dim g _ n n' k H Hk), !(star_flux_ext dim g _ n n' _ _ k H Hk). reflexivity.
Qed.

Lemma numflux_ext t dim g UL UR n n' k : same_vec dim n n' -> (0 <= k < dim + 2)%Z ->
  numflux t dim g UL UR n k = numflux t dim g UL UR n' k.
Proof.
  intros H Hk. assert (EV : vlen dim n = vlen dim n') by (unfold vlen; now rewrite (vdot_ext2 dim n n' H)).
  destruct t; cbn [numflux]; rewrite EV.
  - now rewrite !(euler_flux_ext dim g _ n n' k H Hk).
  - f_equal. apply toro_ext; [|easy]. intros i Hi. now rewrite H.
Qed.

Lemma face_fluxes_ok t dim g UqL UqR normals wts F0 W0 order nif nqf Fq0 : dim23 dim -> 1 < g ->
  Permutation order (all_pairs nif nqf) ->
  (forall lf iq, (0 <= lf < nif)%Z -> (0 <= iq < nqf)%Z ->
     admissible dim g (UqL lf iq) /\ admissible dim g (UqR lf iq) /\ vdot dim (normals lf iq) (normals lf iq) <> 0) ->
  exists Fq, face_fluxes t dim g UqL UqR normals wts F0 W0 order Fq0 = Ok Fq /\
    (forall lf iq k, (0 <= lf < nif)%Z -> (0 <= iq < nqf)%Z -> (0 <= k < dim + 2)%Z ->
       Fq lf iq k = numflux t dim g (UqL lf iq) (UqR lf iq) (normals lf iq) k * wts iq) /\
    (forall lf iq k, ~ ((0 <= lf < nif)%Z /\ (0 <= iq < nqf)%Z /\ (0 <= k < dim + 2)%Z) -> Fq lf iq k = Fq0 lf iq k).
Proof.
  intros Hd Hg P HU. unfold face_fluxes.
  set (W := fun (p : Z * Z) (e s : Z) => if pair_eqb (e, s) p then
     Some (fun k => numflux t dim g (UqL e s) (UqR e s) (normals e s) k * wts s) else None).
  destruct (scatter (dim + 2) W order (face_flux_point t dim g UqL UqR normals wts F0 W0) Fq0) as (Fq & E & H1 & H2).
  - intros [lf iq] a Hin. apply (perm_pairs_In order nif nqf lf iq P) in Hin. destruct Hin as [Hlf Hiq].
    destruct (HU lf iq Hlf Hiq) as (A1 & A2 & A3).
    destruct (numflux_ok t dim g _ _ _ W0 Hd Hg A1 A2 A3 F0) as (F & EF & HF & _).
    unfold face_flux_point. cbv zeta.
    change (fun is => UqL lf iq is) with (UqL lf iq). change (fun is => UqR lf iq is) with (UqR lf iq).
    change (fun d => normals lf iq d) with (normals lf iq). rewrite EF, bind_l. eexists. split; [reflexivity|].
    intros e s k. rewrite fill_row3. unfold W, pair_eqb. cbn [fst snd].
    destruct (Z.eqb_spec e lf), (Z.eqb_spec s iq); subst; cbn [andb]; try reflexivity.
    destruct (inb (dim + 2) k) eqn:Ek; [|easy]. apply inb_true in Ek. now rewrite HF.
  - exists Fq. split; [exact E|].
    assert (WN : forall y e s, W y e s <> None -> y = (e, s)).
    { intros y e s H. unfold W in H. destruct (pair_eqb (e, s) y) eqn:X; [|easy]. apply pair_eqb_eq in X. now symmetry. }
    assert (HW : forall lf iq, W (lf, iq) lf iq = Some (fun k => numflux t dim g (UqL lf iq) (UqR lf iq) (normals lf iq) k * wts iq)).
    { intros. unfold W. now rewrite (proj2 (pair_eqb_eq _ _) eq_refl). }
    split.
    + intros lf iq k Hlf Hiq Hk.
      rewrite (H1 (lf, iq) lf iq _ k (proj2 (perm_pairs_In order nif nqf lf iq P) (conj Hlf Hiq)) (HW lf iq)).
      * now rewrite (proj2 (inb_true (dim + 2) k)).
      * intros y _ Hy. now apply WN.
    + intros lf iq k HN.
      destruct (inb nif lf && inb nqf iq)%bool eqn:X.
      * apply andb_true_iff in X. rewrite !inb_true in X. destruct X as [X1 X2].
        rewrite (H1 (lf, iq) lf iq _ k (proj2 (perm_pairs_In order nif nqf lf iq P) (conj X1 X2)) (HW lf iq)).
        -- now rewrite (proj2 (inb_false (dim + 2) k)) by tauto.
        -- intros y _ Hy. now apply WN.
      * apply H2. intros y Hy. destruct (W y lf iq) eqn:EW; [|easy]. exfalso.
        rewrite (WN y lf iq) in Hy by (rewrite EW; discriminate).
        apply (perm_pairs_In order nif nqf lf iq P) in Hy. rewrite (proj2 (inb_true nif lf)), (proj2 (inb_true nqf iq)) in X by easy.
        discriminate.
Qed.

Lemma flat_face_basis_entry NFACE nqf nb bv p b : (0 <= p < NFACE * nqf)%Z -> (0 <= b < nb)%Z -> (0 < nqf)%Z -> (0 <= NFACE)%Z ->
  flat_face_basis NFACE nqf nb bv p b = bv (p / nqf)%Z (p mod nqf)%Z b.
Proof.
  intros Hp Hb Hq HN. unfold flat_face_basis.
  assert (K : forall i j h p b', zloop nb (fun k h => upd2 h (i * nqf + j) k (bv i j k)) h p b' =
     if ((p =? i * nqf + j)%Z && inb nb b')%bool then bv i j b' else h p b').
  { intros i j h p' b'. clear Hb. induction nb as [k H|k H IH] using zind.
    - rewrite zloop_0 by easy. rewrite (proj2 (inb_false k b')) by lia. now rewrite andb_false_r.
    - rewrite zloop_S by easy. unfold upd2 at 1. rewrite IH, inb_S by easy.
      destruct (Z.eqb_spec p' (i * nqf + j)), (Z.eqb_spec b' k); cbn [andb]; subst; rewrite ?orb_true_r, ?orb_false_r; reflexivity. }
  rewrite (fill_flat2 (fun (h : arr2) q => h q b) (fun j i h => zloop nb (fun k h => upd2 h (i * nqf + j) k (bv i j k)) h) nqf NFACE (fun j i => bv i j b)).
  - rewrite (proj2 (Z.leb_le 0 p)), (proj2 (Z.ltb_lt p (NFACE * nqf))) by lia. reflexivity.
  - lia.
  - easy.
  - intros j i h q Hj Hi. rewrite K, (proj2 (inb_true nb b)), andb_true_r by easy. reflexivity.
Qed.
