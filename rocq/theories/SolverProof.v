(** SolverProof.v -- facts about the residual kernels of SolverModel.v. *)
From Coq Require Import ZArith List Lia Reals Lra Bool Permutation FunctionalExtensionality.
From Verif Require Import Base RBase LinAlgModel LinAlgProof PhysModel PhysSpec PhysProof ShapeModel MeshModel CommModel SolverModel.
Import ListNotations.
Local Open Scope R_scope.
Open Scope res_scope.

Lemma setrow_eq a e m : setrow a e m e = m.
Proof. unfold setrow. now rewrite Z.eqb_refl. Qed.
Lemma setrow_neq a e m e' : e' <> e -> setrow a e m e' = a e'.
Proof. intros H. unfold setrow. now rewrite (proj2 (Z.eqb_neq e' e) H). Qed.

(** A parallel loop over elements where iteration e replaces block e of the
    array, using only block e. *)
Lemma ploop_rows (order : list Z) (g : Z -> arr2 -> arr2) a : NoDup order ->
  forall e, ploop order (fun e a => setrow a e (g e (a e))) a e = if in_dec Z.eq_dec e order then g e (a e) else a e.
Proof.
  intros ND. unfold ploop.
  assert (X : forall l, NoDup l -> forall a e, fold_left (fun s i => setrow s i (g i (s i))) l a e =
     if in_dec Z.eq_dec e l then g e (a e) else a e).
  { induction l as [|x l IH]; intros NDl b e; cbn [fold_left]; [reflexivity|].
    inversion NDl as [|? ? Hx HN]; subst. rewrite IH by easy.
    destruct (in_dec Z.eq_dec e l) as [H|H].
    - assert (e <> x) by congruence. rewrite !setrow_neq by easy.
      destruct (in_dec Z.eq_dec e (x :: l)) as [|H']; [easy|]. destruct H'. now right.
    - destruct (Z.eq_dec e x) as [->|Hne].
      + rewrite setrow_eq. destruct (in_dec Z.eq_dec x (x :: l)) as [|H']; [easy|]. destruct H'. now left.
      + rewrite setrow_neq by easy. destruct (in_dec Z.eq_dec e (x :: l)) as [[H'|H']|]; [congruence|easy|easy]. }
  intros e. now apply X.
Qed.

Lemma perm_zseq_NoDup order n : Permutation order (zseq n) -> NoDup order.
Proof. intros P. apply (Permutation_NoDup (Permutation_sym P)), NoDup_zseq. Qed.

Lemma perm_zseq_In order n e : Permutation order (zseq n) -> (In e order <-> (0 <= e < n)%Z).
Proof.
  intros P. rewrite <- In_zseq. split; intros H; [eapply Permutation_in; eauto|].
  eapply Permutation_in; [apply Permutation_sym|]; eauto.
Qed.

Lemma ploop_rows_perm order n (g : Z -> arr2 -> arr2) a e : Permutation order (zseq n) ->
  ploop order (fun e a => setrow a e (g e (a e))) a e = if inb n e then g e (a e) else a e.
Proof.
  intros P. rewrite ploop_rows by (eapply perm_zseq_NoDup; eauto).
  destruct (in_dec Z.eq_dec e order) as [H|H]; rewrite (perm_zseq_In order n e P) in H.
  - now rewrite (proj2 (inb_true n e)).
  - now rewrite (proj2 (inb_false n e)).
Qed.

Lemma evaluate_state_entry order ne np ns nb bv Uc Uq e i s : Permutation order (zseq ne) ->
  evaluate_state order np ns nb bv Uc Uq e i s =
  if (inb ne e && inb np i && inb ns s)%bool then rsum nb (fun j => bv i j * Uc e j s) else Uq e i s.
Proof.
  intros P. unfold evaluate_state.
  rewrite (ploop_rows_perm order ne (fun e q => cAxB_to_C np ns nb 1 bv (Uc e) q)) by easy.
  destruct (inb ne e); cbn [andb]; [|easy]. unfold cAxB_to_C. rewrite gemm_entry.
  destruct (inb np i && inb ns s)%bool; [ring|easy].
Qed.

Lemma face_flux_integral_entry order ne np nb ns bv F rs e i s : Permutation order (zseq ne) ->
  face_flux_integral order np nb ns bv F rs e i s =
  if (inb ne e && inb nb i && inb ns s)%bool then rs e i s + rsum np (fun q => bv q i * F e q s) else rs e i s.
Proof.
  intros P. unfold face_flux_integral.
  rewrite (ploop_rows_perm order ne (fun e q => cATxBpC_to_C nb ns np 1 bv (F e) q)) by easy.
  destruct (inb ne e); cbn [andb]; [|easy]. unfold cATxBpC_to_C. rewrite gemm_entry.
  destruct (inb nb i && inb ns s)%bool; [ring|easy].
Qed.

Lemma mult_inv_mass_entry order ne nb ns dt iMM rs dU e i s : Permutation order (zseq ne) ->
  mult_inv_mass_matrix order nb ns dt iMM rs dU e i s =
  if (inb ne e && inb nb i && inb ns s)%bool then dt * rsum nb (fun j => iMM e i j * rs e j s) else dU e i s.
Proof.
  intros P. unfold mult_inv_mass_matrix.
  rewrite (ploop_rows_perm order ne (fun e q => cAxB_to_C nb ns nb dt (iMM e) (rs e) q)) by easy.
  destruct (inb ne e); cbn [andb]; [|easy]. unfold cAxB_to_C. rewrite gemm_entry.
  destruct (inb nb i && inb ns s)%bool; [ring|easy].
Qed.

(** Volume integral *)
Lemma acc_upd3 n e b s (f : Z -> R) rs e' b' s' :
  zloop n (fun id rs => upd3 rs e b s (rs e b s + f id)) rs e' b' s' =
  if ((e' =? e) && (b' =? b) && (s' =? s))%Z%bool then rs e' b' s' + rsum n f else rs e' b' s'.
Proof.
  induction n as [n H|n H IH] using zind.
  - rewrite zloop_0, rsum_0 by easy. destruct (_ && _)%bool; [ring|easy].
  - rewrite zloop_S, rsum_S by easy. unfold upd3 at 1.
    destruct ((e' =? e) && (b' =? b) && (s' =? s))%Z%bool eqn:E; [|exact IH].
    apply andb_true_iff in E. destruct E as [E E3]. apply andb_true_iff in E. destruct E as [E1 E2].
    apply Z.eqb_eq in E1, E2, E3. subst. rewrite IH. ring.
Qed.

Lemma acc2_upd3 nq nd e b s (f : Z -> Z -> R) rs e' b' s' :
  zloop nq (fun iq rs => zloop nd (fun id rs => upd3 rs e b s (rs e b s + f iq id)) rs) rs e' b' s' =
  if ((e' =? e) && (b' =? b) && (s' =? s))%Z%bool then rs e' b' s' + rsum nq (fun iq => rsum nd (f iq)) else rs e' b' s'.
Proof.
  induction nq as [n H|n H IH] using zind.
  - rewrite zloop_0, rsum_0 by easy. destruct (_ && _)%bool; [ring|easy].
  - rewrite zloop_S, rsum_S by easy. rewrite acc_upd3, IH.
    destruct ((e' =? e) && (b' =? b) && (s' =? s))%Z%bool; [ring|easy].
Qed.

Lemma vol_elem nb ns nq nd e (f : Z -> Z -> Z -> Z -> R) rs e' b' s' :
  zloop nb (fun ib rs => zloop ns (fun is rs => zloop nq (fun iq rs => zloop nd (fun id rs =>
      upd3 rs e ib is (rs e ib is + f ib is iq id)) rs) rs) rs) rs e' b' s' =
  if ((e' =? e)%Z && inb nb b' && inb ns s')%bool then rs e' b' s' + rsum nq (fun iq => rsum nd (f b' s' iq)) else rs e' b' s'.
Proof.
  assert (X : forall ns ib rs e' b' s', zloop ns (fun is rs => zloop nq (fun iq rs => zloop nd (fun id rs =>
      upd3 rs e ib is (rs e ib is + f ib is iq id)) rs) rs) rs e' b' s' =
      if ((e' =? e)%Z && (b' =? ib)%Z && inb ns s')%bool then rs e' b' s' + rsum nq (fun iq => rsum nd (f b' s' iq)) else rs e' b' s').
  { clear. intros ns ib. induction ns as [n H|n H IH] using zind; intros rs e' b' s'.
    - rewrite zloop_0 by easy. rewrite (proj2 (inb_false n s')) by lia. now rewrite andb_false_r.
    - rewrite zloop_S, acc2_upd3, IH, inb_S by easy.
      destruct (Z.eqb_spec e' e), (Z.eqb_spec b' ib), (Z.eqb_spec s' n); subst; cbn [andb orb]; rewrite ?orb_false_r, ?orb_true_r; try reflexivity.
      rewrite (proj2 (inb_false n n)) by lia. reflexivity. }
  induction nb as [n H|n H IH] using zind.
  - rewrite zloop_0 by easy. rewrite (proj2 (inb_false n b')) by lia. now rewrite andb_false_r.
  - rewrite zloop_S, X, IH, inb_S by easy.
    destruct (Z.eqb_spec e' e), (Z.eqb_spec b' n); subst; cbn [andb orb]; rewrite ?orb_false_r, ?orb_true_r; try reflexivity.
    rewrite (proj2 (inb_false n n)) by lia. cbn [andb]. destruct (inb ns s'); reflexivity.
Qed.

Lemma volume_flux_integral_entry order ne nq nb ns nd G F rs e i s : Permutation order (zseq ne) ->
  volume_flux_integral order nq nb ns nd G F rs e i s =
  if (inb ne e && inb nb i && inb ns s)%bool
  then rs e i s + rsum nq (fun q => rsum nd (fun d => G q i d * F e q s d)) else rs e i s.
Proof.
  intros P. unfold volume_flux_integral, ploop.
  assert (X : forall l, NoDup l -> forall rs, fold_left (fun s i => zloop nb (fun ib rs => zloop ns (fun is rs =>
       zloop nq (fun iq rs => zloop nd (fun id rs =>
      upd3 rs i ib is (rs i ib is + G iq ib id * F i iq is id)) rs) rs) rs) s) l rs e i s =
     if in_dec Z.eq_dec e l then (if (inb nb i && inb ns s)%bool then rs e i s + rsum nq (fun q => rsum nd (fun d => G q i d * F e q s d)) else rs e i s)
     else rs e i s).
  { induction l as [|x l IH]; intros ND b; cbn [fold_left]; [reflexivity|].
    inversion ND as [|? ? Hx HN]; subst. rewrite IH by easy. rewrite !(vol_elem nb ns nq nd x (fun ib is iq id => G iq ib id * F x iq is id)).
    destruct (in_dec Z.eq_dec e l) as [H|H].
    - assert (e <> x) by congruence. rewrite (proj2 (Z.eqb_neq e x)) by easy. cbn [andb].
      destruct (in_dec Z.eq_dec e (x :: l)) as [|H']; [easy|]. destruct H'. now right.
    - destruct (Z.eqb_spec e x) as [->|Hne]; cbn [andb].
      + destruct (in_dec Z.eq_dec x (x :: l)) as [|H']; [easy|]. destruct H'. now left.
      + destruct (in_dec Z.eq_dec e (x :: l)) as [[H'|H']|]; [congruence|easy|easy]. }
  rewrite X by (eapply perm_zseq_NoDup; eauto).
  destruct (in_dec Z.eq_dec e order) as [H|H]; rewrite (perm_zseq_In order ne e P) in H.
  - now rewrite (proj2 (inb_true ne e)).
  - now rewrite (proj2 (inb_false ne e)).
Qed.

(** L2 projection *)
Lemma L2_projection_entry order nq nb ns iMM bv djac wts f U rhs0 i s : Permutation order (zseq nq) ->
  L2_projection order nq nb ns iMM bv djac wts f U rhs0 i s =
  if (inb nb i && inb ns s)%bool
  then rsum nb (fun j => iMM i j * rsum nq (fun q => bv q j * (wts q * djac q * f q s))) else U i s.
Proof.
  intros P. unfold L2_projection. cbv zeta. unfold cAxB_to_C, cATxB_to_C. rewrite gemm_entry.
  destruct (inb nb i) eqn:Ei; destruct (inb ns s) eqn:Es; cbn [andb]; try reflexivity.
  rewrite Rmult_0_l, Rplus_0_l, Rmult_1_l. apply rsum_ext. intros j Hj. f_equal.
  rewrite gemm_entry, Es, (proj2 (inb_true nb j)) by easy. cbn [andb].
  rewrite Rmult_0_l, Rplus_0_l, Rmult_1_l. apply rsum_ext. intros q Hq. f_equal.
  assert (X : forall l, NoDup l -> forall f q s, ploop l (fun iq (f : arr2) => fun i j =>
      if (i =? iq)%Z then cA_to_A1 ns (wts iq * djac iq) (f iq) j else f i j) f q s =
      if in_dec Z.eq_dec q l then cA_to_A1 ns (wts q * djac q) (f q) s else f q s).
  { clear. unfold ploop. induction l as [|x l IH]; intros ND f q s; cbn [fold_left]; [reflexivity|].
    inversion ND as [|? ? Hx HN]; subst. rewrite IH by easy.
    destruct (in_dec Z.eq_dec q l) as [H|H].
    - assert (q <> x) by congruence.
      destruct (in_dec Z.eq_dec q (x :: l)) as [|H']; [|destruct H'; now right].
      f_equal. apply functional_extensionality. intros j. now rewrite (proj2 (Z.eqb_neq q x)).
    - destruct (Z.eqb_spec q x) as [->|Hne].
      + destruct (in_dec Z.eq_dec x (x :: l)) as [|H']; [easy|]. destruct H'. now left.
      + destruct (in_dec Z.eq_dec q (x :: l)) as [[H'|H']|]; [congruence|easy|easy]. }
  rewrite X by (eapply perm_zseq_NoDup; eauto).
  destruct (in_dec Z.eq_dec q order) as [H|H]; rewrite (perm_zseq_In order nq q P) in H; [|easy].
  rewrite cA_to_A1_entry, Es. reflexivity.
Qed.

(** A parallel loop whose iteration x overwrites (the first ns entries of) the
    slots given by [W x]. *)
Section Scatter.
Context {X : Type} (ns : Z) (W : X -> Z -> Z -> option (Z -> R)).

Definition wrote (x : X) (a a' : arr3) : Prop :=
  forall e s k, a' e s k = match W x e s with Some g => if inb ns k then g k else a e s k | None => a e s k end.

Lemma scatter (order : list X) (body : X -> arr3 -> res arr3) a0 :
  (forall x a, In x order -> exists a', body x a = Ok a' /\ wrote x a a') ->
  exists a', foreach order body a0 = Ok a' /\
    (forall x e s g k, In x order -> W x e s = Some g ->
       (forall y, In y order -> W y e s <> None -> y = x) ->
       a' e s k = if inb ns k then g k else a0 e s k) /\
    (forall e s k, (forall y, In y order -> W y e s = None) -> a' e s k = a0 e s k).
Proof.
  intros HB.
  destruct (foreach_inv (fun done a' =>
    (forall x e s g k, In x done -> W x e s = Some g -> (forall y, In y done -> W y e s <> None -> y = x) ->
       a' e s k = if inb ns k then g k else a0 e s k) /\
    (forall e s k, (forall y, In y done -> W y e s = None) -> a' e s k = a0 e s k)) body order a0) as (a' & E & H1 & H2).
  - split; [intros ? ? ? ? ? []|reflexivity].
  - intros done x todo a E [H1 H2].
    destruct (HB x a) as (a' & E' & HW). { rewrite E. apply in_or_app; right; now left. }
    exists a'. split; [easy|]. split.
    + intros y e s g k Hy Hg HU. rewrite HW. destruct (W x e s) as [g'|] eqn:Ex.
      * assert (x = y) by (apply HU; [apply in_or_app; right; now left|congruence]). subst y.
        rewrite Hg in Ex. injection Ex as <-. destruct (inb ns k) eqn:Ek; [easy|].
        destruct (W x e s); [|discriminate].
        (* outside the written range the value is the old one *)
        clear Hg. assert (HD : (forall y, In y done -> W y e s = None) \/ ~ (forall y, In y done -> W y e s = None)).
        { clear. induction done as [|z l [IH|IH]].
          - left. intros ? [].
          - destruct (W z e s) eqn:Ez; [right; intros C; rewrite C in Ez by (now left); discriminate|].
            left. intros y [->|Hy]; auto.
          - right. intros C. apply IH. intros y Hy. apply C. now right. }
        destruct HD as [HD|HD]; [now apply H2|].
        (* some earlier iteration also wrote here: it must be x itself *)
        assert (exists y g, In y done /\ W y e s = Some g) as (y & gy & Hy1 & Hy2).
        { clear - HD. induction done as [|z l IH]; [destruct HD; intros ? []|].
          destruct (W z e s) eqn:Ez; [exists z, r; split; [now left|easy]|].
          destruct IH as (y & gy & ? & ?); [|exists y, gy; split; [now right|easy]].
          intros C. apply HD. intros y [->|Hy]; auto. }
        rewrite (H1 y e s gy k Hy1 Hy2), Ek; [easy|].
        intros w Hw HwN.
        rewrite (HU w) by (auto; apply in_or_app; now left).
        symmetry. apply HU; [apply in_or_app; now left|congruence].
      * assert (Hy' : In y done).
        { apply in_app_or in Hy. destruct Hy as [|[->|[]]]; [easy|congruence]. }
        apply (H1 y); auto. intros w Hw. apply HU. apply in_or_app; now left.
    + intros e s k HN. rewrite HW. rewrite (HN x) by (apply in_or_app; right; now left).
      apply H2. intros y Hy. apply HN, in_or_app. now left.
  - exists a'. auto.
Qed.
End Scatter.

(** One row written by a checked loop over the state variables. *)
Lemma write_row fext Fe (vals : Z -> res R) (g : Z -> R) e s ns : (0 <= ns)%Z ->
  (forall is, (0 <= is < ns)%Z -> vals is = Ok (g is)) ->
  (forall is, (0 <= is < ns)%Z -> within3 fext e s is = true) ->
  exists Fe', zfor ns (fun is Fe => v <- vals is ;; wr3 fext Fe e s is v) Fe = Ok Fe' /\
    forall e' s' k, Fe' e' s' k = if ((e' =? e) && (s' =? s))%Z%bool then (if inb ns k then g k else Fe e' s' k) else Fe e' s' k.
Proof.
  intros Hns HV HW.
  destruct (zfor_inv (fun i Fe' => forall e' s' k, Fe' e' s' k =
    if ((e' =? e) && (s' =? s))%Z%bool then (if inb i k then g k else Fe e' s' k) else Fe e' s' k) ns
    (fun is Fe => v <- vals is ;; wr3 fext Fe e s is v) Fe) as (F' & E & H); auto.
  - intros e' s' k. rewrite (proj2 (inb_false 0 k)) by lia. destruct (_ && _)%bool; reflexivity.
  - intros i F Hi IH. rewrite HV by easy. cbn [bind]. unfold wr3. rewrite HW by easy. eexists; split; [reflexivity|].
    intros e' s' k. unfold upd3. rewrite IH, inb_S by lia.
    destruct (Z.eqb_spec e' e), (Z.eqb_spec s' s); cbn [andb]; try reflexivity.
    destruct (Z.eqb_spec k i); subst; [now rewrite orb_true_r|]. now rewrite orb_false_r.
  - exists F'. auto.
Qed.

Lemma within3_intro e0 e1 e2 i j k : (0 <= i < e0)%Z -> (0 <= j < e1)%Z -> (0 <= k < e2)%Z -> within3 (e0, e1, e2) i j k = true.
Proof. intros. unfold within3. rewrite !andb_true_iff, !Z.leb_le, !Z.ltb_lt. lia. Qed.

Definition all_pairs (n m : Z) : list (Z * Z) := list_prod (zseq n) (zseq m).

Lemma In_all_pairs n m i j : In (i, j) (all_pairs n m) <-> (0 <= i < n)%Z /\ (0 <= j < m)%Z.
Proof. unfold all_pairs. rewrite in_prod_iff, !In_zseq. reflexivity. Qed.

Lemma perm_pairs_In order n m i j : Permutation order (all_pairs n m) ->
  (In (i, j) order <-> (0 <= i < n)%Z /\ (0 <= j < m)%Z).
Proof.
  intros P. rewrite <- In_all_pairs. split; intros H; [eapply Permutation_in; eauto|].
  eapply Permutation_in; [apply Permutation_sym|]; eauto.
Qed.

(** The volume flux functor at one point. *)
Lemma transform_flux dim NS (F ij : arr1) (J : arr2) c g0 : (0 <= NS)%Z -> (0 <= dim)%Z ->
  forall id1 is, (0 <= id1 < dim)%Z -> (0 <= is < NS)%Z ->
  zloop dim (fun id1 g => zloop dim (fun id2 g => zloop NS (fun is g =>
      upd1 g (id1 * NS + is) (g (id1 * NS + is)%Z + F (id2 * NS + is)%Z * J id1 id2 * c)) g) g) g0 (id1 * NS + is)%Z =
  g0 (id1 * NS + is)%Z + rsum dim (fun id2 => F (id2 * NS + is)%Z * J id1 id2 * c).
Proof.
  intros HNS Hd.
  assert (A1 : forall n (f : Z -> R) b g k, (n <= NS)%Z -> zloop n (fun is g => upd1 g (b + is) (g (b + is)%Z + f is)) g k =
     if ((b <=? k) && (k <? b + n))%Z%bool then g k + f (k - b)%Z else g k).
  { intros n f b g k Hn. induction n as [n H|n H IH] using zind.
    - rewrite zloop_0 by easy. destruct (Z.leb_spec b k), (Z.ltb_spec k (b + n)); cbn [andb]; auto; lia.
    - rewrite zloop_S by easy. unfold upd1 at 1. destruct (Z.eqb_spec k (b + n)) as [->|Hne].
      + specialize (IH ltac:(lia)). rewrite IH.
        destruct (Z.leb_spec b (b + n)), (Z.ltb_spec (b + n) (b + n)), (Z.ltb_spec (b + n) (b + (n + 1))); cbn [andb]; try lia.
        repeat f_equal; lia.
      + rewrite IH by lia. destruct (Z.leb_spec b k), (Z.ltb_spec k (b + n)), (Z.ltb_spec k (b + (n + 1))); cbn [andb]; auto; lia. }
  assert (A2 : forall n (f : Z -> Z -> R) b g k, zloop n (fun id2 g => zloop NS (fun is g => upd1 g (b + is) (g (b + is)%Z + f id2 is)) g) g k =
     if ((b <=? k) && (k <? b + NS))%Z%bool then g k + rsum n (fun id2 => f id2 (k - b)%Z) else g k).
  { intros n f b g k. induction n as [n H|n H IH] using zind.
    - rewrite zloop_0, rsum_0 by easy. destruct (_ && _)%bool; [ring|easy].
    - rewrite zloop_S, rsum_S by easy. rewrite A1 by lia. rewrite IH.
      destruct ((b <=? k) && (k <? b + NS))%Z%bool; [ring|easy]. }
  intros id1 is H1 H2.
  assert (A3 : forall n, (0 <= n <= dim)%Z -> zloop n (fun id1 g => zloop dim (fun id2 g => zloop NS (fun is g =>
      upd1 g (id1 * NS + is) (g (id1 * NS + is)%Z + F (id2 * NS + is)%Z * J id1 id2 * c)) g) g) g0 (id1 * NS + is)%Z =
      if (id1 <? n)%Z then g0 (id1 * NS + is)%Z + rsum dim (fun id2 => F (id2 * NS + is)%Z * J id1 id2 * c) else g0 (id1 * NS + is)%Z).
  { intros n. induction n as [n H|n H IH] using zind; intros Hn.
    - rewrite zloop_0 by easy. destruct (Z.ltb_spec id1 n); [lia|easy].
    - rewrite zloop_S by easy. rewrite (A2 dim (fun id2 is => F (id2 * NS + is)%Z * J n id2 * c)), IH by lia.
      destruct (Z.eq_dec id1 n) as [->|Hne].
      + destruct (Z.leb_spec (n * NS) (n * NS + is)), (Z.ltb_spec (n * NS + is) (n * NS + NS)), (Z.ltb_spec n n), (Z.ltb_spec n (n + 1)); cbn [andb]; try lia.
        f_equal. apply rsum_ext. intros i _. repeat f_equal; lia.
      + destruct (Z.ltb_spec id1 n), (Z.ltb_spec id1 (n + 1)); try lia;
        destruct (Z.leb_spec (n * NS) (id1 * NS + is)), (Z.ltb_spec (id1 * NS + is) (n * NS + NS)); cbn [andb]; try reflexivity; exfalso; assert (id1 = n \/ id1 < n \/ n < id1)%Z as [?|[?|?]] by lia; nia. }
  rewrite A3 by lia. destruct (Z.ltb_spec id1 dim); [easy|lia].
Qed.

Lemma write_grad (ie iq NS : Z) (g : arr1) (v : arr4) n : (0 <= NS)%Z -> (0 <= n)%Z ->
  let s := zloop n (fun id s => zloop NS (fun is s =>
      let '(v, idx) := s in (upd4 v ie iq is id (g idx), (idx + 1)%Z)) s) (v, 0%Z) in
  snd s = (n * NS)%Z /\
  forall e q k d, fst s e q k d =
    if ((e =? ie)%Z && (q =? iq)%Z && inb NS k && inb n d)%bool then g (d * NS + k)%Z else v e q k d.
Proof.
  intros HNS Hn. cbv zeta.
  assert (A : forall m (id : Z) s, (0 <= m)%Z -> let s' := zloop m (fun is (s : arr4 * Z) =>
      let '(v, idx) := s in (upd4 v ie iq is id (g idx), (idx + 1)%Z)) s in
     snd s' = (snd s + m)%Z /\ forall e q k d, fst s' e q k d =
      if ((e =? ie)%Z && (q =? iq)%Z && inb m k && (d =? id)%Z)%bool then g (snd s + k)%Z else fst s e q k d).
  { intros m id [v0 i0]. induction m as [m H|m H IH] using zind; intros Hm; cbv zeta.
    - rewrite zloop_0 by easy. cbn [fst snd]. split; [lia|]. intros. rewrite (proj2 (inb_false m k)) by lia.
      now rewrite andb_false_r.
    - rewrite zloop_S by easy. specialize (IH H). cbv zeta in IH. cbn [fst snd] in IH.
      destruct (zloop m _ (v0, i0)) as [v1 i1]. cbn [fst snd] in *. destruct IH as [-> IH]. split; [lia|].
      intros e q k d. unfold upd4. rewrite IH, inb_S by easy.
      destruct (Z.eqb_spec e ie), (Z.eqb_spec q iq), (Z.eqb_spec k m), (Z.eqb_spec d id); subst; cbn [andb]; rewrite ?orb_true_r, ?orb_false_r, ?andb_true_r, ?andb_false_r; reflexivity. }
  induction n as [n H|n H IH] using zind.
  - rewrite zloop_0 by easy. cbn [fst snd]. split; [lia|]. intros. rewrite (proj2 (inb_false n d)) by lia.
    now rewrite andb_false_r.
  - rewrite zloop_S by easy. specialize (IH H). destruct (zloop n _ (v, 0%Z)) as [v1 i1]. cbn [fst snd] in IH.
    destruct IH as [-> IH]. destruct (A NS n (v1, (n * NS)%Z) HNS) as [A1 A2]. rewrite A1. cbn [fst snd] in *. split; [lia|].
    intros e q k d. rewrite A2, IH, inb_S by easy.
    destruct (Z.eqb_spec e ie), (Z.eqb_spec q iq), (Z.eqb_spec d n); subst; cbn [andb]; rewrite ?orb_true_r, ?orb_false_r, ?andb_true_r, ?andb_false_r; try reflexivity.
    rewrite (proj2 (inb_false n n)) by lia. rewrite andb_false_r. reflexivity.
Qed.

Lemma fill_row3 (Uq : arr3) ie iq n (f : Z -> R) e q k :
  zloop n (fun is Uq => upd3 Uq ie iq is (f is)) Uq e q k =
  if ((e =? ie)%Z && (q =? iq)%Z && inb n k)%bool then f k else Uq e q k.
Proof.
  induction n as [n H|n H IH] using zind.
  - rewrite zloop_0 by easy. rewrite (proj2 (inb_false n k)) by lia. now rewrite andb_false_r.
  - rewrite zloop_S by easy. unfold upd3 at 1. rewrite IH, inb_S by easy.
    destruct (Z.eqb_spec e ie), (Z.eqb_spec q iq), (Z.eqb_spec k n); subst; cbn [andb]; rewrite ?orb_true_r, ?orb_false_r; reflexivity.
Qed.

Lemma volume_flux_point_ok dim gamma djac ijac wts G1 G2 ie iq Uq v : dim23 dim ->
  PhysSpec.density (Uq ie iq) <> 0 ->
  exists Uq' v', volume_flux_point dim gamma djac ijac wts G1 G2 (ie, iq) (Uq, v) = Ok (Uq', v') /\
    (forall e q k, (e, q) <> (ie, iq) -> Uq' e q k = Uq e q k) /\
    forall e q k d, v' e q k d =
      if ((e =? ie)%Z && (q =? iq)%Z && inb (dim + 2) k && inb dim d)%bool
      then rsum dim (fun j => PhysSpec.euler_flux dim gamma (Uq ie iq) (PhysSpec.axis j) k * ijac ie iq d j) * djac ie iq * wts iq
      else v e q k d.
Proof.
  intros Hd HU. unfold volume_flux_point.
  destruct (conv_flux_interior_ok dim gamma (Uq ie iq) G1 Hd HU) as (F & E & EF & _).
  change (fun is => Uq ie iq is) with (Uq ie iq). rewrite E. cbn [bind]. cbv zeta.
  eexists _, _. split; [reflexivity|].
  assert (Hp : (0 <= dim)%Z) by (destruct Hd; lia).
  split.
  - intros e q k Hne. rewrite fill_row3.
    destruct (Z.eqb_spec e ie), (Z.eqb_spec q iq); subst; cbn [andb]; congruence.
  - intros e q k d.
    match goal with |- fst (zloop dim (fun id s => zloop _ (fun is s => let '(v, idx) := s in (_, _)) s) _) _ _ _ _ = _ =>
      destruct (write_grad ie iq (dim + 2) (zloop dim (fun id1 g => zloop dim (fun id2 g => zloop (dim + 2) (fun is g =>
      upd1 g (id1 * (dim + 2) + is) (g (id1 * (dim + 2) + is)%Z + F (id2 * (dim + 2) + is)%Z * ijac ie iq id1 id2 * djac ie iq * wts iq)) g) g)
       (zloop (dim * (dim + 2)) (fun i g => upd1 g i 0) G2)) v dim) as [_ W]; try lia end.
    rewrite W. clear W.
    destruct (Z.eqb_spec e ie), (Z.eqb_spec q iq); cbn [andb]; try reflexivity. subst.
    destruct (inb (dim + 2) k) eqn:Ek; cbn [andb]; [|reflexivity]. destruct (inb dim d) eqn:Ed; [|reflexivity].
    apply inb_true in Ek. apply inb_true in Ed.
    rewrite (zloop_ext dim _ (fun id1 g => zloop dim (fun id2 g => zloop (dim + 2) (fun is g =>
      upd1 g (id1 * (dim + 2) + is) (g (id1 * (dim + 2) + is)%Z + F (id2 * (dim + 2) + is)%Z * ijac ie iq id1 id2 * (djac ie iq * wts iq))) g) g)).
    2:{ intros i g _. apply zloop_ext. intros j g' _. apply zloop_ext. intros k' g'' _. f_equal. ring. }
    rewrite (transform_flux dim (dim + 2) F F (ijac ie iq) (djac ie iq * wts iq)) by lia.
    rewrite zloop_fill1. destruct (Z.leb_spec 0 (d * (dim + 2) + k)), (Z.ltb_spec (d * (dim + 2) + k) (dim * (dim + 2))); cbn [andb]; try nia.
    rewrite Rplus_0_l, Rmult_assoc, <- rsum_scal_r. apply rsum_ext. intros j Hj.
    rewrite <- EF by lia. replace (j * (dim + 2) + k)%Z with (k + j * (dim + 2))%Z by lia. ring.
Qed.

(** The volume flux functor over all points. *)
Lemma volume_fluxes_ok dim gamma djac ijac wts G1 G2 order ne nq Uq v : dim23 dim ->
  Permutation order (all_pairs ne nq) ->
  (forall e q, (0 <= e < ne)%Z -> (0 <= q < nq)%Z -> PhysSpec.density (Uq e q) <> 0) ->
  exists Uq' v', volume_fluxes dim gamma djac ijac wts G1 G2 order (Uq, v) = Ok (Uq', v') /\
    forall e q k d, v' e q k d =
      if (inb ne e && inb nq q && inb (dim + 2) k && inb dim d)%bool
      then rsum dim (fun j => PhysSpec.euler_flux dim gamma (Uq e q) (PhysSpec.axis j) k * ijac e q d j) * djac e q * wts q
      else v e q k d.
Proof.
  intros Hd P HU. unfold volume_fluxes.
  assert (ND : NoDup order).
  { apply (Permutation_NoDup (Permutation_sym P)). unfold all_pairs.
    clear. assert (X : forall l l' : list Z, NoDup l -> NoDup l' -> NoDup (list_prod l l')).
    { induction l as [|x l IH]; intros l' H H'; cbn [list_prod]; [constructor|].
      inversion H as [|? ? Hx HN]; subst.
      assert (Y : forall l1 l2 : list (Z * Z), NoDup l1 -> NoDup l2 -> (forall p, In p l1 -> ~ In p l2) -> NoDup (l1 ++ l2)).
      { clear. induction l1 as [|p l1 IH]; intros l2 H1 H2 HD; cbn; [easy|]. inversion H1; subst. constructor.
        - rewrite in_app_iff. intros [?|?]; [easy|]. apply (HD p); [now left|easy].
        - apply IH; auto. intros q Hq. apply HD. now right. }
      apply Y; [|now apply IH|].
      - apply FinFun.Injective_map_NoDup; [|easy]. intros a b. congruence.
      - intros p Hp. apply in_map_iff in Hp. destruct Hp as (y & <- & _). rewrite in_prod_iff. intros [? _]. easy. }
    apply X; apply NoDup_zseq. }
  destruct (foreach_inv (fun done s =>
     (forall e q k, ~ In (e, q) done -> fst s e q k = Uq e q k) /\
     (forall e q k d, In (e, q) done -> snd s e q k d =
        if (inb (dim + 2) k && inb dim d)%bool
      then rsum dim (fun j => PhysSpec.euler_flux dim gamma (Uq e q) (PhysSpec.axis j) k * ijac e q d j) * djac e q * wts q
      else v e q k d) /\
     (forall e q k d, ~ In (e, q) done -> snd s e q k d = v e q k d))
     (volume_flux_point dim gamma djac ijac wts G1 G2) order (Uq, v)) as ([Uq' v'] & E & H1 & H2 & H3).
  - cbn [fst snd]. repeat split; try easy. 
  - intros done [ie iq] todo [U w] E (H1 & H2 & H3). cbn [fst snd] in *.
    assert (Hin : In (ie, iq) order) by (rewrite E; apply in_or_app; right; now left).
    apply (perm_pairs_In order ne nq ie iq P) in Hin.
    assert (Hnew : ~ In (ie, iq) done).
    { rewrite E in ND. apply NoDup_remove_2 in ND. rewrite in_app_iff in ND. tauto. }
    assert (EU : U ie iq = Uq ie iq) by (apply functional_extensionality; intros k; now apply H1).
    destruct (volume_flux_point_ok dim gamma djac ijac wts G1 G2 ie iq U w Hd) as (U' & w' & Ew & P1 & P2).
    { rewrite EU. now apply HU. }
    exists (U', w'). split; [easy|]. cbn [fst snd]. rewrite EU in P2.
    assert (Hcase : forall e q, In (e, q) (done ++ [(ie, iq)]) <-> In (e, q) done \/ (e, q) = (ie, iq)).
    { intros e q. rewrite in_app_iff. cbn. intuition. }
    repeat split.
    + intros e q k Hn. rewrite Hcase in Hn. rewrite P1; [apply H1; tauto|]. intros C. apply Hn. now right.
    + intros e q k d Hn. rewrite Hcase in Hn. rewrite P2.
      destruct (Z.eqb_spec e ie), (Z.eqb_spec q iq); subst; cbn [andb]; try (destruct Hn as [Hn|Hn]; [now apply H2|congruence]).
      destruct (inb (dim + 2) k && inb dim d)%bool; [easy|]. now apply H3.
    + intros e q k d Hn. rewrite Hcase in Hn. rewrite P2.
      destruct (Z.eqb_spec e ie), (Z.eqb_spec q iq); subst; cbn [andb]; try (apply H3; tauto). destruct Hn. now right.
  - exists Uq', v'. split; [easy|]. cbn [fst snd] in *. intros e q k d.
    destruct (inb ne e) eqn:Ee; destruct (inb nq q) eqn:Eq; cbn [andb].
    + apply H2. apply (perm_pairs_In order ne nq e q P). split; now apply inb_true.
    + apply H3. rewrite (perm_pairs_In order ne nq e q P). intros [_ C]. apply inb_true in C. congruence.
    + apply H3. rewrite (perm_pairs_In order ne nq e q P). intros [C _]. apply inb_true in C. congruence.
    + apply H3. rewrite (perm_pairs_In order ne nq e q P). intros [C _]. apply inb_true in C. congruence.
Qed.
