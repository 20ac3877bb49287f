(** SolverConserve.v -- sums of the face fluxes over the slots of a rank, and over
    all ranks. *)
From Coq Require Import ZArith List Lia Reals Lra Bool Permutation FunctionalExtensionality.
From Verif Require Import Base RBase MeshModel MeshSpec MeshProof MeshReadProof MeshProof2 PropMesh
  LinAlgModel LinAlgProof PhysModel PhysSpec PhysProof ShapeModel CommModel CommSpec
  SolverModel SolverProof SolverFaces SolverSpec SolverMesh.
Import ListNotations.
Local Open Scope R_scope.
Open Scope res_scope.

(** ** Sums over lists *)
Definition gsum {T} (l : list T) (f : T -> R) : R := fold_right Rplus 0 (map f l).

Lemma gsum_cons {T} x l (f : T -> R) : gsum (x :: l) f = f x + gsum l f.
Proof. reflexivity. Qed.

Lemma gsum_app {T} l l' (f : T -> R) : gsum (l ++ l') f = gsum l f + gsum l' f.
Proof. unfold gsum. rewrite map_app. apply fold_Rplus_app. Qed.

Lemma gsum_perm {T} l l' (f : T -> R) : Permutation l l' -> gsum l f = gsum l' f.
Proof. induction 1; rewrite ?gsum_cons in *; try lra. Qed.

Lemma gsum_ext {T} l (f g : T -> R) : (forall x, In x l -> f x = g x) -> gsum l f = gsum l g.
Proof. intros H. unfold gsum. f_equal. now apply map_ext_in. Qed.

Lemma gsum_zero {T} l (f : T -> R) : (forall x, In x l -> f x = 0) -> gsum l f = 0.
Proof.
  intros H. rewrite (gsum_ext l f (fun _ => 0) H). clear H. induction l as [|x l IH]; [reflexivity|].
  rewrite gsum_cons, IH. lra.
Qed.

Lemma gsum_map {T U} l (g : T -> U) (f : U -> R) : gsum (map g l) f = gsum l (fun x => f (g x)).
Proof. unfold gsum. now rewrite map_map. Qed.

Lemma gsum_flat_map {T U} l (g : T -> list U) (f : U -> R) : gsum (flat_map g l) f = gsum l (fun x => gsum (g x) f).
Proof.
  induction l as [|x l IH]; [reflexivity|]. cbn [flat_map]. rewrite gsum_app, gsum_cons, IH. reflexivity.
Qed.

Lemma gsum_filter {T} (p : T -> bool) l (f : T -> R) : gsum (filter p l) f = gsum l (fun x => if p x then f x else 0).
Proof.
  induction l as [|x l IH]; [reflexivity|]. cbn [filter]. rewrite gsum_cons, <- IH.
  destruct (p x); [now rewrite gsum_cons|lra].
Qed.

Lemma gsum_split {T} (p : T -> bool) l (f : T -> R) :
  gsum l f = gsum (filter p l) f + gsum (filter (fun x => negb (p x)) l) f.
Proof.
  induction l as [|x l IH]; [cbn; lra|]. cbn [filter]. rewrite gsum_cons, IH.
  destruct (p x); cbn [negb]; rewrite gsum_cons; lra.
Qed.

(** Only the terms of a sub-list B contribute. *)
Lemma gsum_support {T} (dec : forall x y : T, {x = y} + {x <> y}) (A B : list T) f :
  NoDup A -> NoDup B -> incl B A -> (forall x, In x A -> ~ In x B -> f x = 0) -> gsum A f = gsum B f.
Proof.
  intros NA NB I Z0. set (p := fun x => if in_dec dec x B then true else false).
  rewrite (gsum_split p A f), (gsum_zero (filter (fun x => negb (p x)) A)), Rplus_0_r.
  - apply gsum_perm. apply NoDup_Permutation; [now apply NoDup_filter|easy|].
    intros x. rewrite filter_In. unfold p. destruct (in_dec dec x B) as [H|H]; split; intros; intuition. discriminate.
  - intros x Hx. apply filter_In in Hx. destruct Hx as [HA Hp]. apply Z0; [easy|]. unfold p in Hp.
    destruct (in_dec dec x B); [discriminate|easy].
Qed.

Lemma rsum_gsum n f : rsum n f = gsum (zseq n) f.
Proof. reflexivity. Qed.

Lemma gsum_list_prod {T U} (a : list T) (b : list U) f :
  gsum (list_prod a b) f = gsum a (fun x => gsum b (fun y => f (x, y))).
Proof.
  induction a as [|x a IH]; [reflexivity|]. cbn [list_prod]. rewrite gsum_app, IH, gsum_cons, gsum_map. reflexivity.
Qed.

Lemma NoDup_list_prod {T U} (a : list T) (b : list U) : NoDup a -> NoDup b -> NoDup (list_prod a b).
Proof.
  intros Na Nb. induction Na as [|x a Hx Na IH]; cbn [list_prod]; [constructor|].
  assert (X : forall l l' : list (T * U), NoDup l -> NoDup l' -> (forall x, In x l -> ~ In x l') -> NoDup (l ++ l')).
  { induction l as [|y l IHl]; intros l' H1 H2 H3; cbn; [easy|]. inversion_clear H1. constructor.
    - rewrite in_app_iff. intros [?|?]; [easy|]. now apply (H3 y (or_introl eq_refl)).
    - apply IHl; auto. intros z Hz. apply H3. now right. }
  apply X.
  - apply FinFun.Injective_map_NoDup; [intros u v E; now inversion E|easy].
  - exact IH.
  - intros [u v] H1 H2. apply in_map_iff in H1. destruct H1 as (w & [= <- <-] & _). apply in_prod_iff in H2. easy.
Qed.

(** ** One rank *)
Section Rank.
Context (rank : Z) (rows : list (list Z)) (nif nqf ne NFACE ns : Z) (qL qR : Z -> Z -> Z).
Context (W : rows_wf rank rows nif nqf ne NFACE (qidx qL qR)) (Hns : (0 <= ns)%Z) (Hnif : (0 <= nif)%Z).

Let sl := slot rows nqf qL qR.

(** The (face, point, side) triples this rank writes. *)
Definition own_triples : list (Z * Z * bool) :=
  filter (fun t => let '(lf, iq, sd) := t in (srank rows lf sd =? rank)%Z)
    (list_prod (list_prod (zseq nif) (zseq nqf)) [false; true]).

Lemma In_own lf iq sd : In (lf, iq, sd) own_triples <->
  (0 <= lf < nif)%Z /\ (0 <= iq < nqf)%Z /\ srank rows lf sd = rank.
Proof.
  unfold own_triples. rewrite filter_In, !in_prod_iff, !In_zseq, Z.eqb_eq. cbn [In].
  destruct sd; intuition.
Qed.

Lemma own_NoDup : NoDup own_triples.
Proof.
  apply NoDup_filter. apply NoDup_list_prod; [apply NoDup_list_prod; apply NoDup_zseq|].
  repeat constructor; cbn; intuition discriminate.
Qed.

Lemma rank_sum (Fq Fe : arr3) (k : Z) :
  (forall lf sd iq, (0 <= lf < nif)%Z -> (0 <= iq < nqf)%Z -> srank rows lf sd = rank ->
       Fe (fst (sl lf sd iq)) (snd (sl lf sd iq)) k = sgn sd * Fq lf iq k) ->
  (forall e s, (0 <= e < ne)%Z -> (0 <= s < NFACE * nqf)%Z ->
     (forall lf sd iq, (0 <= lf < nif)%Z -> (0 <= iq < nqf)%Z -> srank rows lf sd = rank -> sl lf sd iq <> (e, s)) ->
       Fe e s k = 0) ->
  rsum ne (fun e => rsum (NFACE * nqf) (fun s => Fe e s k)) =
  rsum nif (fun lf => rsum nqf (fun iq =>
     (if (srank rows lf true =? rank)%Z then Fq lf iq k else 0) - (if (srank rows lf false =? rank)%Z then Fq lf iq k else 0))).
Proof.
  intros H1 H2.
  set (f := fun p : Z * Z => Fe (fst p) (snd p) k).
  transitivity (gsum (list_prod (zseq ne) (zseq (NFACE * nqf))) f); [rewrite gsum_list_prod; reflexivity|].
  set (tslot := fun t : Z * Z * bool => let '(lf, iq, sd) := t in sl lf sd iq).
  rewrite (gsum_support pair_dec _ (map tslot own_triples)).
  - rewrite gsum_map. unfold own_triples. rewrite gsum_filter, !gsum_list_prod.
    apply gsum_ext. intros lf Hlf. apply In_zseq in Hlf. apply gsum_ext. intros iq Hiq. apply In_zseq in Hiq.
    unfold gsum. cbn [map fold_right]. unfold f, tslot.
    destruct (Z.eqb_spec (srank rows lf true) rank) as [E|E]; destruct (Z.eqb_spec (srank rows lf false) rank) as [E'|E'];
      rewrite ?H1 by easy; cbn [sgn]; ring.
  - apply NoDup_list_prod; apply NoDup_zseq.
  - assert (X : forall l, NoDup l -> (forall x y, In x l -> In y l -> tslot x = tslot y -> x = y) -> NoDup (map tslot l)).
    { induction l as [|x l IH]; intros N HI; cbn; constructor; inversion_clear N.
      - intros C. apply in_map_iff in C. destruct C as (y & E & Hy). apply HI in E; [subst; easy|now right|now left].
      - apply IH; auto. intros a b Ha Hb. apply HI; now right. }
    apply X; [apply own_NoDup|].
    intros [[lf iq] sd] [[lf' iq'] sd'] Hx Hy E. apply In_own in Hx, Hy. destruct Hx as (A1 & A2 & A3), Hy as (B1 & B2 & B3).
    destruct (slot_inj _ _ _ _ _ _ _ _ W lf sd iq lf' sd' iq' A1 B1 A2 B2 A3 B3 E) as (-> & -> & ->). reflexivity.
  - intros p Hp. apply in_map_iff in Hp. destruct Hp as ([[lf iq] sd] & <- & Ht). apply In_own in Ht. destruct Ht as (A1 & A2 & A3).
    destruct (slot_range _ _ _ _ _ _ _ _ W lf sd iq A1 A2 A3) as [R1 R2].
    cbn [tslot]. unfold sl. rewrite (surjective_pairing (slot rows nqf qL qR lf sd iq)). apply in_prod_iff.
    rewrite !In_zseq. split; assumption.
  - intros [e s] Hin Hnot. apply in_prod_iff in Hin. rewrite !In_zseq in Hin. destruct Hin as [He Hs]. unfold f. cbn [fst snd].
    apply H2; auto. intros lf sd iq A1 A2 A3 E. apply Hnot. apply in_map_iff. exists (lf, iq, sd). split; [exact E|].
    now apply In_own.
Qed.
End Rank.

(** ** All ranks *)
Section Mesh.
Context {A : Type} (zero : A) (iter : Z -> list Z -> list Z) (n : Z) (m : gmesh A) (ep : list Z) (pm : Z -> pmesh A).
Context (WF : run_wf iter n m ep) (PT : partitioned zero iter n m ep pm).

Lemma local_sum r (h : Z -> R) (hl : Z -> R) : (0 <= r < n)%Z ->
  (forall lf f, rd (pm_l2g_iface (pm r)) lf = Ok f -> hl lf = h f) ->
  rsum (pm_num_ifaces_part (pm r)) hl = gsum (faces_of m ep r) h.
Proof.
  intros Hr H. destruct (C04_interior_faces A zero iter n m ep pm WF PT) as [_ H4]. destruct (H4 r Hr) as (_ & E & _ & _).
  rewrite <- E. rewrite <- (l2g_iface_form zero iter n m ep pm WF PT r Hr). clear E.
  generalize dependent (pm_l2g_iface (pm r)). intros l H.
  rewrite rsum_gsum. revert hl H. induction l as [|x l IH] using rev_ind; intros hl H; [reflexivity|].
  rewrite zlen_app. change (zlen [x]) with 1%Z. rewrite zseq_S by apply zlen_nonneg. rewrite !gsum_app.
  rewrite (IH hl).
  - f_equal. cbn. rewrite (H (zlen l) x); [reflexivity|]. apply rd_mid.
  - intros lf f R. apply H. rewrite rd_app1; [easy|]. apply rd_in_range in R. lia.
Qed.

Lemma ranks_cancel (g : Z -> R) :
  rsum n (fun r => gsum (faces_of m ep r) (fun f => (if (rkR m ep f =? r)%Z then g f else 0) - (if (rkL m ep f =? r)%Z then g f else 0))) = 0.
Proof.
  assert (X : forall l, (forall f, In f l -> (0 <= f < gm_nIF m)%Z) -> rsum n (fun r => gsum (filter (on_rank m ep r) l)
      (fun f => (if (rkR m ep f =? r)%Z then g f else 0) - (if (rkL m ep f =? r)%Z then g f else 0))) = 0).
  { induction l as [|f l IH]; intros Hl.
    - apply rsum_zero. reflexivity.
    - assert (E : forall r, gsum (filter (on_rank m ep r) (f :: l)) (fun f => (if (rkR m ep f =? r)%Z then g f else 0) - (if (rkL m ep f =? r)%Z then g f else 0))
         = ((if (r =? rkR m ep f)%Z then g f else 0) - (if (r =? rkL m ep f)%Z then g f else 0)) +
           gsum (filter (on_rank m ep r) l) (fun f => (if (rkR m ep f =? r)%Z then g f else 0) - (if (rkL m ep f =? r)%Z then g f else 0))).
      { intros r. cbn [filter]. unfold on_rank at 1. rewrite !(Z.eqb_sym r).
        destruct (Z.eqb_spec (rkL m ep f) r), (Z.eqb_spec (rkR m ep f) r); cbn [orb]; rewrite ?gsum_cons; try lra.
        - rewrite (proj2 (Z.eqb_eq _ _) e), (proj2 (Z.eqb_eq _ _) e0). lra.
        - rewrite (proj2 (Z.eqb_eq _ _) e), (proj2 (Z.eqb_neq _ _) n0). lra.
        - rewrite (proj2 (Z.eqb_neq _ _) n0), (proj2 (Z.eqb_eq _ _) e). lra. }
      rewrite (rsum_ext n _ _ (fun r _ => E r)). rewrite rsum_plus, IH by (intros; apply Hl; now right).
      rewrite rsum_minus.
      assert (B : forall x, (0 <= x < n)%Z -> rsum n (fun r => if (r =? x)%Z then g f else 0) = g f)
        by (intros x Hx; now rewrite (rsum_delta n x (fun _ => g f))).
      assert (Hf : (0 <= f < gm_nIF m)%Z) by (apply Hl; now left).
      assert (FR : face_ranks m ep f (rkL m ep f) (rkR m ep f)) by (apply (face_ranks_rk m n ep (run_mesh _ _ _ _ WF) (run_ep _ _ _ _ WF)); auto).
      destruct FR as (eL & eR & _ & _ & OL & OR).
      assert (RG : forall e r, owned_by ep e r -> (0 <= r < n)%Z).
      { intros e r O. pose proof (run_ep _ _ _ _ WF) as [_ FA]. rewrite Forall_forall in FA. apply FA. now apply rd_In in O. }
      rewrite !B by eauto. lra. }
  apply X. intros f. apply In_zseq.
Qed.
End Mesh.
