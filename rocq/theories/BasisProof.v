(** BasisProof.v -- closed forms of the basis routines, polynomials and their
    roots, derivatives of products. *)
From Coq Require Import ZArith List Lia Reals Lra Bool Psatz.
From Coquelicot Require Import Coquelicot.
From Verif Require Import Base RBase QuadModel QuadProof BasisModel.
Import ListNotations.
Local Open Scope R_scope.

(** * One-dimensional Lagrange functions *)

(** prod_{j<n, j<>i} (x - x_j) / (x_i - x_j) *)
Definition lag (n : Z) (xn : arr1) (i : Z) (x : R) : R :=
  rprod n (fun j => if (i =? j)%Z then 1 else (x - xn j) / (xn i - xn j)).
Definition dlag (n : Z) (xn : arr1) (i : Z) (x : R) : R :=
  rsum n (fun j => if (i =? j)%Z then 0 else
    rprod n (fun k => if (i =? k)%Z then 1 else if (j =? k)%Z then 1 / (xn i - xn k)
                      else (x - xn k) / (xn i - xn k))).

(** A loop whose iteration i rewrites entry i only. *)
Lemma zloop_entry {V} n (body : Z -> (Z -> V) -> Z -> V) (f : Z -> V) a k : (0 <= n)%Z ->
  (forall i a k, (0 <= i < n)%Z -> body i a k = if (k =? i)%Z then f k else a k) ->
  zloop n body a k = if ((0 <=? k) && (k <? n))%Z%bool then f k else a k.
Proof.
  intros Hn Hb.
  rewrite (fill_blocks (fun (s : Z -> V) q => s q) body 0 n 1 f); try lia.
  - replace (0 + n * 1)%Z with n by lia. reflexivity.
  - intros i s q Hi. rewrite Hb by easy.
    destruct (Z.leb_spec (0 + i * 1) q), (Z.ltb_spec q (0 + (i + 1) * 1)), (Z.eqb_spec q i); cbn; auto; lia.
Qed.

Lemma zloop_mul n (f : Z -> R) s : zloop n (fun i s => s * f i) s = s * rprod n f.
Proof.
  induction n as [n H|n H IH] using zind; [rewrite zloop_0, rprod_0 by easy; ring|].
  rewrite zloop_S, rprod_S, IH by easy. ring.
Qed.

Lemma lag_val n xn x phi i : (0 <= n)%Z ->
  get_lagrange_basis_val_1D n xn x phi i =
  if ((0 <=? i) && (i <? n))%Z%bool then lag n xn i x else phi i.
Proof.
  intros Hn. unfold get_lagrange_basis_val_1D.
  apply (zloop_entry n (fun i phi => zloop n (fun j phi => if (i =? j)%Z then phi
      else upd1 phi i (phi i * ((x - xn j) / (xn i - xn j)))) (upd1 phi i 1)) (fun i => lag n xn i x)); [easy|].
  clear phi i. intros i phi k Hi.
  assert (X : forall m, zloop m (fun j phi => if (i =? j)%Z then phi
      else upd1 phi i (phi i * ((x - xn j) / (xn i - xn j)))) (upd1 phi i 1) =
      upd1 phi i (rprod m (fun j => if (i =? j)%Z then 1 else (x - xn j) / (xn i - xn j)))).
  { intros m. induction m as [m H|m H IH] using zind; [now rewrite zloop_0, rprod_0|].
    rewrite zloop_S, IH, rprod_S by easy. apply FunctionalExtensionality.functional_extensionality. intros q.
    destruct (i =? m)%Z.
    - now rewrite Rmult_1_r.
    - rewrite upd1_eq. unfold upd1. now destruct (q =? i)%Z. }
  rewrite X. unfold upd1. destruct (Z.eqb_spec k i) as [->|]; reflexivity.
Qed.

Lemma lag_grad n xn x phi i : (0 <= n)%Z ->
  get_lagrange_basis_grad_1D n xn x phi i =
  if ((0 <=? i) && (i <? n))%Z%bool then dlag n xn i x else phi i.
Proof.
  intros Hn. unfold get_lagrange_basis_grad_1D.
  apply (zloop_entry n (fun (i : Z) (gphi : arr1) => zloop n (fun (j : Z) (gphi : arr1) =>
      if (i =? j)%Z then gphi else upd1 gphi i (gphi i + zloop n (fun k prod => if (i =? k)%Z then prod
              else if (j =? k)%Z then prod * (1 / (xn i - xn k)) else prod * ((x - xn k) / (xn i - xn k))) 1))
        (upd1 gphi i 0)) (fun i => dlag n xn i x)); [easy|].
  clear phi i. intros i phi k Hi.
  assert (P : forall j, zloop n (fun k prod => if (i =? k)%Z then prod
              else if (j =? k)%Z then prod * (1 / (xn i - xn k)) else prod * ((x - xn k) / (xn i - xn k))) 1 =
     rprod n (fun k => if (i =? k)%Z then 1 else if (j =? k)%Z then 1 / (xn i - xn k)
                      else (x - xn k) / (xn i - xn k))).
  { intros j. rewrite <- (Rmult_1_l (rprod n _)), <- zloop_mul. apply zloop_ext. intros k' s _.
    destruct (i =? k')%Z; [ring|]. now destruct (j =? k')%Z. }
  assert (X : forall m, zloop m (fun j gphi => if (i =? j)%Z then gphi
      else upd1 gphi i (gphi i + zloop n (fun k prod => if (i =? k)%Z then prod
              else if (j =? k)%Z then prod * (1 / (xn i - xn k)) else prod * ((x - xn k) / (xn i - xn k))) 1)) (upd1 phi i 0) =
      upd1 phi i (rsum m (fun j => if (i =? j)%Z then 0 else rprod n (fun k => if (i =? k)%Z then 1 else if (j =? k)%Z then 1 / (xn i - xn k)
                      else (x - xn k) / (xn i - xn k))))).
  { intros m. induction m as [m H|m H IH] using zind; [now rewrite zloop_0, rsum_0|].
    rewrite zloop_S, IH, rsum_S by easy. apply FunctionalExtensionality.functional_extensionality. intros q.
    destruct (i =? m)%Z.
    - now rewrite Rplus_0_r.
    - rewrite upd1_eq, P. unfold upd1. now destruct (q =? i)%Z. }
  rewrite X. unfold upd1. destruct (Z.eqb_spec k i) as [->|]; reflexivity.
Qed.

Definition distinct (n : Z) (xn : arr1) : Prop :=
  forall i j, (0 <= i < n)%Z -> (0 <= j < n)%Z -> i <> j -> xn i <> xn j.

Lemma lag_nodal n xn i j : distinct n xn -> (0 <= i < n)%Z -> (0 <= j < n)%Z ->
  lag n xn i (xn j) = if (i =? j)%Z then 1 else 0.
Proof.
  intros D Hi Hj. unfold lag. destruct (Z.eqb_spec i j) as [->|N].
  - apply rprod_one. intros k Hk. destruct (Z.eqb_spec j k) as [->|N]; [easy|].
    apply Rinv_r. specialize (D j k Hj Hk N). lra.
  - apply (rprod_zero n _ j); [easy|]. destruct (Z.eqb_spec i j); [easy|].
    unfold Rdiv. rewrite Rminus_eq_0. ring.
Qed.

(** * Derivatives *)

Lemma rprod_deriv n (f : Z -> R -> R) (df : Z -> R) x :
  (forall k, (0 <= k < n)%Z -> is_derive (f k) x (df k)) ->
  is_derive (fun x => rprod n (fun k => f k x)) x
    (rsum n (fun j => rprod n (fun k => if (j =? k)%Z then df k else f k x))).
Proof.
  induction n as [n H|n H IH] using zind; intros D.
  - apply (is_derive_ext (fun _ => 1)); [intros; now rewrite rprod_0|]. rewrite rsum_0 by easy. apply (is_derive_const (V := R_NormedModule)).
  - apply (is_derive_ext (fun x => rprod n (fun k => f k x) * f n x)); [intros; now rewrite rprod_S|].
    rewrite rsum_S by easy.
    rewrite (rsum_ext n _ (fun j => rprod n (fun k => if (j =? k)%Z then df k else f k x) * f n x)).
    2:{ intros j Hj. rewrite rprod_S by easy. destruct (Z.eqb_spec j n); [lia|]. easy. }
    rewrite rsum_scal_r, rprod_S, Z.eqb_refl by easy.
    rewrite (rprod_ext n (fun k => if (n =? k)%Z then df k else f k x) (fun k => f k x)).
    2:{ intros k Hk. destruct (Z.eqb_spec n k); [lia|easy]. }
    apply (is_derive_mult (fun x => rprod n (fun k => f k x)) (f n)); [apply IH; intros; apply D; lia|apply D; lia|].
    intros; apply Rmult_comm.
Qed.

Lemma lag_deriv n xn i x : distinct n xn -> (0 <= i < n)%Z -> is_derive (lag n xn i) x (dlag n xn i x).
Proof.
  intros D Hi. unfold lag, dlag.
  evar_last.
  apply (rprod_deriv n (fun j x => if (i =? j)%Z then 1 else (x - xn j) / (xn i - xn j))
     (fun j => if (i =? j)%Z then 0 else 1 / (xn i - xn j))).
  - intros k Hk. destruct (Z.eqb_spec i k) as [->|N]; [apply (is_derive_const (V := R_NormedModule))|].
    specialize (D i k Hi Hk N). auto_derive; [lra|]. field. lra.
  - apply rsum_ext. intros j Hj. destruct (Z.eqb_spec i j) as [->|N].
    + apply (rprod_zero n _ j); [easy|]. now rewrite Z.eqb_refl.
    + apply rprod_ext. intros k Hk. destruct (Z.eqb_spec j k) as [->|N']; [|easy].
      destruct (Z.eqb_spec i k); [lia|easy].
Qed.

(** * Polynomials with n coefficients *)
Definition is_poly (n : Z) (f : R -> R) : Prop :=
  exists c : Z -> R, forall x, f x = rsum n (fun k => c k * x ^ Z.to_nat k).

Lemma poly_ext n f g : (forall x, f x = g x) -> is_poly n f -> is_poly n g.
Proof. intros E [c H]. exists c. intros x. now rewrite <- E. Qed.

Lemma poly_plus n f g : is_poly n f -> is_poly n g -> is_poly n (fun x => f x + g x).
Proof.
  intros [c Hc] [d Hd]. exists (fun k => c k + d k). intros x. rewrite Hc, Hd, <- rsum_plus.
  apply rsum_ext. intros; ring.
Qed.

Lemma poly_scal n a f : is_poly n f -> is_poly n (fun x => a * f x).
Proof.
  intros [c Hc]. exists (fun k => a * c k). intros x. rewrite Hc, <- rsum_scal. apply rsum_ext. intros; ring.
Qed.

Lemma poly_zero n : is_poly n (fun _ => 0).
Proof. exists (fun _ => 0). intros x. symmetry. apply rsum_zero. intros; ring. Qed.

Lemma poly_sum n m (f : Z -> R -> R) : (forall k, (0 <= k < m)%Z -> is_poly n (f k)) ->
  is_poly n (fun x => rsum m (fun k => f k x)).
Proof.
  induction m as [m H|m H IH] using zind; intros P.
  - apply (poly_ext n (fun _ => 0)); [intros; now rewrite rsum_0|apply poly_zero].
  - apply (poly_ext n (fun x => rsum m (fun k => f k x) + f m x)); [intros; now rewrite rsum_S|].
    apply poly_plus; [apply IH; intros; apply P; lia|apply P; lia].
Qed.

Lemma poly_mono n k : (0 <= k < n)%Z -> is_poly n (fun x => x ^ Z.to_nat k).
Proof.
  intros Hk. exists (fun j => if (j =? k)%Z then 1 else 0). intros x.
  rewrite <- (rsum_delta n k (fun j => x ^ Z.to_nat j) Hk). apply rsum_ext. intros j Hj. destruct (j =? k)%Z; ring.
Qed.

Lemma poly_const n a : (0 < n)%Z -> is_poly n (fun _ => a).
Proof.
  intros. apply (poly_ext n (fun x => a * x ^ Z.to_nat 0)); [intros; cbn; ring|].
  apply poly_scal, poly_mono. lia.
Qed.

Lemma poly_weaken n m f : (0 <= n)%Z -> (n <= m)%Z -> is_poly n f -> is_poly m f.
Proof.
  intros Hn Hm [c Hc]. apply (poly_ext m (fun x => rsum n (fun k => c k * x ^ Z.to_nat k))); [intros; now rewrite Hc|].
  apply poly_sum. intros k Hk. apply poly_scal, poly_mono. lia.
Qed.

Lemma poly_mulx n f : (0 <= n)%Z -> is_poly n f -> is_poly (n + 1) (fun x => x * f x).
Proof.
  intros Hn [c Hc]. apply (poly_ext (n + 1) (fun x => rsum n (fun k => c k * x ^ Z.to_nat (k + 1)))).
  - intros x. rewrite Hc, <- rsum_scal. apply rsum_ext. intros k Hk.
    replace (Z.to_nat (k + 1)) with (S (Z.to_nat k)) by lia. cbn. ring.
  - apply poly_sum. intros k Hk. apply poly_scal, poly_mono. lia.
Qed.

Lemma poly_linear n a b f : (0 <= n)%Z -> is_poly n f -> is_poly (n + 1) (fun x => (a * x + b) * f x).
Proof.
  intros Hn P. apply (poly_ext (n + 1) (fun x => a * (x * f x) + b * f x)); [intros; ring|].
  apply poly_plus; apply poly_scal; [now apply poly_mulx|]. apply (poly_weaken n); auto; lia.
Qed.

(** Dividing by a root. *)
Lemma poly_divide n f a : (0 <= n)%Z -> is_poly (n + 1) f ->
  exists g, is_poly n g /\ forall x, f x - f a = (x - a) * g x.
Proof.
  intros Hn [c Hc].
  assert (M : forall k, (0 <= k <= n)%Z -> exists g, is_poly n g /\ forall x, x ^ Z.to_nat k - a ^ Z.to_nat k = (x - a) * g x).
  { intros k. induction k as [k H|k H IH] using zind; intros Hk.
    - exists (fun _ => 0). split; [apply poly_zero|]. intros x. replace (Z.to_nat k) with 0%nat by lia. cbn; ring.
    - destruct IH as (g & Pg & Eg); [lia|].
      exists (fun x => a * g x + x ^ Z.to_nat k). split.
      + apply poly_plus; [now apply poly_scal|apply poly_mono; lia].
      + intros x. replace (Z.to_nat (k + 1)) with (S (Z.to_nat k)) by lia. cbn [pow].
        specialize (Eg x). replace (x * x ^ Z.to_nat k - a * a ^ Z.to_nat k) with
          ((x - a) * x ^ Z.to_nat k + a * (x ^ Z.to_nat k - a ^ Z.to_nat k)) by ring. rewrite Eg. ring. }
  assert (X : forall m, (0 <= m <= n + 1)%Z -> exists g, is_poly n g /\
     forall x, rsum m (fun k => c k * x ^ Z.to_nat k) - rsum m (fun k => c k * a ^ Z.to_nat k) = (x - a) * g x).
  { intros m. induction m as [m H|m H IH] using zind; intros Hm.
    - exists (fun _ => 0). split; [apply poly_zero|]. intros x. rewrite !rsum_0 by easy. ring.
    - destruct IH as (g & Pg & Eg); [lia|]. destruct (M m ltac:(lia)) as (h & Ph & Eh).
      exists (fun x => g x + c m * h x). split; [apply poly_plus; [easy|now apply poly_scal]|].
      intros x. rewrite !rsum_S by easy. specialize (Eg x). specialize (Eh x).
      replace (rsum m (fun k => c k * x ^ Z.to_nat k) + c m * x ^ Z.to_nat m - (rsum m (fun k => c k * a ^ Z.to_nat k) + c m * a ^ Z.to_nat m))
        with ((rsum m (fun k => c k * x ^ Z.to_nat k) - rsum m (fun k => c k * a ^ Z.to_nat k)) + c m * (x ^ Z.to_nat m - a ^ Z.to_nat m)) by ring.
      rewrite Eg, Eh. ring. }
  destruct (X (n + 1)%Z ltac:(lia)) as (g & Pg & Eg). exists g. split; [easy|]. intros x. now rewrite !Hc.
Qed.

(** n distinct roots force a polynomial with n coefficients to vanish. *)
Lemma poly_roots n xn : distinct n xn -> forall f, is_poly n f -> (forall i, (0 <= i < n)%Z -> f (xn i) = 0) ->
  forall x, f x = 0.
Proof.
  induction n as [n H|n H IH] using zind; intros D f P Z x.
  - destruct P as [c Hc]. rewrite Hc. now rewrite rsum_0.
  - destruct (poly_divide n f (xn n) H P) as (g & Pg & Eg).
    assert (G : forall x, g x = 0).
    { apply IH; [intros i j Hi Hj; apply D; lia|exact Pg|]. intros i Hi.
      specialize (Eg (xn i)). rewrite !Z in Eg by lia. assert (xn i <> xn n) by (apply D; lia).
      assert (E : (xn i - xn n) * g (xn i) = 0) by lra. apply Rmult_integral in E as [E|E]; lra. }
    specialize (Eg x). rewrite G, (Z n) in Eg by lia. lra.
Qed.

Lemma lag_poly n xn i : distinct n xn -> (0 <= i < n)%Z -> is_poly n (lag n xn i).
Proof.
  intros D Hi. unfold lag.
  assert (X : forall m, (0 <= m <= n)%Z -> is_poly (if (i <? m)%Z then m else m + 1)
    (fun x => rprod m (fun j => if (i =? j)%Z then 1 else (x - xn j) / (xn i - xn j)))).
  { intros m. induction m as [m H|m H IH] using zind; intros Hm.
    - replace m with 0%Z by lia. destruct (Z.ltb_spec i 0); [lia|].
      apply (poly_ext _ (fun _ => 1)); [intros; now rewrite rprod_0|]. apply poly_const. lia.
    - specialize (IH ltac:(lia)).
      destruct (Z.eqb_spec i m) as [->|N].
      + rewrite Z.ltb_irrefl in IH. destruct (Z.ltb_spec m (m + 1)); [|lia].
        eapply poly_ext; [|exact IH]. intros x. rewrite rprod_S, Z.eqb_refl by easy. now rewrite Rmult_1_r.
      + assert (E : ((if i <? m + 1 then m + 1 else m + 1 + 1) = (if i <? m then m else m + 1) + 1)%Z).
        { destruct (Z.ltb_spec i (m + 1)), (Z.ltb_spec i m); lia. }
        rewrite E. eapply poly_ext; [|refine (poly_linear _ (/ (xn i - xn m)) (- xn m / (xn i - xn m)) _ _ IH)].
        * intros x. cbn beta. rewrite rprod_S by easy. destruct (Z.eqb_spec i m); [easy|]. unfold Rdiv. ring.
        * destruct (i <? m)%Z; lia. }
  specialize (X n ltac:(lia)). destruct (Z.ltb_spec i n); [exact X|lia].
Qed.

Lemma lag_interp n xn f : (0 <= n)%Z -> distinct n xn -> is_poly n f ->
  forall x, rsum n (fun i => f (xn i) * lag n xn i x) = f x.
Proof.
  intros Hn D P x.
  assert (X : forall x, rsum n (fun i => f (xn i) * lag n xn i x) + -1 * f x = 0).
  { apply (poly_roots n xn D).
    - apply poly_plus; [|now apply poly_scal]. apply poly_sum. intros i Hi. apply poly_scal. now apply lag_poly.
    - intros j Hj. rewrite (rsum_ext n _ (fun i => if (i =? j)%Z then f (xn i) else 0)).
      + rewrite rsum_delta by easy. ring.
      + intros i Hi. rewrite lag_nodal by easy. destruct (i =? j)%Z; ring. }
  specialize (X x). lra.
Qed.

Lemma lag_sum n xn x : (0 < n)%Z -> distinct n xn -> rsum n (fun i => lag n xn i x) = 1.
Proof.
  intros Hn D. rewrite <- (lag_interp n xn (fun _ => 1) ltac:(lia) D (poly_const n 1 Hn) x).
  apply rsum_ext. intros; ring.
Qed.

Lemma rsum_deriv n (f : Z -> R -> R) (df : Z -> R) x :
  (forall k, (0 <= k < n)%Z -> is_derive (f k) x (df k)) ->
  is_derive (fun x => rsum n (fun k => f k x)) x (rsum n df).
Proof.
  induction n as [n H|n H IH] using zind; intros D.
  - apply (is_derive_ext (fun _ => 0)); [intros; now rewrite rsum_0|]. rewrite rsum_0 by easy. apply (is_derive_const (V := R_NormedModule)).
  - apply (is_derive_ext (fun x => rsum n (fun k => f k x) + f n x)); [intros; now rewrite rsum_S|].
    rewrite rsum_S by easy. apply (is_derive_plus (V := R_NormedModule)); [apply IH; intros; apply D; lia|apply D; lia].
Qed.

Lemma dlag_sum n xn x : (0 < n)%Z -> distinct n xn -> rsum n (fun i => dlag n xn i x) = 0.
Proof.
  intros Hn D. 
  assert (E : is_derive (fun x => rsum n (fun i => lag n xn i x)) x (rsum n (fun i => dlag n xn i x))).
  { apply rsum_deriv. intros; now apply lag_deriv. }
  apply is_derive_unique in E. rewrite <- E. rewrite (Derive_ext _ (fun _ => 1)); [apply Derive_const|].
  intros; now apply lag_sum.
Qed.

(** * Rows and tensor products *)
Lemma rows_spec nq (f : Z -> arr1 -> arr1) a : (0 <= nq)%Z -> forall i,
  zloop nq (fun iq a => set_row a iq (f iq)) a i = if ((0 <=? i) && (i <? nq))%Z%bool then f i (a i) else a i.
Proof.
  intros H i. 
  assert (X : forall m, (0 <= m)%Z -> zloop m (fun iq a => set_row a iq (f iq)) a i = if ((0 <=? i) && (i <? m))%Z%bool then f i (a i) else a i).
  { intros m. induction m as [m Hm|m Hm IH] using zind; intros Hm0.
    - rewrite zloop_0 by easy. destruct (Z.leb_spec 0 i), (Z.ltb_spec i m); cbn; auto; lia.
    - rewrite zloop_S by easy. apply FunctionalExtensionality.functional_extensionality. intros j.
      unfold set_row at 1. destruct (Z.eqb_spec i m) as [->|N].
      + rewrite IH by easy. destruct (Z.leb_spec 0 m), (Z.ltb_spec m m), (Z.ltb_spec m (m+1)); cbn; auto; lia.
      + rewrite IH by easy. destruct (Z.leb_spec 0 i), (Z.ltb_spec i m), (Z.ltb_spec i (m+1)); cbn; auto; lia. }
  now apply X.
Qed.

Lemma rows3_spec nq (f : Z -> arr1 -> arr1) a : (0 <= nq)%Z -> forall i j d,
  zloop nq (fun iq a => set_row3 a iq 0 (f iq)) a i j d =
  if ((0 <=? i) && (i <? nq) && (d =? 0))%Z%bool then f i (fun j => a i j 0%Z) j else a i j d.
Proof.
  intros H i j d.
  assert (X : forall m, (0 <= m)%Z -> forall j d, zloop m (fun iq a => set_row3 a iq 0 (f iq)) a i j d =
     if ((0 <=? i) && (i <? m) && (d =? 0))%Z%bool then f i (fun j => a i j 0%Z) j else a i j d).
  { intros m. induction m as [m Hm|m Hm IH] using zind; intros Hm0 j' d'.
    - rewrite zloop_0 by easy. destruct (Z.leb_spec 0 i), (Z.ltb_spec i m); cbn; auto; lia.
    - rewrite zloop_S by easy. 
      unfold set_row3 at 1. destruct (Z.eqb_spec i m) as [->|N]; cbn [andb].
      + replace (fun j0 => zloop m (fun iq a0 => set_row3 a0 iq 0 (f iq)) a m j0 0%Z) with (fun j0 => a m j0 0%Z).
        2:{ apply FunctionalExtensionality.functional_extensionality. intros j0. rewrite IH by easy.
            destruct (Z.leb_spec 0 m), (Z.ltb_spec m m); cbn; auto; lia. }
        rewrite IH by easy. destruct (Z.leb_spec 0 m), (Z.ltb_spec m m), (Z.ltb_spec m (m+1)), (d' =? 0)%Z; cbn; auto; lia.
      + rewrite IH by easy. destruct (Z.leb_spec 0 i), (Z.ltb_spec i m), (Z.ltb_spec i (m+1)); cbn; auto; lia. }
  now apply X.
Qed.

(** Outer loop over the points; each iteration fills the range [0, N) of row iq. *)
Lemma outer_rows {S V} (get : S -> Z -> Z -> V) (body : Z -> S -> S) nq N (W : Z -> Z -> V) s i q : (0 <= nq)%Z ->
  (forall iq s i q, (0 <= iq < nq)%Z ->
     get (body iq s) i q = if ((i =? iq) && ((0 <=? q) && (q <? N)))%Z%bool then W iq q else get s i q) ->
  get (zloop nq body s) i q =
  if (((0 <=? i) && (i <? nq)) && ((0 <=? q) && (q <? N)))%Z%bool then W i q else get s i q.
Proof.
  intros Hn Hb.
  assert (X : forall m, (0 <= m <= nq)%Z -> get (zloop m body s) i q =
    if (((0 <=? i) && (i <? m)) && ((0 <=? q) && (q <? N)))%Z%bool then W i q else get s i q).
  { intros m. induction m as [m Hm|m Hm IH] using zind; intros Hm0.
    - rewrite zloop_0 by easy. destruct (Z.leb_spec 0 i), (Z.ltb_spec i m); cbn; auto; lia.
    - rewrite zloop_S, Hb, IH by lia.
      destruct (Z.eqb_spec i m) as [->|N'].
      + destruct (Z.leb_spec 0 m), (Z.ltb_spec m m), (Z.ltb_spec m (m+1)), ((0 <=? q) && (q <? N))%Z%bool; cbn; auto; lia.
      + destruct (Z.leb_spec 0 i), (Z.ltb_spec i m), (Z.ltb_spec i (m+1)), ((0 <=? q) && (q <? N))%Z%bool; cbn; auto; lia. }
  apply X. lia.
Qed.

Definition z1 : arr1 := fun _ => 0.

Lemma zloop_keep {S V} (get : S -> V) n (body : Z -> S -> S) s :
  (forall k s, (0 <= k < n)%Z -> get (body k s) = get s) -> get (zloop n body s) = get s.
Proof.
  intros H. assert (X : forall m, (m <= n)%Z -> get (zloop m body s) = get s).
  { intros m. induction m as [m Hm|m Hm IH] using zind; intros Hm0; [now rewrite zloop_0|].
    rewrite zloop_S, H by lia. apply IH. lia. }
  now apply X.
Qed.

Lemma tensor_val_2D val1 nq pts p val i q : (0 <= nq)%Z -> (0 <= p)%Z ->
  basis_val_2D val1 nq pts p val i q =
  if (((0 <=? i) && (i <? nq)) && ((0 <=? q) && (q <? (p + 1) * (p + 1))))%Z%bool
  then val1 (pts i 0%Z) z1 (q mod (p + 1))%Z * val1 (pts i 1%Z) z1 (q / (p + 1))%Z
  else val i q.
Proof.
  intros Hq Hp. unfold basis_val_2D.
  assert (S : forall m, zloop m (fun iq (s : arr2 * arr2) =>
     (set_row (fst s) iq (val1 (pts iq 0%Z)), set_row (snd s) iq (val1 (pts iq 1%Z)))) (fun _ _ => 0, fun _ _ => 0) =
     (zloop m (fun iq a => set_row a iq (val1 (pts iq 0%Z))) (fun _ _ => 0),
      zloop m (fun iq a => set_row a iq (val1 (pts iq 1%Z))) (fun _ _ => 0))).
  { intros m. induction m as [m Hm|m Hm IH] using zind; [now rewrite !zloop_0|].
    rewrite !zloop_S, IH by lia. reflexivity. }
  rewrite S. cbn [fst snd].
  apply (outer_rows (fun (s : arr2) i q => s i q) _ nq ((p+1)*(p+1))
    (fun i q => val1 (pts i 0%Z) z1 (q mod (p + 1))%Z * val1 (pts i 1%Z) z1 (q / (p + 1))%Z)); [easy|].
  clear i q val. intros iq val i q Hi.
  rewrite !rows_spec by easy. destruct (Z.leb_spec 0 iq); [|lia]. destruct (Z.ltb_spec iq nq); [|lia]. cbn [andb].
  destruct (Z.eqb_spec i iq) as [->|N]; cbn [andb].
  - apply (fill_flat2 (fun (s : arr2) q => s iq q)
     (fun i0 j0 val0 => upd2 val0 iq (j0 * (p + 1) + i0)%Z (val1 (pts iq 0%Z) z1 i0 * val1 (pts iq 1%Z) z1 j0)) (p+1) (p+1)
     (fun i0 j0 => val1 (pts iq 0%Z) z1 i0 * val1 (pts iq 1%Z) z1 j0)); try lia.
    intros i0 j0 s q0 Hi0 Hj0. unfold upd2. rewrite Z.eqb_refl. reflexivity.
  - apply (zloop_keep (fun s : arr2 => s i q)). intros k s Hk.
    apply (zloop_keep (fun s : arr2 => s i q)). intros k' s' Hk'. apply upd2_neq. now left.
Qed.

Lemma tensor_grad_2D val1 grad1 nq pts p grad i q d : (0 <= nq)%Z -> (0 <= p)%Z ->
  basis_grad_2D val1 grad1 nq pts p grad i q d =
  if (((0 <=? i) && (i <? nq)) && ((0 <=? q) && (q <? (p + 1) * (p + 1))))%Z%bool then
    if (d =? 0)%Z then grad1 (pts i 0%Z) z1 (q mod (p + 1))%Z * val1 (pts i 1%Z) z1 (q / (p + 1))%Z
    else if (d =? 1)%Z then val1 (pts i 0%Z) z1 (q mod (p + 1))%Z * grad1 (pts i 1%Z) z1 (q / (p + 1))%Z
    else grad i q d
  else grad i q d.
Proof.
  intros Hq Hp. unfold basis_grad_2D.
  assert (S : forall m, zloop m (fun iq (s : arr2 * arr2 * arr3 * arr3) =>
     let '(valx, valy, gradx, grady) := s in
     (set_row valx iq (val1 (pts iq 0%Z)), set_row valy iq (val1 (pts iq 1%Z)),
      set_row3 gradx iq 0 (grad1 (pts iq 0%Z)), set_row3 grady iq 0 (grad1 (pts iq 1%Z))))
     (fun _ _ => 0, fun _ _ => 0, fun _ _ _ => 0, fun _ _ _ => 0) =
     (zloop m (fun iq a => set_row a iq (val1 (pts iq 0%Z))) (fun _ _ => 0),
      zloop m (fun iq a => set_row a iq (val1 (pts iq 1%Z))) (fun _ _ => 0),
      zloop m (fun iq a => set_row3 a iq 0 (grad1 (pts iq 0%Z))) (fun _ _ _ => 0),
      zloop m (fun iq a => set_row3 a iq 0 (grad1 (pts iq 1%Z))) (fun _ _ _ => 0))).
  { intros m. induction m as [m Hm|m Hm IH] using zind; [now rewrite !zloop_0|].
    rewrite !zloop_S, IH by lia. reflexivity. }
  rewrite S.
  set (W := fun d i q => if (d =? 0)%Z then grad1 (pts i 0%Z) z1 (q mod (p + 1))%Z * val1 (pts i 1%Z) z1 (q / (p + 1))%Z
    else if (d =? 1)%Z then val1 (pts i 0%Z) z1 (q mod (p + 1))%Z * grad1 (pts i 1%Z) z1 (q / (p + 1))%Z else grad i q d).
  assert (Hd : (d = 0 \/ d = 1)%Z \/ (d <> 0 /\ d <> 1)%Z) by lia. destruct Hd as [Hd|Hd].
  - transitivity (if (((0 <=? i) && (i <? nq)) && ((0 <=? q) && (q <? (p + 1) * (p + 1))))%Z%bool then W d i q else grad i q d).
    2:{ unfold W. now destruct Hd as [-> | ->]. }
    apply (outer_rows (fun (s : arr3) i q => s i q d) _ nq ((p+1)*(p+1)) (W d)); [easy|].
    clear - Hd Hp Hq. intros iq g i q Hi. unfold W.
    destruct (Z.eqb_spec i iq) as [->|N]; cbn [andb].
    + rewrite (fill_flat2 (fun (s : arr3) q => s iq q d)
       (fun i0 j0 g0 => _ ) (p+1) (p+1)
       (fun i0 j0 => if (d =? 0)%Z then grad1 (pts iq 0%Z) z1 i0 * val1 (pts iq 1%Z) z1 j0
          else val1 (pts iq 0%Z) z1 i0 * grad1 (pts iq 1%Z) z1 j0)); try lia.
      * now destruct Hd as [-> | ->].
      * intros i0 j0 s q0 Hi0 Hj0. cbv zeta. rewrite !rows_spec, !rows3_spec by easy.
        destruct (Z.leb_spec 0 iq); [|lia]. destruct (Z.ltb_spec iq nq); [|lia]. cbn [andb].
        unfold upd3. rewrite Z.eqb_refl. destruct Hd as [-> | ->]; cbn; now destruct (q0 =? _)%Z.
    + apply (zloop_keep (fun s : arr3 => s i q d)). intros k s Hk.
      apply (zloop_keep (fun s : arr3 => s i q d)). intros k' s' Hk'. rewrite !upd3_neq by auto. reflexivity.
  - transitivity (grad i q d).
    + apply (zloop_keep (fun s : arr3 => s i q d)). intros k0 s0 Hk0. apply (zloop_keep (fun s : arr3 => s i q d)). intros k s Hk.
      apply (zloop_keep (fun s : arr3 => s i q d)). intros k' s' Hk'. rewrite !upd3_neq by lia. reflexivity.
    + destruct (Z.eqb_spec d 0); [lia|]. destruct (Z.eqb_spec d 1); [lia|]. now destruct (_ && _)%bool.
Qed.

Lemma tensor_val_3D val1 nq pts p val i q : (0 <= nq)%Z -> (0 <= p)%Z ->
  basis_val_3D val1 nq pts p val i q =
  if (((0 <=? i) && (i <? nq)) && ((0 <=? q) && (q <? (p + 1) * (p + 1) * (p + 1))))%Z%bool
  then val1 (pts i 0%Z) z1 (q mod (p + 1))%Z * val1 (pts i 1%Z) z1 ((q / (p + 1)) mod (p + 1))%Z
       * val1 (pts i 2%Z) z1 (q / ((p + 1) * (p + 1)))%Z
  else val i q.
Proof.
  intros Hq Hp. unfold basis_val_3D.
  assert (S : forall m, zloop m (fun iq (s : arr2 * arr2 * arr2) =>
     let '(valx, valy, valz) := s in
     (set_row valx iq (val1 (pts iq 0%Z)), set_row valy iq (val1 (pts iq 1%Z)), set_row valz iq (val1 (pts iq 2%Z))))
     (fun _ _ => 0, fun _ _ => 0, fun _ _ => 0) =
     (zloop m (fun iq a => set_row a iq (val1 (pts iq 0%Z))) (fun _ _ => 0),
      zloop m (fun iq a => set_row a iq (val1 (pts iq 1%Z))) (fun _ _ => 0),
      zloop m (fun iq a => set_row a iq (val1 (pts iq 2%Z))) (fun _ _ => 0))).
  { intros m. induction m as [m Hm|m Hm IH] using zind; [now rewrite !zloop_0|].
    rewrite !zloop_S, IH by lia. reflexivity. }
  rewrite S.
  apply (outer_rows (fun (s : arr2) i q => s i q) _ nq ((p+1)*(p+1)*(p+1))
    (fun i q => val1 (pts i 0%Z) z1 (q mod (p + 1))%Z * val1 (pts i 1%Z) z1 ((q / (p + 1)) mod (p + 1))%Z
       * val1 (pts i 2%Z) z1 (q / ((p + 1) * (p + 1)))%Z)); [easy|].
  clear i q val. intros iq val i q Hi.
  destruct (Z.eqb_spec i iq) as [->|N]; cbn [andb].
  - rewrite (fill_flat3 (fun (s : arr2) q => s iq q) (fun i0 j0 k0 val0 => _) (p+1)
     (fun i0 j0 k0 => val1 (pts iq 0%Z) z1 i0 * val1 (pts iq 1%Z) z1 j0 * val1 (pts iq 2%Z) z1 k0)); try lia; [reflexivity|].
    intros i0 j0 k0 s q0 Hi0 Hj0 Hk0. rewrite !rows_spec by easy.
    destruct (Z.leb_spec 0 iq); [|lia]. destruct (Z.ltb_spec iq nq); [|lia]. cbn [andb].
    unfold upd2. rewrite Z.eqb_refl. reflexivity.
  - apply (zloop_keep (fun s : arr2 => s i q)). intros k s Hk.
    apply (zloop_keep (fun s : arr2 => s i q)). intros k' s' Hk'.
    apply (zloop_keep (fun s : arr2 => s i q)). intros k'' s'' Hk''. apply upd2_neq. now left.
Qed.

Lemma tensor_grad_3D val1 grad1 nq pts p grad i q d : (0 <= nq)%Z -> (0 <= p)%Z ->
  basis_grad_3D val1 grad1 nq pts p grad i q d =
  if (((0 <=? i) && (i <? nq)) && ((0 <=? q) && (q <? (p + 1) * (p + 1) * (p + 1))))%Z%bool then
    let a := (q mod (p + 1))%Z in let b := ((q / (p + 1)) mod (p + 1))%Z in let c := (q / ((p + 1) * (p + 1)))%Z in
    if (d =? 0)%Z then grad1 (pts i 0%Z) z1 a * val1 (pts i 1%Z) z1 b * val1 (pts i 2%Z) z1 c
    else if (d =? 1)%Z then val1 (pts i 0%Z) z1 a * grad1 (pts i 1%Z) z1 b * val1 (pts i 2%Z) z1 c
    else if (d =? 2)%Z then val1 (pts i 0%Z) z1 a * val1 (pts i 1%Z) z1 b * grad1 (pts i 2%Z) z1 c
    else grad i q d
  else grad i q d.
Proof.
  intros Hq Hp. unfold basis_grad_3D.
  assert (S : forall m, zloop m (fun iq (s : arr2 * arr2 * arr2 * arr3 * arr3 * arr3) =>
     let '(valx, valy, valz, gradx, grady, gradz) := s in
     (set_row valx iq (val1 (pts iq 0%Z)), set_row valy iq (val1 (pts iq 1%Z)), set_row valz iq (val1 (pts iq 2%Z)),
      set_row3 gradx iq 0 (grad1 (pts iq 0%Z)), set_row3 grady iq 0 (grad1 (pts iq 1%Z)),
      set_row3 gradz iq 0 (grad1 (pts iq 2%Z))))
     (fun _ _ => 0, fun _ _ => 0, fun _ _ => 0, fun _ _ _ => 0, fun _ _ _ => 0, fun _ _ _ => 0) =
     (zloop m (fun iq a => set_row a iq (val1 (pts iq 0%Z))) (fun _ _ => 0),
      zloop m (fun iq a => set_row a iq (val1 (pts iq 1%Z))) (fun _ _ => 0),
      zloop m (fun iq a => set_row a iq (val1 (pts iq 2%Z))) (fun _ _ => 0),
      zloop m (fun iq a => set_row3 a iq 0 (grad1 (pts iq 0%Z))) (fun _ _ _ => 0),
      zloop m (fun iq a => set_row3 a iq 0 (grad1 (pts iq 1%Z))) (fun _ _ _ => 0),
      zloop m (fun iq a => set_row3 a iq 0 (grad1 (pts iq 2%Z))) (fun _ _ _ => 0))).
  { intros m. induction m as [m Hm|m Hm IH] using zind; [now rewrite !zloop_0|].
    rewrite !zloop_S, IH by lia. reflexivity. }
  rewrite S. clear S.
  set (V := fun d i a b c => if (d =? 0)%Z then grad1 (pts i 0%Z) z1 a * val1 (pts i 1%Z) z1 b * val1 (pts i 2%Z) z1 c
    else if (d =? 1)%Z then val1 (pts i 0%Z) z1 a * grad1 (pts i 1%Z) z1 b * val1 (pts i 2%Z) z1 c
    else val1 (pts i 0%Z) z1 a * val1 (pts i 1%Z) z1 b * grad1 (pts i 2%Z) z1 c).
  set (W := fun d i q => (V d i (q mod (p + 1)) ((q / (p + 1)) mod (p + 1)) (q / ((p + 1) * (p + 1))))%Z).
  assert (Hd : (d = 0 \/ d = 1 \/ d = 2)%Z \/ (d <> 0 /\ d <> 1 /\ d <> 2)%Z) by lia. destruct Hd as [Hd|Hd].
  - transitivity (if (((0 <=? i) && (i <? nq)) && ((0 <=? q) && (q <? (p + 1) * (p + 1) * (p + 1))))%Z%bool then W d i q else grad i q d).
    2:{ unfold W, V. now destruct Hd as [-> | [-> | ->]]. }
    apply (outer_rows (fun (s : arr3) i q => s i q d) _ nq ((p+1)*(p+1)*(p+1)) (W d)); [easy|].
    clear grad i q. intros iq g i q Hi. unfold W.
    destruct (Z.eqb_spec i iq) as [->|N]; cbn [andb].
    + rewrite (fill_flat3 (fun (s : arr3) q => s iq q d)
       (fun i0 j0 k0 g0 => _ ) (p+1) (V d iq)); try lia; [reflexivity|].
      intros i0 j0 k0 s q0 Hi0 Hj0 Hk0. cbv zeta. rewrite !rows_spec, !rows3_spec by easy.
      destruct (Z.leb_spec 0 iq); [|lia]. destruct (Z.ltb_spec iq nq); [|lia]. cbn [andb].
      unfold upd3, V. rewrite Z.eqb_refl. destruct Hd as [-> | [-> | ->]]; cbn; now destruct (q0 =? _)%Z.
    + apply (zloop_keep (fun s : arr3 => s i q d)). intros k s Hk.
      apply (zloop_keep (fun s : arr3 => s i q d)). intros k' s' Hk'.
      apply (zloop_keep (fun s : arr3 => s i q d)). intros k'' s'' Hk''. rewrite !upd3_neq by auto. reflexivity.
  - transitivity (grad i q d).
    + apply (zloop_keep (fun s : arr3 => s i q d)). intros k0 s0 Hk0. apply (zloop_keep (fun s : arr3 => s i q d)). intros k s Hk.
      apply (zloop_keep (fun s : arr3 => s i q d)). intros k' s' Hk'. 
      apply (zloop_keep (fun s : arr3 => s i q d)). intros k'' s'' Hk''. rewrite !upd3_neq by lia. reflexivity.
    + destruct (Z.eqb_spec d 0); [lia|]. destruct (Z.eqb_spec d 1); [lia|]. destruct (Z.eqb_spec d 2); [lia|]. now destruct (_ && _)%bool.
Qed.

(** The fill repeated for every point writes the same numbers each time. *)
Lemma repeat_fill {S} n (f : S -> S) s : (0 < n)%Z -> (forall s, f (f s) = f s) -> zloop n (fun _ s => f s) s = f s.
Proof.
  intros Hn Hf. assert (X : forall m, (0 < m)%Z -> zloop m (fun _ s => f s) s = f s).
  { intros m. induction m as [m Hm|m Hm IH] using zind; intros Hm0; [lia|].
    rewrite zloop_S by easy. destruct (Z.eq_dec m 0) as [->|]; [now rewrite zloop_0|]. rewrite IH by lia. apply Hf. }
  now apply X.
Qed.
