(** QuadProof.v -- facts about QuadModel.v. *)
From Coq Require Import ZArith List Lia Reals Lra Bool.
From Coquelicot Require Import Coquelicot.
From Verif Require Import Base RBase QuadTables QuadModel.
Import ListNotations.
Local Open Scope R_scope.
Open Scope res_scope.

(** * Loops that fill consecutive blocks *)
Lemma fill_blocks {S V} (get : S -> Z -> V) (body : Z -> S -> S) o m B (val : Z -> V) s q :
  (0 <= B)%Z ->
  (forall k s q, (0 <= k < m)%Z ->
     get (body k s) q = if ((o + k * B <=? q) && (q <? o + (k + 1) * B))%Z%bool then val q else get s q) ->
  (0 <= m)%Z ->
  get (zloop m body s) q = if ((o <=? q) && (q <? o + m * B))%Z%bool then val q else get s q.
Proof.
  intros HB Hb Hm.
  assert (X : forall n, (n <= m)%Z -> (0 <= n)%Z -> get (zloop n body s) q =
    if ((o <=? q) && (q <? o + n * B))%Z%bool then val q else get s q).
  { intros n. induction n as [n H|n H IH] using zind; intros Hn Hn0.
    - rewrite zloop_0 by easy. destruct (Z.leb_spec o q), (Z.ltb_spec q (o + n * B)); cbn; auto; nia.
    - rewrite zloop_S by easy. rewrite Hb by lia. rewrite IH by lia.
      destruct (Z.leb_spec (o + n * B) q), (Z.ltb_spec q (o + (n + 1) * B)), (Z.leb_spec o q),
        (Z.ltb_spec q (o + n * B)); cbn; auto; nia. }
  apply X; lia.
Qed.

Lemma idx2_div n i j : (0 <= i < n)%Z -> ((j * n + i) / n = j)%Z.
Proof. intros. rewrite Z.div_add_l by lia. rewrite Z.div_small by lia. lia. Qed.
Lemma idx2_mod n i j : (0 <= i < n)%Z -> ((j * n + i) mod n = i)%Z.
Proof. intros. rewrite Z.add_comm, Z.mod_add by lia. apply Z.mod_small; lia. Qed.
Lemma idx2_inj n i j i' j' : (0 <= i < n)%Z -> (0 <= i' < n)%Z -> (j * n + i = j' * n + i')%Z -> i = i' /\ j = j'.
Proof.
  intros H H' E. split.
  - rewrite <- (idx2_mod n i j H), E. apply idx2_mod; auto.
  - rewrite <- (idx2_div n i j H), E. apply idx2_div; auto.
Qed.

(** Two nested loops writing entry j n + i. *)
Lemma fill_flat2 {S V} (get : S -> Z -> V) (body : Z -> Z -> S -> S) n m (val : Z -> Z -> V) s q :
  (0 <= n)%Z -> (0 <= m)%Z ->
  (forall i j s q, (0 <= i < n)%Z -> (0 <= j < m)%Z ->
     get (body i j s) q = if (q =? j * n + i)%Z then val i j else get s q) ->
  get (zloop m (fun j s => zloop n (fun i s => body i j s) s) s) q =
  if ((0 <=? q) && (q <? m * n))%Z%bool then val (q mod n)%Z (q / n)%Z else get s q.
Proof.
  intros Hn Hm Hb.
  rewrite (fill_blocks get _ 0 m n (fun q => val (q mod n)%Z (q / n)%Z)); auto.
  intros j s' q' Hj.
  rewrite (fill_blocks get _ (0 + j * n) n 1 (fun q => val (q mod n)%Z (q / n)%Z)); try lia.
  - replace (0 + j * n + n * 1)%Z with (0 + (j + 1) * n)%Z by lia. reflexivity.
  - intros i s'' q'' Hi. rewrite Hb by auto.
    destruct (Z.eqb_spec q'' (j * n + i)) as [->|].
    + rewrite idx2_mod, idx2_div by lia.
      destruct (Z.leb_spec (0 + j * n + i * 1) (j * n + i)), (Z.ltb_spec (j * n + i) (0 + j * n + (i + 1) * 1)); cbn; auto; lia.
    + destruct (Z.leb_spec (0 + j * n + i * 1) q''), (Z.ltb_spec q'' (0 + j * n + (i + 1) * 1)); cbn; auto; lia.
Qed.

(** Three nested loops writing entry k n n + j n + i. *)
Lemma idx3_spec n i j k : (0 <= i < n)%Z -> (0 <= j < n)%Z ->
  let q := (k * n * n + j * n + i)%Z in
  (q mod n = i /\ (q / n) mod n = j /\ q / (n * n) = k)%Z.
Proof.
  intros Hi Hj q. assert (E : q = ((k * n + j) * n + i)%Z) by (unfold q; lia).
  rewrite E. rewrite idx2_mod by lia. rewrite idx2_div by lia. rewrite idx2_mod by lia.
  rewrite <- Z.div_div by lia. rewrite idx2_div by lia. rewrite idx2_div by lia. auto.
Qed.

Lemma fill_flat3 {S V} (get : S -> Z -> V) (body : Z -> Z -> Z -> S -> S) n (val : Z -> Z -> Z -> V) s q :
  (0 <= n)%Z ->
  (forall i j k s q, (0 <= i < n)%Z -> (0 <= j < n)%Z -> (0 <= k < n)%Z ->
     get (body i j k s) q = if (q =? k * n * n + j * n + i)%Z then val i j k else get s q) ->
  get (zloop n (fun k s => zloop n (fun j s => zloop n (fun i s => body i j k s) s) s) s) q =
  if ((0 <=? q) && (q <? n * n * n))%Z%bool then val (q mod n)%Z ((q / n) mod n)%Z (q / (n * n))%Z else get s q.
Proof.
  intros Hn Hb. set (V' := fun q => val (q mod n)%Z ((q / n) mod n)%Z (q / (n * n))%Z).
  rewrite (fill_blocks get _ 0 n (n * n) V'); try nia.
  { replace (0 + n * (n * n))%Z with (n * n * n)%Z by lia. reflexivity. }
  intros k s' q' Hk.
  rewrite (fill_blocks get _ (0 + k * (n * n)) n n V'); try nia.
  { replace (0 + k * (n * n) + n * n)%Z with (0 + (k + 1) * (n * n))%Z by lia. reflexivity. }
  intros j s2 q2 Hj.
  rewrite (fill_blocks get _ (0 + k * (n * n) + j * n) n 1 V'); try nia.
  { replace (0 + k * (n * n) + j * n + n * 1)%Z with (0 + k * (n * n) + (j + 1) * n)%Z by lia. reflexivity. }
  intros i s3 q3 Hi. rewrite Hb by auto.
  destruct (Z.eqb_spec q3 (k * n * n + j * n + i)) as [->|].
  - destruct (Z.leb_spec (0 + k * (n * n) + j * n + i * 1) (k * n * n + j * n + i)),
      (Z.ltb_spec (k * n * n + j * n + i) (0 + k * (n * n) + j * n + (i + 1) * 1)); cbn; try nia.
    unfold V'. destruct (idx3_spec n i j k Hi Hj) as (E1 & E2 & E3). now rewrite E1, E2, E3.
  - destruct (Z.leb_spec (0 + k * (n * n) + j * n + i * 1) q3),
      (Z.ltb_spec q3 (0 + k * (n * n) + j * n + (i + 1) * 1)); cbn; auto; nia.
Qed.

(** * Tensor quadrature *)
Lemma quad_tensor_spec n x w P W q : (0 <= n)%Z ->
  let s := quad_tensor n x w P W in
  (fst s q 0%Z, fst s q 1%Z, snd s q) =
  if ((0 <=? q) && (q <? n * n))%Z%bool
  then (x (q mod n)%Z, x (q / n)%Z, w (q mod n)%Z * w (q / n)%Z)
  else (P q 0%Z, P q 1%Z, W q).
Proof.
  intros Hn s. unfold s, quad_tensor.
  rewrite (fill_flat2 (fun s q => (fst s q 0%Z, fst s q 1%Z, snd s q)) _ n n (fun i j => (x i, x j, w i * w j))); auto.
  intros i j [P' W'] q' Hi Hj. cbn. unfold upd2, upd1.
  destruct (Z.eqb_spec q' (j * n + i)); cbn; reflexivity.
Qed.

Lemma hex_tensor_spec n x w P W q : (0 <= n)%Z ->
  let s := hex_tensor n x w P W in
  (fst s q 0%Z, fst s q 1%Z, fst s q 2%Z, snd s q) =
  if ((0 <=? q) && (q <? n * n * n))%Z%bool
  then let i := (q mod n)%Z in let j := ((q / n) mod n)%Z in let k := (q / (n * n))%Z in
       (x i, x j, x k, w i * w j * w k)
  else (P q 0%Z, P q 1%Z, P q 2%Z, W q).
Proof.
  intros Hn s. unfold s, hex_tensor.
  rewrite (fill_flat3 (fun s q => (fst s q 0%Z, fst s q 1%Z, fst s q 2%Z, snd s q)) _ n
    (fun i j k => (x i, x j, x k, w i * w j * w k))); auto.
  intros i j k [P' W'] q' Hi Hj Hk. cbn. unfold upd2, upd1.
  destruct (Z.eqb_spec q' (k * n * n + j * n + i)); cbn; reflexivity.
Qed.

Lemma rsum_flat3 n f : (0 < n)%Z ->
  rsum (n * n * n) (fun q => f (q mod n) ((q / n) mod n) (q / (n * n)))%Z =
  rsum n (fun k => rsum n (fun j => rsum n (fun i => f i j k))).
Proof.
  intros Hn.
  rewrite (rsum_ext _ _ (fun q => (fun i r => f i (r mod n) (r / n))%Z (q mod n)%Z (q / n)%Z)).
  2:{ intros q Hq. cbn. rewrite Z.div_div by lia. reflexivity. }
  rewrite (rsum_flat n (n * n) (fun i r => f i (r mod n) (r / n))%Z) by lia.
  rewrite <- (rsum_flat n n (fun j k => rsum n (fun i => f i j k))) by lia. reflexivity.
Qed.

(** * Equidistant nodes *)
Lemma equi_segment order x i : (0 < order)%Z ->
  get_equidistant_nodes_segment order x i =
  if ((0 <=? i) && (i <? order + 1))%Z%bool then -1 + 2 * IZR i / IZR order else x i.
Proof.
  intros Ho. unfold get_equidistant_nodes_segment. rewrite (proj2 (Z.eqb_neq order 0)) by lia. cbv zeta.
  set (dx := 2 / IZR order). set (body := fun i s => _).
  assert (X : forall n, (0 <= n)%Z -> zloop n body (x, -1) =
    (fst (zloop n body (x, -1)), -1 + IZR n * dx) /\
    forall i, fst (zloop n body (x, -1)) i = if ((0 <=? i) && (i <? n))%Z%bool then -1 + IZR i * dx else x i).
  { intros n. induction n as [n H|n H IH] using zind; intros Hn.
    - rewrite zloop_0 by easy. assert (n = 0)%Z as -> by lia. split; [cbn; f_equal; lra|].
      intros i'. destruct (Z.leb_spec 0 i'), (Z.ltb_spec i' 0); cbn; auto; lia.
    - rewrite zloop_S by easy. destruct (IH ltac:(lia)) as [E1 E2]. rewrite E1. unfold body at 1 3 5. cbn [fst snd].
      split; [f_equal; rewrite plus_IZR; lra|].
      intros i'. unfold upd1 at 1. rewrite E2.
      destruct (Z.eqb_spec i' n) as [E|], (Z.leb_spec 0 i'), (Z.ltb_spec i' n), (Z.ltb_spec i' (n + 1)); cbn; auto; try lia.
      now rewrite E. }
  destruct (X (order + 1)%Z ltac:(lia)) as [_ E]. rewrite E. unfold dx.
  destruct ((0 <=? i) && (i <? order + 1))%Z%bool; [|reflexivity]. f_equal. unfold Rdiv. ring.
Qed.

Lemma equi_quad order P q : (0 <= order)%Z ->
  let n := (order + 1)%Z in
  let x := get_equidistant_nodes_segment order (fun _ => 0) in
  let s := get_equidistant_nodes_quadrilateral order P in
  (s q 0%Z, s q 1%Z) = if ((0 <=? q) && (q <? n * n))%Z%bool then (x (q mod n)%Z, x (q / n)%Z) else (P q 0%Z, P q 1%Z).
Proof.
  intros Ho n x s. unfold s, get_equidistant_nodes_quadrilateral.
  rewrite (fill_flat2 (fun s q => (s q 0%Z, s q 1%Z)) _ n n (fun i j => (x i, x j))); auto; try (unfold n; lia).
  intros i j P' q' Hi Hj. fold n x. unfold upd2.
  destruct (Z.eqb_spec q' (j * n + i)); cbn; reflexivity.
Qed.

Lemma equi_hex order P q : (0 <= order)%Z ->
  let n := (order + 1)%Z in
  let x := get_equidistant_nodes_segment order (fun _ => 0) in
  let s := get_equidistant_nodes_hexahedron order P in
  (s q 0%Z, s q 1%Z, s q 2%Z) = if ((0 <=? q) && (q <? n * n * n))%Z%bool
    then (x (q mod n)%Z, x ((q / n) mod n)%Z, x (q / (n * n))%Z) else (P q 0%Z, P q 1%Z, P q 2%Z).
Proof.
  intros Ho n x s. unfold s, get_equidistant_nodes_hexahedron. cbv zeta.
  rewrite (fill_flat3 (fun s q => (s q 0%Z, s q 1%Z, s q 2%Z)) _ n (fun i j k => (x i, x j, x k))); auto; try (unfold n; lia).
  intros i j k P' q' Hi Hj Hk. fold n x. unfold upd2.
  destruct (Z.eqb_spec q' (k * n * n + j * n + i)); cbn; reflexivity.
Qed.

(** * The tables *)

(** The last value assigned to entry k. *)
Fixpoint last_assigned (l : list (Z * Z)) (k : Z) : option Z :=
  match l with
  | [] => None
  | (k', v) :: t => match last_assigned t k with Some w => Some w | None => if (k' =? k)%Z then Some v else None end
  end.

Lemma assign_spec l : forall v,
  (forall k x, In (k, x) l -> (0 <= k < zlen v)%Z) ->
  exists v', assign l v = Ok v' /\ zlen v' = zlen v /\
    forall k, rd v' k = match last_assigned l k with Some x => Ok x | None => rd v k end.
Proof.
  induction l as [|[k0 x0] t IH]; intros v H; [now exists v|].
  unfold assign. cbn [foreach fst snd]. pose proof (H k0 x0 ltac:(now left)) as Hk0.
  rewrite wr_ok by easy. cbn [bind].
  destruct (IH (set_nth v (Z.to_nat k0) x0)) as (v' & E & L & R).
  { intros k x Hk. rewrite zlen_set_nth. apply (H k x). now right. }
  exists v'. split; [exact E|]. split; [now rewrite L, zlen_set_nth|].
  intros k. rewrite R. cbn. destruct (last_assigned t k); [reflexivity|].
  destruct (Z.eqb_spec k0 k) as [->|].
  - now apply rd_set_nth_eq.
  - apply rd_set_nth_neq; lia.
Qed.

(** All entries 0..n-1 are assigned: their values. *)
Fixpoint assigned_values (l : list (Z * Z)) (ks : list Z) : option (list Z) :=
  match ks with
  | [] => Some []
  | k :: t => match last_assigned l k, assigned_values l t with Some v, Some vs => Some (v :: vs) | _, _ => None end
  end.

Lemma assigned_nth l ks : forall vs, assigned_values l ks = Some vs ->
  length vs = length ks /\ forall p k, nth_error ks p = Some k -> nth_error vs p = last_assigned l k.
Proof.
  induction ks as [|k t IH]; intros vs E; cbn in E.
  - injection E as <-. split; [reflexivity|]. intros [|p] k; discriminate.
  - destruct (last_assigned l k) as [v|] eqn:Ev; [|discriminate].
    destruct (assigned_values l t) as [vs'|] eqn:Evs; [|discriminate]. injection E as <-.
    destruct (IH vs' eq_refl) as [L N]. split; [cbn; lia|].
    intros [|p] k' H; cbn in *; [injection H as <-; now rewrite Ev|now apply N].
Qed.

Definition in_range (l : list (Z * Z)) (n : Z) : bool :=
  forallb (fun kv => (0 <=? fst kv)%Z && (fst kv <? n)%Z)%bool l.

Lemma nth_error_eq {A} (l : list A) : forall l', (forall p, nth_error l p = nth_error l' p) -> l = l'.
Proof.
  induction l as [|a l IH]; intros [|b l'] H; [easy|specialize (H O); discriminate|specialize (H O); discriminate|].
  f_equal; [specialize (H O); cbn in H; congruence|]. apply IH. intros p. exact (H (S p)).
Qed.

Lemma list_rd_ext {A} (l l' : list A) : zlen l = zlen l' -> (forall k, (0 <= k < zlen l)%Z -> rd l k = rd l' k) -> l = l'.
Proof.
  intros L H. apply nth_error_eq. intros p.
  destruct (Nat.lt_ge_cases p (length l)) as [Hp|Hp].
  - specialize (H (Z.of_nat p) ltac:(unfold zlen; lia)). unfold rd in H.
    rewrite (proj2 (Z.ltb_ge (Z.of_nat p) 0)) in H by lia. rewrite Nat2Z.id in H.
    destruct (nth_error l p), (nth_error l' p); congruence.
  - rewrite (proj2 (nth_error_None l p)) by lia. symmetry. apply nth_error_None. unfold zlen in L. lia.
Qed.

Lemma assign_full l n vs v : (0 <= n)%Z -> in_range l n = true -> assigned_values l (zseq n) = Some vs ->
  zlen v = n -> assign l v = Ok vs.
Proof.
  intros Hn HR HV HL.
  destruct (assign_spec l v) as (v' & E & L & R).
  { intros k x Hk. unfold in_range in HR. rewrite forallb_forall in HR. specialize (HR _ Hk). cbn in HR.
    rewrite andb_true_iff, Z.leb_le, Z.ltb_lt in HR. lia. }
  rewrite E. f_equal. destruct (assigned_nth l (zseq n) vs HV) as [LV NV].
  assert (LV' : zlen vs = n) by (unfold zlen; rewrite LV; apply (zlen_zseq n Hn)).
  apply list_rd_ext; [congruence|].
  intros k Hk. rewrite R.
  pose proof (NV (Z.to_nat k) k (nth_error_zseq n k ltac:(lia))) as Hk'.
  destruct (rd_total vs k ltac:(lia)) as [a Ha]. pose proof Ha as Ha'. apply rd_Ok in Ha'. destruct Ha' as [_ Ha'].
  rewrite Ha, <- Hk', Ha'. reflexivity.
Qed.

(** * Moments *)

(** Integral of x^k over [-1,1]. *)
Definition moment (k : Z) : R := if Z.even k then 2 / (IZR k + 1) else 0.

Definition SC : Z := 10 ^ 36.

(** Check of |sum_i w_i x_i^k - moment k| <= 10^-30 for k = 0..d-1 in binary fixed
    point with 120 binary places, rounding down; [Xb]: the points, [P]: the
    numbers w_i x_i^k. *)
Definition zsum (l : list Z) : Z := fold_right Z.add 0%Z l.
Definition FB : Z := 2 ^ 120.
Definition fx (z : Z) : Z := (z * FB / SC)%Z.
Fixpoint moments_ok (d : nat) (k : Z) (Xb P : list Z) : bool :=
  match d with
  | O => true
  | S d =>
      let m := (if Z.even k then 2 * FB else 0)%Z in
      (Z.abs (zsum P * (k + 1) - m) * 10 ^ 31 <=? (k + 1) * FB * 9)%Z
      && moments_ok d (k + 1) Xb (map (fun xp => Z.shiftr (fst xp * snd xp) 120)%Z (combine Xb P))
  end.

Lemma lit_pow z : lit z = IZR z / IZR SC.
Proof. unfold lit, SC. f_equal. change (10 ^ 36)%Z with (Z.pow_pos 10 36). rewrite Z.pow_pos_fold. 
  change 36%Z with (Z.of_nat 36). rewrite <- pow_IZR. reflexivity. Qed.
Lemma SC_pos : 0 < IZR SC.
Proof. apply IZR_lt. reflexivity. Qed.

Lemma zsum_rsum l : IZR (zsum l) = rsum (zlen l) (fun i => IZR (nth (Z.to_nat i) l 0%Z)).
Proof.
  induction l as [|a l IH] using rev_ind.
  - now rewrite rsum_0 by (unfold zlen; cbn; lia).
  - rewrite zlen_app. change (zlen [a]) with 1%Z. rewrite rsum_S by apply zlen_nonneg.
    replace (zsum (l ++ [a])) with (zsum l + a)%Z.
    2:{ unfold zsum. clear IH. induction l as [|b l IH]; cbn [app fold_right]; [lia|]. rewrite <- IH. lia. }
    rewrite plus_IZR, IH. f_equal.
    + apply rsum_ext. intros i Hi. unfold zlen in Hi. rewrite app_nth1 by lia. reflexivity.
    + unfold zlen. rewrite Nat2Z.id, app_nth2 by lia. replace (length l - length l)%nat with O by lia. reflexivity.
Qed.

Lemma FB_pos : 0 < IZR FB.
Proof. apply IZR_lt. reflexivity. Qed.
Lemma floor_err a b : (0 < b)%Z -> 0 <= IZR a / IZR b - IZR (a / b) <= 1.
Proof.
  intros H. pose proof (Z.div_mod a b ltac:(lia)) as E. pose proof (Z.mod_pos_bound a b H) as Hb.
  set (q := (a / b)%Z) in *. set (r := (a mod b)%Z) in *. rewrite E. rewrite plus_IZR, mult_IZR.
  assert (Pb : 0 < IZR b) by now apply IZR_lt.
  replace ((IZR b * IZR q + IZR r) / IZR b - IZR q) with (IZR r / IZR b) by (field; lra).
  destruct Hb as [H1 H2]. apply IZR_le in H1. apply IZR_lt in H2.
  assert (0 < / IZR b) by now apply Rinv_0_lt_compat.
  split; [apply Rmult_le_pos; lra|]. apply (Rmult_le_reg_r (IZR b)); [lra|]. unfold Rdiv. rewrite Rmult_assoc, Rinv_l by lra. lra.
Qed.
Definition fb (z : Z) : R := IZR z / IZR FB.

Lemma fx_err z : Rabs (fb (fx z) - lit z) <= / IZR FB.
Proof.
  unfold fb, fx. rewrite lit_pow. pose proof (floor_err (z * FB) SC ltac:(reflexivity)) as H.
  rewrite mult_IZR in H. pose proof FB_pos as PF. pose proof SC_pos as PS.
  set (F := IZR FB) in *. set (S := IZR SC) in *. set (v := IZR (z * FB / SC)) in *. set (y := IZR z) in *.
  clearbody F S v y.
  replace (y * F / S) with (y / S * F) in H by (unfold Rdiv; ring).
  assert (0 < / F) by now apply Rinv_0_lt_compat.
  replace (v / F - y / S) with (- ((y / S * F - v) * / F)) by (field; lra).
  rewrite Rabs_Ropp, Rabs_mult, (Rabs_pos_eq (/ F)) by lra.
  rewrite Rabs_pos_eq by lra. rewrite <- (Rmult_1_l (/ F)) at 2. apply Rmult_le_compat_r; lra.
Qed.

Lemma step_err a b : Rabs (fb (Z.shiftr (a * b) 120) - fb a * fb b) <= / IZR FB.
Proof.
  unfold fb. rewrite Z.shiftr_div_pow2 by lia. change (2 ^ 120)%Z with FB.
  pose proof (floor_err (a * b) FB ltac:(reflexivity)) as H. rewrite mult_IZR in H.
  pose proof FB_pos as PF. set (F := IZR FB) in *. set (v := IZR (a * b / FB)) in *. set (y := IZR a) in *. set (z := IZR b) in *.
  clearbody F v y z.
  assert (0 < / F) by now apply Rinv_0_lt_compat.
  replace (v / F - y / F * (z / F)) with (- ((y * z / F - v) * / F)) by (field; lra).
  rewrite Rabs_Ropp, Rabs_mult, (Rabs_pos_eq (/ F)) by lra.
  rewrite Rabs_pos_eq by lra. rewrite <- (Rmult_1_l (/ F)) at 2. apply Rmult_le_compat_r; lra.
Qed.

Lemma FB_big : / IZR FB <= / 10 ^ 36.
Proof.
  apply Rinv_le_contravar; [apply pow_lt; lra|].
  change 10 with (IZR 10). change 36%nat with (Z.to_nat 36). rewrite pow_IZR. apply IZR_le. vm_compute. discriminate.
Qed.

Lemma moments_ok_spec X W : length X = length W -> (zlen X <= 25)%Z ->
  (forall i, (0 <= i < zlen X)%Z -> Rabs (arr_of X i) <= 1 /\ Rabs (arr_of W i) <= 2) ->
  forall d k P,
  (0 <= k)%Z -> (k + Z.of_nat d <= 50)%Z -> length P = length X ->
  (forall i, (0 <= i < zlen X)%Z ->
     Rabs (fb (nth (Z.to_nat i) P 0%Z) - arr_of W i * arr_of X i ^ Z.to_nat k) <= (4 * IZR k + 1) * / IZR FB) ->
  moments_ok d k (map fx X) P = true ->
  forall k', (k <= k' < k + Z.of_nat d)%Z ->
  Rabs (rsum (zlen X) (fun i => arr_of W i * arr_of X i ^ Z.to_nat k') - moment k') <= / 10 ^ 30.
Proof.
  intros HL H25 HB. induction d as [|d IH]; intros k P Hk Hd HP HV Hok k' Hk'; [lia|].
  cbn [moments_ok] in Hok. rewrite andb_true_iff in Hok. destruct Hok as [H1 H2].
  pose proof FB_pos as PF. assert (Hk50 : (k < 50)%Z) by lia.
  apply IZR_le in Hk as Hk0. apply IZR_lt in Hk50.
  pose proof FB_big as FBig.
  assert (Hu : 0 < / IZR FB) by now apply Rinv_0_lt_compat.
  assert (Hten : 0 < / 10 ^ 36) by (apply Rinv_0_lt_compat, pow_lt; lra).
  assert (E36 : / 10 ^ 36 = / 10 ^ 31 * (1 / 100000)) by (field).
  assert (E30 : / 10 ^ 30 = / 10 ^ 31 * 10) by (field).
  destruct (Z.eq_dec k' k) as [->|Hne].
  - apply Z.leb_le in H1. apply IZR_le in H1.
    rewrite !mult_IZR, abs_IZR, minus_IZR, mult_IZR, plus_IZR in H1.
    rewrite zsum_rsum in H1.
    assert (Lz : zlen P = zlen X) by (unfold zlen; congruence). rewrite Lz in H1.
    set (SP := rsum (zlen X) (fun i => IZR (nth (Z.to_nat i) P 0%Z))) in *.
    assert (Hk1 : 0 < IZR k + 1) by lra.
    assert (E : Rabs (SP * (IZR k + 1) - IZR (if Z.even k then 2 * FB else 0)%Z) =
       Rabs (SP / IZR FB - moment k) * ((IZR k + 1) * IZR FB)).
    { rewrite <- (Rabs_pos_eq ((IZR k + 1) * IZR FB)) by (apply Rlt_le; apply Rmult_lt_0_compat; auto).
      rewrite <- Rabs_mult. f_equal. unfold moment. destruct (Z.even k); [rewrite mult_IZR|]; set (F := IZR FB) in *; clearbody F; field; lra. }
    rewrite E in H1. change (IZR (10 ^ 31)) with (IZR (10 ^ Z.of_nat 31)) in H1. rewrite <- pow_IZR in H1.
    assert (H10 : 0 < 10 ^ 31) by (apply pow_lt; lra).
    assert (A1 : Rabs (SP / IZR FB - moment k) <= 9 * / 10 ^ 31).
    { apply (Rmult_le_reg_r (10 ^ 31 * ((IZR k + 1) * IZR FB))).
      { apply Rmult_lt_0_compat; [exact H10|]. apply Rmult_lt_0_compat; auto. }
      replace (9 * / 10 ^ 31 * (10 ^ 31 * ((IZR k + 1) * IZR FB))) with ((IZR k + 1) * IZR FB * 9) by (set (F := IZR FB); field; lra).
      set (F := IZR FB) in *. set (v := Rabs _) in *. clearbody F v. set (t := 10 ^ 31) in *. clearbody t. lra. }
    assert (A2 : Rabs (SP / IZR FB - rsum (zlen X) (fun i => arr_of W i * arr_of X i ^ Z.to_nat k)) <= 5100 * / IZR FB).
    { unfold SP, Rdiv. rewrite <- rsum_scal_r, <- rsum_minus. eapply Rle_trans; [apply rsum_Rabs|].
      eapply Rle_trans; [apply rsum_le; intros i Hi; apply (HV i Hi)|].
      rewrite (rsum_ext _ _ (fun _ => ((4 * IZR k + 1) * / IZR FB) * 1)) by (intros; ring).
      rewrite rsum_scal.
      assert (S1 : rsum (zlen X) (fun _ => 1) <= 25).
      { assert (C1 : forall n, (0 <= n)%Z -> rsum n (fun _ => 1) = IZR n).
        { intros n. induction n as [n H|n H IHn] using zind; intros Hn.
          - assert (n = 0)%Z as -> by lia. now rewrite rsum_0.
          - rewrite rsum_S, IHn, plus_IZR by lia. reflexivity. }
        rewrite C1 by apply zlen_nonneg. now apply IZR_le. }
      set (s := rsum (zlen X) (fun _ => 1)) in *. set (u := / IZR FB) in *. clearbody s.
      assert (Hs : (4 * IZR k + 1) * u * s <= (4 * IZR k + 1) * u * 25).
      { apply Rmult_le_compat_l; [apply Rmult_le_pos; lra|exact S1]. }
      assert ((4 * IZR k + 1) * u <= 201 * u) by (apply Rmult_le_compat_r; lra). lra. }
    set (Sx := rsum (zlen X) (fun i => arr_of W i * arr_of X i ^ Z.to_nat k)) in *.
    replace (Sx - moment k) with ((SP / IZR FB - moment k) - (SP / IZR FB - Sx)) by ring.
    eapply Rle_trans; [apply Rabs_triang|]. rewrite Rabs_Ropp.
    assert (0 < / 10 ^ 31) by (apply Rinv_0_lt_compat, pow_lt; lra).
    rewrite E30. rewrite E36 in FBig. lra.
  - eapply (IH (k + 1)%Z); [lia|lia| | |exact H2|lia].
    + rewrite map_length, combine_length, map_length. lia.
    + intros i Hi. assert (Hi' : (Z.to_nat i < length X)%nat) by (unfold zlen in Hi; lia).
      rewrite nth_indep with (d' := (fun xp => Z.shiftr (fst xp * snd xp) 120)%Z (fx 0%Z, 0%Z))
        by (rewrite map_length, combine_length, map_length; lia).
      rewrite (map_nth (fun xp => Z.shiftr (fst xp * snd xp) 120)%Z).
      rewrite combine_nth by (rewrite map_length; auto). cbn [fst snd]. rewrite (map_nth fx).
      replace (Z.to_nat (k + 1)) with (S (Z.to_nat k)) by lia. cbn [pow].
      specialize (HV i Hi). destruct (HB i Hi) as [B1 B2].
      pose proof (fx_err (nth (Z.to_nat i) X 0%Z)) as F1. fold (arr_of X i) in F1.
      change (lit (nth (Z.to_nat i) X 0%Z)) with (arr_of X i) in F1.
      pose proof (step_err (fx (nth (Z.to_nat i) X 0%Z)) (nth (Z.to_nat i) P 0%Z)) as F2.
      set (xt := fb (fx (nth (Z.to_nat i) X 0%Z))) in *. set (pt := fb (nth (Z.to_nat i) P 0%Z)) in *.
      set (r := fb (Z.shiftr _ _)) in *. set (x := arr_of X i) in *. set (w := arr_of W i) in *.
      set (xk := x ^ Z.to_nat k) in *.
      assert (Bk : Rabs xk <= 1).
      { unfold xk. rewrite <- RPow_abs. replace 1 with (1 ^ Z.to_nat k) by apply pow1. apply pow_incr. split; [apply Rabs_pos|exact B1]. }
      rewrite plus_IZR. set (u := / IZR FB) in *.
      assert (Uu : (4 * IZR k + 1) * u <= 1).
      { assert (u <= 1 / 1000).
        { eapply Rle_trans; [exact FBig|]. assert (1000 < 10 ^ 36).
          { change 36%nat with (3 + 33)%nat. rewrite pow_add. assert (1 < 10 ^ 33) by (apply Rlt_pow_R1; [lra|lia]). replace (10 ^ 3) with 1000 by ring. lra. }
          unfold Rdiv. rewrite Rmult_1_l. apply Rinv_le_contravar; lra. }
        assert ((4 * IZR k + 1) * u <= 201 * (1 / 1000)) by (apply Rmult_le_compat; lra). lra. }
      assert (Bw : Rabs (w * xk) <= 2).
      { rewrite Rabs_mult. pose proof (Rabs_pos w). pose proof (Rabs_pos xk).
        replace 2 with (2 * 1) by ring. apply Rmult_le_compat; auto. }
      assert (Bp : Rabs pt <= 3).
      { replace pt with ((pt - w * xk) + w * xk) by ring. eapply Rle_trans; [apply Rabs_triang|]. lra. }
      replace (r - w * (x * xk)) with ((r - xt * pt) + ((xt - x) * pt + x * (pt - w * xk))) by ring.
      eapply Rle_trans; [apply Rabs_triang|]. eapply Rle_trans; [apply Rplus_le_compat_l, Rabs_triang|].
      rewrite !Rabs_mult.
      assert (T1 : Rabs (xt - x) * Rabs pt <= u * 3) by (apply Rmult_le_compat; auto using Rabs_pos).
      assert (T2 : Rabs x * Rabs (pt - w * xk) <= 1 * ((4 * IZR k + 1) * u)) by (apply Rmult_le_compat; auto using Rabs_pos).
      lra.
Qed.

(** All checks on one rule. *)
Fixpoint increasing (l : list Z) : bool :=
  match l with
  | a :: ((b :: _) as t) => (a <? b)%Z && increasing t
  | _ => true
  end.
Definition rule_ok (order : Z) : bool :=
  let n := (order / 2 + 1)%Z in
  match assigned_values (gl_node_assignments order) (zseq n), assigned_values (gl_weight_assignments order) (zseq n) with
  | Some X, Some W =>
      in_range (gl_node_assignments order) n && in_range (gl_weight_assignments order) n &&
      forallb (fun x => (- SC <? x)%Z && (x <? SC)%Z) X && increasing X &&
      forallb (fun i => (nth (Z.to_nat i) X 0 =? - nth (Z.to_nat (n - 1 - i)) X 0)%Z &&
                        (nth (Z.to_nat i) W 0 =? nth (Z.to_nat (n - 1 - i)) W 0)%Z) (zseq n) &&
      forallb (fun w => (0 <? w)%Z && (w <=? 2 * SC)%Z) W &&
      moments_ok (Z.to_nat (2 * n)) 0 (map fx X) (map fx W)
  | _, _ => false
  end.

Lemma nth_In_Z (l : list Z) i : (0 <= i < zlen l)%Z -> In (nth (Z.to_nat i) l 0%Z) l.
Proof. intros H. apply nth_In. unfold zlen in H. lia. Qed.

Lemma increasing_lt l : increasing l = true -> forall i j, (i < j < length l)%nat -> (nth i l 0 < nth j l 0)%Z.
Proof.
  induction l as [|a l IH]; intros H i j Hij; [cbn in Hij; lia|].
  destruct l as [|b l]; [cbn in Hij; lia|].
  cbn [increasing] in H. rewrite andb_true_iff in H. destruct H as [H1 H2]. apply Z.ltb_lt in H1.
  destruct j as [|j]; [lia|]. destruct i as [|i].
  - cbn [nth]. destruct j as [|j]; [exact H1|].
    pose proof (IH H2 O (S j) ltac:(cbn in *; lia)) as Q. cbn [nth] in Q. lia.
  - apply (IH H2 i j). cbn in *; lia.
Qed.

Lemma lit_lt a b : (a < b)%Z -> lit a < lit b.
Proof.
  intros H. rewrite !lit_pow. apply Rmult_lt_compat_r; [apply Rinv_0_lt_compat, SC_pos|]. now apply IZR_lt.
Qed.

(** * Integrals of polynomials *)
Lemma is_RInt_monomial k : (0 <= k)%Z -> is_RInt (fun x => x ^ Z.to_nat k) (-1) 1 (moment k).
Proof.
  intros Hk.
  assert (E : moment k = minus (1 ^ S (Z.to_nat k) / INR (S (Z.to_nat k))) ((-1) ^ S (Z.to_nat k) / INR (S (Z.to_nat k)))).
  { unfold minus, plus, opp; cbn -[pow INR]. rewrite pow1. rewrite S_INR.
    rewrite INR_IZR_INZ, Z2Nat.id by lia. apply IZR_le in Hk as Hk'.
    unfold moment. destruct (Z.even k) eqn:Ev.
    - apply Z.even_spec in Ev. destruct Ev as [m ->].
      replace (S (Z.to_nat (2 * m))) with (S (2 * Z.to_nat m)) by lia. rewrite pow_1_odd. field. lra.
    - assert (Od : Z.odd k = true) by (rewrite <- Z.negb_even, Ev; reflexivity).
      apply Z.odd_spec in Od. destruct Od as [m ->].
      replace (S (Z.to_nat (2 * m + 1))) with (2 * (S (Z.to_nat m)))%nat by lia. rewrite pow_1_even. field. lra. }
  rewrite E. apply (is_RInt_derive (fun x => x ^ S (Z.to_nat k) / INR (S (Z.to_nat k)))).
  - intros x _. auto_derive; [easy|].
    pose proof (not_0_INR (S (Z.to_nat k)) ltac:(lia)) as NZ.
    replace (match Z.to_nat k with O => 1 | S _ => INR (Z.to_nat k) + 1 end) with (INR (S (Z.to_nat k))) by (rewrite S_INR; destruct (Z.to_nat k); cbn; lra).
    field. exact NZ.
  - intros x _. apply (ex_derive_continuous (fun x => x ^ Z.to_nat k)). auto_derive. easy.
Qed.

Lemma is_RInt_rsum n (f : Z -> R -> R) (I : Z -> R) a b :
  (forall k, (0 <= k < n)%Z -> is_RInt (f k) a b (I k)) ->
  is_RInt (fun x => rsum n (fun k => f k x)) a b (rsum n I).
Proof.
  induction n as [n H|n H IH] using zind; intros HI.
  - apply is_RInt_ext with (f := fun _ => 0); [intros; now rewrite rsum_0|]. rewrite rsum_0 by easy.
    pose proof (is_RInt_const (V := R_NormedModule) a b 0) as Q. unfold scal in Q; cbn in Q; unfold mult in Q; cbn in Q. rewrite Rmult_0_r in Q. exact Q.
  - apply is_RInt_ext with (f := fun x => plus (rsum n (fun k => f k x)) (f n x)); [intros; now rewrite rsum_S|].
    rewrite rsum_S by easy. apply @is_RInt_plus; [apply IH; intros; apply HI; lia|apply HI; lia].
Qed.
