(** ShapeProof.v -- closed forms of the routines of ShapeModel.v. *)
From Coq Require Import ZArith List Lia Reals Lra Bool Psatz.
From Coquelicot Require Import Coquelicot.
From Verif Require Import Base RBase LinAlgModel LinAlgProof QuadModel QuadProof BasisModel BasisProof PropBasis ShapeModel.
Import ListNotations.
Local Open Scope R_scope.

(** * Point orders *)
Open Scope Z_scope.

Lemma fill_order n (f : Z -> Z) o k : 0 <= n ->
  zloop n (fun i o => updi o i (f i)) o k = if ((0 <=? k) && (k <? n))%bool then f k else o k.
Proof.
  intros Hn. apply (zloop_entry n (fun i o => updi o i (f i)) f); [easy|].
  intros i a q Hi. unfold updi. destruct (Z.eqb_spec q i) as [->|]; reflexivity.
Qed.

Lemma curr_loop n (step : Z -> Z) (C : Z -> Z) o c0 k : 0 <= n ->
  c0 = C 0 -> (forall i, 0 <= i -> i + 1 < n -> step (C i) = C (i + 1)) ->
  fst (zloop n (fun i s => (updi (fst s) i (snd s), step (snd s))) (o, c0)) k =
  if ((0 <=? k) && (k <? n))%bool then C k else o k.
Proof.
  intros Hn H0 HS.
  assert (X : forall m, 0 <= m <= n ->
    let s := zloop m (fun i (s : iarr * Z) => (updi (fst s) i (snd s), step (snd s))) (o, c0) in
    (m < n -> snd s = C m) /\ forall k, fst s k = if ((0 <=? k) && (k <? m))%bool then C k else o k).
  { intros m. induction m as [m Hm|m Hm IH] using zind; intros Hb s; unfold s.
    - rewrite zloop_0 by easy. cbn. split; [intros; now replace m with 0 by lia|].
      intros q. destruct (Z.leb_spec 0 q), (Z.ltb_spec q m); cbn; auto; lia.
    - rewrite zloop_S by easy. specialize (IH ltac:(lia)). cbv zeta in IH.
      destruct (zloop m _ (o, c0)) as [om cm]. cbn [fst snd] in *. destruct IH as [I1 I2]. rewrite I1 by lia. split.
      + intros H. apply HS; lia.
      + intros q. unfold updi. destruct (Z.eqb_spec q m) as [->|N].
        * destruct (Z.leb_spec 0 m), (Z.ltb_spec m (m + 1)); cbn; auto; lia.
        * rewrite I2. destruct (Z.leb_spec 0 q), (Z.ltb_spec q m), (Z.ltb_spec q (m + 1)); cbn; auto; lia. }
  apply (X n). lia.
Qed.

Lemma row_loop n (e : Z) o c k : 0 <= n ->
  exists o', zloop n (fun (j : Z) (s : iarr * Z * Z) => let '(o, curr, k) := s in (updi o k curr, curr + e, k + 1)) (o, c, k) =
     (o', c + n * e, k + n) /\
  forall q, o' q = if ((k <=? q) && (q <? k + n))%bool then c + e * (q - k) else o q.
Proof.
  induction n as [n Hn|n Hn IH] using zind; intros Hb.
  - exists o. rewrite zloop_0 by easy. replace n with 0 by lia. split; [now repeat (f_equal; try lia)|].
    intros q. destruct (Z.leb_spec k q), (Z.ltb_spec q (k + 0)); cbn; auto; lia.
  - destruct (IH Hn) as (o' & E & F). exists (updi o' (k + n) (c + n * e)). rewrite zloop_S, E by easy. split.
    + now repeat (f_equal; try lia).
    + intros q. unfold updi. destruct (Z.eqb_spec q (k + n)) as [->|N].
      * destruct (Z.leb_spec k (k + n)), (Z.ltb_spec (k + n) (k + (n + 1))); cbn; try lia; ring.
      * rewrite F. destruct (Z.leb_spec k q), (Z.ltb_spec q (k + n)), (Z.ltb_spec q (k + (n + 1))); cbn; auto; lia.
Qed.

Lemma rows_loop n (e f : Z) o c0 k : 0 < n ->
  fst (fst (zloop n (fun (i : Z) (s : iarr * Z * Z) =>
     let '(o, curr, k) := zloop n (fun (j : Z) (s : iarr * Z * Z) => let '(o, curr, k) := s in (updi o k curr, curr + e, k + 1)) s in
     (o, curr + f, k)) (o, c0, 0))) k =
  if ((0 <=? k) && (k <? n * n))%bool then c0 + (k / n) * (n * e + f) + e * (k mod n) else o k.
Proof.
  intros Hn.
  assert (X : forall m, 0 <= m -> exists o', zloop m (fun (i : Z) (s : iarr * Z * Z) =>
     let '(o, curr, k) := zloop n (fun (j : Z) (s : iarr * Z * Z) => let '(o, curr, k) := s in (updi o k curr, curr + e, k + 1)) s in
     (o, curr + f, k)) (o, c0, 0) = (o', c0 + m * (n * e + f), m * n) /\
     forall q, o' q = if ((0 <=? q) && (q <? m * n))%bool then c0 + (q / n) * (n * e + f) + e * (q mod n) else o q).
  { intros m. induction m as [m Hm|m Hm IH] using zind; intros Hb.
    - exists o. rewrite zloop_0 by easy. replace m with 0 by lia. split; [now repeat (f_equal; try lia)|].
      intros q. destruct (Z.leb_spec 0 q), (Z.ltb_spec q (0 * n)); cbn; auto; lia.
    - destruct (IH Hm) as (o1 & E1 & F1). destruct (row_loop n e o1 (c0 + m * (n * e + f)) (m * n) ltac:(lia)) as (o2 & E2 & F2).
      exists o2. rewrite zloop_S, E1, E2 by easy. split; [now repeat (f_equal; try lia)|].
      intros q. rewrite F2, F1.
      destruct (Z.leb_spec (m * n) q), (Z.ltb_spec q (m * n + n)), (Z.leb_spec 0 q), (Z.ltb_spec q ((m + 1) * n)), (Z.ltb_spec q (m * n)); cbn; auto; try lia.
      assert (D : q / n = m) by (symmetry; apply (Z.div_unique q n m (q - m * n)); lia).
      rewrite Z.mod_eq, D by lia. ring. }
  destruct (X n ltac:(lia)) as (o' & E & F). rewrite E. cbn [fst]. apply F.
Qed.

Lemma face_pts_order_quad_spec orient n o k : 0 <= n -> 0 <= orient <= 1 ->
  face_pts_order_quad orient n o k = if ((0 <=? k) && (k <? n))%bool then (if orient =? 0 then k else n - 1 - k) else o k.
Proof.
  intros Hn Ho. assert (C : orient = 0 \/ orient = 1) by lia. destruct C as [-> | ->]; cbn [face_pts_order_quad Z.eqb].
  - apply (fill_order n (fun i => i)). easy.
  - apply (fill_order n (fun i => n - 1 - i)). easy.
Qed.

(** The index of point (i, j) of an n x n face in orientation 0 that coincides
    with point (i, j) of the given orientation. *)
Definition hex_src (orient n i j : Z) : Z :=
  if orient =? 0 then j * n + i else
  if orient =? 1 then i * n + (n - 1 - j) else
  if orient =? 2 then (n - 1 - j) * n + (n - 1 - i) else
  if orient =? 3 then (n - 1 - i) * n + j else
  if orient =? 4 then i * n + j else
  if orient =? 5 then j * n + (n - 1 - i) else
  if orient =? 6 then (n - 1 - i) * n + (n - 1 - j) else
  (n - 1 - j) * n + i.

Lemma next_cases n i : 0 < n -> 0 <= i -> i + 1 < n * n ->
  (i mod n + 1 < n /\ (i + 1) / n = i / n /\ (i + 1) mod n = i mod n + 1) \/
  (i mod n = n - 1 /\ (i + 1) / n = i / n + 1 /\ (i + 1) mod n = 0 /\ i / n + 1 < n).
Proof.
  intros Hn Hi Hb. pose proof (Z.div_mod i n ltac:(lia)) as E. pose proof (Z.mod_pos_bound i n ltac:(lia)) as B.
  assert (P : 0 <= i / n) by (apply Z.div_pos; lia).
  destruct (Z_lt_dec (i mod n + 1) n) as [H|H]; [left|right].
  - split; [easy|]. split; symmetry.
    + apply (Z.div_unique _ _ _ (i mod n + 1)); lia.
    + apply (Z.mod_unique _ _ (i / n)); lia.
  - split; [lia|]. split; [symmetry; apply (Z.div_unique _ _ _ 0); nia|]. split; [symmetry; apply (Z.mod_unique _ _ (i / n + 1)); nia|]. nia.
Qed.

Lemma face_pts_order_hex_spec orient n o k : 0 < n -> 0 <= orient <= 7 ->
  face_pts_order_hex orient (n * n) o k =
  if ((0 <=? k) && (k <? n * n))%bool then hex_src orient n (k mod n) (k / n) else o k.
Proof.
  intros Hn Ho. unfold face_pts_order_hex. cbv zeta. rewrite Z.sqrt_square by lia.
  assert (DM : forall k, k = (k / n) * n + k mod n) by (intros q; rewrite Z.mul_comm; apply Z.div_mod; lia).
  assert (B : forall k, 0 <= k < n * n -> 0 <= k mod n < n /\ 0 <= k / n < n).
  { intros q Hq. split; [apply Z.mod_pos_bound; lia|]. split; [apply Z.div_pos; lia|apply Z.div_lt_upper_bound; lia]. }
  assert (C : orient = 0 \/ orient = 1 \/ orient = 2 \/ orient = 3 \/ orient = 4 \/ orient = 5 \/ orient = 6 \/ orient = 7) by lia.
  assert (ZD : 0 / n = 0) by now rewrite Z.div_0_l by lia.
  assert (ZM : 0 mod n = 0) by now rewrite Z.mod_0_l by lia.
  destruct C as [-> | [-> | [-> | [-> | [-> | [-> | [-> | ->]]]]]]]; unfold hex_src; cbn [Z.eqb Pos.eqb].
  - rewrite (fill_order (n * n) (fun i => i)) by nia. now rewrite <- DM.
  - apply (curr_loop (n * n) (fun c => (c + n) mod (n * n + 1)) (fun k => k mod n * n + (n - 1 - k / n))); [nia|rewrite ZD, ZM; lia|].
    intros i Hi Hb. destruct (B i ltac:(lia)) as [B1 B2].
    destruct (next_cases n i Hn Hi Hb) as [(H1 & -> & ->)|(H1 & -> & -> & H2)].
    + rewrite Z.mod_small by nia. ring.
    + rewrite H1. symmetry. apply (Z.mod_unique _ _ 1); [left; nia|ring].
  - rewrite (fill_order (n * n) (fun i => n * n - 1 - i)) by nia.
    destruct (_ && _)%bool; [|easy]. rewrite (DM k) at 1. ring.
  - apply (curr_loop (n * n) (fun c => let curr := c - n in if curr <? 0 then curr + (n * n + 1) else curr) (fun k => (n - 1 - k mod n) * n + k / n)); [nia|rewrite ZD, ZM; lia|].
    intros i Hi Hb. cbv zeta. destruct (B i ltac:(lia)) as [B1 B2].
    destruct (next_cases n i Hn Hi Hb) as [(H1 & -> & ->)|(H1 & -> & -> & H2)].
    + destruct (Z.ltb_spec ((n - 1 - i mod n) * n + i / n - n) 0); nia.
    + rewrite H1. destruct (Z.ltb_spec ((n - 1 - (n - 1)) * n + i / n - n) 0); nia.
  - apply (curr_loop (n * n) (fun c => let curr := c + n in if curr >=? n * n then curr - (n * n - 1) else curr) (fun k => k mod n * n + k / n)); [nia|rewrite ZD, ZM; lia|].
    intros i Hi Hb. cbv zeta. destruct (B i ltac:(lia)) as [B1 B2].
    destruct (next_cases n i Hn Hi Hb) as [(H1 & -> & ->)|(H1 & -> & -> & H2)].
    + destruct (Z.geb_spec (i mod n * n + i / n + n) (n * n)); nia.
    + rewrite H1. destruct (Z.geb_spec ((n - 1) * n + i / n + n) (n * n)); nia.
  - etransitivity; [apply (rows_loop n (-1) (2 * n) o (n - 1) k Hn)|]. destruct (_ && _)%bool; [ring|easy].
  - apply (curr_loop (n * n) (fun c => let curr := c - n in if curr <? 0 then curr + (n * n - 1) else curr) (fun k => (n - 1 - k mod n) * n + (n - 1 - k / n))); [nia|rewrite ZD, ZM; lia|].
    intros i Hi Hb. cbv zeta. destruct (B i ltac:(lia)) as [B1 B2].
    destruct (next_cases n i Hn Hi Hb) as [(H1 & -> & ->)|(H1 & -> & -> & H2)].
    + destruct (Z.ltb_spec ((n - 1 - i mod n) * n + (n - 1 - i / n) - n) 0); nia.
    + rewrite H1. destruct (Z.ltb_spec ((n - 1 - (n - 1)) * n + (n - 1 - i / n) - n) 0); nia.
  - etransitivity; [apply (rows_loop n 1 (- (2 * n)) o (n * n - n) k Hn)|]. destruct (_ && _)%bool; [ring|easy].
Qed.

(** * Local nodes *)
Lemma local_nodes_quad_spec face g lf k : 0 <= g -> 0 <= face <= 3 ->
  local_nodes_on_face_quad face g lf k =
  if ((0 <=? k) && (k <? g + 1))%bool then
    (if face =? 0 then k else if face =? 1 then k * (g + 1) + g else
     if face =? 2 then g * (g + 1) + (g - k) else (g - k) * (g + 1))
  else lf k.
Proof.
  intros Hg Hf. assert (C : face = 0 \/ face = 1 \/ face = 2 \/ face = 3) by lia.
  unfold local_nodes_on_face_quad. destruct C as [-> | [-> | [-> | ->]]]; cbn [Z.eqb Pos.eqb];
  (rewrite (fill_order (g + 1) (fun i => _ + i * _)) by lia; destruct (_ && _)%bool; [ring|easy]).
Qed.

Lemma local_nodes_hex_spec face g lf k : 0 <= g -> 0 <= face <= 5 ->
  let N := g + 1 in let i := k mod N in let j := k / N in
  local_nodes_on_face_hex face g lf k =
  if ((0 <=? k) && (k <? N * N))%bool then
    (if face =? 0 then i * N + j else if face =? 1 then j * N * N + i else
     if face =? 2 then j * N * N + i * N + g else if face =? 3 then j * N * N + g * N + (g - i) else
     if face =? 4 then j * N * N + (g - i) * N else g * N * N + j * N + i)
  else lf k.
Proof.
  intros Hg Hf N i j. unfold local_nodes_on_face_hex.
  set (t := match face with 0 => (0, g + 1, 1) | 1 => _ | 2 => _ | 3 => _ | 4 => _ | 5 => _ | _ => _ end).
  assert (X : exists i0 d0 d1, t = (i0, d0, d1) /\ forall i j, i0 + i * d0 + j * d1 =
     (if face =? 0 then i * N + j else if face =? 1 then j * N * N + i else
     if face =? 2 then j * N * N + i * N + g else if face =? 3 then j * N * N + g * N + (g - i) else
     if face =? 4 then j * N * N + (g - i) * N else g * N * N + j * N + i)).
  { assert (C : face = 0 \/ face = 1 \/ face = 2 \/ face = 3 \/ face = 4 \/ face = 5) by lia.
    destruct C as [-> | [-> | [-> | [-> | [-> | ->]]]]]; cbn in t |- *;
    unfold t, N; do 3 eexists; (split; [reflexivity|intros; ring]). }
  destruct X as (i0 & d0 & d1 & E & F). rewrite E. rewrite <- F. clearbody t. subst t.
  assert (Y : forall m, 0 <= m -> let s := zloop m (fun j s => zloop N (fun i (s : iarr * Z) =>
      (updi (fst s) (snd s) (i0 + i * d0 + j * d1), snd s + 1)) s) (lf, 0) in
      snd s = m * N /\ forall q, fst s q = if ((0 <=? q) && (q <? m * N))%bool then i0 + (q mod N) * d0 + (q / N) * d1 else lf q).
  { intros m. induction m as [m Hm|m Hm IH] using zind; intros Hb s; unfold s.
    - rewrite zloop_0 by easy. replace m with 0 by lia. cbn. split; [easy|].
      intros q. destruct (Z.leb_spec 0 q), (Z.ltb_spec q 0); cbn; auto; lia.
    - rewrite zloop_S by easy. specialize (IH Hm). cbv zeta in IH. destruct (zloop m _ (lf, 0)) as [om km]. cbn [fst snd] in IH.
      destruct IH as [-> F2].
      assert (Z : forall r, 0 <= r <= N -> let s := zloop r (fun i (s : iarr * Z) => (updi (fst s) (snd s) (i0 + i * d0 + m * d1), snd s + 1)) (om, m * N) in
         snd s = m * N + r /\ forall q, fst s q = if ((0 <=? q) && (q <? m * N + r))%bool then i0 + (q mod N) * d0 + (q / N) * d1 else lf q).
      { intros r. induction r as [r Hr|r Hr IHr] using zind; intros Hrb s'; unfold s'.
        - rewrite zloop_0 by easy. replace r with 0 by lia. cbn. rewrite Z.add_0_r. auto.
        - rewrite zloop_S by easy. specialize (IHr ltac:(lia)). cbv zeta in IHr. destruct (zloop r _ (om, m * N)) as [o1 k1]. cbn [fst snd] in IHr |- *.
          destruct IHr as [-> F3]. split; [lia|]. intros q. unfold updi. destruct (Z.eqb_spec q (m * N + r)) as [->|Nq].
          + rewrite rng_true by nia. rewrite idx2_mod, idx2_div by lia. reflexivity.
          + rewrite F3. destruct (Z.leb_spec 0 q), (Z.ltb_spec q (m * N + r)), (Z.ltb_spec q (m * N + (r + 1))); cbn; auto; lia. }
      destruct (Z N ltac:(lia)) as [Z1 Z2]. split; [rewrite Z1; ring|]. intros q. rewrite Z2. replace ((m + 1) * N) with (m * N + N) by ring. reflexivity. }
  destruct (Y N ltac:(lia)) as [_ Y2]. apply Y2.
Qed.
