(** SolverFaces.v -- gathering face states from and scattering face fluxes to
    the elements of one rank. *)
From Coq Require Import ZArith List Lia Reals Lra Bool Permutation FunctionalExtensionality.
From Verif Require Import Base RBase LinAlgModel LinAlgProof PhysModel PhysSpec PhysProof ShapeModel MeshModel CommModel
  SolverModel SolverProof.
Import ListNotations.
Local Open Scope R_scope.
Open Scope res_scope.

Lemma bind_l {A B} (a : A) (k : A -> res B) : bind (Ok a) k = k a.
Proof. reflexivity. Qed.

(** Entry of a face table; side [false] is left, [true] is right. *)
Definition ent (rows : list (list Z)) (lf j : Z) : Z := match rd2 rows lf j with Ok x => x | Fail _ => 0%Z end.
Definition col (sd : bool) (j : Z) : Z := if sd then (4 + j)%Z else j.
Definition srank rows lf sd := ent rows lf (col sd 0).
Definition selem rows lf sd := ent rows lf (col sd 1).
Definition sface rows lf sd := ent rows lf (col sd 2).
Definition sorient rows lf sd := ent rows lf (col sd 3).
Definition sgn (sd : bool) : R := if sd then 1 else -1.
Definition qidx (qL qR : Z -> Z -> Z) (sd : bool) : Z -> Z -> Z := if sd then qR else qL.

(** The face table of a rank is usable: rows of eight entries; own elements and
    face numbers in range; no (element, face number) on two own sides; the
    quadrature lookup permutes the points of each face. *)
Record rows_wf (rank : Z) (rows : list (list Z)) (nif nqf ne NFACE : Z) (q : bool -> Z -> Z -> Z) : Prop := {
  rw_row : forall lf j, (0 <= lf < nif)%Z -> (0 <= j < 8)%Z -> rd2 rows lf j = Ok (ent rows lf j);
  rw_in : forall lf sd, (0 <= lf < nif)%Z -> srank rows lf sd = rank ->
     (0 <= selem rows lf sd < ne)%Z /\ (0 <= sface rows lf sd < NFACE)%Z;
  rw_inj : forall lf sd lf' sd', (0 <= lf < nif)%Z -> (0 <= lf' < nif)%Z ->
     srank rows lf sd = rank -> srank rows lf' sd' = rank ->
     selem rows lf sd = selem rows lf' sd' -> sface rows lf sd = sface rows lf' sd' -> lf = lf' /\ sd = sd';
  rw_q : forall lf sd iq, (0 <= lf < nif)%Z -> (0 <= iq < nqf)%Z -> (0 <= q sd lf iq < nqf)%Z;
  rw_qinj : forall lf sd iq iq', (0 <= lf < nif)%Z -> (0 <= iq < nqf)%Z -> (0 <= iq' < nqf)%Z ->
     q sd lf iq = q sd lf iq' -> iq = iq'
}.

Lemma pair_dec (a b : Z * Z) : {a = b} + {a <> b}.
Proof. decide equality; apply Z.eq_dec. Qed.

Section Rank.
Context (rank : Z) (rows : list (list Z)) (nif nqf ne NFACE ns : Z) (qL qR : Z -> Z -> Z).
Let q := qidx qL qR.
Context (W : rows_wf rank rows nif nqf ne NFACE q) (Hns : (0 <= ns)%Z).

Definition slot (lf : Z) (sd : bool) (iq : Z) : Z * Z :=
  (selem rows lf sd, (sface rows lf sd * nqf + q sd lf iq)%Z).

Lemma slot_inj lf sd iq lf' sd' iq' :
  (0 <= lf < nif)%Z -> (0 <= lf' < nif)%Z -> (0 <= iq < nqf)%Z -> (0 <= iq' < nqf)%Z ->
  srank rows lf sd = rank -> srank rows lf' sd' = rank ->
  slot lf sd iq = slot lf' sd' iq' -> lf = lf' /\ sd = sd' /\ iq = iq'.
Proof.
  intros H1 H2 H3 H4 R1 R2 E. unfold slot in E. injection E as E1 E2.
  pose proof (rw_q _ _ _ _ _ _ _ W lf sd iq H1 H3) as Q1.
  pose proof (rw_q _ _ _ _ _ _ _ W lf' sd' iq' H2 H4) as Q2.
  assert (EF : sface rows lf sd = sface rows lf' sd' /\ q sd lf iq = q sd' lf' iq').
  { assert (sface rows lf sd = sface rows lf' sd' \/ sface rows lf sd < sface rows lf' sd' \/ sface rows lf' sd' < sface rows lf sd)%Z
      as [?|[?|?]] by lia; nia. }
  destruct EF as [EF EQ].
  destruct (rw_inj _ _ _ _ _ _ _ W lf sd lf' sd' H1 H2 R1 R2 E1 EF) as [-> ->].
  repeat split. now apply (rw_qinj _ _ _ _ _ _ _ W lf' sd').
Qed.

Lemma slot_range lf sd iq : (0 <= lf < nif)%Z -> (0 <= iq < nqf)%Z -> srank rows lf sd = rank ->
  (0 <= fst (slot lf sd iq) < ne)%Z /\ (0 <= snd (slot lf sd iq) < NFACE * nqf)%Z.
Proof.
  intros H1 H2 R1. destruct (rw_in _ _ _ _ _ _ _ W lf sd H1 R1) as [A B].
  pose proof (rw_q _ _ _ _ _ _ _ W lf sd iq H1 H2). unfold slot. cbn [fst snd]. split; nia.
Qed.

(** What iteration (lf, iq) writes. *)
Definition pair_eqb (a b : Z * Z) : bool := ((fst a =? fst b) && (snd a =? snd b))%Z%bool.
Lemma pair_eqb_eq a b : pair_eqb a b = true <-> a = b.
Proof.
  unfold pair_eqb. rewrite andb_true_iff, !Z.eqb_eq. destruct a, b; cbn. split; [intros [-> ->]; easy|intros [= -> ->]; easy].
Qed.

Definition Wf (Fq : arr3) (p : Z * Z) (e s : Z) : option (Z -> R) :=
  let '(lf, iq) := p in
  if ((srank rows lf true =? rank)%Z && pair_eqb (e, s) (slot lf true iq))%bool then Some (fun k => Fq lf iq k)
  else if ((srank rows lf false =? rank)%Z && pair_eqb (e, s) (slot lf false iq))%bool then Some (fun k => -1 * Fq lf iq k)
  else None.

Lemma Wf_some Fq lf iq e s g : Wf Fq (lf, iq) e s = Some g ->
  exists sd, srank rows lf sd = rank /\ (e, s) = slot lf sd iq /\ forall k, g k = sgn sd * Fq lf iq k.
Proof.
  unfold Wf. destruct (Z.eqb_spec (srank rows lf true) rank); cbn [andb].
  - destruct (pair_eqb _ _) eqn:E; [intros [= <-]; exists true; rewrite pair_eqb_eq in E; repeat split; auto; intros; cbn; ring|].
    destruct (Z.eqb_spec (srank rows lf false) rank); cbn [andb]; [|discriminate].
    destruct (pair_eqb (e, s) (slot lf false iq)) eqn:E'; [|discriminate].
    intros [= <-]. exists false. rewrite pair_eqb_eq in E'. repeat split; auto.
  - destruct (Z.eqb_spec (srank rows lf false) rank); cbn [andb]; [|discriminate].
    destruct (pair_eqb (e, s) (slot lf false iq)) eqn:E'; [|discriminate].
    intros [= <-]. exists false. rewrite pair_eqb_eq in E'. repeat split; auto.
Qed.

Lemma Wf_own Fq lf iq sd : (0 <= lf < nif)%Z -> (0 <= iq < nqf)%Z -> srank rows lf sd = rank ->
  exists g, Wf Fq (lf, iq) (fst (slot lf sd iq)) (snd (slot lf sd iq)) = Some g /\ forall k, g k = sgn sd * Fq lf iq k.
Proof.
  intros H1 H2 R1. unfold Wf. rewrite <- !surjective_pairing.
  destruct sd.
  - rewrite R1, Z.eqb_refl, (proj2 (pair_eqb_eq _ _) eq_refl). cbn [andb]. eexists; split; [reflexivity|]. intros; cbn; ring.
  - destruct ((srank rows lf true =? rank)%Z && pair_eqb (slot lf false iq) (slot lf true iq))%bool eqn:E.
    + apply andb_true_iff in E. destruct E as [E1 E2]. apply Z.eqb_eq in E1. apply pair_eqb_eq in E2.
      destruct (slot_inj _ _ _ _ _ _ H1 H1 H2 H2 R1 E1 E2) as (_ & C & _). discriminate.
    + rewrite R1, Z.eqb_refl, (proj2 (pair_eqb_eq _ _) eq_refl). cbn [andb]. eexists; split; [reflexivity|]. intros; reflexivity.
Qed.

Lemma flux_state_ok order Fq Fe0 : Permutation order (all_pairs nif nqf) ->
  exists Fe, construct_flux_state rank rows nif nqf ns (ne, (NFACE * nqf)%Z, ns) qL qR order Fq Fe0 = Ok Fe /\
    (forall lf sd iq k, (0 <= lf < nif)%Z -> (0 <= iq < nqf)%Z -> (0 <= k < ns)%Z -> srank rows lf sd = rank ->
       Fe (fst (slot lf sd iq)) (snd (slot lf sd iq)) k = sgn sd * Fq lf iq k) /\
    (forall e s k, (forall lf sd iq, (0 <= lf < nif)%Z -> (0 <= iq < nqf)%Z -> srank rows lf sd = rank -> slot lf sd iq <> (e, s)) ->
       Fe e s k = Fe0 e s k).
Proof.
  intros P.
  destruct (scatter ns (Wf Fq) order (fun p Fe =>
    let '(iface, iq) := p in
    rankL <- rd2 rows iface 0 ;;
    rankR <- rd2 rows iface 4 ;;
    Fe <- (if (rank =? rankL)%Z then
       elemL <- rd2 rows iface 1 ;;
       faceL <- rd2 rows iface 2 ;;
       let startL := (faceL * nqf)%Z in
       zfor ns (fun is Fe => v <- rd3 (nif, nqf, ns) Fq iface iq is ;;
                             wr3 (ne, (NFACE * nqf)%Z, ns) Fe elemL (startL + qL iface iq) is (-1 * v)) Fe
     else Ok Fe) ;;
    (if (rank =? rankR)%Z then
       elemR <- rd2 rows iface 5 ;;
       faceR <- rd2 rows iface 6 ;;
       let startR := (faceR * nqf)%Z in
       zfor ns (fun is Fe => v <- rd3 (nif, nqf, ns) Fq iface iq is ;;
                             wr3 (ne, (NFACE * nqf)%Z, ns) Fe elemR (startR + qR iface iq) is v) Fe
     else Ok Fe)) Fe0) as (Fe & E & H1 & H2).
  - intros [lf iq] a Hin. apply (perm_pairs_In order nif nqf lf iq P) in Hin. destruct Hin as [Hlf Hiq].
    pose proof (rw_row _ _ _ _ _ _ _ W lf) as RR.
    rewrite (RR 0%Z), (RR 4%Z) by lia. rewrite !bind_l; cbv beta.
    change (ent rows lf 0) with (srank rows lf false). change (ent rows lf 4) with (srank rows lf true).
    assert (SIDE : forall sd (neg : R) a, srank rows lf sd = rank ->
      exists a', zfor ns (fun is Fe => v <- rd3 (nif, nqf, ns) Fq lf iq is ;;
                             wr3 (ne, (NFACE * nqf)%Z, ns) Fe (selem rows lf sd) (sface rows lf sd * nqf + q sd lf iq) is (neg * v)) a = Ok a' /\
      forall e s k, a' e s k = if pair_eqb (e, s) (slot lf sd iq) then (if inb ns k then neg * Fq lf iq k else a e s k) else a e s k).
    { intros sd neg b R1. destruct (slot_range lf sd iq Hlf Hiq R1) as [S1 S2]. unfold slot in S1, S2. cbn [fst snd] in S1, S2.
      destruct (write_row (ne, (NFACE * nqf)%Z, ns) b (fun is => Ok (neg * Fq lf iq is)) (fun k => neg * Fq lf iq k)
         (selem rows lf sd) (sface rows lf sd * nqf + q sd lf iq)%Z ns Hns) as (b' & E & HE).
      - reflexivity.
      - intros is His. now apply within3_intro.
      - exists b'. split; [|intros e s k; rewrite HE; reflexivity].
        rewrite <- E. unfold zfor.
        assert (Z1 : forall l, (forall is, In is l -> (0 <= is < ns)%Z) -> forall b,
          foreach l (fun is Fe => v <- rd3 (nif, nqf, ns) Fq lf iq is ;;
                             wr3 (ne, (NFACE * nqf)%Z, ns) Fe (selem rows lf sd) (sface rows lf sd * nqf + q sd lf iq) is (neg * v)) b =
          foreach l (fun is Fe => v <- Ok (neg * Fq lf iq is) ;;
                             wr3 (ne, (NFACE * nqf)%Z, ns) Fe (selem rows lf sd) (sface rows lf sd * nqf + q sd lf iq) is v) b).
        { induction l as [|x l IH]; intros HL c; [easy|]. cbn [foreach].
          unfold rd3 at 1. rewrite within3_intro by (auto; apply HL; now left). cbn [bind].
          destruct (wr3 _ _ _ _ _ _); cbn [bind]; [|easy]. apply IH. intros; apply HL; now right. }
        apply Z1. intros is. now rewrite In_zseq. }
    assert (L : exists a', (if (rank =? srank rows lf false)%Z then
       elemL <- rd2 rows lf 1 ;;
       faceL <- rd2 rows lf 2 ;;
       let startL := (faceL * nqf)%Z in
       zfor ns (fun is Fe => v <- rd3 (nif, nqf, ns) Fq lf iq is ;;
                             wr3 (ne, (NFACE * nqf)%Z, ns) Fe elemL (startL + qL lf iq) is (-1 * v)) a
     else Ok a) = Ok a' /\ forall e s k, a' e s k =
        if ((srank rows lf false =? rank)%Z && pair_eqb (e, s) (slot lf false iq))%bool then (if inb ns k then -1 * Fq lf iq k else a e s k) else a e s k).
    { rewrite (Z.eqb_sym rank). destruct (Z.eqb_spec (srank rows lf false) rank) as [R1|R1]; [|exists a; easy].
      rewrite (RR 1%Z), (RR 2%Z) by lia. cbn [bind andb]. exact (SIDE false (-1) a R1). }
    destruct L as (a1 & -> & HL). rewrite bind_l; cbv beta.
    assert (Rr : exists a', (if (rank =? srank rows lf true)%Z then
       elemR <- rd2 rows lf 5 ;;
       faceR <- rd2 rows lf 6 ;;
       let startR := (faceR * nqf)%Z in
       zfor ns (fun is Fe => v <- rd3 (nif, nqf, ns) Fq lf iq is ;;
                             wr3 (ne, (NFACE * nqf)%Z, ns) Fe elemR (startR + qR lf iq) is v) a1
     else Ok a1) = Ok a' /\ forall e s k, a' e s k =
        if ((srank rows lf true =? rank)%Z && pair_eqb (e, s) (slot lf true iq))%bool then (if inb ns k then Fq lf iq k else a1 e s k) else a1 e s k).
    { rewrite (Z.eqb_sym rank). destruct (Z.eqb_spec (srank rows lf true) rank) as [R1|R1]; [|exists a1; easy].
      rewrite (RR 5%Z), (RR 6%Z) by lia. cbn [bind andb]. destruct (SIDE true 1 a1 R1) as (a' & E & HE).
      exists a'. split.
      - rewrite <- E. f_equal. apply functional_extensionality. intros is. apply functional_extensionality. intros F.
        destruct (rd3 (nif, nqf, ns) Fq lf iq is) as [v|]; cbn [bind]; [|easy]. f_equal. ring.
      - intros e s k. rewrite HE. destruct (pair_eqb _ _); [|easy]. destruct (inb ns k); [ring|easy]. }
    destruct Rr as (a2 & -> & HR). exists a2. split; [easy|].
    intros e s k. rewrite HR, HL. unfold Wf.
    destruct ((srank rows lf true =? rank)%Z && pair_eqb (e, s) (slot lf true iq))%bool eqn:E1.
    + destruct (inb ns k) eqn:Ek; [easy|].
      destruct ((srank rows lf false =? rank)%Z && pair_eqb (e, s) (slot lf false iq))%bool; easy.
    + destruct ((srank rows lf false =? rank)%Z && pair_eqb (e, s) (slot lf false iq))%bool; easy.
  - exists Fe. split; [exact E|]. split.
    + intros lf sd iq k Hlf Hiq Hk R1. destruct (Wf_own Fq lf iq sd Hlf Hiq R1) as (g & Eg & Hg).
      rewrite (H1 (lf, iq) _ _ g k); [| |exact Eg|].
      * rewrite (proj2 (inb_true ns k)) by easy. apply Hg.
      * now apply (perm_pairs_In order nif nqf lf iq P).
      * intros [lf' iq'] Hy Hw. apply (perm_pairs_In order nif nqf lf' iq' P) in Hy.
        destruct (Wf Fq (lf', iq') _ _) as [g'|] eqn:E'; [|easy].
        destruct (Wf_some _ _ _ _ _ _ E') as (sd' & R2 & Es & _). rewrite <- surjective_pairing in Es.
        destruct (slot_inj lf sd iq lf' sd' iq') as (-> & -> & ->); auto; tauto.
    + intros e s k HN. apply H2. intros [lf iq] Hy. apply (perm_pairs_In order nif nqf lf iq P) in Hy.
      destruct (Wf Fq (lf, iq) e s) as [g|] eqn:E'; [|easy].
      destruct (Wf_some _ _ _ _ _ _ E') as (sd & R2 & Es & _). destruct (HN lf sd iq); easy.
Qed.

Lemma face_states_ok order Uq UL0 UR0 : Permutation order (all_pairs nif nqf) ->
  exists UL UR, construct_face_states rank rows nif nqf ns (ne, (NFACE * nqf)%Z, ns) qL qR order Uq UL0 UR0 = Ok (UL, UR) /\
    (forall lf iq k, UL lf iq k = if (inb nif lf && inb nqf iq && inb ns k && (srank rows lf false =? rank)%Z)%bool
        then Uq (fst (slot lf false iq)) (snd (slot lf false iq)) k else UL0 lf iq k) /\
    (forall lf iq k, UR lf iq k = if (inb nif lf && inb nqf iq && inb ns k && (srank rows lf true =? rank)%Z)%bool
        then Uq (fst (slot lf true iq)) (snd (slot lf true iq)) k else UR0 lf iq k).
Proof.
  intros P. unfold construct_face_states.
  set (new := fun (sd : bool) (U0 : arr3) (lf iq k : Z) => if (inb ns k && (srank rows lf sd =? rank)%Z)%bool
        then Uq (fst (slot lf sd iq)) (snd (slot lf sd iq)) k else U0 lf iq k).
  assert (GET : forall (sd : bool) lf iq (U : arr3), (0 <= lf < nif)%Z -> (0 <= iq < nqf)%Z ->
     exists U', (if (rank =? srank rows lf sd)%Z then
       e <- rd2 rows lf (col sd 1) ;;
       f <- rd2 rows lf (col sd 2) ;;
       let st := (f * nqf)%Z in
       zfor ns (fun is U => v <- rd3 (ne, (NFACE * nqf)%Z, ns) Uq e (st + q sd lf iq) is ;;
                              wr3 (nif, nqf, ns) U lf iq is v) U
     else Ok U) = Ok U' /\ forall lf' iq' k, U' lf' iq' k = if ((lf' =? lf) && (iq' =? iq))%Z%bool then new sd U lf iq k else U lf' iq' k).
  { intros sd lf iq U Hlf Hiq. rewrite (Z.eqb_sym rank).
    unfold new. destruct (Z.eqb_spec (srank rows lf sd) rank) as [R1|R1].
    - rewrite !(rw_row _ _ _ _ _ _ _ W lf) by (try easy; destruct sd; cbn; lia). cbn [bind].
      destruct (slot_range lf sd iq Hlf Hiq R1) as [S1 S2]. unfold slot in *. cbn [fst snd] in *.
      destruct (write_row (nif, nqf, ns) U (fun is => rd3 (ne, (NFACE * nqf)%Z, ns) Uq (selem rows lf sd) (sface rows lf sd * nqf + q sd lf iq) is)
        (fun k => Uq (selem rows lf sd) (sface rows lf sd * nqf + q sd lf iq)%Z k) lf iq ns Hns) as (U' & E & HE).
      + intros is His. unfold rd3. now rewrite within3_intro.
      + intros is His. now apply within3_intro.
      + exists U'. split; [exact E|]. intros lf' iq' k. rewrite HE.
        destruct (Z.eqb_spec lf' lf), (Z.eqb_spec iq' iq); subst; cbn [andb]; try easy.
        destruct (inb ns k); easy.
    - exists U. split; [easy|]. intros lf' iq' k. rewrite andb_false_r.
      destruct (Z.eqb_spec lf' lf), (Z.eqb_spec iq' iq); subst; cbn [andb]; easy. }
  set (cond := fun (done : list (Z * Z)) (s : arr3 * arr3) =>
     forall lf iq, (In (lf, iq) done -> forall k, fst s lf iq k = new false UL0 lf iq k /\ snd s lf iq k = new true UR0 lf iq k) /\
       (~ In (lf, iq) done -> forall k, fst s lf iq k = UL0 lf iq k /\ snd s lf iq k = UR0 lf iq k)).
  match goal with |- exists UL UR, foreach order ?b _ = _ /\ _ =>
    destruct (foreach_inv cond b order (UL0, UR0)) as ([UL UR] & E & HC) end.
  - intros lf iq. split; [intros []|easy].
  - intros done [lf iq] todo [UL UR] E HC.
    assert (Hin : In (lf, iq) order) by (rewrite E; apply in_or_app; right; now left).
    apply (perm_pairs_In order nif nqf lf iq P) in Hin. destruct Hin as [Hlf Hiq].
    rewrite (rw_row _ _ _ _ _ _ _ W lf 0%Z), (rw_row _ _ _ _ _ _ _ W lf 4%Z) by lia. rewrite !bind_l; cbv beta.
    destruct (GET false lf iq UL Hlf Hiq) as (UL' & EL & HL).
    destruct (GET true lf iq UR Hlf Hiq) as (UR' & ER & HR).
    exists (UL', UR'). split.
    { change (ent rows lf 0) with (srank rows lf false). change (ent rows lf 4) with (srank rows lf true).
      cbn [col] in EL, ER. change (q false) with qL in EL. change (q true) with qR in ER.
      change (4 + 1)%Z with 5%Z in ER. change (4 + 2)%Z with 6%Z in ER.
      rewrite EL, bind_l. cbv beta. rewrite ER. reflexivity. }
    intros lf' iq'. cbn [fst snd].
    assert (Hcase : In (lf', iq') (done ++ [(lf, iq)]) <-> In (lf', iq') done \/ (lf', iq') = (lf, iq)) by (rewrite in_app_iff; cbn; intuition).
    rewrite Hcase. destruct (HC lf' iq') as [C1 C2]. cbn [fst snd] in C1, C2.
    destruct (Z.eqb_spec lf' lf) as [->|Hne]; [destruct (Z.eqb_spec iq' iq) as [->|Hne]|].
    + split; [|intros Hn; destruct Hn; now right]. intros _ k. rewrite HL, HR, !Z.eqb_refl. cbn [andb].
      destruct (in_dec pair_dec (lf, iq) done) as [Hd|Hd].
      * destruct (C1 Hd k) as [X1 X2]. unfold new in *. rewrite X1, X2.
        destruct (inb ns k && (srank rows lf false =? rank)%Z)%bool, (inb ns k && (srank rows lf true =? rank)%Z)%bool; easy.
      * destruct (C2 Hd k) as [X1 X2]. unfold new. rewrite X1, X2. easy.
    + assert (Hs : forall k, UL' lf iq' k = UL lf iq' k /\ UR' lf iq' k = UR lf iq' k).
      { intros k. rewrite HL, HR. rewrite (proj2 (Z.eqb_neq iq' iq)) by easy. now rewrite andb_false_r. }
      split; [intros [Hd|C]; [|congruence]|intros Hn]; intros k; destruct (Hs k) as [-> ->]; [now apply C1|apply C2; tauto].
    + assert (Hs : forall k, UL' lf' iq' k = UL lf' iq' k /\ UR' lf' iq' k = UR lf' iq' k).
      { intros k. rewrite HL, HR. rewrite (proj2 (Z.eqb_neq lf' lf)) by easy. easy. }
      split; [intros [Hd|C]; [|congruence]|intros Hn]; intros k; destruct (Hs k) as [-> ->]; [now apply C1|apply C2; tauto].
  - exists UL, UR. split; [exact E|].
    assert (X : forall lf iq, inb nif lf && inb nqf iq = true <-> In (lf, iq) order).
    { intros lf iq. rewrite (perm_pairs_In order nif nqf lf iq P), andb_true_iff, !inb_true. reflexivity. }
    split; intros lf iq k; destruct (HC lf iq) as [C1 C2]; unfold new in *; cbn [fst snd] in *;
    destruct (inb nif lf && inb nqf iq)%bool eqn:Ei.
    1,3: apply X in Ei; cbn [andb]; apply (C1 Ei).
    1,2: cbn [andb]; apply C2; intros C; apply X in C; congruence.
Qed.
End Rank.
