(** TeamProof.v -- kernels whose threads do not touch each other's data give one
    result under every interleaving. *)
From Coq Require Import ZArith List Lia Reals Bool Classical FunctionalExtensionality.
From Verif Require Import Base RBase TeamModel.
Import ListNotations.
Local Open Scope R_scope.

Lemma loc_eqb_spec a b : reflect (a = b) (loc_eqb a b).
Proof.
  destruct a as [v i j k l], b as [v' i' j' k' l']. cbn.
  destruct (Z.eqb_spec v v'), (Z.eqb_spec i i'), (Z.eqb_spec j j'), (Z.eqb_spec k k'), (Z.eqb_spec l l'); cbn;
    constructor; congruence.
Qed.

Lemma store_eq m l v : store m l v l = v.
Proof. unfold store. now destruct (loc_eqb_spec l l). Qed.
Lemma store_neq m l v l' : l' <> l -> store m l v l' = m l'.
Proof. intros H. unfold store. now destruct (loc_eqb_spec l' l). Qed.

(** What a program does when it runs alone. *)
Fixpoint run (p : prog) (m : mem) : mem :=
  match p with Done => m | Load l k => run (k (m l)) m | Store l v k => run k (store m l v) end.

Lemma run_seq p q m : run (seq p q) m = run q (run p m).
Proof. revert m. induction p as [|l k IH|l v k IH]; intros m; cbn; auto. Qed.

Lemma run_pfor n body m : run (pfor n body) m = zloop n (fun i m => run (body i) m) m.
Proof.
  unfold pfor, zloop. assert (X : forall l p m, run (fold_left (fun p i => seq p (body i)) l p) m =
    fold_left (fun m i => run (body i) m) l (run p m)).
  { induction l as [|i l IH]; intros p m'; cbn; [easy|]. rewrite IH, run_seq. reflexivity. }
  rewrite X. reflexivity.
Qed.

(** [p] writes only in [W] and reads only in [W] or [A]. *)
Fixpoint confined (W A : loc -> Prop) (p : prog) : Prop :=
  match p with
  | Done => True
  | Load l k => (W l \/ A l) /\ forall v, confined W A (k v)
  | Store l v k => W l /\ confined W A k
  end.

Lemma confined_weaken (W A W' A' : loc -> Prop) p : (forall l, W l -> W' l) -> (forall l, A l -> W' l \/ A' l) ->
  confined W A p -> confined W' A' p.
Proof.
  intros HW HA. induction p as [|l k IH|l v k IH]; cbn; [easy| |].
  - intros [H C]. split; [|intros v; apply IH, C]. destruct H; auto.
  - intros [H C]. split; auto.
Qed.

Lemma confined_seq W A p q : confined W A p -> confined W A q -> confined W A (seq p q).
Proof.
  intros HP HQ. induction p as [|l k IH|l v k IH]; cbn in *; [easy| |].
  - destruct HP as [H C]. split; [easy|]. intros v. apply IH, C.
  - destruct HP as [H C]. auto.
Qed.

Lemma confined_pfor W A n body : (forall i, (0 <= i < n)%Z -> confined W A (body i)) -> confined W A (pfor n body).
Proof.
  intros H. unfold pfor. assert (X : forall l p, (forall i, In i l -> (0 <= i < n)%Z) -> confined W A p ->
    confined W A (fold_left (fun p i => seq p (body i)) l p)).
  { induction l as [|i l IH]; intros p Hl Hp; cbn; [easy|]. apply IH; [intros j Hj; apply Hl; now right|].
    apply confined_seq; [easy|]. apply H, Hl. now left. }
  apply X; [|easy]. intros i Hi. now apply In_zseq.
Qed.

Lemma confined_share W A own t n body : (forall i, (0 <= i < n)%Z -> own i = t -> confined W A (body i)) ->
  confined W A (share own t n body).
Proof. intros H. apply confined_pfor. intros i Hi. destruct (Z.eqb_spec (own i) t); [auto|easy]. Qed.

Lemma confined_pacc {S} W A n (stp : Z -> S -> (S -> prog) -> prog) a0 k :
  (forall i a k, (0 <= i < n)%Z -> (forall a, confined W A (k a)) -> confined W A (stp i a k)) ->
  (forall a, confined W A (k a)) -> confined W A (pacc n stp a0 k).
Proof.
  intros H HK. unfold pacc. assert (X : forall l, (forall i, In i l -> (0 <= i < n)%Z) -> forall a,
    confined W A (fold_right (fun i k a => stp i a k) k l a)).
  { induction l as [|i l IH]; intros Hl a; cbn; [easy|]. apply H; [apply Hl; now left|]. apply IH. intros j Hj. apply Hl. now right. }
  apply X. intros i Hi. now apply In_zseq.
Qed.

Lemma run_frame W A p : confined W A p -> forall m l, ~ W l -> run p m l = m l.
Proof.
  induction p as [|l0 k IH|l0 v k IH]; cbn; intros C m l Hl; [easy| |].
  - destruct C as [_ C]. now apply IH.
  - destruct C as [H C]. rewrite IH by easy. apply store_neq. congruence.
Qed.

Lemma run_agree W A p : confined W A p -> forall m m', (forall l, W l \/ A l -> m l = m' l) ->
  forall l, W l \/ A l -> run p m l = run p m' l.
Proof.
  induction p as [|l0 k IH|l0 v k IH]; cbn; intros C m m' H l Hl; [auto| |].
  - destruct C as [H0 C]. rewrite (H l0 H0). apply IH; auto.
  - destruct C as [H0 C]. apply IH; auto. intros l1 H1. unfold store. destruct (loc_eqb l1 l0); auto.
Qed.

(** Programs with disjoint footprints, one after another: each has the effect it
    has alone. *)
Lemma disjoint_run {X} (l : list X) (p : X -> prog) (W A : X -> loc -> Prop) m :
  NoDup l -> (forall x, In x l -> confined (W x) (A x) (p x)) ->
  (forall x y a, In x l -> In y l -> x <> y -> W x a -> ~ (W y a \/ A y a)) ->
  let m' := fold_left (fun m x => run (p x) m) l m in
  (forall x a, In x l -> W x a -> m' a = run (p x) m a) /\
  (forall a, (forall x, In x l -> ~ W x a) -> m' a = m a).
Proof.
  intros ND HC HD. revert m. induction l as [|x l IH]; intros m; [easy|].
  inversion ND as [|? ? Nx NDl]; subst. cbn [fold_left].
  destruct (IH NDl ltac:(intros; apply HC; now right) ltac:(intros y z a Hy Hz; apply HD; now right) (run (p x) m)) as [I1 I2].
  split.
  - intros y a [<-|Hy] Ha.
    + apply I2. intros z Hz Hza. apply (HD x z a); [now left|now right|congruence|easy|now left].
    + rewrite (I1 y a Hy Ha). apply (run_agree (W y) (A y) (p y)); [apply HC; now right| |now left].
      intros b Hb. apply (run_frame (W x) (A x)); [apply HC; now left|]. intros Hxb.
      apply (HD x y b); [now left|now right|congruence|easy|easy].
  - intros a Ha. rewrite I2 by (intros; apply Ha; now right). apply (run_frame (W x) (A x)); [apply HC; now left|apply Ha; now left].
Qed.

(** ** Determinism of disciplined launches *)

Section Disciplined.
Context (n T : Z) (HT : (0 < T)%Z) (K : pool) (W A : Z -> Z -> nat -> loc -> Prop).

Record disciplined : Prop := {
  dc_len : forall g t t', member n T g t -> member n T g t' -> length (K g t) = length (K g t');
  dc_conf : forall g t i p, member n T g t -> nth_error (K g t) i = Some p -> confined (W g t i) (A g t i) p;
  dc_team : forall g t t' i a, member n T g t -> member n T g t' -> t <> t' -> W g t i a -> ~ (W g t' i a \/ A g t' i a);
  dc_league : forall g g' t t' i i' a, member n T g t -> member n T g' t' -> g <> g' -> W g t i a -> ~ (W g' t' i' a \/ A g' t' i' a)
}.

(** Memory after the first [i] phases of team [g] alone. *)
Fixpoint team_after (g : Z) (i : nat) (m : mem) : mem :=
  match i with
  | O => m
  | S i => fold_left (fun m t => run (nth i (K g t) Done) m) (zseq T) (team_after g i m)
  end.

Context (D : disciplined).

Definition touches (g : Z) (a : loc) : Prop := exists t i, (0 <= t < T)%Z /\ (i < length (K g 0%Z))%nat /\ (W g t i a \/ A g t i a).
Definition writes (g : Z) (a : loc) : Prop := exists t i, (0 <= t < T)%Z /\ (i < length (K g 0%Z))%nat /\ W g t i a.

Lemma len0 g t : member n T g t -> length (K g t) = length (K g 0%Z).
Proof. intros H. apply (dc_len D); [easy|]. destruct H. split; [easy|lia]. Qed.

Lemma phase_conf g t i : member n T g t -> (i < length (K g 0%Z))%nat -> confined (W g t i) (A g t i) (nth i (K g t) Done).
Proof.
  intros H Hi. destruct (nth_error (K g t) i) as [p|] eqn:E.
  - rewrite (nth_error_nth _ _ _ E). now apply (dc_conf D).
  - apply nth_error_None in E. rewrite len0 in E by easy. lia.
Qed.

(** The state of one team: in phase [i], or done. *)
Definition team_ok (g : Z) (P : pool) (m0 m : mem) : Prop :=
  exists i, (i <= length (K g 0%Z))%nat /\
  (i = length (K g 0%Z) /\ (forall t, (0 <= t < T)%Z -> P g t = []) /\
   (forall a, touches g a -> m a = team_after g i m0 a) \/
   (i < length (K g 0%Z))%nat /\
   (forall t, (0 <= t < T)%Z -> exists q, P g t = q :: skipn (S i) (K g t) /\ confined (W g t i) (A g t i) q /\
      forall a, W g t i a \/ A g t i a -> run q m a = run (nth i (K g t) Done) (team_after g i m0) a) /\
   (forall a, touches g a -> (forall t, (0 <= t < T)%Z -> ~ W g t i a) -> m a = team_after g i m0 a)).

Definition state_ok (m0 : mem) (s : pool * mem) : Prop :=
  (forall g, (0 <= g < n)%Z -> team_ok g (fst s) m0 (snd s)) /\
  (forall a, (forall g, (0 <= g < n)%Z -> ~ writes g a) -> snd s a = m0 a).

Lemma skipn_nth (l : list prog) i : (i < length l)%nat -> skipn i l = nth i l Done :: skipn (S i) l.
Proof. revert i. induction l as [|x l IH]; intros i Hi; cbn in Hi; [lia|]. destruct i; [reflexivity|]. cbn [skipn nth]. rewrite IH by lia. reflexivity. Qed.

Lemma enter g i (P : pool) m0 m : (0 <= g < n)%Z -> (i <= length (K g 0%Z))%nat ->
  (forall t, (0 <= t < T)%Z -> P g t = skipn i (K g t)) -> (forall a, touches g a -> m a = team_after g i m0 a) -> team_ok g P m0 m.
Proof.
  intros Hg Hi HP Hm. exists i. split; [easy|]. destruct (Nat.eq_dec i (length (K g 0%Z))) as [->|Ne]; [left|right].
  - split; [easy|]. split; [|easy]. intros t Ht. rewrite HP by easy. rewrite <- (len0 g t) by (split; easy). apply skipn_all.
  - assert (Li : (i < length (K g 0%Z))%nat) by lia. split; [easy|]. split; [|auto].
    intros t Ht. exists (nth i (K g t) Done). rewrite HP by easy. split; [apply skipn_nth; rewrite len0 by (split; easy); easy|].
    split; [apply phase_conf; [split; easy|easy]|]. intros a Ha.
    apply (run_agree (W g t i) (A g t i)); [apply phase_conf; [split; easy|easy]| |easy].
    intros b Hb. apply Hm. exists t, i. auto.
Qed.

Lemma start_ok m0 : state_ok m0 (K, m0).
Proof.
  split; [|auto]. intros g Hg. apply (enter g 0); cbn; auto. lia.
Qed.

(** A change of the pool and memory by team [g0] leaves another team's state. *)
Lemma other_team g P P' m0 m m' : (0 <= g < n)%Z -> (forall t, (0 <= t < T)%Z -> P' g t = P g t) ->
  (forall a, touches g a -> m' a = m a) -> team_ok g P m0 m -> team_ok g P' m0 m'.
Proof.
  intros Hg HP Hm (i & Hi & [(E & H1 & H2)|(E & H1 & H2)]); exists i; split; auto; [left|right].
  - split; [easy|]. split; [intros t Ht; rewrite HP; auto|]. intros a Ha. rewrite Hm; auto.
  - split; [easy|]. split.
    + intros t Ht. destruct (H1 t Ht) as (q & Q1 & Q2 & Q3). exists q. rewrite HP by easy. split; [easy|]. split; [easy|].
      intros a Ha. rewrite <- Q3 by easy. apply (run_agree (W g t i) (A g t i)); auto.
      intros b Hb. apply Hm. exists t, i. auto.
    + intros a Ha Hn. rewrite Hm by easy. auto.
Qed.

Lemma phase_written g i t m a : (0 <= g < n)%Z -> (i < length (K g 0%Z))%nat -> (0 <= t < T)%Z -> W g t i a ->
  team_after g (S i) m a = run (nth i (K g t) Done) (team_after g i m) a.
Proof.
  intros Hg Hi Ht Ha. cbn [team_after].
  destruct (disjoint_run (zseq T) (fun t => nth i (K g t) Done) (fun t => W g t i) (fun t => A g t i) (team_after g i m)
    (NoDup_zseq T)) as [X _].
  - intros u Hu. apply In_zseq in Hu. apply phase_conf; [split; easy|easy].
  - intros u v b Hu Hv N. apply In_zseq in Hu, Hv. apply (dc_team D); [split; easy|split; easy|easy].
  - apply (X t a); [now apply In_zseq|easy].
Qed.

Lemma phase_kept g i m a : (0 <= g < n)%Z -> (i < length (K g 0%Z))%nat -> (forall t, (0 <= t < T)%Z -> ~ W g t i a) ->
  team_after g (S i) m a = team_after g i m a.
Proof.
  intros Hg Hi Ha. cbn [team_after].
  destruct (disjoint_run (zseq T) (fun t => nth i (K g t) Done) (fun t => W g t i) (fun t => A g t i) (team_after g i m)
    (NoDup_zseq T)) as [_ X].
  - intros u Hu. apply In_zseq in Hu. apply phase_conf; [split; easy|easy].
  - intros u v b Hu Hv N. apply In_zseq in Hu, Hv. apply (dc_team D); [split; easy|split; easy|easy].
  - apply X. intros t Ht. apply Ha. now apply In_zseq.
Qed.

Lemma thread_step g t i q q' (P : pool) m0 m m' : member n T g t ->
  state_ok m0 (P, m) -> (i < length (K g 0%Z))%nat ->
  (forall t, (0 <= t < T)%Z -> exists q, P g t = q :: skipn (S i) (K g t) /\ confined (W g t i) (A g t i) q /\
      forall a, W g t i a \/ A g t i a -> run q m a = run (nth i (K g t) Done) (team_after g i m0) a) ->
  (forall a, touches g a -> (forall t, (0 <= t < T)%Z -> ~ W g t i a) -> m a = team_after g i m0 a) ->
  P g t = q :: skipn (S i) (K g t) -> confined (W g t i) (A g t i) q' -> run q' m' = run q m ->
  (forall a, ~ W g t i a -> m' a = m a) ->
  state_ok m0 (set_thread P g t (q' :: skipn (S i) (K g t)), m').
Proof.
  intros [Hg Ht] [OK KP] Hi H1 H2 EP C' ER EM. cbn [fst snd] in *. split; cbn [fst snd].
  - intros g1 Hg1. destruct (Z.eq_dec g1 g) as [->|Ne].
    + exists i. split; [lia|]. right. split; [easy|]. split.
      * intros u Hu. unfold set_thread. rewrite Z.eqb_refl. cbn [andb]. destruct (Z.eqb_spec u t) as [->|Nu].
        -- exists q'. split; [easy|]. split; [easy|]. intros a Ha. rewrite ER.
           destruct (H1 t Ht) as (q0 & Q1 & _ & Q3). rewrite EP in Q1. injection Q1 as <-. auto.
        -- destruct (H1 u Hu) as (q0 & Q1 & Q2 & Q3). exists q0. split; [easy|]. split; [easy|]. intros a Ha. rewrite <- Q3 by easy.
           apply (run_agree (W g u i) (A g u i)); auto. intros b Hb. apply EM. intros Hw.
           exact (dc_team D g t u i b (conj Hg Ht) (conj Hg Hu) ltac:(congruence) Hw Hb).
      * intros a Ha Hn. rewrite EM by auto. auto.
    + apply (other_team g1 P _ m0 m); auto.
      * intros u Hu. unfold set_thread. destruct (Z.eqb_spec g1 g); [easy|]. reflexivity.
      * intros a (u & j & Hu & Hj & Ha). apply EM. intros Hw.
        exact (dc_league D g g1 t u i j a (conj Hg Ht) (conj Hg1 Hu) ltac:(congruence) Hw Ha).
  - intros a Ha. rewrite EM; auto. intros Hw. apply (Ha g Hg). exists t, i. auto.
Qed.

Lemma step_ok m0 s s' : step n T s s' -> state_ok m0 s -> state_ok m0 s'.
Proof.
  intros ST OK. pose proof OK as [OKt OKm]. destruct ST as [P m g t l k rest [Hg Ht] EP|P m g t l v k rest [Hg Ht] EP|P m g Hg EB]; cbn [fst snd] in *.
  - destruct (OKt g Hg) as (i & Hi & [(_ & H1 & _)|(Hi' & H1 & H2)]); [rewrite H1 in EP by easy; discriminate|].
    destruct (H1 t Ht) as (q & Q1 & Q2 & Q3). rewrite EP in Q1. injection Q1 as <- ->.
    apply (thread_step g t i (Load l k) (k (m l)) P m0 m m); auto; [split; easy|]. destruct Q2 as [_ C]. apply C.
  - destruct (OKt g Hg) as (i & Hi & [(_ & H1 & _)|(Hi' & H1 & H2)]); [rewrite H1 in EP by easy; discriminate|].
    destruct (H1 t Ht) as (q & Q1 & Q2 & Q3). rewrite EP in Q1. injection Q1 as <- ->. destruct Q2 as [Q2 C].
    apply (thread_step g t i (Store l v k) k P m0 m (store m l v)); auto; [split; easy|].
    intros a Ha. apply store_neq. congruence.
  - split; cbn [fst snd]; [|easy]. intros g1 Hg1. destruct (Z.eq_dec g1 g) as [->|Ne].
    + destruct (OKt g Hg) as (i & Hi & [(_ & H1 & _)|(Hi' & H1 & H2)]).
      { destruct (EB 0%Z ltac:(lia)) as [rest E]. rewrite H1 in E by lia. discriminate. }
      apply (enter g (S i)); [easy|lia| |].
      * intros t Ht. cbn beta. rewrite Z.eqb_refl. destruct (H1 t Ht) as (q & Q1 & _). rewrite Q1. reflexivity.
      * intros a Ha. destruct (classic (exists t, (0 <= t < T)%Z /\ W g t i a)) as [(t & Ht & Hw)|Hno].
        -- rewrite (phase_written g i t) by easy. destruct (H1 t Ht) as (q & Q1 & _ & Q3). destruct (EB t Ht) as [rest E].
           rewrite Q1 in E. injection E as -> _. rewrite <- Q3 by auto. reflexivity.
        -- rewrite (phase_kept g i) by (auto; intros t Ht Hw; apply Hno; exists t; auto). apply H2; [easy|]. intros t Ht Hw. apply Hno. exists t. auto.
    + apply (other_team g1 P _ m0 m); auto. intros t Ht. cbn beta. destruct (Z.eqb_spec g1 g); [easy|]. reflexivity.
Qed.

Lemma steps_ok m0 s s' : steps n T s s' -> state_ok m0 s -> state_ok m0 s'.
Proof. induction 1; auto. intros H1. apply IHsteps. now apply (step_ok m0 a). Qed.

(** The result does not depend on the interleaving. *)
Theorem deterministic m0 m' : launch n T K m0 m' ->
  (forall g a, (0 <= g < n)%Z -> writes g a -> m' a = team_after g (length (K g 0%Z)) m0 a) /\
  (forall a, (forall g, (0 <= g < n)%Z -> ~ writes g a) -> m' a = m0 a).
Proof.
  intros (P & ST & FI). destruct (steps_ok m0 _ _ ST (start_ok m0)) as [OK KP]. cbn [fst snd] in *. split; [|easy].
  intros g a Hg (t & i & Ht & Hi & Hw). destruct (OK g Hg) as (i' & Hi' & [(-> & _ & H2)|(Hl & H1 & _)]).
  - apply H2. exists t, i. auto.
  - destruct (H1 t Ht) as (q & Q1 & _). rewrite FI in Q1 by (split; easy). discriminate.
Qed.

(** ** No deadlock *)

Lemma steps_trans a b c : steps n T a b -> steps n T b c -> steps n T a c.
Proof. induction 1; auto. intros H1. econstructor; eauto. Qed.

(** A thread can run to the end of its phase. *)
Lemma finish_thread g t p rest : member n T g t -> forall P m, P g t = p :: rest ->
  exists m', steps n T (P, m) (set_thread P g t (Done :: rest), m').
Proof.
  intros Hm. assert (SS : forall P x y, set_thread (set_thread P g t x) g t y = set_thread P g t y).
  { intros P x y. apply functional_extensionality. intros g'. apply functional_extensionality. intros t'. unfold set_thread.
    now destruct ((g' =? g) && (t' =? t))%Z%bool. }
  assert (SE : forall P x, set_thread P g t x g t = x) by (intros; unfold set_thread; now rewrite !Z.eqb_refl).
  induction p as [|l k IH|l v k IH]; intros P m E.
  - exists m. replace (set_thread P g t (Done :: rest)) with P; [constructor|].
    apply functional_extensionality. intros g'. apply functional_extensionality. intros t'. unfold set_thread.
    destruct (Z.eqb_spec g' g) as [->|]; [destruct (Z.eqb_spec t' t) as [->|]|]; cbn; auto.
  - destruct (IH (m l) (set_thread P g t (k (m l) :: rest)) m (SE _ _)) as [m' S]. exists m'.
    eapply steps_cons; [eapply step_load; eauto|]. rewrite SS in S. exact S.
  - destruct (IH (set_thread P g t (k :: rest)) (store m l v) (SE _ _)) as [m' S]. exists m'.
    eapply steps_cons; [eapply step_store; eauto|]. rewrite SS in S. exact S.
Qed.

(** All threads of a team can reach the barrier. *)
Lemma finish_phase g P m : (0 <= g < n)%Z -> (forall t, (0 <= t < T)%Z -> exists p rest, P g t = p :: rest) ->
  exists P' m', steps n T (P, m) (P', m') /\ (forall t, (0 <= t < T)%Z -> P' g t = Done :: tl (P g t)) /\
    forall g' t', g' <> g -> P' g' t' = P g' t'.
Proof.
  intros Hg HP. assert (X : forall k, (0 <= k <= T)%Z -> exists P' m', steps n T (P, m) (P', m') /\
    (forall t, (0 <= t < k)%Z -> P' g t = Done :: tl (P g t)) /\ (forall t, (k <= t)%Z -> P' g t = P g t) /\
    forall g' t', g' <> g -> P' g' t' = P g' t').
  { intros k [H0 HkT]. revert HkT. pattern k. apply natlike_ind; [|intros j Hj IH HjT|easy].
    - exists P, m. split; [constructor|]. split; [lia|]. auto.
    - destruct (IH ltac:(lia)) as (P1 & m1 & S1 & A1 & B1 & C1).
      destruct (HP j ltac:(lia)) as (p & rest & E).
      destruct (finish_thread g j p rest ltac:(split; lia) P1 m1) as [m2 S2]; [rewrite B1 by lia; easy|].
      exists (set_thread P1 g j (Done :: rest)), m2. split; [eapply steps_trans; eauto|]. split; [|split].
      + intros t Ht. unfold set_thread. rewrite Z.eqb_refl. cbn [andb]. destruct (Z.eqb_spec t j) as [->|]; [rewrite E; reflexivity|]. apply A1. lia.
      + intros t Ht. unfold set_thread. rewrite Z.eqb_refl. cbn [andb]. destruct (Z.eqb_spec t j); [lia|]. apply B1. lia.
      + intros g' t' Hn. unfold set_thread. destruct (Z.eqb_spec g' g); [easy|]. cbn [andb]. now apply C1. }
  destruct (X T ltac:(lia)) as (P' & m' & S & A1 & _ & C1). exists P', m'. auto.
Qed.

Lemma finish_team g len : (0 <= g < n)%Z -> forall P m, (forall t, (0 <= t < T)%Z -> length (P g t) = len) ->
  exists P' m', steps n T (P, m) (P', m') /\ (forall t, (0 <= t < T)%Z -> P' g t = []) /\
    forall g' t', g' <> g -> P' g' t' = P g' t'.
Proof.
  intros Hg. induction len as [|len IH]; intros P m HL.
  - exists P, m. split; [constructor|]. split; [|easy]. intros t Ht. specialize (HL t Ht). now destruct (P g t).
  - destruct (finish_phase g P m Hg) as (P1 & m1 & S1 & A1 & B1).
    { intros t Ht. specialize (HL t Ht). destruct (P g t) as [|p rest]; [discriminate|]. eauto. }
    set (P2 := fun g' t => if (g' =? g)%Z then tl (P1 g' t) else P1 g' t).
    destruct (IH P2 m1) as (P3 & m3 & S3 & A3 & B3).
    { intros t Ht. unfold P2. rewrite Z.eqb_refl, A1 by easy. specialize (HL t Ht). destruct (P g t); [discriminate|]. cbn in *. lia. }
    exists P3, m3. split; [|split; [easy|]].
    + eapply steps_trans; [exact S1|]. eapply steps_cons; [|exact S3]. apply step_barrier; [easy|]. intros t Ht. rewrite A1 by easy. eauto.
    + intros g' t' Hn. rewrite B3 by easy. unfold P2. destruct (Z.eqb_spec g' g); [easy|]. now apply B1.
Qed.

Theorem no_deadlock m0 : never_stuck n T K m0.
Proof.
  intros [P m] ST. destruct (steps_ok m0 _ _ ST (start_ok m0)) as [OK _]. cbn [fst snd] in OK.
  assert (LEN : forall g, (0 <= g < n)%Z -> exists len, forall t, (0 <= t < T)%Z -> length (P g t) = len).
  { intros g Hg. destruct (OK g Hg) as (i & Hi & [(_ & H1 & _)|(Hl & H1 & _)]).
    - exists O. intros t Ht. now rewrite H1.
    - exists (S (length (K g 0%Z) - S i)). intros t Ht. destruct (H1 t Ht) as (q & -> & _). cbn [length]. rewrite skipn_length.
      rewrite (len0 g t) by (split; easy). reflexivity. }
  clear OK ST. assert (X : forall k, (0 <= k)%Z -> (k <= n)%Z -> exists P' m', steps n T (P, m) (P', m') /\
    (forall g t, (0 <= g < k)%Z -> (0 <= t < T)%Z -> P' g t = []) /\ (forall g t, (k <= g)%Z -> P' g t = P g t)).
  { intros k H0. pattern k. apply natlike_ind; [|intros j Hj IH HjT|easy].
    - intros _. exists P, m. split; [constructor|]. split; [lia|]. auto.
    - destruct (IH ltac:(lia)) as (P1 & m1 & S1 & A1 & B1). destruct (LEN j ltac:(lia)) as [len HL].
      destruct (finish_team j len ltac:(lia) P1 m1) as (P2 & m2 & S2 & A2 & B2).
      { intros t Ht. rewrite B1 by lia. auto. }
      exists P2, m2. split; [eapply steps_trans; eauto|]. split.
      + intros g t Hg Ht. destruct (Z.eq_dec g j) as [->|]; [auto|]. rewrite B2 by easy. apply A1; lia.
      + intros g t Hg. rewrite B2 by lia. apply B1. lia. }
  destruct (Z_le_gt_dec n 0) as [Hn|Hn].
  - exists P, m. split; [constructor|]. intros g t [Hg _]. lia.
  - destruct (X n ltac:(lia) ltac:(lia)) as (P' & m' & S & A1 & _). exists P', m'. split; [easy|]. intros g t [Hg Ht]. auto.
Qed.
End Disciplined.

(** ** Team loops with disjoint iterations *)

Definition loop_run (L : tloop) (m : mem) : mem := zloop (tl_n L) (fun i m => run (tl_body L i) m) m.
Definition team_run (Ls : list tloop) (m : mem) : mem := fold_left (fun m L => loop_run L m) Ls m.

Lemma mem_ext (m m' : mem) : (forall a, m a = m' a) -> m = m'.
Proof. apply functional_extensionality. Qed.

Lemma share_all T own N body (Wi Ai : Z -> loc -> Prop) m :
  (forall i, (0 <= i < N)%Z -> (0 <= own i < T)%Z) ->
  (forall i, (0 <= i < N)%Z -> confined (Wi i) (Ai i) (body i)) ->
  (forall i j a, (0 <= i < N)%Z -> (0 <= j < N)%Z -> i <> j -> Wi i a -> ~ (Wi j a \/ Ai j a)) ->
  fold_left (fun m t => run (share own t N body) m) (zseq T) m = zloop N (fun i m => run (body i) m) m.
Proof.
  intros HO HC HD.
  set (Wt := fun t a => exists i, (0 <= i < N)%Z /\ own i = t /\ Wi i a).
  set (At := fun t a => exists i, (0 <= i < N)%Z /\ own i = t /\ Ai i a).
  assert (CF : forall t, confined (Wt t) (At t) (share own t N body)).
  { intros t. apply confined_share. intros i Hi Ho. apply (confined_weaken (Wi i) (Ai i)); auto.
    - intros l Hl. exists i. auto.
    - intros l Hl. right. exists i. auto. }
  destruct (disjoint_run (zseq T) (fun t => share own t N body) Wt At m (NoDup_zseq T)) as [O1 O2].
  { intros t _. apply CF. }
  { intros t u a _ _ Htu (i & Hi & Hio & Hia) [(j & Hj & Hjo & Hja)|(j & Hj & Hjo & Hja)];
      apply (HD i j a Hi Hj); auto; congruence. }
  destruct (disjoint_run (zseq N) body Wi Ai m (NoDup_zseq N)) as [S1 S2].
  { intros i Hi. apply HC. now apply In_zseq. }
  { intros i j a Hi Hj. apply HD; now apply In_zseq. }
  assert (SH : forall t, forall i a, (0 <= i < N)%Z -> own i = t -> Wi i a -> run (share own t N body) m a = run (body i) m a).
  { intros t i a Hi Ho Ha. unfold share. rewrite run_pfor. unfold zloop.
    set (p := fun i => if (own i =? t)%Z then body i else Done).
    destruct (disjoint_run (zseq N) p (fun i a => own i = t /\ Wi i a) (fun i a => own i = t /\ Ai i a) m (NoDup_zseq N)) as [X _].
    - intros j Hj. apply In_zseq in Hj. unfold p. destruct (Z.eqb_spec (own j) t) as [E|E]; [|easy].
      apply (confined_weaken (Wi j) (Ai j)); auto.
    - intros j k b Hj Hk Hjk [_ Hb] Hx. apply In_zseq in Hj, Hk. apply (HD j k b Hj Hk Hjk Hb). tauto.
    - transitivity (fold_left (fun m x => run (p x) m) (zseq N) m a); [reflexivity|]. rewrite (X i a); [|now apply In_zseq|easy]. unfold p. now rewrite Ho, Z.eqb_refl. }
  apply mem_ext. intros a. change (zloop N (fun i m => run (body i) m) m) with (fold_left (fun m i => run (body i) m) (zseq N) m).
  destruct (classic (exists i, (0 <= i < N)%Z /\ Wi i a)) as [(i & Hi & Ha)|Hno].
  - rewrite (S1 i a) by (auto; now apply In_zseq).
    rewrite (O1 (own i) a); [now apply SH|apply In_zseq; now apply HO|exists i; auto].
  - rewrite S2 by (intros i Hi Ha; apply Hno; exists i; split; auto; now apply In_zseq).
    apply O2. intros t _ (i & Hi & _ & Ha). apply Hno. exists i. auto.
Qed.

Section Loops.
Context (n T : Z) (HT : (0 < T)%Z) (kern : Z -> list tloop) (AS : assigned n T kern).
Context (Wi Ai : Z -> nat -> Z -> loc -> Prop).

(** Footprints of the iterations: [Wi g ph i] written, [Ai g ph i] read. *)
Record disjoint_loops : Prop := {
  dl_conf : forall g ph L i, (0 <= g < n)%Z -> nth_error (kern g) ph = Some L -> (0 <= i < tl_n L)%Z ->
    confined (Wi g ph i) (Ai g ph i) (tl_body L i);
  dl_team : forall g ph L i j a, (0 <= g < n)%Z -> nth_error (kern g) ph = Some L -> (0 <= i < tl_n L)%Z -> (0 <= j < tl_n L)%Z ->
    i <> j -> Wi g ph i a -> ~ (Wi g ph j a \/ Ai g ph j a);
  dl_league : forall g g' ph ph' L L' i j a, (0 <= g < n)%Z -> (0 <= g' < n)%Z -> g <> g' ->
    nth_error (kern g) ph = Some L -> (0 <= i < tl_n L)%Z -> nth_error (kern g') ph' = Some L' -> (0 <= j < tl_n L')%Z ->
    Wi g ph i a -> ~ (Wi g' ph' j a \/ Ai g' ph' j a)
}.
Context (D : disjoint_loops).

Definition Wt (g t : Z) (ph : nat) (a : loc) : Prop :=
  exists L i, nth_error (kern g) ph = Some L /\ (0 <= i < tl_n L)%Z /\ tl_own L i = t /\ Wi g ph i a.
Definition At_ (g t : Z) (ph : nat) (a : loc) : Prop :=
  exists L i, nth_error (kern g) ph = Some L /\ (0 <= i < tl_n L)%Z /\ tl_own L i = t /\ Ai g ph i a.

Lemma loops_disciplined : disciplined n T (kernel kern) Wt At_.
Proof.
  constructor.
  - intros g t t' _ _. unfold kernel. now rewrite !map_length.
  - intros g t i p [Hg Ht] E. unfold kernel in E. rewrite nth_error_map in E.
    destruct (nth_error (kern g) i) as [L|] eqn:EL; [|discriminate]. injection E as <-.
    apply confined_share. intros j Hj Ho. apply (confined_weaken (Wi g i j) (Ai g i j)).
    + intros l Hl. exists L, j. auto.
    + intros l Hl. right. exists L, j. auto.
    + now apply (dl_conf D).
  - intros g t t' i a [Hg Ht] [_ Ht'] N (L & j & E & Hj & Ho & Ha) [(L' & k & E' & Hk & Ho' & Ha')|(L' & k & E' & Hk & Ho' & Ha')];
      rewrite E in E'; injection E' as <-;
      apply (dl_team D g i L j k a Hg E Hj Hk); auto; congruence.
  - intros g g' t t' i i' a [Hg Ht] [Hg' Ht'] N (L & j & E & Hj & Ho & Ha) [(L' & k & E' & Hk & Ho' & Ha')|(L' & k & E' & Hk & Ho' & Ha')];
      apply (dl_league D g g' i i' L L' j k a Hg Hg' N E Hj E' Hk); auto.
Qed.

Lemma team_after_run g m : (0 <= g < n)%Z -> team_after T (kernel kern) g (length (kern g)) m = team_run (kern g) m.
Proof.
  intros Hg. assert (X : forall i, (i <= length (kern g))%nat -> team_after T (kernel kern) g i m = team_run (firstn i (kern g)) m).
  { induction i as [|i IH]; intros Hi; [reflexivity|]. cbn [team_after]. rewrite IH by lia.
    destruct (nth_error (kern g) i) as [L|] eqn:EL; [|apply nth_error_None in EL; lia].
    assert (F : firstn (S i) (kern g) = firstn i (kern g) ++ [L]).
    { clear -EL. revert i EL. induction (kern g) as [|x l IH]; intros i E; [destruct i; discriminate|].
      destruct i; cbn in E; [injection E as ->; reflexivity|]. cbn. f_equal. now apply IH. }
    rewrite F. unfold team_run. rewrite fold_left_app. cbn [fold_left]. fold (team_run (firstn i (kern g)) m).
    transitivity (fold_left (fun m t => run (share (tl_own L) t (tl_n L) (tl_body L)) m) (zseq T) (team_run (firstn i (kern g)) m)).
    - assert (Y : forall l z, fold_left (fun m t => run (nth i (kernel kern g t) Done) m) l z =
        fold_left (fun m t => run (share (tl_own L) t (tl_n L) (tl_body L)) m) l z).
      { induction l as [|t l IHl]; intros z; cbn; [easy|]. rewrite IHl. f_equal. f_equal. unfold kernel.
        apply nth_error_nth. rewrite nth_error_map, EL. reflexivity. }
      apply Y.
    - apply (share_all T _ _ _ (Wi g i) (Ai g i)).
      + intros j Hj. apply (AS g L j Hg); [|easy]. eapply nth_error_In; eauto.
      + intros j Hj. now apply (dl_conf D).
      + intros j k a Hj Hk. now apply (dl_team D g i L). }
  rewrite X by lia. now rewrite firstn_all.
Qed.

Lemma team_confined g : (0 <= g < n)%Z -> forall m a, (forall ph L i, nth_error (kern g) ph = Some L -> (0 <= i < tl_n L)%Z -> ~ Wi g ph i a) ->
  team_run (kern g) m a = m a.
Proof.
  intros Hg m a Ha. rewrite <- team_after_run by easy.
  assert (X : forall i, (i <= length (kern g))%nat -> team_after T (kernel kern) g i m a = m a).
  { induction i as [|i IH]; intros Hi; [reflexivity|].
    assert (LK : length (kernel kern g 0%Z) = length (kern g)) by (unfold kernel; now rewrite map_length).
    rewrite (phase_kept n T HT (kernel kern) Wt At_ loops_disciplined) by (auto; try lia; intros t Ht (L & j & E & Hj & _ & Hw); exact (Ha i L j E Hj Hw)).
    apply IH. lia. }
  now apply X.
Qed.

(** The reads of a team's run stay inside its footprint. *)
Lemma team_agree g : (0 <= g < n)%Z -> forall m m',
  (forall ph L i a, nth_error (kern g) ph = Some L -> (0 <= i < tl_n L)%Z -> Wi g ph i a \/ Ai g ph i a -> m a = m' a) ->
  forall a, (exists ph L i, nth_error (kern g) ph = Some L /\ (0 <= i < tl_n L)%Z /\ (Wi g ph i a \/ Ai g ph i a)) ->
  team_run (kern g) m a = team_run (kern g) m' a.
Proof.
  intros Hg m m' H a Ha. rewrite <- !team_after_run by easy.
  set (F := fun a => exists ph L i, nth_error (kern g) ph = Some L /\ (0 <= i < tl_n L)%Z /\ (Wi g ph i a \/ Ai g ph i a)).
  assert (LK : length (kernel kern g 0%Z) = length (kern g)) by (unfold kernel; now rewrite map_length).
  assert (X : forall i, (i <= length (kern g))%nat -> forall a, F a -> team_after T (kernel kern) g i m a = team_after T (kernel kern) g i m' a).
  { induction i as [|i IH]; intros Hi b Hb; [destruct Hb as (ph & L & j & E & Hj & Hb); exact (H ph L j b E Hj Hb)|].
    destruct (classic (exists t, (0 <= t < T)%Z /\ Wt g t i b)) as [(t & Ht & Hw)|Hno].
    - rewrite !(phase_written n T HT (kernel kern) Wt At_ loops_disciplined g i t) by (auto; lia).
      apply (run_agree (Wt g t i) (At_ g t i)); [apply (phase_conf n T HT (kernel kern) Wt At_ loops_disciplined); [split; easy|lia]| |now left].
      intros c [(L & j & E & Hj & Ho & Hc)|(L & j & E & Hj & Ho & Hc)]; apply IH; try lia; exists i, L, j; auto.
    - rewrite !(phase_kept n T HT (kernel kern) Wt At_ loops_disciplined) by (auto; try lia; intros t Ht Hw; apply Hno; exists t; auto).
      apply IH; [lia|easy]. }
  apply X; [lia|exact Ha].
Qed.

(** Any interleaving of the launch = the teams one after another, each run by a
    single thread, in any order. *)
Theorem launch_sequential order m0 m' : Permutation.Permutation order (zseq n) -> launch n T (kernel kern) m0 m' ->
  m' = ploop order (fun g m => team_run (kern g) m) m0.
Proof.
  intros PE LA. destruct (deterministic n T HT (kernel kern) Wt At_ loops_disciplined m0 m' LA) as [D1 D2].
  assert (LK : forall g, length (kernel kern g 0%Z) = length (kern g)) by (intros; unfold kernel; now rewrite map_length).
  set (F := fun g a => exists ph L i, nth_error (kern g) ph = Some L /\ (0 <= i < tl_n L)%Z /\ Wi g ph i a).
  set (B := fun g a => exists ph L i, nth_error (kern g) ph = Some L /\ (0 <= i < tl_n L)%Z /\ (Wi g ph i a \/ Ai g ph i a)).
  assert (FW : forall g a, (0 <= g < n)%Z -> F g a <-> writes T (kernel kern) Wt g a).
  { intros g a Hg. split.
    - intros (ph & L & i & E & Hi & Ha). exists (tl_own L i), ph. split; [apply (AS g L i Hg); auto; eapply nth_error_In; eauto|].
      split; [rewrite LK; apply nth_error_Some; congruence|]. exists L, i. auto.
    - intros (t & ph & _ & _ & (L & i & E & Hi & _ & Ha)). exists ph, L, i. auto. }
  assert (X : forall l m, NoDup l -> (forall g, In g l -> (0 <= g < n)%Z) ->
    (forall g a, In g l -> B g a -> m a = m0 a) ->
    (forall g a, In g l -> F g a -> ploop l (fun g m => team_run (kern g) m) m a = team_run (kern g) m0 a) /\
    (forall a, (forall g, In g l -> ~ F g a) -> ploop l (fun g m => team_run (kern g) m) m a = m a)).
  { induction l as [|g l IH]; intros m ND Hl Hm; [easy|]. inversion ND as [|? ? Ng NDl]; subst.
    assert (Hg : (0 <= g < n)%Z) by (apply Hl; now left).
    destruct (IH (team_run (kern g) m) NDl ltac:(intros; apply Hl; now right)) as [I1 I2].
    { intros h a Hh Ha. rewrite (team_confined g Hg); [apply (Hm h); auto; now right|].
      intros ph L i E Hi Hw. destruct Ha as (ph' & L' & j & E' & Hj & Ha).
      refine (dl_league D g h ph ph' L L' i j a Hg (Hl h (or_intror Hh)) ltac:(congruence) E Hi E' Hj Hw Ha). }
    unfold ploop in *. cbn [fold_left]. split.
    - intros h a [<-|Hh] Ha; [|now apply I1]. rewrite I2.
      + apply (team_agree g Hg); [|destruct Ha as (ph & L & i & E & Hi & Ha); exists ph, L, i; auto].
        intros ph L i b E Hi Hb. apply (Hm g); [now left|]. exists ph, L, i. auto.
      + intros h Hh (ph' & L' & j & E' & Hj & Ha'). destruct Ha as (ph & L & i & E & Hi & Ha).
        refine (dl_league D g h ph ph' L L' i j a Hg (Hl h (or_intror Hh)) ltac:(congruence) E Hi E' Hj Ha (or_introl Ha')).
    - intros a Ha. rewrite I2 by (intros; apply Ha; now right). apply (team_confined g Hg).
      intros ph L i E Hi Hw. apply (Ha g); [now left|]. exists ph, L, i. auto. }
  assert (IN : forall g, In g order <-> (0 <= g < n)%Z).
  { intros g. rewrite <- In_zseq. split; apply Permutation.Permutation_in; [easy|now apply Permutation.Permutation_sym]. }
  destruct (X order m0) as [X1 X2]; auto.
  { apply (Permutation.Permutation_NoDup (l := zseq n)); [now apply Permutation.Permutation_sym|apply NoDup_zseq]. }
  { intros g Hg. now apply IN. }
  apply mem_ext. intros a. destruct (classic (exists g, (0 <= g < n)%Z /\ F g a)) as [(g & Hg & Ha)|Hno].
  - rewrite (X1 g a) by (auto; now apply IN). rewrite (D1 g a Hg) by (now apply FW). now rewrite LK, team_after_run.
  - rewrite X2 by (intros g Hg Ha; apply Hno; exists g; split; auto; now apply IN).
    apply D2. intros g Hg Hw. apply Hno. exists g. split; [easy|]. now apply FW.
Qed.

Theorem launch_completes m0 : never_stuck n T (kernel kern) m0 /\ exists m', launch n T (kernel kern) m0 m'.
Proof.
  pose proof (no_deadlock n T HT (kernel kern) Wt At_ loops_disciplined m0) as ND. split; [exact ND|].
  destruct (ND (kernel kern, m0) (steps_refl n T _)) as (P & m' & S & F). exists m', P. auto.
Qed.
End Loops.
