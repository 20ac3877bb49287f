(** TeamPhases.v -- team kernels whose phases are TeamThreadRange loops or code
    that every thread of the team executes, and whose teams work on separate
    entries (entry index = league rank): every interleaving gives one result. *)
From Coq Require Import ZArith List Lia Reals Bool Classical FunctionalExtensionality Permutation.
From Verif Require Import Base RBase TeamModel TeamProof.
Import ListNotations.
Local Open Scope R_scope.

(** A phase of a team: a team loop, or the same code on every thread; a team
    barrier follows. *)
Inductive phase := Loop (L : tloop) | Each (p : prog).
Definition phase_code (ph : phase) (t : Z) : prog :=
  match ph with Loop L => share (tl_own L) t (tl_n L) (tl_body L) | Each p => p end.
Definition teams (kern : Z -> list phase) : pool := fun g t => map (fun ph => phase_code ph t) (kern g).

(** The phase executed by one thread alone. *)
Definition phase_run (ph : phase) (m : mem) : mem := match ph with Loop L => loop_run L m | Each p => run p m end.
Definition phases_run (l : list phase) (m : mem) : mem := fold_left (fun m ph => phase_run ph m) l m.

(** The entries of team [g]. *)
Definition mine (g : Z) (a : loc) : Prop := match a with At _ i _ _ _ => i = g end.
Definition agree (g : Z) (m m' : mem) : Prop := forall a, mine g a -> m a = m' a.

(** Every store of a location stores the value it finally gets. *)
Fixpoint settled (S : loc -> Prop) (V : loc -> R) (m : mem) (p : prog) : Prop :=
  match p with
  | Done => True
  | Load l k => ~ S l /\ settled S V m (k (m l))
  | Store l v k => S l /\ v = V l /\ settled S V m k
  end.

(** ** What makes a phase independent of the schedule *)
Record loop_ok (g T : Z) (L : tloop) (W A : Z -> loc -> Prop) : Prop := {
  lo_own : forall i, (0 <= i < tl_n L)%Z -> (0 <= tl_own L i < T)%Z;
  lo_conf : forall i, (0 <= i < tl_n L)%Z -> confined (W i) (A i) (tl_body L i);
  lo_apart : forall i j a, (0 <= i < tl_n L)%Z -> (0 <= j < tl_n L)%Z -> i <> j -> W i a -> ~ (W j a \/ A j a);
  lo_mine : forall i a, (0 <= i < tl_n L)%Z -> W i a \/ A i a -> mine g a
}.
Record each_ok (g : Z) (p : prog) (S A : loc -> Prop) : Prop := {
  eo_conf : confined S A p;
  eo_settled : forall m, settled S (run p m) m p;
  eo_mine : forall a, S a \/ A a -> mine g a
}.
Definition phase_ok (g T : Z) (ph : phase) : Prop :=
  match ph with Loop L => exists W A, loop_ok g T L W A | Each p => exists S A, each_ok g p S A end.

(** ** The state of a team inside a phase *)
Record phase_proof (g T : Z) (code : Z -> prog) (eff : mem -> mem) : Type := {
  inv : mem -> (Z -> prog) -> mem -> Prop;
  inv_start : forall μ m, agree g μ m -> inv μ code m;
  inv_other : forall μ q m m', inv μ q m -> agree g m m' -> inv μ q m';
  inv_load : forall μ q m t l k, inv μ q m -> (0 <= t < T)%Z -> q t = Load l k ->
    inv μ (fun t' => if (t' =? t)%Z then k (m l) else q t') m;
  inv_store : forall μ q m t l v k, inv μ q m -> (0 <= t < T)%Z -> q t = Store l v k ->
    mine g l /\ inv μ (fun t' => if (t' =? t)%Z then k else q t') (store m l v);
  inv_done : forall μ q m, inv μ q m -> (forall t, (0 <= t < T)%Z -> q t = Done) -> agree g m (eff μ);
  eff_local : forall μ a, ~ mine g a -> eff μ a = μ a;
  eff_agree : forall μ μ', agree g μ μ' -> agree g (eff μ) (eff μ')
}.

Lemma mine_dec g a : {mine g a} + {~ mine g a}.
Proof. destruct a as [v i j k l]. cbn. apply Z.eq_dec. Qed.

Lemma zloop_frame n (f : Z -> mem -> mem) a : (forall i m, (0 <= i < n)%Z -> f i m a = m a) -> forall m, zloop n f m a = m a.
Proof.
  intros H m. unfold zloop. assert (X : forall l m, (forall i, In i l -> (0 <= i < n)%Z) -> fold_left (fun s i => f i s) l m a = m a).
  { induction l as [|i l IH]; intros m' Hl; cbn [fold_left]; [easy|]. rewrite IH by (intros j Hj; apply Hl; now right). apply H, Hl. now left. }
  apply X. intros i Hi. now apply In_zseq.
Qed.
Lemma zloop_agree n (f : Z -> mem -> mem) (F : loc -> Prop) : (forall i m m', (0 <= i < n)%Z -> (forall a, F a -> m a = m' a) -> forall a, F a -> f i m a = f i m' a) ->
  forall m m', (forall a, F a -> m a = m' a) -> forall a, F a -> zloop n f m a = zloop n f m' a.
Proof.
  intros H. unfold zloop. assert (X : forall l, (forall i, In i l -> (0 <= i < n)%Z) -> forall m m', (forall a, F a -> m a = m' a) ->
    forall a, F a -> fold_left (fun s i => f i s) l m a = fold_left (fun s i => f i s) l m' a).
  { induction l as [|i l IH]; intros Hl m m' E; cbn [fold_left]; [easy|]. apply IH; [intros j Hj; apply Hl; now right|]. apply H; [apply Hl; now left|exact E]. }
  apply X. intros i Hi. now apply In_zseq.
Qed.

Lemma loop_phase g T L W A : loop_ok g T L W A -> phase_proof g T (phase_code (Loop L)) (phase_run (Loop L)).
Proof.
  intros OK.
  set (Wt := fun t a => exists i, (0 <= i < tl_n L)%Z /\ tl_own L i = t /\ W i a).
  set (At := fun t a => exists i, (0 <= i < tl_n L)%Z /\ tl_own L i = t /\ A i a).
  set (code := phase_code (Loop L)).
  assert (CF : forall t, confined (Wt t) (At t) (code t)).
  { intros t. cbn [code phase_code]. apply confined_share. intros i Hi Ho. apply (confined_weaken (W i) (A i)).
    - intros l Hl. exists i. auto.
    - intros l Hl. right. exists i. auto.
    - now apply (lo_conf _ _ _ _ _ OK). }
  assert (AP : forall t u a, t <> u -> Wt t a -> ~ (Wt u a \/ At u a)).
  { intros t u a N (i & Hi & Hio & Hia) [(j & Hj & Hjo & Hja)|(j & Hj & Hjo & Hja)]; apply (lo_apart _ _ _ _ _ OK i j a Hi Hj); auto; congruence. }
  assert (MI : forall t a, Wt t a \/ At t a -> mine g a).
  { intros t a [(i & Hi & _ & Ha)|(i & Hi & _ & Ha)]; apply (lo_mine _ _ _ _ _ OK i a Hi); auto. }
  assert (ALL : forall m, fold_left (fun m t => run (code t) m) (zseq T) m = loop_run L m).
  { intros m. apply (share_all T _ _ _ W A); apply OK. }
  assert (DR : forall m, (forall t a, (0 <= t < T)%Z -> Wt t a -> loop_run L m a = run (code t) m a) /\
    (forall a, (forall t, (0 <= t < T)%Z -> ~ Wt t a) -> loop_run L m a = m a)).
  { intros m. rewrite <- ALL. destruct (disjoint_run (zseq T) code Wt At m (NoDup_zseq T)) as [X Y].
    - intros t _. apply CF.
    - intros t u a _ _. apply AP.
    - split; [intros t a Ht; apply X; now apply In_zseq|]. intros a Ha. apply Y. intros t Ht. apply Ha. now apply In_zseq. }
  refine {| inv := fun μ q m =>
    (forall t, (0 <= t < T)%Z -> confined (Wt t) (At t) (q t) /\ forall a, Wt t a \/ At t a -> run (q t) m a = run (code t) μ a) /\
    (forall a, mine g a -> (forall t, (0 <= t < T)%Z -> ~ Wt t a) -> m a = μ a) |}.
  - intros μ m E. split; [|intros a Ha _; symmetry; now apply E]. intros t Ht. split; [apply CF|]. intros a Ha.
    apply (run_agree (Wt t) (At t)); auto. intros b Hb. symmetry. apply E. exact (MI t b Hb).
  - intros μ q m m' [I1 I2] E. split.
    + intros t Ht. destruct (I1 t Ht) as [C R]. split; [exact C|]. intros a Ha. rewrite <- (R a Ha).
      apply (run_agree (Wt t) (At t)); auto. intros b Hb. symmetry. apply E. exact (MI t b Hb).
    + intros a Ha Hn. rewrite <- (E a Ha). auto.
  - intros μ q m t l k [I1 I2] Ht Eq. split; [|exact I2]. intros u Hu. cbn beta. destruct (Z.eqb_spec u t) as [->|]; [|now apply I1].
    destruct (I1 t Ht) as [C R]. rewrite Eq in C, R. destruct C as [_ C]. split; [apply C|exact R].
  - intros μ q m t l v k [I1 I2] Ht Eq. destruct (I1 t Ht) as [C R]. rewrite Eq in C, R. destruct C as [Cl C].
    split; [apply (MI t); now left|]. split.
    + intros u Hu. cbn beta. destruct (Z.eqb_spec u t) as [->|Nu]; [split; [exact C|exact R]|].
      destruct (I1 u Hu) as [Cu Ru]. split; [exact Cu|]. intros a Ha. rewrite <- (Ru a Ha).
      apply (run_agree (Wt u) (At u)); auto. intros b Hb. apply store_neq. intros ->. exact (AP t u l ltac:(congruence) Cl Hb).
    + intros a Ha Hn. rewrite store_neq; [auto|]. intros ->. exact (Hn t Ht Cl).
  - intros μ q m [I1 I2] HD a Ha. cbn [phase_run]. destruct (DR μ) as [D1 D2].
    destruct (classic (exists t, (0 <= t < T)%Z /\ Wt t a)) as [(t & Ht & Hw)|Hno].
    + rewrite (D1 t a Ht Hw). destruct (I1 t Ht) as [_ R]. rewrite HD in R by exact Ht. now apply (R a); left.
    + rewrite D2 by (intros t Ht Hw; apply Hno; eauto). apply I2; [exact Ha|]. intros t Ht Hw. apply Hno. eauto.
  - intros μ a Ha. cbn [phase_run]. apply (proj2 (DR μ)). intros t Ht Hw. apply Ha. apply (MI t). now left.
  - intros μ μ' E a Ha. cbn [phase_run]. unfold loop_run. revert a Ha. apply (zloop_agree (tl_n L) _ (mine g)); [|exact E].
    intros i m m' Hi Em a Ha. pose proof (lo_conf _ _ _ _ _ OK i Hi) as Ci.
    apply (run_agree (W i) (fun a => A i a \/ mine g a)); [|intros b Hb; apply Em; destruct Hb as [Hb|[Hb|Hb]]; [| |exact Hb]; apply (lo_mine _ _ _ _ _ OK i b Hi); auto|auto].
    apply (confined_weaken (W i) (A i)); auto.
Qed.

Lemma settled_run S V m0 p : settled S V m0 p -> forall m a, (m a = V a \/ ~ S a) -> (forall b, ~ S b -> m b = m0 b) -> S a -> run p m a = V a.
Proof.
  induction p as [|l k IH|l v k IH]; cbn; intros H m a Ha Hm Sa.
  - destruct Ha as [Ha|Ha]; [exact Ha|contradiction].
  - destruct H as [N H]. rewrite (Hm l N). apply IH; auto.
  - destruct H as (Sl & -> & H). apply IH; auto.
    + left. unfold store. destruct (loc_eqb_spec a l) as [->|]; [reflexivity|]. destruct Ha; [auto|contradiction].
    + intros b Nb. rewrite store_neq; [auto|]. intros ->. contradiction.
Qed.
(** A store of the settled value by another thread does not matter. *)
Lemma settled_other S V m0 p : settled S V m0 p -> forall m b, S b -> (forall c, ~ S c -> m c = m0 c) -> forall a, S a ->
  run p m a = V a -> run p (store m b (V b)) a = V a.
Proof.
  induction p as [|l k IH|l v k IH]; cbn; intros H m b Sb Hm a Sa R.
  - unfold store. destruct (loc_eqb_spec a b) as [->|]; auto.
  - destruct H as [N H]. rewrite store_neq by (intros ->; contradiction). rewrite (Hm l N) in *. apply IH; auto.
  - destruct H as (Sl & -> & H).
    assert (C : store (store m b (V b)) l (V l) = store (store m l (V l)) b (V b)).
    { apply functional_extensionality. intros c. unfold store. destruct (loc_eqb_spec c l), (loc_eqb_spec c b); congruence. }
    rewrite C. apply IH; auto. intros c Nc. rewrite store_neq; [auto|]. intros ->. contradiction.
Qed.

Lemma each_phase g T p S A : (0 < T)%Z -> each_ok g p S A -> phase_proof g T (phase_code (Each p)) (phase_run (Each p)).
Proof.
  intros HT OK.
  assert (MS : forall a, S a -> mine g a) by (intros a Ha; apply (eo_mine _ _ _ _ OK); auto).
  assert (AG : forall μ μ', agree g μ μ' -> agree g (run p μ) (run p μ')).
  { intros μ μ' E a Ha. apply (run_agree S (fun a => A a \/ mine g a)); [|intros b Hb; apply E; destruct Hb as [Hb|[Hb|Hb]]; [| |exact Hb]; apply (eo_mine _ _ _ _ OK); auto|auto].
    apply (confined_weaken S A); auto. apply OK. }
  refine {| inv := fun μ q m =>
    (forall t, (0 <= t < T)%Z -> settled S (run p μ) (fun a => if mine_dec g a then μ a else m a) (q t) /\ confined S A (q t) /\ forall a, S a -> run (q t) m a = run p μ a) /\
    (forall a, mine g a -> ~ S a -> m a = μ a) |}.
  - intros μ m E. split; [|intros a Ha _; symmetry; now apply E]. intros t Ht. cbn [phase_code].
    set (μ' := fun a => if mine_dec g a then μ a else m a). assert (E' : agree g μ μ') by (intros a Ha; unfold μ'; now destruct (mine_dec g a)).
    split; [|split; [apply OK|intros a Ha; symmetry; apply (AG μ m E); auto]].
    pose proof (eo_settled _ _ _ _ OK μ') as ST.
    assert (X : forall q, confined S A q -> settled S (run p μ') μ' q -> settled S (run p μ) μ' q).
    { induction q as [|l k IH|l v k IH]; cbn; auto.
      - intros [_ C] [N H]. split; [exact N|]. apply IH; [apply C|exact H].
      - intros [_ C] (Sl & -> & H). split; [exact Sl|]. split; [symmetry; apply (AG μ μ' E'); auto|]. apply IH; auto. }
    apply X; [apply OK|exact ST].
  - intros μ q m m' [I1 I2] E. split.
    + intros t Ht. destruct (I1 t Ht) as (ST & C & R). split; [|split; [exact C|]].
      * assert (X : forall q, confined S A q -> settled S (run p μ) (fun a => if mine_dec g a then μ a else m a) q ->
          settled S (run p μ) (fun a => if mine_dec g a then μ a else m' a) q).
        { clear -OK. induction q as [|l k IH|l v k IH]; cbn; auto.
          - intros [Hl C] [N H]. split; [exact N|]. assert (M : mine g l) by (apply (eo_mine _ _ _ _ OK); tauto).
            destruct (mine_dec g l); [|contradiction]. apply IH; [apply C|exact H].
          - intros [_ C] (Sl & -> & H). auto. }
        apply X; [exact C|exact ST].
      * intros a Ha. rewrite <- (R a Ha). apply (run_agree S A (q t) C); [|auto]. intros b Hb. symmetry. apply E. now apply (eo_mine _ _ _ _ OK).
    + intros a Ha Hn. rewrite <- (E a Ha). auto.
  - intros μ q m t l k [I1 I2] Ht Eq. split; [|exact I2]. intros u Hu. cbn beta. destruct (Z.eqb_spec u t) as [->|]; [|now apply I1].
    destruct (I1 t Ht) as (ST & C & R). rewrite Eq in ST, C, R. destruct C as [Cl C]. destruct ST as [N ST].
    assert (M : mine g l) by (apply (eo_mine _ _ _ _ OK); exact Cl).
    split; [|split; [apply C|exact R]]. destruct (mine_dec g l); [|contradiction]. rewrite (I2 l M N). exact ST.
  - intros μ q m t l v k [I1 I2] Ht Eq. destruct (I1 t Ht) as (ST & C & R). rewrite Eq in ST, C, R. destruct C as [Cl C]. destruct ST as (_ & -> & ST).
    split; [now apply MS|]. 
    assert (X : forall q, confined S A q -> settled S (run p μ) (fun a => if mine_dec g a then μ a else m a) q ->
          settled S (run p μ) (fun a => if mine_dec g a then μ a else store m l (run p μ l) a) q).
    { clear -OK. induction q as [|l' k IH|l' v k IH]; cbn; auto.
      - intros [Hl C] [N H]. split; [exact N|]. assert (M : mine g l') by (apply (eo_mine _ _ _ _ OK); tauto).
        destruct (mine_dec g l'); [|contradiction]. apply IH; [apply C|exact H].
      - intros [_ C] (Sl & -> & H). auto. }
    split.
    + intros u Hu. cbn beta. destruct (Z.eqb_spec u t) as [->|Nu]; [split; [apply X; [exact C|exact ST]|split; [exact C|exact R]]|].
      destruct (I1 u Hu) as (STu & Cu & Ru). split; [apply X; [exact Cu|exact STu]|]. split; [exact Cu|]. intros a Ha.
      apply (settled_other S (run p μ) (fun a => if mine_dec g a then μ a else m a)); auto.
      intros c Nc. destruct (mine_dec g c) as [M|]; [|reflexivity]. now apply I2.
    + intros a Ha Hn. rewrite store_neq; [auto|]. intros ->. contradiction.
  - intros μ q m [I1 I2] HD a Ha. cbn [phase_run]. destruct (classic (S a)) as [Sa|Na].
    + destruct (I1 0%Z ltac:(lia)) as (_ & _ & R). rewrite HD in R by lia. now apply (R a).
    + rewrite (run_frame S A p (eo_conf _ _ _ _ OK) μ a Na). now apply I2.
  - intros μ a Ha. cbn [phase_run]. apply (run_frame S A p (eo_conf _ _ _ _ OK)). intros Sa. apply Ha. now apply MS.
  - intros μ μ' E. exact (AG μ μ' E).
Qed.

Lemma phase_proofs g T ph : (0 < T)%Z -> phase_ok g T ph -> inhabited (phase_proof g T (phase_code ph) (phase_run ph)).
Proof.
  intros HT. destruct ph as [L|p]; cbn [phase_ok].
  - intros (W & A & OK). constructor. exact (loop_phase g T L W A OK).
  - intros (S & A & OK). constructor. exact (each_phase g T p S A HT OK).
Qed.

(** ** Determinism *)
Section Teams.
Context (n T : Z) (HT : (0 < T)%Z) (kern : Z -> list phase).
Context (OK : forall g ph, (0 <= g < n)%Z -> In ph (kern g) -> phase_ok g T ph).
Let K := teams kern.

Lemma proof_of g ph : (0 <= g < n)%Z -> In ph (kern g) -> inhabited (phase_proof g T (phase_code ph) (phase_run ph)).
Proof. intros Hg Hi. apply phase_proofs; auto. Qed.

(** Team [g] has executed the phases [done]; the others are to come. *)
Definition team_state (g : Z) (P : pool) (m0 m : mem) : Prop :=
  (exists done todo, kern g = done ++ todo /\ (forall t, (0 <= t < T)%Z -> P g t = map (fun ph => phase_code ph t) todo) /\
     agree g m (phases_run done m0)) \/
  (exists done ph todo q (PP : phase_proof g T (phase_code ph) (phase_run ph)), kern g = done ++ ph :: todo /\
     (forall t, (0 <= t < T)%Z -> P g t = q t :: map (fun ph => phase_code ph t) todo) /\
     inv _ _ _ _ PP (phases_run done m0) q m).
Definition league_state (m0 : mem) (s : pool * mem) : Prop :=
  (forall g, (0 <= g < n)%Z -> team_state g (fst s) m0 (snd s)) /\
  (forall a, (forall g, (0 <= g < n)%Z -> ~ mine g a) -> snd s a = m0 a).

Lemma enter_phase g P m0 m : (0 <= g < n)%Z -> team_state g P m0 m ->
  (forall t, (0 <= t < T)%Z -> P g t = []) /\ agree g m (phases_run (kern g) m0) \/
  exists done ph todo q (PP : phase_proof g T (phase_code ph) (phase_run ph)), kern g = done ++ ph :: todo /\
     (forall t, (0 <= t < T)%Z -> P g t = q t :: map (fun ph => phase_code ph t) todo) /\
     inv _ _ _ _ PP (phases_run done m0) q m.
Proof.
  intros Hg [(done & todo & E & HP & AG)|H]; [|now right]. destruct todo as [|ph todo].
  - left. rewrite app_nil_r in E. subst done. auto.
  - right. destruct (proof_of g ph Hg) as [PP]; [rewrite E; apply in_or_app; right; now left|].
    exists done, ph, todo, (phase_code ph), PP. split; [exact E|]. split; [exact HP|]. apply inv_start. intros a Ha. symmetry. now apply AG.
Qed.

Lemma team_other g P P' m0 m m' : (forall t, (0 <= t < T)%Z -> P' g t = P g t) -> agree g m m' -> team_state g P m0 m -> team_state g P' m0 m'.
Proof.
  intros HP AG [(done & todo & E & H1 & H2)|(done & ph & todo & q & PP & E & H1 & H2)]; [left|right].
  - exists done, todo. split; [exact E|]. split; [intros t Ht; rewrite HP; auto|]. intros a Ha. rewrite <- (AG a Ha). auto.
  - exists done, ph, todo, q, PP. split; [exact E|]. split; [intros t Ht; rewrite HP; auto|]. apply (inv_other _ _ _ _ PP _ _ m); auto.
Qed.

Lemma league_step m0 s s' : step n T s s' -> league_state m0 s -> league_state m0 s'.
Proof.
  intros ST [OKt OKm]. destruct ST as [P m g t l k rest [Hg Ht] EP|P m g t l v k rest [Hg Ht] EP|P m g Hg EB]; cbn [fst snd] in *.
  - split; cbn [fst snd]; [|exact OKm]. intros h Hh. destruct (Z.eq_dec h g) as [->|N].
    + destruct (enter_phase g P m0 m Hg (OKt g Hg)) as [[HN _]|(done & ph & todo & q & PP & E & H1 & H2)]; [rewrite HN in EP by exact Ht; discriminate|].
      right. pose proof (H1 t Ht) as X. rewrite EP in X. injection X as Eq ->. symmetry in Eq.
      exists done, ph, todo, (fun t' => if (t' =? t)%Z then k (m l) else q t'), PP. split; [exact E|]. split; [|now apply inv_load].
      intros u Hu. unfold set_thread. rewrite Z.eqb_refl. cbn [andb]. destruct (Z.eqb_spec u t) as [->|]; [reflexivity|auto].
    + apply (team_other h P _ m0 m); auto; [|easy]. intros u Hu. unfold set_thread. destruct (Z.eqb_spec h g); [easy|]. reflexivity.
  - destruct (enter_phase g P m0 m Hg (OKt g Hg)) as [[HN _]|(done & ph & todo & q & PP & E & H1 & H2)]; [rewrite HN in EP by exact Ht; discriminate|].
    pose proof (H1 t Ht) as X. rewrite EP in X. injection X as Eq ->. symmetry in Eq.
    destruct (inv_store _ _ _ _ PP _ _ _ t l v k H2 Ht Eq) as [MI IV].
    split; cbn [fst snd].
    + intros h Hh. destruct (Z.eq_dec h g) as [->|N].
      * right. exists done, ph, todo, (fun t' => if (t' =? t)%Z then k else q t'), PP. split; [exact E|]. split; [|exact IV].
        intros u Hu. unfold set_thread. rewrite Z.eqb_refl. cbn [andb]. destruct (Z.eqb_spec u t) as [->|]; [reflexivity|auto].
      * apply (team_other h P _ m0 m); auto.
        -- intros u Hu. unfold set_thread. destruct (Z.eqb_spec h g); [easy|]. reflexivity.
        -- intros a Ha. symmetry. apply store_neq. intros ->. destruct l as [w i j0 k0 l0]. cbn in MI, Ha. congruence.
    + intros a Ha. rewrite store_neq; [auto|]. intros ->. exact (Ha g Hg MI).
  - split; cbn [fst snd]; [|exact OKm]. intros h Hh. destruct (Z.eq_dec h g) as [->|N].
    + destruct (enter_phase g P m0 m Hg (OKt g Hg)) as [[HN _]|(done & ph & todo & q & PP & E & H1 & H2)].
      { destruct (EB 0%Z ltac:(lia)) as [rest EE]. rewrite HN in EE by lia. discriminate. }
      left. exists (done ++ [ph]), todo. split; [rewrite <- app_assoc; exact E|]. split.
      * intros t Ht. cbn beta. rewrite Z.eqb_refl, (H1 t Ht). reflexivity.
      * unfold phases_run. rewrite fold_left_app. cbn [fold_left]. apply (inv_done _ _ _ _ PP _ q); [exact H2|].
        intros t Ht. destruct (EB t Ht) as [rest EE]. rewrite (H1 t Ht) in EE. now injection EE.
    + apply (team_other h P _ m0 m); auto; [|easy]. intros t Ht. cbn beta. destruct (Z.eqb_spec h g); [easy|]. reflexivity.
Qed.

Lemma phases_local g l : (0 <= g < n)%Z -> (forall ph, In ph l -> In ph (kern g)) -> forall m a, ~ mine g a -> phases_run l m a = m a.
Proof.
  intros Hg. unfold phases_run. induction l as [|ph l IH]; intros Hl m a Ha; [easy|]. cbn [fold_left].
  destruct (proof_of g ph Hg) as [PP]; [apply Hl; now left|].
  rewrite IH by (auto; intros; apply Hl; now right). apply (eff_local _ _ _ _ PP); exact Ha.
Qed.
Lemma phases_agree g l : (0 <= g < n)%Z -> (forall ph, In ph l -> In ph (kern g)) -> forall m m', agree g m m' -> agree g (phases_run l m) (phases_run l m').
Proof.
  intros Hg. unfold phases_run. induction l as [|ph l IH]; intros Hl m m' E; [easy|]. cbn [fold_left].
  destruct (proof_of g ph Hg) as [PP]; [apply Hl; now left|].
  apply IH; [intros; apply Hl; now right|]. now apply (eff_agree _ _ _ _ PP).
Qed.

(** The teams one after the other. *)
Lemma teams_fold order : (forall g, In g order -> (0 <= g < n)%Z) -> NoDup order -> forall m,
  (forall g, In g order -> agree g (ploop order (fun g m => phases_run (kern g) m) m) (phases_run (kern g) m)) /\
  (forall a, (forall g, In g order -> ~ mine g a) -> ploop order (fun g m => phases_run (kern g) m) m a = m a).
Proof.
  unfold ploop. induction order as [|h l IH]; intros Hl ND m; [easy|]. inversion ND as [|? ? Nh NDl]; subst. cbn [fold_left].
  assert (Hh : (0 <= h < n)%Z) by (apply Hl; now left).
  destruct (IH ltac:(intros; apply Hl; now right) NDl (phases_run (kern h) m)) as [I1 I2]. split.
  - intros g [<-|Hg] a Ha.
    + apply I2. intros g Hg Mg. destruct a as [v i j k0 l0]. cbn in Ha, Mg. subst. contradiction.
    + rewrite (I1 g Hg a Ha). apply (phases_agree g (kern g)); auto; [apply Hl; now right|]. intros b Hb.
      apply (phases_local h (kern h)); auto. intros Mh. destruct b as [v i j k0 l0]. cbn in Mh, Hb. subst. contradiction.
  - intros a Ha. rewrite I2 by (intros; apply Ha; now right). apply (phases_local h (kern h)); auto. apply Ha. now left.
Qed.

Theorem teams_sequential order m0 m' : Permutation order (zseq n) -> launch n T K m0 m' ->
  m' = ploop order (fun g m => phases_run (kern g) m) m0.
Proof.
  intros PE (P & ST & FI).
  assert (L0 : league_state m0 (K, m0)).
  { split; [|easy]. intros g Hg. left. exists [], (kern g). split; [reflexivity|]. split; [reflexivity|]. easy. }
  assert (L1 : league_state m0 (P, m')).
  { clear FI. remember (K, m0) as s eqn:Es. remember (P, m') as s' eqn:Es'. clear Es Es'. induction ST; auto. apply IHST. now apply (league_step m0 a). }
  destruct L1 as [LT LM]. cbn [fst snd] in *.
  assert (IN : forall g, In g order <-> (0 <= g < n)%Z).
  { intros g. rewrite <- In_zseq. split; apply Permutation_in; [easy|now apply Permutation_sym]. }
  destruct (teams_fold order (fun g H => proj1 (IN g) H)) with (m := m0) as [F1 F2].
  { apply (Permutation_NoDup (l := zseq n)); [now apply Permutation_sym|apply NoDup_zseq]. }
  apply mem_ext. intros a. destruct a as [v g j k l]. destruct (classic (0 <= g < n)%Z) as [Hg|Hg].
  - rewrite (F1 g (proj2 (IN g) Hg)) by reflexivity.
    destruct (enter_phase g P m0 m' Hg (LT g Hg)) as [[_ AG]|(done & ph & todo & q & PP & E & H1 & H2)]; [now apply AG|].
    specialize (H1 0%Z ltac:(lia)). rewrite FI in H1 by (split; [exact Hg|lia]). discriminate.
  - rewrite F2; [apply LM|]; intros h Hh; [|apply IN in Hh]; cbn; intros ->; contradiction.
Qed.

Theorem teams_complete m0 : never_stuck n T K m0 /\ exists m', launch n T K m0 m'.
Proof.
  assert (ND : never_stuck n T K m0).
  { intros [P m] ST.
    assert (LEN : forall g, (0 <= g < n)%Z -> exists len, forall t, (0 <= t < T)%Z -> length (P g t) = len).
    { assert (L1 : league_state m0 (P, m)).
      { assert (L0 : league_state m0 (K, m0)).
        { split; [|easy]. intros g Hg. left. exists [], (kern g). split; [reflexivity|]. split; [reflexivity|]. easy. }
        remember (K, m0) as s eqn:Es. remember (P, m) as s' eqn:Es'. clear Es Es'. induction ST; auto. apply IHST. now apply (league_step m0 a). }
      intros g Hg. destruct (proj1 L1 g Hg) as [(done & todo & E & HP & _)|(done & ph & todo & q & PP & E & H1 & _)]; cbn [fst] in *.
      - exists (length todo). intros t Ht. now rewrite HP, map_length.
      - exists (S (length todo)). intros t Ht. rewrite H1 by exact Ht. cbn [length]. now rewrite map_length. }
    assert (X : forall k, (0 <= k)%Z -> (k <= n)%Z -> exists P' m', steps n T (P, m) (P', m') /\
      (forall g t, (0 <= g < k)%Z -> (0 <= t < T)%Z -> P' g t = []) /\ (forall g t, (k <= g)%Z -> P' g t = P g t)).
    { intros k H0. pattern k. apply natlike_ind; [|intros j Hj IH HjT|easy].
      - intros _. exists P, m. split; [constructor|]. split; [lia|]. auto.
      - destruct (IH ltac:(lia)) as (P1 & m1 & S1 & A1 & B1). destruct (LEN j ltac:(lia)) as [len HL].
        destruct (finish_team n T HT j len ltac:(lia) P1 m1) as (P2 & m2 & S2 & A2 & B2).
        { intros t Ht. rewrite B1 by lia. auto. }
        exists P2, m2. split; [eapply steps_trans; eauto|]. split.
        + intros g t Hg Ht. destruct (Z.eq_dec g j) as [->|]; [auto|]. rewrite B2 by easy. apply A1; lia.
        + intros g t Hg. rewrite B2 by lia. apply B1. lia. }
    destruct (Z_le_gt_dec n 0) as [Hn|Hn].
    - exists P, m. split; [constructor|]. intros g t [Hg _]. lia.
    - destruct (X n ltac:(lia) ltac:(lia)) as (P' & m' & SS & A1 & _). exists P', m'. split; [easy|]. intros g t [Hg Ht]. auto. }
  split; [exact ND|]. destruct (ND (K, m0) (steps_refl n T _)) as (P & m' & SS & F). exists m', P. auto.
Qed.
End Teams.
