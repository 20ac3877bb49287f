(** ArithProof.v -- the kernels of ArithModel.v are functions of what they are
    meant to read: neither the order of parallel loops nor the previous content
    of a work array nor entries outside the extents change a result. *)
From Coq Require Import ZArith List Lia Bool Permutation.
From Verif Require Import Base RBase MeshModel MeshSpec MeshProof MeshReadProof MeshProof2 PropMesh ShapeModel ShapeProof CommModel CommSpec
  SolverModel SetupModel SolverSpec PhysModel LinAlgProof SolverFaces SolverMesh ArithModel.
From Verif Require SolverConserve.
Import ListNotations.
Local Open Scope Z_scope.

(** Equal entries within the extents. *)
Definition agree {A} (n : Z) (a b : Z -> A) : Prop := forall i, 0 <= i < n -> a i = b i.
Definition agree2 {A} (n m : Z) (a b : Z -> Z -> A) : Prop := forall i j, 0 <= i < n -> 0 <= j < m -> a i j = b i j.

(** The library routines read what they are given, within the extents, and
    [old] only when they accumulate. *)
Record lib_reads {N} (L : library N) : Prop := {
  lr_entry : forall m n k i j alpha row col row' col' acc old old', 0 <= i < m -> 0 <= j < n ->
    agree k row row' -> agree k col col' -> (acc = true -> old = old') ->
    l_entry L m n k i j alpha row col acc old = l_entry L m n k i j alpha row' col' acc old';
  lr_solve : forall n M M' B B', agree2 n n M M' -> agree2 n n B B' -> agree2 n n (l_solve L n M B) (l_solve L n M' B')
}.

Lemma agree_sym {A} n (a b : Z -> A) : agree n a b -> agree n b a.
Proof. intros H i Hi. symmetry. auto. Qed.
Lemma agree_trans {A} n (a b c : Z -> A) : agree n a b -> agree n b c -> agree n a c.
Proof. intros H H' i Hi. rewrite H; auto. Qed.
Lemma agree_refl {A} n (a : Z -> A) : agree n a a.
Proof. easy. Qed.
Lemma agree2_sym {A} n m (a b : Z -> Z -> A) : agree2 n m a b -> agree2 n m b a.
Proof. intros H i j Hi Hj. symmetry. auto. Qed.
Lemma agree2_trans {A} n m (a b c : Z -> Z -> A) : agree2 n m a b -> agree2 n m b c -> agree2 n m a c.
Proof. intros H H' i j Hi Hj. rewrite H; auto. Qed.
Lemma agree2_refl {A} n m (a : Z -> Z -> A) : agree2 n m a a.
Proof. easy. Qed.

Lemma inb_in n i : 0 <= i < n -> inb n i = true.
Proof. apply inb_true. Qed.

(** * Loops *)

(** A parallel loop whose iteration [e] touches row [e] only. *)
Lemma ploop_get {S A} (get : S -> Z -> A) (body : Z -> S -> S) (f : Z -> A -> A) order s0 :
  NoDup order ->
  (forall e s e', get (body e s) e' = if e' =? e then f e (get s e) else get s e') ->
  forall e, (In e order -> get (ploop order body s0) e = f e (get s0 e)) /\ (~ In e order -> get (ploop order body s0) e = get s0 e).
Proof.
  intros ND HB. revert s0. induction order as [|x l IH]; intros s0 e; [split; [intros []|easy]|].
  inversion ND as [|? ? Hx ND']; subst. cbn [ploop fold_left]. fold (ploop l body (body x s0)).
  destruct (IH ND' (body x s0) e) as [I1 I2]. split.
  - intros [->|Hin].
    + rewrite I2 by easy. rewrite HB, Z.eqb_refl. reflexivity.
    + rewrite I1 by easy. rewrite HB. destruct (Z.eqb_spec e x) as [->|]; [easy|reflexivity].
  - intros Hn. rewrite I2 by (intros C; apply Hn; now right). rewrite HB.
    destruct (Z.eqb_spec e x) as [->|]; [exfalso; apply Hn; now left|reflexivity].
Qed.

Lemma ploop_rows {A} (f : Z -> A -> A) order a0 ne : Permutation order (zseq ne) ->
  forall e, 0 <= e < ne -> ploop order (fun e a => setr a e (f e (a e))) a0 e = f e (a0 e).
Proof.
  intros P e He.
  apply (ploop_get (fun s e => s e) (fun e a => setr a e (f e (a e))) f order a0).
  - apply (Permutation_NoDup (Permutation_sym P)), NoDup_zseq.
  - intros x s e'. unfold setr. destruct (e' =? x) eqn:E; [apply Z.eqb_eq in E; now subst|reflexivity].
  - apply (Permutation_in _ (Permutation_sym P)). now apply In_zseq.
Qed.

Lemma perm_In_pairs order n m i j : each_once order n m -> In (i, j) order <-> 0 <= i < n /\ 0 <= j < m.
Proof.
  intros P. split.
  - intros H. apply (Permutation_in _ P) in H. apply in_prod_iff in H. now rewrite !In_zseq in H.
  - intros H. apply (Permutation_in _ (Permutation_sym P)). apply in_prod_iff. now rewrite !In_zseq.
Qed.

(** A loop over pairs that writes rows of a rank-2 table of rows: a row has the
    value of its only writer, or the previous one. *)
Lemma sweep_rows {A} (W : Z * Z -> Z -> Z -> option (A -> A)) order (body : Z * Z -> (Z -> Z -> A) -> Z -> Z -> A) :
  (forall p s i j, In p order -> body p s i j = match W p i j with Some h => h (s i j) | None => s i j end) ->
  forall s0 i j,
    ((forall p, In p order -> W p i j = None) -> sweep order body s0 i j = s0 i j) /\
    (forall p h, NoDup order -> In p order -> W p i j = Some h -> (forall p', In p' order -> W p' i j <> None -> p' = p) ->
       sweep order body s0 i j = h (s0 i j)).
Proof.
  induction order as [|x l IH]; intros HB s0 i j; [split; [reflexivity|intros p h _ []]|].
  assert (HB' : forall p s i j, In p l -> body p s i j = match W p i j with Some h => h (s i j) | None => s i j end)
    by (intros; apply HB; now right).
  cbn [sweep fold_left]. fold (sweep l body (body x s0)). destruct (IH HB' (body x s0) i j) as [I1 I2]. split.
  - intros H. rewrite I1 by (intros p Hp; apply H; now right). rewrite HB by now left. now rewrite H by now left.
  - intros p h ND Hin HW U. inversion ND as [|? ? Hx ND']; subst. destruct Hin as [->|Hin].
    + rewrite I1.
      * rewrite HB by now left. now rewrite HW.
      * intros q Hq. destruct (W q i j) eqn:E; [|reflexivity]. exfalso. apply Hx. rewrite <- (U q); [exact Hq|now right|congruence].
    + rewrite (I2 p h ND' Hin HW) by (intros q Hq Hn; apply U; [now right|exact Hn]).
      f_equal. rewrite HB by now left. destruct (W x i j) eqn:E; [|reflexivity].
      exfalso. apply Hx. rewrite (U x); [exact Hin|now left|congruence].
Qed.

Lemma sweep_pair {S1 S2} order (b1 : Z * Z -> S1 -> S1) (b2 : Z * Z -> S2 -> S2) s1 s2 :
  sweep order (fun p s => (b1 p (fst s), b2 p (snd s))) (s1, s2) = (sweep order b1 s1, sweep order b2 s2).
Proof. revert s1 s2. induction order as [|x l IH]; intros s1 s2; [reflexivity|]. cbn [sweep fold_left fst snd]. apply IH. Qed.

Lemma each_once_NoDup order n m : each_once order n m -> NoDup order.
Proof.
  intros P. apply (Permutation_NoDup (Permutation_sym P)). 
  apply SolverConserve.NoDup_list_prod; apply NoDup_zseq.
Qed.

(** A row of a table indexed by pairs, each pair writing its own row. *)
Lemma sweep_own {A} (f : Z * Z -> A -> A) order n m a0 : each_once order n m ->
  forall i j, 0 <= i < n -> 0 <= j < m ->
    sweep order (fun p a => set2 a (fst p) (snd p) (f p (a (fst p) (snd p)))) a0 i j = f (i, j) (a0 i j).
Proof.
  intros P i j Hi Hj.
  set (W := fun p i j => if ((i =? fst p) && (j =? snd p))%bool then Some (f p) else None).
  destruct (sweep_rows W order (fun p a => set2 a (fst p) (snd p) (f p (a (fst p) (snd p))))) with (s0 := a0) (i := i) (j := j) as [_ H].
  - intros p s i' j' _. unfold set2, W. destruct ((i' =? fst p) && (j' =? snd p))%bool eqn:E; [|reflexivity].
    apply andb_true_iff in E. rewrite !Z.eqb_eq in E. destruct E as [-> ->]. reflexivity.
  - apply (H (i, j) (f (i, j))).
    + now apply (each_once_NoDup order n m).
    + now apply (perm_In_pairs order n m).
    + unfold W. cbn [fst snd]. now rewrite !Z.eqb_refl.
    + intros [i' j'] _. unfold W. cbn [fst snd]. destruct (Z.eqb_spec i i'), (Z.eqb_spec j j'); subst; cbn [andb]; easy.
Qed.

Lemma foreach_own {A} (f : Z * Z -> res (A -> A)) order n m a0 a1 : each_once order n m ->
  foreach order (fun p a => (h <- f p ;; Ok (set2 a (fst p) (snd p) (h (a (fst p) (snd p)))))%res) a0 = Ok a1 ->
  forall i j, 0 <= i < n -> 0 <= j < m -> exists h, f (i, j) = Ok h /\ a1 i j = h (a0 i j).
Proof.
  intros P E.
  assert (X : forall l a0 a1, foreach l (fun p a => (h <- f p ;; Ok (set2 a (fst p) (snd p) (h (a (fst p) (snd p)))))%res) a0 = Ok a1 ->
    NoDup l -> forall i j, (In (i, j) l -> exists h, f (i, j) = Ok h /\ a1 i j = h (a0 i j)) /\ (~ In (i, j) l -> a1 i j = a0 i j)).
  { induction l as [|x l IH]; intros b0 b1 E' ND i j.
    - injection E' as <-. split; [intros []|reflexivity].
    - inversion ND as [|? ? Hx ND']; subst. cbn [foreach] in E'. destruct (f x) as [h|] eqn:Ef; [|discriminate]. cbn [bind] in E'.
      destruct (IH _ _ E' ND' i j) as [I1 I2]. unfold set2 in I1, I2. destruct x as [xi xj]. cbn [fst snd] in I1, I2.
      destruct (Z.eqb_spec i xi) as [->|Ni]; [destruct (Z.eqb_spec j xj) as [->|Nj]|]; cbn [andb] in I1, I2.
      + split; [|intros C; destruct C; now left]. intros _. exists h. split; [exact Ef|]. now apply I2.
      + split; [intros [C|C]; [congruence|now apply I1]|]. intros C. apply I2. intros C'. apply C. now right.
      + split; [intros [C|C]; [congruence|now apply I1]|]. intros C. apply I2. intros C'. apply C. now right. }
  intros i j Hi Hj. apply (X order a0 a1 E).
  - now apply (each_once_NoDup order n m).
  - now apply (perm_In_pairs order n m).
Qed.

(** * Kernels *)
Section Kernels.
Context (K : arith) (L : library (num K)) (LR : lib_reads L).
Notation N := (num K).

Lemma kgemm_agree m n k alpha (A A' B B' : Z -> Z -> N) acc C C' :
  agree2 m k A A' -> agree2 k n B B' -> (acc = true -> agree2 m n C C') ->
  agree2 m n (kgemm K L m n k alpha A B acc C) (kgemm K L m n k alpha A' B' acc C').
Proof.
  intros HA HB HC i j Hi Hj. unfold kgemm. rewrite !inb_in by easy. cbn [andb].
  apply (lr_entry L LR); auto.
  - intros p Hp. apply HA; auto.
  - intros p Hp. apply HB; auto.
  - intros E. apply HC; auto.
Qed.

Definition dim23 (dim : Z) : Prop := dim = 2 \/ dim = 3.
Lemma space_dim23 s : dim23 (space_dim s).
Proof. destruct s; [now left|now right]. Qed.

Ltac low i := first
  [ assert (i = 0 \/ i = 1) as [-> | ->] by lia
  | assert (i = 0 \/ i = 1 \/ i = 2) as [-> | [-> | ->]] by lia
  | assert (i = 0 \/ i = 1 \/ i = 2 \/ i = 3) as [-> | [-> | [-> | ->]]] by lia
  | assert (i = 0 \/ i = 1 \/ i = 2 \/ i = 3 \/ i = 4) as [-> | [-> | [-> | [-> | ->]]]] by lia ].

Lemma kdet_agree dim (M M' : Z -> Z -> N) : dim23 dim -> agree2 dim dim M M' -> kdet K dim M = kdet K dim M'.
Proof.
  intros [-> | ->] H; unfold kdet; cbn [Z.eqb Pos.eqb].
  - rewrite (H 0 0), (H 0 1), (H 1 0), (H 1 1) by lia. reflexivity.
  - rewrite (H 0 0), (H 0 1), (H 0 2), (H 1 0), (H 1 1), (H 1 2), (H 2 0), (H 2 1), (H 2 2) by lia. reflexivity.
Qed.

Lemma kinv_small dim (M M' I I' : Z -> Z -> N) : dim23 dim -> agree2 dim dim M M' -> agree2 dim dim (kinv K L dim M I) (kinv K L dim M' I').
Proof.
  intros D H. pose proof (kdet_agree dim M M' D H) as HD.
  destruct D as [-> | ->]; intros i j Hi Hj; unfold kinv; cbn [Z.eqb Pos.eqb]; rewrite HD.
  - rewrite (H 0 0), (H 0 1), (H 1 0), (H 1 1) by lia. low i; low j; reflexivity.
  - rewrite (H 0 0), (H 0 1), (H 0 2), (H 1 0), (H 1 1), (H 1 2), (H 2 0), (H 2 1), (H 2 2) by lia. low i; low j; reflexivity.
Qed.

Lemma kinv_agree n (M M' I I' : Z -> Z -> N) : agree2 n n M M' -> agree2 n n I I' -> agree2 n n (kinv K L n M I) (kinv K L n M' I').
Proof.
  intros H HI. destruct (Z.eq_dec n 1) as [->|N1].
  - intros i j Hi Hj. assert (i = 0) by lia. assert (j = 0) by lia. subst. unfold kinv. cbn. rewrite (H 0 0) by lia. reflexivity.
  - destruct (Z.eq_dec n 2) as [->|N2]; [apply kinv_small; [now left|exact H]|].
    destruct (Z.eq_dec n 3) as [->|N3]; [apply kinv_small; [now right|exact H]|].
    unfold kinv. rewrite (proj2 (Z.eqb_neq n 1) N1), (proj2 (Z.eqb_neq n 2) N2), (proj2 (Z.eqb_neq n 3) N3).
    apply (lr_solve L LR); [exact H|]. intros i j Hi Hj. unfold kidentity. rewrite !inb_in by easy. cbn [andb].
    destruct (i =? j); [reflexivity|now apply HI].
Qed.

(** ** Physics *)
Definition canon (n : Z) (U : Z -> N) : Z -> N := fun i => if inb n i then U i else f0 K.
Lemma canon_agree n U U' : agree n U U' -> canon n U = canon n U'.
Proof.
  intros H. apply FunctionalExtensionality.functional_extensionality. intros i. unfold canon.
  destruct (inb n i) eqn:E; [|reflexivity]. apply H. now apply inb_true.
Qed.

Lemma kpressure_canon dim g U : dim23 dim -> kpressure K dim g U = kpressure K dim g (canon (dim + 2) U).
Proof. intros [-> | ->]; reflexivity. Qed.
Lemma kwavespeed_canon dim g U : dim23 dim -> kwavespeed K dim g U = kwavespeed K dim g (canon (dim + 2) U).
Proof. intros [-> | ->]; reflexivity. Qed.

Lemma kconv_canon dim g U J J' : dim23 dim -> agree (dim * (dim + 2)) (kconv_flux K dim g U J) (kconv_flux K dim g (canon (dim + 2) U) J').
Proof.
  intros D i Hi. assert (X : forall (l : list N), i < zlen l -> klist K l J i = klist K l J' i).
  { intros l Hl. unfold klist. destruct (Z.ltb_spec i 0); [lia|]. apply nth_indep. unfold zlen in Hl. lia. }
  destruct D as [-> | ->]; unfold kconv_flux; cbn [Z.eqb Pos.eqb]; rewrite X by (cbn in *; lia); reflexivity.
Qed.

Lemma kconv_agree dim g U U' J J' : dim23 dim -> agree (dim + 2) U U' -> agree (dim * (dim + 2)) (kconv_flux K dim g U J) (kconv_flux K dim g U' J').
Proof.
  intros D H i Hi. rewrite (kconv_canon dim g U J J' D i Hi), (kconv_canon dim g U' J' J' D i Hi). now rewrite (canon_agree _ _ _ H).
Qed.

Definition same_res (n : Z) (r r' : res (Z -> N)) : Prop :=
  match r, r' with Ok F, Ok F' => agree n F F' | Fail e, Fail e' => e = e' | _, _ => False end.

Lemma klax_agree dim g UL UL' UR UR' Nn Nn' F0 F0' Q0 Q0' : dim23 dim -> agree (dim + 2) UL UL' -> agree (dim + 2) UR UR' -> agree dim Nn Nn' ->
  agree (dim + 2) (klaxfriedrichs K dim g UL UR Nn F0 Q0) (klaxfriedrichs K dim g UL' UR' Nn' F0' Q0').
Proof.
  intros D HL HR HN i Hi. unfold klaxfriedrichs. cbv zeta. rewrite inb_in by exact Hi.
  rewrite (kwavespeed_canon dim g UL), (kwavespeed_canon dim g UR), (kwavespeed_canon dim g UL'), (kwavespeed_canon dim g UR') by exact D.
  rewrite <- (canon_agree _ _ _ HL), <- (canon_agree _ _ _ HR), (HL i Hi), (HR i Hi).
  assert (E : zloop dim (fun d a => fadd K a (fmul K (Nn d) (Nn d))) (f0 K) = zloop dim (fun d a => fadd K a (fmul K (Nn' d) (Nn' d))) (f0 K)).
  { apply zloop_ext. intros d a Hd. now rewrite (HN d Hd). }
  rewrite <- E. set (nm := fsqrt K _).
  assert (X : forall U U' J J', agree (dim + 2) U U' ->
    zloop dim (fun d a => fadd K a (fmul K (kconv_flux K dim g U J (i + d * (dim + 2))) (fdiv K (Nn d) nm))) (f0 K) =
    zloop dim (fun d a => fadd K a (fmul K (kconv_flux K dim g U' J' (i + d * (dim + 2))) (fdiv K (Nn' d) nm))) (f0 K)).
  { intros U U' J J' HU. apply zloop_ext. intros d a Hd. rewrite (HN d Hd). rewrite (kconv_agree dim g U U' J J' D HU); [reflexivity|nia]. }
  rewrite (X UL UL' Q0 Q0' HL), (X UR UR' (kconv_flux K dim g UL Q0) (kconv_flux K dim g UL' Q0') HR). reflexivity.
Qed.

Lemma khllc_canon dim g UL UR Nn F0 : dim23 dim ->
  same_res (dim + 2) (khllc K dim g UL UR Nn F0) (khllc K dim g (canon (dim + 2) UL) (canon (dim + 2) UR) (canon dim Nn) (fun _ => f0 K)).
Proof.
  assert (A4 : forall F F' : Z -> N, F 0 = F' 0 -> F 1 = F' 1 -> F 2 = F' 2 -> F 3 = F' 3 -> agree 4 F F').
  { intros F F' ? ? ? ? i Hi. low i; assumption. }
  assert (A5 : forall F F' : Z -> N, F 0 = F' 0 -> F 1 = F' 1 -> F 2 = F' 2 -> F 3 = F' 3 -> F 4 = F' 4 -> agree 5 F F').
  { intros F F' ? ? ? ? ? i Hi. low i; assumption. }
  intros [-> | ->]; unfold khllc; cbv zeta.
  - repeat match goal with |- same_res _ (if ?c then _ else _) (if ?c' then _ else _) => change c' with c; destruct c end;
    [apply A4; reflexivity..|reflexivity].
  - repeat match goal with |- same_res _ (if ?c then _ else _) (if ?c' then _ else _) => change c' with c; destruct c end;
    [apply A5; reflexivity..|reflexivity].
Qed.

Lemma knumflux_agree ft dim g UL UL' UR UR' Nn Nn' F0 F0' Q0 Q0' : dim23 dim -> agree (dim + 2) UL UL' -> agree (dim + 2) UR UR' -> agree dim Nn Nn' ->
  same_res (dim + 2) (knumflux K ft dim g UL UR Nn F0 Q0) (knumflux K ft dim g UL' UR' Nn' F0' Q0').
Proof.
  intros D HL HR HN. destruct ft; cbn [knumflux].
  - cbn [same_res]. now apply klax_agree.
  - pose proof (khllc_canon dim g UL UR Nn F0 D) as H1. pose proof (khllc_canon dim g UL' UR' Nn' F0' D) as H2.
    rewrite <- (canon_agree _ _ _ HL), <- (canon_agree _ _ _ HR), <- (canon_agree _ _ _ HN) in H2.
    destruct (khllc K dim g UL UR Nn F0), (khllc K dim g UL' UR' Nn' F0'),
      (khllc K dim g (canon (dim + 2) UL) (canon (dim + 2) UR) (canon dim Nn) (fun _ => f0 K)); cbn [same_res] in *; try easy; try congruence.
    intros i Hi. rewrite H1, H2 by exact Hi. reflexivity.
Qed.
End Kernels.
