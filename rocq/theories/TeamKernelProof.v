(** TeamKernelProof.v -- every interleaving of a kernel of TeamKernels.v gives the
    result of the corresponding function of SolverModel.v. *)
From Coq Require Import ZArith List Lia Reals Lra Bool Permutation FunctionalExtensionality Classical.
From Verif Require Import Base RBase LinAlgModel LinAlgProof PhysModel ShapeModel MeshModel CommModel SolverModel SolverProof
  TeamModel TeamProof TeamKernels.
Import ListNotations.
Local Open Scope R_scope.
Open Scope res_scope.

(** ** Running the building blocks *)

Lemma run_pacc {S} n (stp : Z -> S -> (S -> prog) -> prog) (f : Z -> S -> S) a0 k m :
  (forall i a k, (0 <= i < n)%Z -> run (stp i a k) m = run (k (f i a)) m) ->
  run (pacc n stp a0 k) m = run (k (zloop n f a0)) m.
Proof.
  intros H. unfold pacc, zloop. assert (X : forall l a, (forall i, In i l -> (0 <= i < n)%Z) ->
    run (fold_right (fun i k a => stp i a k) k l a) m = run (k (fold_left (fun s i => f i s) l a)) m).
  { induction l as [|i l IH]; intros a Hl; cbn; [easy|]. rewrite H by (apply Hl; now left). apply IH. intros j Hj. apply Hl. now right. }
  apply X. intros i Hi. now apply In_zseq.
Qed.

Record operand_ok (o : operand) (F : loc -> Prop) (val : mem -> arr2) : Prop := {
  oo_run : forall i j k m, run (o i j k) m = run (k (val m i j)) m;
  oo_conf : forall W i j k, (forall v, confined W F (k v)) -> confined W F (o i j k)
}.
Lemma table_ok a F : operand_ok (table a) F (fun _ => a).
Proof. constructor; [reflexivity|]. intros W i j k H. apply H. Qed.
Lemma inmem_ok l (F : loc -> Prop) : (forall i j, F (l i j)) -> operand_ok (inmem l) F (fun m i j => m (l i j)).
Proof. intros H. constructor; [reflexivity|]. intros W i j k HK. cbn. auto. Qed.

Lemma gemm_dot_run k alpha At Bt C i j F vA vB m : operand_ok At F vA -> operand_ok Bt F vB ->
  run (gemm_dot k alpha At Bt C i j) m = store m (C i j) (m (C i j) + alpha * rsum k (fun p => vA m i p * vB m p j)).
Proof.
  intros HA HB. unfold gemm_dot.
  rewrite (run_pacc k _ (fun p c => c + vA m i p * vB m p j)).
  - cbn [run]. rewrite zloop_acc, Rplus_0_l. reflexivity.
  - intros p a k' _. rewrite (oo_run _ _ _ HA), (oo_run _ _ _ HB). reflexivity.
Qed.
Lemma gemm_dot_conf k alpha At Bt C i j F vA vB : operand_ok At F vA -> operand_ok Bt F vB ->
  confined (fun a => a = C i j) F (gemm_dot k alpha At Bt C i j).
Proof.
  intros HA HB. unfold gemm_dot. apply confined_pacc.
  - intros p a k' _ HK. apply (oo_conf _ _ _ HA). intros v. apply (oo_conf _ _ _ HB). intros w. apply HK.
  - intros a. cbn. auto.
Qed.

Lemma flat_pos m n ij : (0 <= n)%Z -> (0 <= ij < m * n)%Z -> (0 < n)%Z.
Proof. intros Hn H. assert (n <> 0)%Z by (intros ->; rewrite Z.mul_0_r in H; lia). lia. Qed.
Lemma flat_idx m n ij : (0 <= n)%Z -> (0 <= ij < m * n)%Z -> (0 <= ij / n < m)%Z /\ (0 <= ij mod n < n)%Z.
Proof.
  intros Hn H. pose proof (flat_pos m n ij Hn H). split; [|apply Z.mod_pos_bound; lia].
  split; [apply Z.div_pos; lia|]. apply Z.div_lt_upper_bound; lia.
Qed.
Lemma flat_of m n i j : (0 <= i < m)%Z -> (0 <= j < n)%Z ->
  (0 <= i * n + j < m * n)%Z /\ ((i * n + j) / n = i)%Z /\ ((i * n + j) mod n = j)%Z.
Proof.
  intros Hi Hj. split; [nia|]. split.
  - symmetry. apply (Z.div_unique _ n i j); lia.
  - symmetry. apply (Z.mod_unique _ n i j); lia.
Qed.
Lemma flat_inj n i j : (0 < n)%Z -> (i / n = j / n)%Z -> (i mod n = j mod n)%Z -> i = j.
Proof. intros Hn H1 H2. rewrite (Z.div_mod i n), (Z.div_mod j n) by lia. congruence. Qed.

(** An array assembled by one loop of disjoint iterations. *)
Lemma loop_effect (L : tloop) (W A : Z -> loc -> Prop) m :
  (forall i, (0 <= i < tl_n L)%Z -> confined (W i) (A i) (tl_body L i)) ->
  (forall i j a, (0 <= i < tl_n L)%Z -> (0 <= j < tl_n L)%Z -> i <> j -> W i a -> ~ (W j a \/ A j a)) ->
  (forall i a, (0 <= i < tl_n L)%Z -> W i a -> loop_run L m a = run (tl_body L i) m a) /\
  (forall a, (forall i, (0 <= i < tl_n L)%Z -> ~ W i a) -> loop_run L m a = m a).
Proof.
  intros HC HD. destruct (disjoint_run (zseq (tl_n L)) (tl_body L) W A m (NoDup_zseq _)) as [X Y].
  - intros i Hi. apply HC. now apply In_zseq.
  - intros i j a Hi Hj. apply HD; now apply In_zseq.
  - split.
    + intros i a Hi. apply X. now apply In_zseq.
    + intros a Ha. apply Y. intros i Hi. apply Ha. now apply In_zseq.
Qed.

(** ** The library product as a team kernel *)

Section Gemm.
Context (m n k : Z) (alpha : R) (At : Z -> operand) (tA : Z -> arr2) (vin vout : Z) (zero : bool) (own0 own1 : Z -> Z -> Z).
Context (Hn : (0 <= n)%Z) (HV : vin <> vout) (HA : forall e F, operand_ok (At e) F (fun _ => tA e)).

Definition gemm_k (e : Z) : list tloop :=
  (if zero then [gemm_set m n (at3 vout e) (own0 e)] else []) ++
  [gemm_add m n k alpha (At e) (inmem (at3 vin e)) (at3 vout e) (own1 e)].

Definition gW (e : Z) (ph : nat) (ij : Z) (a : loc) : Prop := a = at3 vout e (ij / n) (ij mod n).
Definition gA (e : Z) (ph : nat) (ij : Z) (a : loc) : Prop := exists p j, a = at3 vin e p j.

Lemma gemm_phase e ph L : nth_error (gemm_k e) ph = Some L ->
  L = gemm_set m n (at3 vout e) (own0 e) \/ L = gemm_add m n k alpha (At e) (inmem (at3 vin e)) (at3 vout e) (own1 e).
Proof.
  unfold gemm_k. destruct zero; cbn [app]; destruct ph as [|[|ph]]; cbn; intros E; try injection E as <-; auto; try discriminate.
  all: destruct ph; discriminate.
Qed.

Lemma in_ok e : operand_ok (inmem (at3 vin e)) (gA e 0 0) (fun μ => view3 vin μ e).
Proof. constructor; [reflexivity|]. intros W i j c HK. cbn. split; [right; exists i, j; reflexivity|auto]. Qed.

Lemma gemm_disjoint ne : disjoint_loops ne gemm_k gW gA.
Proof.
  assert (IX : forall e ph L ij, nth_error (gemm_k e) ph = Some L -> (0 <= ij < tl_n L)%Z -> (0 <= ij < m * n)%Z).
  { intros e ph L ij E H. destruct (gemm_phase e ph L E) as [->| ->]; exact H. }
  constructor.
  - intros e ph L ij He E Hi. destruct (gemm_phase e ph L E) as [->| ->].
    + cbn. unfold gW. auto.
    + cbn [tl_body gemm_add]. apply (gemm_dot_conf k alpha _ _ _ _ _ _ (fun _ => tA e) (fun μ => view3 vin μ e)); [apply HA|apply in_ok].
  - intros e ph L i j a He E Hi Hj Ne Hw [Hw'|(p & q & ->)]; unfold gW in *.
    + subst a. injection Hw' as E1 E2. apply Ne. apply (flat_inj n); auto. exact (flat_pos m n i Hn (IX e ph L i E Hi)).
    + injection Hw as -> _ _. easy.
  - intros e e' ph ph' L L' i j a He He' Ne E Hi E' Hj Hw [Hw'|(p & q & ->)]; unfold gW in *; subst.
    + injection Hw' as E1 E2 E3. easy.
    + injection Hw as -> _ _ _. easy.
Qed.

Lemma gemm_team e μ :
  view3 vout (team_run (gemm_k e) μ) =
    setrow (view3 vout μ) e (gemm m n k alpha (tA e) (view3 vin μ e) (if zero then 0 else 1) (view3 vout μ e)) /\
  (forall a, (forall i j l, a <> at3 vout i j l) -> team_run (gemm_k e) μ a = μ a).
Proof.
  set (LA := gemm_add m n k alpha (At e) (inmem (at3 vin e)) (at3 vout e) (own1 e)).
  set (LS := gemm_set m n (at3 vout e) (own0 e)).
  assert (ND : forall i j a, (0 <= i < m * n)%Z -> (0 <= j < m * n)%Z -> i <> j -> gW e 0 i a -> ~ (gW e 0 j a \/ gA e 0 0 a)).
  { intros i j a Hi Hj Ne Hw [Hw'|(p & q & ->)]; unfold gW in *; subst.
    - injection Hw' as E1 E2. apply Ne. apply (flat_inj n); auto. exact (flat_pos m n i Hn Hi).
    - injection Hw as -> _ _. easy. }
  assert (EA : forall μ, (forall i a, (0 <= i < m * n)%Z -> gW e 0 i a -> loop_run LA μ a = run (tl_body LA i) μ a) /\
     (forall a, (forall i, (0 <= i < m * n)%Z -> ~ gW e 0 i a) -> loop_run LA μ a = μ a)).
  { intros μ0. apply (loop_effect LA (gW e 0) (fun _ => gA e 0 0)); [|exact ND].
    intros i Hi. apply (gemm_dot_conf k alpha _ _ _ _ _ _ (fun _ => tA e) (fun μ => view3 vin μ e)); [apply HA|apply in_ok]. }
  assert (ES : (forall i a, (0 <= i < m * n)%Z -> gW e 0 i a -> loop_run LS μ a = run (tl_body LS i) μ a) /\
     (forall a, (forall i, (0 <= i < m * n)%Z -> ~ gW e 0 i a) -> loop_run LS μ a = μ a)).
  { apply (loop_effect LS (gW e 0) (fun _ => gA e 0 0)); [|exact ND]. intros i Hi. cbn. unfold gW. auto. }
  set (μ1 := if zero then loop_run LS μ else μ).
  assert (TR : team_run (gemm_k e) μ = loop_run LA μ1) by (unfold gemm_k, team_run, μ1; destruct zero; reflexivity).
  assert (M1 : forall i j l, μ1 (at3 vout i j l) = if ((i =? e)%Z && (inb m j && inb n l))%bool then (if zero then 0 else 1) * μ (at3 vout i j l) else μ (at3 vout i j l)).
  { intros i j l. unfold μ1. destruct zero.
    - destruct (Z.eqb_spec i e) as [->|Ne]; cbn [andb].
      + destruct (inb m j && inb n l)%bool eqn:B.
        * apply andb_true_iff in B. rewrite !inb_true in B. destruct B as [Bj Bl]. destruct (flat_of m n j l Bj Bl) as (F1 & F2 & F3).
          rewrite (proj1 ES (j * n + l)%Z) by (auto; unfold gW; now rewrite F2, F3). cbn [tl_body LS gemm_set run]. rewrite F2, F3, store_eq. ring.
        * apply (proj2 ES). intros q Hq Hw. unfold gW in Hw. injection Hw as -> ->. destruct (flat_idx m n q Hn Hq) as [X Y].
          apply inb_true in X, Y. rewrite X, Y in B. discriminate.
      + apply (proj2 ES). intros q Hq Hw. unfold gW in Hw. injection Hw as -> _ _. easy.
    - rewrite Rmult_1_l. now destruct (_ && _)%bool. }
  assert (M2 : forall a, (forall i j l, a <> at3 vout i j l) -> μ1 a = μ a).
  { intros a Ha. unfold μ1. destruct zero; [|easy]. apply (proj2 ES). intros q Hq Hw. exact (Ha _ _ _ Hw). }
  assert (VI : view3 vin μ1 = view3 vin μ).
  { apply functional_extensionality. intros i. apply functional_extensionality. intros j. apply functional_extensionality. intros l.
    apply M2. intros i' j' l' E. injection E as E _ _ _. easy. }
  split.
  - apply functional_extensionality. intros i. apply functional_extensionality. intros j. apply functional_extensionality. intros l.
    unfold view3 at 1. rewrite TR. unfold setrow. destruct (Z.eqb_spec i e) as [->|Ne].
    + rewrite gemm_entry. destruct (inb m j && inb n l)%bool eqn:B.
      * pose proof B as B'. apply andb_true_iff in B'. rewrite !inb_true in B'. destruct B' as [Bj Bl]. destruct (flat_of m n j l Bj Bl) as (F1 & F2 & F3).
        rewrite (proj1 (EA μ1) (j * n + l)%Z) by (auto; unfold gW; now rewrite F2, F3). cbn [tl_body LA gemm_add]. rewrite F2, F3.
        rewrite (gemm_dot_run _ _ _ _ _ _ _ (gA e 0 0) (fun _ => tA e) (fun μ => view3 vin μ e) μ1 (HA e _) (in_ok e)).
        rewrite store_eq, M1, Z.eqb_refl, B. cbn [andb]. rewrite VI. reflexivity.
      * rewrite (proj2 (EA μ1)).
        -- rewrite M1, Z.eqb_refl, B. reflexivity.
        -- intros q Hq Hw. unfold gW in Hw. injection Hw as -> ->. destruct (flat_idx m n q Hn Hq) as [X Y].
           apply inb_true in X, Y. rewrite X, Y in B. discriminate.
    + rewrite (proj2 (EA μ1)).
      * rewrite M1. destruct (Z.eqb_spec i e); [easy|]. reflexivity.
      * intros q Hq Hw. unfold gW in Hw. injection Hw as -> _ _. easy.
  - intros a Ha. rewrite TR, (proj2 (EA μ1)); [now apply M2|]. intros q Hq Hw. exact (Ha _ _ _ Hw).
Qed.

Lemma gemm_launch ne T order μ μ' : (0 < T)%Z -> assigned ne T gemm_k -> Permutation order (zseq ne) ->
  launch ne T (kernel gemm_k) μ μ' ->
  view3 vout μ' = ploop order (fun e C => setrow C e (gemm m n k alpha (tA e) (view3 vin μ e) (if zero then 0 else 1) (C e))) (view3 vout μ) /\
  (forall a, (forall i j l, a <> at3 vout i j l) -> μ' a = μ a).
Proof.
  intros HT AS PE LA. rewrite (launch_sequential ne T HT gemm_k AS gW gA (gemm_disjoint ne) order μ μ' PE LA).
  assert (X : forall l ν C, view3 vout ν = C -> (forall a, (forall i j l, a <> at3 vout i j l) -> ν a = μ a) ->
    view3 vout (ploop l (fun g μ => team_run (gemm_k g) μ) ν) =
      ploop l (fun e C => setrow C e (gemm m n k alpha (tA e) (view3 vin μ e) (if zero then 0 else 1) (C e))) C /\
    (forall a, (forall i j l, a <> at3 vout i j l) -> ploop l (fun g μ => team_run (gemm_k g) μ) ν a = μ a)).
  { unfold ploop. induction l as [|e l IH]; intros ν C HC HO; cbn [fold_left]; [easy|].
    destruct (gemm_team e ν) as [G1 G2]. apply IH.
    - rewrite G1, HC. f_equal. f_equal. apply functional_extensionality. intros i. apply functional_extensionality. intros j.
      unfold view3. apply HO. intros i' j' l' E. injection E as E _ _ _. easy.
    - intros a Ha. rewrite G2 by easy. auto. }
  apply X; auto.
Qed.
End Gemm.

(** ** The fluxes look only at the dim + 2 entries of a state *)

Section ExtU.
Context (dim : Z) (Hd : (dim = 2 \/ dim = 3)%Z).
Definition same_entries (U U' : arr1) : Prop := forall i, (0 <= i < dim + 2)%Z -> U i = U' i.

Lemma tail_dot_ext U U' (N : arr1) : same_entries U U' -> dot_inst dim (tail1 U) N = dot_inst dim (tail1 U') N.
Proof.
  intros H. unfold dot_inst, tail1. destruct Hd as [-> | ->]; cbn [Z.eqb Pos.eqb]; unfold dot2, dot3; rewrite !H by lia; reflexivity.
Qed.
Lemma tail_sq_ext U U' : same_entries U U' -> dot_inst dim (tail1 U) (tail1 U) = dot_inst dim (tail1 U') (tail1 U').
Proof.
  intros H. unfold dot_inst, tail1. destruct Hd as [-> | ->]; cbn [Z.eqb Pos.eqb]; unfold dot2, dot3; rewrite !H by lia; reflexivity.
Qed.
Lemma get_pressure_ext g U U' : same_entries U U' -> get_pressure dim g U = get_pressure dim g U'.
Proof.
  intros H. unfold get_pressure. cbv zeta. rewrite (tail_sq_ext U U' H), (H 0%Z), (H (dim + 1)%Z) by (destruct Hd; lia). reflexivity.
Qed.
Lemma get_maxwavespeed_ext g U U' : same_entries U U' -> get_maxwavespeed dim g U = get_maxwavespeed dim g U'.
Proof.
  intros H. unfold get_maxwavespeed. cbv zeta. rewrite (tail_sq_ext U U' H), (get_pressure_ext g U U' H), (H 0%Z) by (destruct Hd; lia). reflexivity.
Qed.
Lemma conv_flux_extU g U U' G : same_entries U U' -> conv_flux_interior dim g U G = conv_flux_interior dim g U' G.
Proof.
  intros H. unfold conv_flux_interior. destruct Hd as [E|E].
  - pose proof (get_pressure_ext g U U' H) as HP. rewrite E in *. cbn [Z.eqb Pos.eqb]. unfold conv_flux_interior2. cbv zeta.
    unfold same_entries in H. rewrite E in H. rewrite HP, (H 0%Z), (H 1%Z), (H 2%Z), (H 3%Z) by lia. reflexivity.
  - pose proof (get_pressure_ext g U U' H) as HP. rewrite E in *. cbn [Z.eqb Pos.eqb]. unfold conv_flux_interior3. cbv zeta.
    unfold same_entries in H. rewrite E in H. rewrite HP, (H 0%Z), (H 1%Z), (H 2%Z), (H 3%Z), (H 4%Z) by lia. reflexivity.
Qed.
Lemma hllc_outer_ext dj n U U' a b c F : same_entries U U' -> hllc_outer dim dj n U a b c F = hllc_outer dim dj n U' a b c F.
Proof.
  intros H. unfold hllc_outer. cbv zeta. rewrite (H (dim + 1)%Z) by (destruct Hd; lia). f_equal. apply zloop_ext. intros i G Hi.
  rewrite (H (1 + i)%Z) by lia. reflexivity.
Qed.
Lemma hllc_star_ext dj n U U' a b c d e F : same_entries U U' -> hllc_star dim dj n U a b c d e F = hllc_star dim dj n U' a b c d e F.
Proof.
  intros H. unfold hllc_star. cbv zeta. destruct (ckdiv (d - b) (d - e)) as [x|]; [|reflexivity]. cbn [bind].
  destruct (ckdiv c _) as [y|]; [|reflexivity]. cbn [bind].
  rewrite (H (dim + 1)%Z) by (destruct Hd; lia). f_equal. f_equal. apply zloop_ext. intros i G Hi.
  rewrite (H (1 + i)%Z) by lia. reflexivity.
Qed.
Lemma numflux_extU t g UL UL' UR UR' N F0 Fq0 : same_entries UL UL' -> same_entries UR UR' ->
  get_conv_flux_numerical t dim g UL UR N F0 Fq0 = get_conv_flux_numerical t dim g UL' UR' N F0 Fq0.
Proof.
  intros HL HR. destruct t; cbn [get_conv_flux_numerical].
  - unfold laxfriedrichs. cbv zeta. rewrite (get_maxwavespeed_ext g UL UL' HL), (get_maxwavespeed_ext g UR UR' HR), (conv_flux_extU g UL UL' Fq0 HL).
    destruct (cksqrt _) as [nm|]; [|reflexivity]. cbn [bind]. destruct (ckdiv 1 nm); [|reflexivity]. cbn [bind].
    destruct (conv_flux_interior dim g UL' Fq0) as [FL|]; [|reflexivity]. cbn [bind]. rewrite (conv_flux_extU g UR UR' FL HR).
    destruct (conv_flux_interior dim g UR' FL) as [FR|]; [|reflexivity]. cbn [bind].
    destruct (get_maxwavespeed dim g UL') as [aL|]; [|reflexivity]. cbn [bind].
    destruct (get_maxwavespeed dim g UR') as [aR|]; [|reflexivity]. cbn [bind]. f_equal. apply zloop_ext. intros i G Hi.
    rewrite (HL i), (HR i) by lia. reflexivity.
  - unfold hllc. cbv zeta.
    assert (Z0 : (0 <= 0 < dim + 2)%Z) by (destruct Hd; lia).
    rewrite (get_pressure_ext g UL UL' HL), (get_pressure_ext g UR UR' HR), (HL 0%Z Z0), (HR 0%Z Z0).
    destruct (cksqrt (dot_inst dim N N)) as [dj|]; [|reflexivity]. cbn [bind]. destruct (ckdiv 1 dj) as [dj1|]; [|reflexivity]. cbn [bind].
    rewrite (tail_dot_ext UL UL' _ HL), (tail_dot_ext UR UR' _ HR).
    repeat match goal with |- bind ?x _ = bind ?x _ => destruct x; [|reflexivity]; cbn [bind] end.
    rewrite (hllc_outer_ext _ _ UL UL' _ _ _ _ HL), (hllc_outer_ext _ _ UR UR' _ _ _ _ HR).
    rewrite (hllc_star_ext _ _ UL UL' _ _ _ _ _ _ HL), (hllc_star_ext _ _ UR UR' _ _ _ _ _ _ HR). reflexivity.
Qed.
End ExtU.
