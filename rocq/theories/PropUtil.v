(** PropUtil.v -- C45 sorted ranges, C46 file names, C47 options, C48 enumerations. *)
From Coq Require Import ZArith List Lia Bool String Ascii Decimal DecimalString DecimalN NArith Sorted.
From Verif Require Import Base MeshProof UtilModel.
Import ListNotations.
Local Open Scope Z_scope.

(** ** C45 *)
Theorem C45_common_element :
  forall l1 l2, Sorted Z.le l1 -> Sorted Z.le l2 -> (common l1 l2 = true <-> exists x, In x l1 /\ In x l2).
Proof.
  enough (X : forall fuel l1 l2, (List.length l1 + List.length l2 <= fuel)%nat -> Sorted Z.le l1 -> Sorted Z.le l2 ->
    (have_common_element fuel l1 l2 = true <-> exists x, In x l1 /\ In x l2)) by (intros; apply X; auto).
  induction fuel as [|fuel IH]; intros l1 l2 L S1 S2.
  - destruct l1; [|cbn in L; lia]. cbn. split; [discriminate|]. intros (x & [] & _).
  - destruct l1 as [|a r1], l2 as [|b r2]; cbn [have_common_element];
      try (split; [discriminate|]; intros (x & H1 & H2); contradiction).
    cbn [List.length] in L.
    assert (G1 : forall x, In x r1 -> a <= x).
    { apply Sorted_StronglySorted in S1; [|intros x y z; lia]. inversion S1 as [|? ? _ F]. now rewrite Forall_forall in F. }
    assert (G2 : forall x, In x r2 -> b <= x).
    { apply Sorted_StronglySorted in S2; [|intros x y z; lia]. inversion S2 as [|? ? _ F]. now rewrite Forall_forall in F. }
    destruct (Z.ltb_spec a b).
    + rewrite IH; [|cbn [List.length]; lia|now inversion S1|exact S2].
      split; intros (x & H1 & H2); exists x; [split; [now right|exact H2]|].
      split; [|exact H2]. destruct H1 as [<-|H1]; [|exact H1]. exfalso.
      destruct H2 as [->|H2]; [lia|]. specialize (G2 _ H2). lia.
    + destruct (Z.ltb_spec b a).
      * rewrite IH; [|cbn [List.length]; lia|exact S1|now inversion S2].
        split; intros (x & H1 & H2); exists x; [split; [exact H1|now right]|].
        split; [exact H1|]. destruct H2 as [<-|H2]; [|exact H2]. exfalso.
        destruct H1 as [->|H1]; [lia|]. specialize (G1 _ H1). lia.
      * split; [|reflexivity]. intros _. exists a. replace b with a by lia. split; now left.
Qed.
Print Assumptions C45_common_element.
Example C45_demo : Sorted Z.le [1; 4; 9] /\ Sorted Z.le [2; 4; 4; 10] /\ common [1; 4; 9] [2; 4; 4; 10] = true /\ common [1; 5] [2; 4] = false.
Proof. repeat split; try reflexivity; repeat constructor; lia. Qed.

(** ** C46 *)
Local Open Scope string_scope.

Lemma app_inv_head s a b : s ++ a = s ++ b -> a = b.
Proof. induction s as [|c s IH]; cbn; [auto|]. intros H. injection H. exact IH. Qed.
Lemma length_app a b : String.length (a ++ b) = (String.length a + String.length b)%nat.
Proof. induction a; cbn; auto. Qed.
Lemma app_inv_tail s a b : a ++ s = b ++ s -> a = b.
Proof.
  revert b. induction a as [|c a IH]; intros [|d b] H; cbn in H.
  - reflexivity.
  - exfalso. apply (f_equal String.length) in H. cbn in H. rewrite length_app in H. lia.
  - exfalso. apply (f_equal String.length) in H. cbn in H. rewrite length_app in H. lia.
  - injection H as -> H. f_equal. now apply IH.
Qed.
(** [c] does not occur in s. *)
Fixpoint free (c : ascii) (s : string) : Prop := match s with "" => True | String d r => d <> c /\ free c r end.
Lemma split_at c a b x y : free c a -> free c b -> a ++ String c x = b ++ String c y -> a = b /\ x = y.
Proof.
  revert b. induction a as [|d a IH]; intros [|e b] Fa Fb H; cbn in *.
  - injection H as ->. auto.
  - injection H as <- _. now destruct Fb.
  - injection H as -> _. now destruct Fa.
  - injection H as -> H. destruct (IH b (proj2 Fa) (proj2 Fb) H) as [-> ->]. auto.
Qed.
Lemma free_app c a b : free c a -> free c b -> free c (a ++ b).
Proof. induction a; cbn; tauto. Qed.

(** Digits only. *)
Lemma uint_free c d : c <> "0"%char -> c <> "1"%char -> c <> "2"%char -> c <> "3"%char -> c <> "4"%char -> c <> "5"%char ->
  c <> "6"%char -> c <> "7"%char -> c <> "8"%char -> c <> "9"%char -> free c (NilEmpty.string_of_uint d).
Proof. intros. induction d; cbn; auto 20. Qed.
Lemma uint_free0 c d : c <> "0"%char -> c <> "1"%char -> c <> "2"%char -> c <> "3"%char -> c <> "4"%char -> c <> "5"%char ->
  c <> "6"%char -> c <> "7"%char -> c <> "8"%char -> c <> "9"%char -> free c (NilZero.string_of_uint d).
Proof. intros. unfold NilZero.string_of_uint. destruct d; try (apply uint_free; assumption). cbn. auto. Qed.

Fixpoint lead (k : nat) (d : uint) : uint := match k with O => d | S k => D0 (lead k d) end.
Lemma zeros_lead k d : zeros k ++ NilEmpty.string_of_uint d = NilEmpty.string_of_uint (lead k d).
Proof. induction k as [|k IH]; [reflexivity|]. cbn [zeros lead NilEmpty.string_of_uint append]. f_equal. exact IH. Qed.
Lemma lead_value k d : N.of_uint (lead k d) = N.of_uint d.
Proof. induction k; [reflexivity|]. cbn [lead]. exact IHk. Qed.
Lemma to_uint_nonnil n : N.to_uint n <> Nil.
Proof. intros E. destruct n as [|p]; [discriminate|]. apply (f_equal N.of_uint) in E. rewrite Unsigned.of_to in E. discriminate. Qed.
Lemma nilzero_nilempty n : NilZero.string_of_uint (N.to_uint n) = NilEmpty.string_of_uint (N.to_uint n).
Proof. unfold NilZero.string_of_uint. pose proof (to_uint_nonnil n). destruct (N.to_uint n); congruence. Qed.

Lemma digits_inj k1 k2 n1 n2 :
  zeros k1 ++ NilZero.string_of_uint (N.to_uint n1) = zeros k2 ++ NilZero.string_of_uint (N.to_uint n2) -> n1 = n2.
Proof.
  rewrite !nilzero_nilempty, !zeros_lead. intros H.
  apply (f_equal NilEmpty.uint_of_string) in H. rewrite !NilEmpty.usu in H. injection H as H.
  apply (f_equal N.of_uint) in H. rewrite !lead_value, !Unsigned.of_to in H. exact H.
Qed.

Lemma zeros_free c k : c <> "0"%char -> free c (zeros k).
Proof. intros H. induction k; cbn; auto. Qed.
Lemma minus_free n : free "-"%char (NilZero.string_of_uint (N.to_uint n)).
Proof. apply uint_free0; discriminate. Qed.

Lemma nonneg_dec n : 0 <= n -> dec n = NilZero.string_of_uint (N.to_uint (Z.to_N n)).
Proof. intros H. destruct n; try reflexivity. lia. Qed.
Lemma neg_dec n : n < 0 -> dec n = String "-" (NilZero.string_of_uint (N.to_uint (Z.to_N (- n)))).
Proof. intros H. destruct n; try lia. reflexivity. Qed.

Lemma not_free c a b : ~ free c (a ++ String c b).
Proof. induction a; cbn; tauto. Qed.

Lemma pad_inj w n1 n2 : pad w (dec n1) = pad w (dec n2) -> n1 = n2.
Proof.
  unfold pad. destruct (Z_lt_le_dec n1 0) as [H1|H1], (Z_lt_le_dec n2 0) as [H2|H2].
  - rewrite (neg_dec n1), (neg_dec n2) by assumption. intros H.
    apply split_at in H; [|apply zeros_free; discriminate|apply zeros_free; discriminate].
    destruct H as [_ H]. apply (digits_inj 0 0) in H. lia.
  - rewrite (neg_dec n1), (nonneg_dec n2) by assumption. intros H. exfalso.
    eapply not_free. rewrite H. apply free_app; [apply zeros_free; discriminate|apply minus_free].
  - rewrite (neg_dec n2), (nonneg_dec n1) by assumption. intros H. exfalso. symmetry in H.
    eapply not_free. rewrite H. apply free_app; [apply zeros_free; discriminate|apply minus_free].
  - rewrite (nonneg_dec n1), (nonneg_dec n2) by assumption. intros H. apply digits_inj in H. lia.
Qed.

Lemma pad_free w n : 0 <= n -> free "_"%char (pad w (dec n)).
Proof.
  intros H. rewrite nonneg_dec by exact H. apply free_app; [apply zeros_free; discriminate|apply uint_free0; discriminate].
Qed.

Theorem C46_file_names_distinct :
  forall prefix suffix iter iter' srID srID',
  (get_fname_with_iter prefix suffix iter = get_fname_with_iter prefix suffix iter' -> iter = iter') /\
  (0 <= iter -> 0 <= iter' ->
   get_fname_with_iter_srID prefix suffix iter srID = get_fname_with_iter_srID prefix suffix iter' srID' -> iter = iter' /\ srID = srID').
Proof.
  intros prefix suffix i i' s s'. split.
  - unfold get_fname_with_iter. intros H. apply app_inv_head, app_inv_head, app_inv_tail in H. now apply pad_inj in H.
  - intros Hi Hi' H. unfold get_fname_with_iter_srID in H. apply app_inv_head, app_inv_head in H.
    apply (split_at "_"%char) in H; [|now apply pad_free|now apply pad_free].
    destruct H as [H1 H2]. apply app_inv_tail in H2. split; [now apply pad_inj in H1|now apply pad_inj in H2].
Qed.
Print Assumptions C46_file_names_distinct.
Example C46_demo : get_fname_with_iter_srID "out/sol" ".h5" 42 7 = "out/sol_00000042_007.h5" /\
  get_fname_with_iter "a" ".h5" 123456789 = "a_123456789.h5".
Proof. split; reflexivity. Qed.

(** ** C47 *)
Theorem C47_options :
  forall argv opt,
  (exist_option argv opt = true <-> In opt argv) /\
  (forall v, get_option argv opt = Some v <-> exists a b, argv = (a ++ opt :: v :: b)%list /\ ~ In opt a) /\
  (get_option argv opt = None <-> ~ In opt argv \/ exists a, argv = (a ++ [opt])%list /\ ~ In opt a).
Proof.
  intros argv opt. split; [|split].
  - induction argv as [|a r IH]; cbn; [split; [discriminate|tauto]|].
    destruct (String.eqb_spec a opt); [tauto|]. rewrite IH. tauto.
  - intros v. induction argv as [|a r IH]; cbn.
    + split; [discriminate|]. intros ([|x a] & b & H & _); discriminate H.
    + destruct (String.eqb_spec a opt) as [->|N].
      * split.
        -- intros H. destruct r as [|w r]; [discriminate|]. injection H as ->. exists [], r. auto.
        -- intros ([|x c] & b & H & F); cbn in H; [now injection H as ->|]. exfalso. injection H as -> _. apply F. now left.
      * rewrite IH. split.
        -- intros (c & b & -> & F). exists (a :: c), b. split; [reflexivity|]. intros [E|E]; [contradiction|auto].
        -- intros ([|x c] & b & H & F); cbn in H; [injection H as E _; contradiction|]. injection H as -> ->. exists c, b.
           split; [reflexivity|]. intros E. apply F. now right.
  - induction argv as [|a r IH]; cbn; [tauto|].
    destruct (String.eqb_spec a opt) as [->|N].
    + destruct r as [|w r].
      * split; [intros _; right; now exists []|auto].
      * split; [discriminate|]. intros [F|([|x c] & H & F)]; [exfalso; apply F; now left|discriminate H|].
        injection H as -> _. exfalso. apply F. now left.
    + rewrite IH. split.
      * intros [F|(c & -> & F)]; [left; tauto|]. right. exists (a :: c). split; [reflexivity|]. intros [E|E]; auto.
      * intros [F|([|x c] & H & F)]; [left; tauto|injection H as E _; contradiction|]. injection H as -> ->. right. exists c.
        split; [reflexivity|]. intros E. apply F. now right.
Qed.
Print Assumptions C47_options.

(** The name of the input file, unless "-input" is the last argument. *)
Theorem C47_input_file_partial :
  forall argv,
  (~ In "-input" argv -> input_file_name argv = Ok "input.toml") /\
  (forall a f b, argv = (a ++ "-input" :: f :: b)%list -> ~ In "-input" a -> input_file_name argv = Ok f).
Proof.
  intros argv. destruct (C47_options argv "-input") as (E & G & _). unfold input_file_name. split.
  - intros N. destruct (exist_option argv "-input") eqn:X; [|reflexivity]. exfalso. apply N. now apply E.
  - intros a f b -> N. rewrite (proj2 E) by (apply in_or_app; right; now left).
    rewrite (proj2 (G f)); [reflexivity|]. now exists a, b.
Qed.
Print Assumptions C47_input_file_partial.
Theorem C47_missing_value_refuted :
  forall a, ~ In "-input" a -> input_file_name (a ++ ["-input"])%list = Fail NullDeref.
Proof.
  intros a N. destruct (C47_options (a ++ ["-input"])%list "-input") as (E & _ & G). unfold input_file_name.
  rewrite (proj2 E) by (apply in_or_app; right; now left). rewrite (proj2 G); [reflexivity|]. right. now exists a.
Qed.
Print Assumptions C47_missing_value_refuted.

(** ** C48 *)
Lemma find_index_spec l s i : NoDup l ->
  (forall k, 0 <= k -> nth_error l (Z.to_nat k) = Some s -> find_index l s i = Ok (i + k)) /\
  (~ In s l -> find_index l s i = Fail Thrown).
Proof.
  revert i. induction l as [|a r IH]; intros i ND; cbn [find_index].
  - split; [|reflexivity]. intros k Hk H. destruct (Z.to_nat k); discriminate H.
  - inversion ND as [|? ? N1 N2]. subst. destruct (IH (i + 1) N2) as [I1 I2]. split.
    + intros k Hk H. destruct (Z.eq_dec k 0) as [->|Hk0].
      * cbn in H. injection H as ->. rewrite String.eqb_refl. f_equal. lia.
      * replace (Z.to_nat k) with (S (Z.to_nat (k - 1))) in H by lia. cbn [nth_error] in H.
        destruct (String.eqb_spec a s) as [->|N]; [exfalso; apply N1; eapply nth_error_In; exact H|].
        rewrite (I1 (k - 1)) by (lia || assumption). f_equal. lia.
    + intros N. destruct (String.eqb_spec a s) as [->|N']; [exfalso; apply N; now left|]. apply I2. intros E. apply N. now right.
Qed.

Theorem C48_enum_round_trip :
  forall e, In e enums ->
  List.length (e_values e) = List.length (e_names e) /\
  (forall v, 0 <= v < zlen (e_values e) -> exists name, enum_to_string e v = Ok name /\ enum_from_string e name = Ok v) /\
  (forall v v' name, enum_to_string e v = Ok name -> enum_to_string e v' = Ok name -> v = v') /\
  (forall s, ~ In s (e_names e) -> enum_from_string e s = Fail Thrown) /\
  (* the name is the enumerator's own spelling, except for the steppers' "FE" and "RK4" *)
  (e <> e_StepperType -> e_names e = e_values e) /\
  (e = e_StepperType -> forall v, (enum_to_string e v = Ok "FE" <-> rd (e_values e) v = Ok "ForwardEuler") /\
                                  (enum_to_string e v = Ok "RK4" <-> rd (e_values e) v = Ok "RungeKutta4")).
Proof.
  intros e He.
  assert (X : List.length (e_values e) = List.length (e_names e) /\ NoDup (e_names e) /\ (e <> e_StepperType -> e_names e = e_values e)).
  { cbn in He. repeat (destruct He as [<-|He]; [split; [reflexivity|split; [repeat (constructor; [cbn; intuition discriminate|]); constructor|]; intros N; try reflexivity; now destruct N]|]).
    contradiction. }
  destruct X as (L & ND & SP). split; [exact L|]. split; [|split; [|split; [|split; [exact SP|]]]].
  - intros v Hv. unfold zlen in Hv. rewrite L in Hv. unfold enum_to_string, enum_from_string.
    destruct (rd (e_names e) v) as [name|] eqn:E.
    + exists name. split; [reflexivity|]. destruct (find_index_spec (e_names e) name 0 ND) as [F _].
      rewrite (F v); [reflexivity|lia|]. now apply rd_Ok in E.
    + destruct (rd_total (e_names e) v) as [a Ea]; [unfold zlen; lia|congruence].
  - intros v v' name H H'. unfold enum_to_string in *. apply rd_Ok in H, H'. destruct H as [H1 H2], H' as [H3 H4].
    rewrite NoDup_nth_error in ND. assert (Z.to_nat v = Z.to_nat v'); [|lia].
    apply ND; [apply nth_error_Some; congruence|congruence].
  - intros s N. now apply (find_index_spec (e_names e) s 0 ND).
  - intros -> v. unfold enum_to_string, rd. cbn [e_names e_values e_StepperType].
    destruct (Z.ltb v 0); [split; split; discriminate|].
    destruct (Z.to_nat v) as [|[|k]]; cbn [nth_error]; [| |destruct k; cbn [nth_error]]; split; split; intros H; (reflexivity || discriminate H).
Qed.
Print Assumptions C48_enum_round_trip.
Example C48_demo : In e_BasisType enums /\ enum_from_string e_BasisType "LegendreHex" = Ok 5 /\ enum_from_string e_StepperType "ForwardEuler" = Fail Thrown.
Proof. split; [cbn; tauto|split; reflexivity]. Qed.
