(** PropProgram.v -- C84: the solver executable from input and mesh file to the
    solution file; C85: what its start-up accepts. *)
From Coq Require Import ZArith List Lia Reals Lra String Permutation.
From Flocq Require Import BinarySingleNaN.
From Verif Require Import Base RBase MeshModel MeshSpec MeshProof PropMesh ReadModel PropRead PropCtor UtilModel TimeModel ProgramModel.
From Verif Require SizeModel.
From Verif Require Import BasisModel PhysModel DGSpec.
Import ListNotations.
Local Open Scope Z_scope.
Local Open Scope string_scope.
Open Scope res_scope.

(** * What an input file asks for *)
Definition basis_name (b : basis_type) : string :=
  match b with LagrangeSeg => "LagrangeSeg" | LagrangeQuad => "LagrangeQuad" | LagrangeHex => "LagrangeHex"
  | LegendreSeg => "LegendreSeg" | LegendreQuad => "LegendreQuad" | LegendreHex => "LegendreHex" end.
Definition flux_name (f : flux_type) : string := match f with LaxFriedrichs => "LaxFriedrichs" | HLLC => "HLLC" end.
Definition ic_name (i : ic_type) : string :=
  match i with Uniform => "Uniform" | Gaussian => "Gaussian" | Sphere => "Sphere" | IsentropicVortex => "IsentropicVortex" end.
Definition stepper_name (s : stepper) : string := match s with ForwardEuler => "FE" | RungeKutta4 => "RK4" end.
Definition physics_name (p : physics_type) : string := match p with Euler => "Euler" | NavierStokes => "NavierStokes" end.

(** The value of an entry that has a default. *)
Definition entry {B} (o : option B) (default v : B) : Prop := o = Some v \/ (o = None /\ v = default).

(** [cfg] is the configuration that input file [inp] describes. *)
Record asks_for (inp : input) (cfg : config) : Prop := {
  af_dim : in_dim inp = Some (cf_dim cfg);
  af_order : in_order inp = Some (cf_order cfg);
  af_basis : in_basis inp = Some (basis_name (cf_basis cfg));
  af_ic : in_ic inp = Some (ic_name (cf_ic cfg));
  af_physics : in_phys inp = Some (physics_name (cf_physics cfg));
  af_flux : entry (in_flux inp) "LaxFriedrichs" (flux_name (cf_flux cfg));
  af_stepper : entry (in_stepper inp) "FE" (stepper_name (cf_stepper cfg));
  af_dt : in_dt inp = Some (cf_dt cfg);
  af_end : in_end inp = Some (cf_end cfg);
  af_data : exists data, in_ic_data inp = Some data /\ ph_IC (cf_phys cfg) = (fun k => match rd data k with Ok v => v | Fail _ => 0%R end);
  af_gas : cf_physics cfg = Euler ->
    entry (in_gamma inp) 1.4%R (ph_gamma (cf_phys cfg)) /\ entry (in_gas inp) 287.05%R (ph_R (cf_phys cfg))
}.

(** The boundary names an input file lists. *)
Definition boundary_names (inp : input) : list string := match in_boundaries inp with Some l => l | None => [] end.
(** A quadrature name that is known, or none. *)
Definition quadrature_known (inp : input) : Prop := forall q, in_quad inp = Some q ->
  In q ["GaussLegendre"; "GaussLobatto"; "TriangleDunavant"; "TriangleGaussLegendre"].

Lemma find_Ok {B} (o : option B) v : find o = Ok v <-> o = Some v.
Proof. destruct o; cbn; split; congruence. Qed.
Lemma find_or_entry {B} (o : option B) d v : find_or o d = v <-> entry o d v.
Proof.
  unfold entry. destruct o as [a|]; cbn; split.
  - intros ->; now left.
  - intros [H|[H _]]; congruence.
  - intros <-; auto.
  - intros [H|[_ H]]; congruence.
Qed.

Lemma find_index_In l s i k : find_index l s i = Ok k -> In s l.
Proof. revert i. induction l as [|a l IH]; intros i; cbn; [discriminate|]. destruct (String.eqb_spec a s) as [->|]; [now left|]. intros H; right; eauto. Qed.
Lemma find_index_total l s i : In s l -> exists k, find_index l s i = Ok k.
Proof. revert i. induction l as [|a l IH]; intros i; cbn; [tauto|]. destruct (String.eqb_spec a s) as [->|N]; [eauto|]. intros [H|H]; [congruence|auto]. Qed.

(** The four parsers return exactly the enumerator of the name. *)
Ltac crack := unfold parse, enum_from_string; cbn [e_names e_NumericalFluxType e_StepperType e_PhysicsType e_ICType e_BasisType find_index bind];
  repeat match goal with |- context [String.eqb ?a ?b] => destruct (String.eqb_spec a b); [subst|] end; cbn.
Lemma parse_flux s v : parse e_NumericalFluxType flux_types s = Ok v <-> s = flux_name v.
Proof.
  split.
  - crack; intros H; try discriminate H; inversion H; subst; reflexivity.
  - intros ->. destruct v; reflexivity.
Qed.
Lemma parse_stepper s v : parse e_StepperType stepper_types s = Ok v <-> s = stepper_name v.
Proof.
  split.
  - crack; intros H; try discriminate H; inversion H; subst; reflexivity.
  - intros ->. destruct v; reflexivity.
Qed.
Lemma parse_physics s v : parse e_PhysicsType physics_types s = Ok v <-> s = physics_name v.
Proof.
  split.
  - crack; intros H; try discriminate H; inversion H; subst; reflexivity.
  - intros ->. destruct v; reflexivity.
Qed.
Lemma parse_ic s v : parse e_ICType ic_types s = Ok v <-> s = ic_name v.
Proof.
  split.
  - crack; intros H; try discriminate H; inversion H; subst; reflexivity.
  - intros ->. destruct v; reflexivity.
Qed.
Lemma parse_basis s t v : parse e_BasisType basis_types s = Ok t -> basis_object t = Ok v -> s = basis_name v.
Proof.
  crack; intros H; try discriminate H; inversion H; subst; cbn; intros H'; try discriminate H'; inversion H'; subst; reflexivity.
Qed.
Lemma parse_basis_name v : exists t, parse e_BasisType basis_types (basis_name v) = Ok t /\ basis_object t = Ok v.
Proof. destruct v; cbn; eexists; split; reflexivity. Qed.

Lemma bind_inv {A B} (r : res A) (f : A -> res B) b : (x <- r ;; f x) = Ok b -> exists a, r = Ok a /\ f a = Ok b.
Proof. destruct r; cbn; [eauto|discriminate]. Qed.

(** ** C85: what the start-up accepts *)

(** On every rank: the start-up succeeds with configuration [cfg] and mesh part
    [pm] exactly if every required entry of the input file is present, every name
    is known, the mesh file can be opened and the mesh constructor succeeds (C76);
    and [cfg] is what the input file says. *)
Theorem C85_startup : forall inputs meshes argv iter metis junk n r cfg md pm,
  main_start inputs meshes argv iter metis junk n r = Ok (Some (cfg, md, pm)) <->
  exists name inp mname mf,
    input_file_name argv = Ok name /\ inputs name = Some inp /\ asks_for inp cfg /\
    (cf_dim cfg = 2 \/ cf_dim cfg = 3) /\ cf_basis cfg <> LegendreSeg /\ quadrature_known inp /\
    (cf_physics cfg = NavierStokes -> (ph_gamma (cf_phys cfg), ph_R (cf_phys cfg)) = junk) /\
    in_mesh inp = Some mname /\ meshes mname = Some mf /\
    mesh_ctor 0%R iter metis (in_top_npart inp) (in_npart inp) (boundary_names inp) mf n r = Ok (md, pm).
Proof.
  intros inputs meshes argv iter metis junk n r cfg md pm. split.
  - unfold main_start. intros H. apply bind_inv in H as (name & EN & H). apply bind_inv in H as (inp & EI & H). apply find_Ok in EI.
    apply bind_inv in H as (dim & ED & H). apply find_Ok in ED.
    assert (K : (dim = 2 \/ dim = 3) /\ run_solver_start meshes inp dim iter metis junk n r = Ok (cfg, md, pm)).
    { destruct (Z.eqb_spec dim 2) as [->|]; [|destruct (Z.eqb_spec dim 3) as [->|]; [|discriminate H]]; apply bind_inv in H as (x & E & H); injection H as ->; auto. }
    clear H. destruct K as (D23 & H). unfold run_solver_start in H. apply bind_inv in H as ((basis & np) & E1 & H).
    apply bind_inv in H as (sh & E2 & H). apply bind_inv in H as ((md' & pm') & E3 & H). apply bind_inv in H as (d' & _ & H). apply bind_inv in H as (cfg' & E5 & H).
    injection H as -> -> ->.
    unfold numerics_params in E1. apply bind_inv in E1 as (order & O1 & E1). apply find_Ok in O1. apply bind_inv in E1 as (bname & B1 & E1). apply find_Ok in B1.
    apply bind_inv in E1 as (bt & PB & E1). apply bind_inv in E1 as (np' & N1 & E1). apply bind_inv in E1 as (q & Q1 & E1). injection E1 as -> ->.
    unfold open_mesh in E3. apply bind_inv in E3 as (mname & M1 & E3). apply find_Ok in M1. apply bind_inv in E3 as (mf & M2 & E3). apply find_Ok in M2.
    unfold solver_ctor in E5. apply bind_inv in E5 as (icn & I1 & E5). apply find_Ok in I1. apply bind_inv in E5 as (order' & O2 & E5). apply find_Ok in O2.
    apply bind_inv in E5 as (bo & BO & E5). apply bind_inv in E5 as (ph & P1 & E5). apply find_Ok in P1. apply bind_inv in E5 as (phy & P2 & E5). apply parse_physics in P2.
    apply bind_inv in E5 as (fl & F1 & E5). apply parse_flux, find_or_entry in F1. apply bind_inv in E5 as (ic & I2 & E5). apply parse_ic in I2.
    destruct (physical_params phy inp junk) as (gamma & gas) eqn:PP. cbv beta iota in E5.
    apply bind_inv in E5 as (st & S1 & E5). apply parse_stepper, find_or_entry in S1. apply bind_inv in E5 as (dt & T1 & E5). apply find_Ok in T1.
    apply bind_inv in E5 as (te & T2 & E5). apply find_Ok in T2. apply bind_inv in E5 as (data & D1 & E5). apply find_Ok in D1. injection E5 as <-.
    exists name, inp, mname, mf. split; [exact EN|]. split; [exact EI|]. split.
    { constructor; cbn [cf_dim cf_basis cf_order cf_ic cf_physics cf_flux cf_phys cf_stepper cf_dt cf_end ph_IC ph_gamma ph_R]; try assumption; try congruence.
      - rewrite B1. f_equal. exact (parse_basis _ _ _ PB BO).
      - exists data. auto.
      - intros ->. cbn in PP. injection PP as E1 E2'. split; now apply find_or_entry. }
    cbn [cf_dim cf_basis cf_physics cf_phys ph_gamma ph_R]. split; [exact D23|]. split.
    { intros ->. destruct basis; try discriminate BO. discriminate N1. }
    split. { intros s Hs. rewrite Hs in Q1. cbn [find_or] in Q1. apply find_index_In in Q1. exact Q1. }
    split. { intros ->. cbn in PP. congruence. }
    split; [exact M1|]. split; [exact M2|exact E3].
  - intros (name & inp & mname & mf & EN & EI & [A1 A2 A3 A4 A5 A6 A7 A8 A9 (data & A10 & A11) A12] & D23 & NL & QK & NS & M1 & M2 & MC).
    destruct cfg as [dim bt order ic phy fl ph st dt te]. destruct ph as [gamma gas IC].
    cbn [cf_dim cf_basis cf_order cf_ic cf_physics cf_flux cf_phys cf_stepper cf_dt cf_end ph_IC ph_gamma ph_R] in *. subst IC.
    assert (RS : run_solver_start meshes inp dim iter metis junk n r = Ok (mkConfig dim bt order ic phy fl (Build_phys gamma gas (fun k => match rd data k with Ok v => v | Fail _ => 0%R end)) st dt te, md, pm)).
    { destruct (parse_basis_name bt) as (t & PB & BO).
      assert (QE : exists q, enum_from_string e_QuadratureType (find_or (in_quad inp) (match t with SizeModel.TriangleLagrange => "TriangleDunavant" | _ => "GaussLegendre" end)) = Ok q).
      { apply find_index_total. destruct (in_quad inp) as [s|] eqn:EQ; [exact (QK s EQ)|]. cbn [find_or]. destruct t; cbn; auto. }
      destruct QE as (q & QE).
      assert (NP : exists np, SizeModel.NumericsParams t order 1 = Ok np /\ exists sh, SizeModel.basis_shape (SizeModel.np_gbasis np) = Ok sh).
      { destruct bt; try (now contradiction NL); destruct t; try discriminate BO; cbn; do 2 eexists; auto; eexists; reflexivity. }
      destruct NP as (np & NP & sh & SH).
      unfold run_solver_start, numerics_params. rewrite A2. cbn [find bind]. rewrite A3. cbn [find bind]. rewrite PB. cbn [bind]. rewrite NP. cbn [bind]. rewrite QE. cbn [bind]. rewrite SH. cbn [bind].
      unfold open_mesh. rewrite M1. cbn [find bind]. rewrite M2. cbn [find bind].
      change (find_or (in_boundaries inp) []) with (boundary_names inp). rewrite MC. cbn [bind]. rewrite A1. cbn [find bind].
      unfold solver_ctor. rewrite A4, A2. cbn [find bind]. rewrite BO. cbn [bind]. rewrite A5. cbn [find bind]. rewrite (proj2 (parse_physics _ _) eq_refl). cbn [bind].
      rewrite (proj2 (parse_flux _ fl) (proj2 (find_or_entry _ _ _) A6)). cbn [bind]. rewrite (proj2 (parse_ic _ _) eq_refl). cbn [bind].
      assert (PP : physical_params phy inp junk = (gamma, gas)).
      { destruct phy; cbn; [|now rewrite NS]. destruct (A12 eq_refl) as (G1 & G2). apply find_or_entry in G1, G2. congruence. }
      rewrite PP. cbv beta iota. rewrite (proj2 (parse_stepper _ st) (proj2 (find_or_entry _ _ _) A7)). cbn [bind]. rewrite A8. cbn [find bind]. rewrite A9. cbn [find bind]. rewrite A10. cbn [find bind]. reflexivity. }
    unfold main_start. rewrite EN. cbn [bind]. rewrite EI. cbn [find bind]. rewrite A1. cbn [find bind].
    destruct D23 as [-> | ->]; cbn [Z.eqb Pos.eqb]; rewrite RS; reflexivity.
Qed.
Print Assumptions C85_startup.

(** An input file for the Euler equations describes one configuration. *)
Lemma asks_unique inp cfg cfg' : asks_for inp cfg -> asks_for inp cfg' -> cf_physics cfg = Euler -> cfg' = cfg.
Proof.
  intros A A' EU.
  assert (EU' : cf_physics cfg' = Euler).
  { pose proof (af_physics _ _ A) as P. rewrite (af_physics _ _ A') in P. rewrite EU in P. destruct (cf_physics cfg'); [reflexivity|discriminate P]. }
  destruct A as [A1 A2 A3 A4 A5 A6 A7 A8 A9 (data & A10 & A11) A12]. destruct A' as [B1 B2 B3 B4 B5 B6 B7 B8 B9 (data' & B10 & B11) B12].
  specialize (A12 EU). specialize (B12 EU'). destruct A12 as (A12 & A13), B12 as (B12 & B13).
  apply find_or_entry in A6, A7, A12, A13, B6, B7, B12, B13. rewrite A6 in B6. rewrite A7 in B7. rewrite A12 in B12. rewrite A13 in B13.
  destruct cfg as [dim bt order ic phy fl [gm gs IC] st dt te], cfg' as [dim' bt' order' ic' phy' fl' [gm' gs' IC'] st' dt' te'].
  cbn [cf_dim cf_basis cf_order cf_ic cf_physics cf_flux cf_phys cf_stepper cf_dt cf_end ph_IC ph_gamma ph_R] in *.
  rewrite A1 in B1. injection B1 as <-. rewrite A2 in B2. injection B2 as <-. rewrite A8 in B8. injection B8 as <-. rewrite A9 in B9. injection B9 as <-.
  rewrite A10 in B10. injection B10 as <-. subst. rewrite A3 in B3. rewrite A4 in B4. injection B3 as B3. injection B4 as B4.
  assert (bt' = bt) by (destruct bt, bt'; try discriminate B3; reflexivity).
  assert (ic' = ic) by (destruct ic, ic'; try discriminate B4; reflexivity).
  assert (fl' = fl) by (destruct fl, fl'; try discriminate B6; reflexivity).
  assert (st' = st) by (destruct st, st'; try discriminate B7; reflexivity). subst. reflexivity.
Qed.

(** All ranks of an Euler run start with the same configuration and the same mesh. *)
Theorem C85_ranks_agree : forall inputs meshes argv iter iter' metis junk junk' n r r' cfg md pm cfg' md' pm',
  main_start inputs meshes argv iter metis junk n r = Ok (Some (cfg, md, pm)) ->
  main_start inputs meshes argv iter' metis junk' n r' = Ok (Some (cfg', md', pm')) ->
  cf_physics cfg = Euler -> cfg' = cfg /\ md' = md.
Proof.
  intros inputs meshes argv iter iter' metis junk junk' n r r' cfg md pm cfg' md' pm' H H' EU.
  apply C85_startup in H. apply C85_startup in H'.
  destruct H as (name & inp & mname & mf & N1 & I1 & A & _ & _ & _ & _ & M1 & F1 & C1).
  destruct H' as (name' & inp' & mname' & mf' & N2 & I2 & A' & _ & _ & _ & _ & M2 & F2 & C2).
  rewrite N1 in N2. injection N2 as <-. rewrite I1 in I2. injection I2 as <-. rewrite M1 in M2. injection M2 as <-. rewrite F1 in F2. injection F2 as <-. split.
  - exact (asks_unique inp cfg cfg' A A' EU).
  - unfold mesh_ctor in C1, C2. destruct (num_partitions_of (in_top_npart inp) (in_npart inp) n); [|discriminate]. cbn [bind] in C1, C2.
    apply bind_inv in C1 as (md1 & R1 & C1). apply bind_inv in C2 as (md2 & R2 & C2). rewrite R1 in R2. injection R2 as <-.
    apply bind_inv in C1 as (? & _ & C1). apply bind_inv in C1 as (? & _ & C1). injection C1 as -> _.
    apply bind_inv in C2 as (? & _ & C2). apply bind_inv in C2 as (? & _ & C2). injection C2 as -> _. reflexivity.
Qed.
Print Assumptions C85_ranks_agree.

(** What the start-up does not check. *)

(** Input file with another dimension / another physics. *)
Definition with_dim (d : Z) (i : input) : input :=
  mkInput (Some d) (in_order i) (in_basis i) (in_quad i) (in_mesh i) (in_top_npart i) (in_npart i) (in_boundaries i) (in_ic i) (in_ic_data i)
    (in_phys i) (in_flux i) (in_gamma i) (in_gas i) (in_stepper i) (in_dt i) (in_end i).
Definition with_physics (s : string) (i : input) : input :=
  mkInput (in_dim i) (in_order i) (in_basis i) (in_quad i) (in_mesh i) (in_top_npart i) (in_npart i) (in_boundaries i) (in_ic i) (in_ic_data i)
    (Some s) (in_flux i) (in_gamma i) (in_gas i) (in_stepper i) (in_dt i) (in_end i).
(** The same configuration but for the dimension / the physics and gas constants. *)
Definition cfg_dim (d : Z) (c : config) : config :=
  mkConfig d (cf_basis c) (cf_order c) (cf_ic c) (cf_physics c) (cf_flux c) (cf_phys c) (cf_stepper c) (cf_dt c) (cf_end c).
Definition cfg_gas (p : physics_type) (gamma gas : R) (c : config) : config :=
  mkConfig (cf_dim c) (cf_basis c) (cf_order c) (cf_ic c) p (cf_flux c) (Build_phys gamma gas (ph_IC (cf_phys c))) (cf_stepper c) (cf_dt c) (cf_end c).
Definition edited (f : input -> input) (inputs : string -> option input) : string -> option input := fun name => option_map f (inputs name).

(** A dimension other than 2 and 3 is not reported: every rank returns normally
    without having computed anything. *)
Theorem C85_other_dimension_refuted : forall inputs meshes argv iter metis junk n r name inp d,
  input_file_name argv = Ok name -> inputs name = Some inp -> in_dim inp = Some d -> d <> 2 -> d <> 3 ->
  main_start inputs meshes argv iter metis junk n r = Ok None.
Proof.
  intros inputs meshes argv iter metis junk n r name inp d N I D N2 N3. unfold main_start. rewrite N. cbn [bind]. rewrite I. cbn [find bind]. rewrite D. cbn [find bind].
  destruct (Z.eqb_spec d 2); [contradiction|]. destruct (Z.eqb_spec d 3); [contradiction|reflexivity].
Qed.
Print Assumptions C85_other_dimension_refuted.

(** The dimension is not checked against basis or mesh: whatever is accepted with
    dimension 2 is accepted with dimension 3, and the other way round. *)
Theorem C85_dimension_unchecked_refuted : forall inputs meshes argv iter metis junk n r cfg md pm d,
  main_start inputs meshes argv iter metis junk n r = Ok (Some (cfg, md, pm)) -> d = 2 \/ d = 3 ->
  main_start (edited (with_dim d) inputs) meshes argv iter metis junk n r = Ok (Some (cfg_dim d cfg, md, pm)).
Proof.
  intros inputs meshes argv iter metis junk n r cfg md pm d H Hd. apply C85_startup. apply C85_startup in H.
  destruct H as (name & inp & mname & mf & N1 & I1 & A & D & L & Q & NS & M1 & F1 & C1).
  exists name, (with_dim d inp), mname, mf. split; [exact N1|]. split; [unfold edited; now rewrite I1|]. split; [|auto 10].
  destruct A as [A1 A2 A3 A4 A5 A6 A7 A8 A9 A10 A12]. constructor; auto.
Qed.
Print Assumptions C85_dimension_unchecked_refuted.

(** Navier-Stokes is accepted although nothing of it is implemented; the ratio of
    specific heats and the gas constant are whatever the memory held. *)
Theorem C85_navier_stokes_refuted : forall inputs meshes argv iter metis n r junk junk' cfg md pm,
  main_start inputs meshes argv iter metis junk n r = Ok (Some (cfg, md, pm)) ->
  main_start (edited (with_physics "NavierStokes") inputs) meshes argv iter metis junk' n r = Ok (Some (cfg_gas NavierStokes (fst junk') (snd junk') cfg, md, pm)).
Proof.
  intros inputs meshes argv iter metis n r junk junk' cfg md pm H. apply C85_startup. apply C85_startup in H.
  destruct H as (name & inp & mname & mf & N1 & I1 & A & D & L & Q & NS & M1 & F1 & C1).
  exists name, (with_physics "NavierStokes" inp), mname, mf. split; [exact N1|]. split; [unfold edited; now rewrite I1|].
  split; [|split; [exact D|split; [exact L|split; [exact Q|split; [intros _; symmetry; apply surjective_pairing|auto]]]]].
  destruct A as [A1 A2 A3 A4 A5 A6 A7 A8 A9 A10 A12]. constructor; auto. cbn. discriminate.
Qed.
Print Assumptions C85_navier_stokes_refuted.
