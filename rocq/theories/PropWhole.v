(** PropWhole.v -- C84: the executables from the input and mesh files to the
    solution file. *)
From Coq Require Import ZArith List Lia Reals Lra String Bool Permutation Sorted.
From Flocq Require Import BinarySingleNaN.
From Verif Require Import Base RBase MeshModel MeshSpec MeshProof MeshReadProof MeshProof2 PropMesh IOModel IOProof IOProof2 IOProof3 IOProof4 PropIO PropOutput PropHexOutput.
From Verif Require Import ReadModel PropRead PropCtor UtilModel TimeModel ProgramModel PropProgram.
From Verif Require Import BasisModel SolverModel SolverSpec PhysModel PropBasis PropSolver PropNormals PropConserve StepModel PropIntegral PropStep StepProof PropSetup PropMeshRun PropInit PropPost DGSpec DGProof PropDG PropResidual SetupModel SetupSpec MassProof SetupProof PropHex PropHexDemo PropLinAlg PropTime.
Import ListNotations.
Local Open Scope string_scope.
Local Open Scope Z_scope.
Open Scope res_scope.

(** * An execution of the solver on [n] ranks, followed by the conversion *)

(** Initial state of all ranks at time 0 (init_from_fcn) on elements of shape [s]. *)
Definition starting (s : eshape) (m : gmesh R) (bt : basis_type) (p : Z) (ic : ic_type) (ph : phys) (n : Z) (pm : Z -> pmesh R) (h : Z -> vhelpers) (U : Z -> arr3) : Prop :=
  forall r, 0 <= r < n -> exists junk2 junk3 junk1 eo po Uc0,
    Permutation eo (zseq (pm_num_elems_part (pm r))) /\ Permutation po (zseq ((2 * Z.max p 1 + 2) ^ space_dim s)) /\
    init_state_from_fcn s bt p 1 (pm r) (gm_npe m) (space_dim s + 2) ic ph 0 (vh_iMM (h r)) junk2 junk3 junk1 eo po Uc0 = Ok (U r).

(** Elements of the solver with the given dimension; points of a face rule. *)
Definition elements_of (dim : Z) : eshape := if dim =? 2 then EQuad else EHex.
Definition face_count (s : eshape) (p : Z) : Z := match s with EQuad => p + 1 | EHex => (p + 2) * (p + 2) end.

(** main.cpp 26-100: every rank starts up (C85), sets up, initialises, takes the
    steps of the time loop, saves; then the converter is run on the file.  The
    orders in which parallel loops run, the previous contents of memory, the
    memory layout and the iteration order of hash sets are arbitrary.  The face
    buffers start as the views' constructors leave them (zero). *)
Definition program (inputs : string -> option input) (meshes : string -> option (mesh_file R)) (argv : list string)
  (metis : gmesh R -> Z -> option (list Z)) (n : Z) (g : res (solfile R)) : Prop :=
  exists iter junk cfg md pm ep h f ord pord jk U U' w w' N,
    let s := elements_of (cf_dim cfg) in
    let bt := cf_basis cfg in let p := cf_order cfg in let m := md_mesh md in
    let gamma := ph_gamma (cf_phys cfg) in let nb := nfun bt p in let nqf := face_count s p in
    (forall r, any_order (iter r)) /\
    (forall r, 0 <= r < n -> main_start inputs meshes argv (iter r) metis (junk r) n r = Ok (Some (cfg, md, pm r))) /\
    elem_partition_of metis n m = Ok ep /\
    all_set_up s bt p 1 m pm n h f /\ inner_loops_ok pm n ord pord /\
    starting s m bt p (cf_ic cfg) (cf_phys cfg) n pm h U /\ boundary_zero s m pm n nqf (fst w) /\
    num_iterations (cf_end cfg) (cf_dt cfg) = Ok N /\
    marching s m ep pm n nqf nb gamma (tables s bt p pm gamma (cf_flux cfg) h f ord pord jk) (fun r => vh_iMM (h r))
      (repeat (cf_stepper cfg, B2R (cf_dt cfg)) (Z.to_nat N)) U w U' w' /\
    output m nb (cf_dim cfg + 2) (final_time (cf_stepper cfg) (B2R (cf_dt cfg)) (Z.to_nat N)) n pm U' g.

(** * What the user wants *)

(** [c] is the discontinuous Galerkin solution after [steps]: start from the L2
    projection [c0] of [u], march with scheme [S] and the inverses of the mass
    matrices [M]. *)
Definition projects (s : eshape) (m : gmesh R) (bt : basis_type) (p : Z) (M : Z -> arr2) (u : (Z -> R) -> Z -> R) (c : arr3) : Prop :=
  exists nq P W, volume_quadrature s (2 * Z.max p 1) zero2 zero1 = Ok (nq, P, W) /\
  forall e i k, 0 <= e < gm_num_elems m -> 0 <= i < nfun bt p -> 0 <= k < space_dim s + 2 ->
    rsum (nfun bt p) (fun j => M e i j * c e j k)%R =
    rsum nq (fun q => W q * jac_det s 1 (elem_nodes m e) (P q) * basis_fn bt p i (P q) * u (place s 1 (elem_nodes m e) (P q)) k)%R.

Definition dg_solution (s : eshape) (m : gmesh R) (bt : basis_type) (p : Z) (S : scheme) (M : Z -> arr2) (u : (Z -> R) -> Z -> R)
  (steps : list (stepper * R)) (c : arr3) : Prop :=
  exists iM c0, (forall e, 0 <= e < gm_num_elems m -> inverse_of (nfun bt p) (M e) (iM e)) /\
    projects s m bt p M u c0 /\
    forall e j k, 0 <= e < gm_num_elems m -> 0 <= j < nfun bt p -> 0 <= k < space_dim s + 2 -> c e j k = dg_march S m iM steps c0 e j k.

Definition quad_solution (m : gmesh R) (bt : basis_type) (p : Z) (gamma : R) (ft : flux_type) (u : (Z -> R) -> Z -> R) (steps : list (stepper * R)) (c : arr3) : Prop :=
  exists nq P W fp fw nq2 P2 W2, volume_quadrature EQuad p zero2 zero1 = Ok (nq, P, W) /\ face_quadrature EQuad p = Ok (p + 1, fp, fw) /\
    volume_quadrature EQuad (2 * p) zero2 zero1 = Ok (nq2, P2, W2) /\
    dg_solution EQuad m bt p (quad_scheme bt p m gamma ft nq P W (p + 1) fp fw) (PropDG.mass_matrix bt p m nq2 P2 W2) u steps c.
Definition hex_solution (m : gmesh R) (bt : basis_type) (p : Z) (gamma : R) (ft : flux_type) (u : (Z -> R) -> Z -> R) (steps : list (stepper * R)) (c : arr3) : Prop :=
  exists nq P W fp fw nq2 P2 W2, volume_quadrature EHex p zero2 zero1 = Ok (nq, P, W) /\ face_quadrature EHex p = Ok ((p + 2) * (p + 2), fp, fw) /\
    volume_quadrature EHex (2 * p) zero2 zero1 = Ok (nq2, P2, W2) /\
    dg_solution EHex m bt p (hex_scheme bt p m gamma ft nq P W ((p + 2) * (p + 2)) fp fw) (mass_matrix3 bt p m nq2 P2 W2) u steps c.

(** The input file [inp] that the command line names, and the mesh [m] that it
    names, whose file is well formed. *)
Definition reads (inputs : string -> option input) (meshes : string -> option (mesh_file R)) (argv : list string) (inp : input) (m : gmesh R) : Prop :=
  exists name mname mf md, input_file_name argv = Ok name /\ inputs name = Some inp /\ in_mesh inp = Some mname /\ meshes mname = Some mf /\
    mesh_file_wf (boundary_names inp) mf /\ read_mesh (boundary_names inp) mf = Ok md /\ md_mesh md = m.

(** METIS, asked for [n] >= 2 parts, assigns every element to one of them. *)
Definition metis_valid (metis : gmesh R -> Z -> option (list Z)) (m : gmesh R) (n : Z) : Prop :=
  forall ep, 2 <= n -> metis m n = Some ep -> assignment m n ep.

(** The input file asks for the number of ranks as number of partitions, or for none. *)
Definition parts_asked (inp : input) (n : Z) : Prop := in_top_npart inp = false \/ in_npart inp = Some n.

(** The array of initial-condition data has the entries that the initial condition
    reads (the model does not track reads past its end). *)
Definition enough_data (inp : input) (cfg : config) : Prop :=
  forall data, in_ic_data inp = Some data -> match cf_ic cfg with IsentropicVortex => 5 | _ => cf_dim cfg + 2 end <= zlen data.

(** All entries of the file fit the code's counters, whatever the partition. *)
Definition small (m : gmesh R) (nb ns : Z) : Prop :=
  gm_num_elems m * gm_npe m * gm_dim m < 2 ^ 31 /\ gm_num_elems m * (nb * ns) < 2 ^ 31.

(** The mesh is one the solver handles: straight, untangled, conforming, every
    node used. *)
Record good_quads (m : gmesh R) : Prop := {
  gq_valid : faces_valid EQuad m; gq_distinct : faces_distinct m; gq_straight : straight_quads m; gq_conf : conforming m;
  gq_some : 0 < gm_num_elems m; gq_nodes : forall x, 0 <= x < gm_num_nodes m -> in_some_element m x }.
Record good_hexes (m : gmesh R) : Prop := {
  gh_valid : faces_valid EHex m; gh_distinct : faces_distinct m; gh_flat : flat_hexes m; gh_conf : conforming_hexes m;
  gh_some : 0 < gm_num_elems m; gh_nodes : forall x, 0 <= x < gm_num_nodes m -> in_some_element m x }.

(** * Proofs *)

(** The nodes stored by all ranks together are at most the corners of all elements. *)
Lemma stored_nodes iter n (m : gmesh R) ep pm : run_wf iter n m ep -> partitioned 0%R iter n m ep pm ->
  zlen (List.concat (map (fun r => pm_l2g_node (pm r)) (zseq n))) <= gm_num_elems m * gm_npe m.
Proof.
  intros W P. pose proof (run_mesh _ _ _ _ W) as M.
  assert (NE : 0 <= gm_num_elems m) by apply (wf_ne m M).
  destruct (Z_lt_le_dec 0 (gm_npe m)) as [NP|NP].
  2:{ assert (E : forall l, (forall r, In r l -> 0 <= r < n) -> List.concat (map (fun r => pm_l2g_node (pm r)) l) = []).
      { induction l as [|r l IH]; intros H; [reflexivity|]. cbn [map List.concat]. rewrite IH by (intros; apply H; now right). rewrite app_nil_r.
        destruct (pm_form 0%R iter n m ep pm W P r (H r (or_introl eq_refl))) as (ids & nb & -> & S & I & _). cbn [pm_l2g_node the_pmesh].
        destruct ids as [|x ids]; [reflexivity|]. destruct (proj1 (I x) (or_introl eq_refl)) as (e & j & _ & Hj & _). lia. }
      rewrite E by (intros r Hr; now apply In_zseq). pose proof (wf_npe m M). change (zlen []) with 0. nia. }
  assert (K : forall r, 0 <= r < n -> exists L, zlen L = zlen (pm_l2g_node (pm r)) /\ NoDup L /\
     forall x, In x L -> 0 <= x < gm_num_elems m * gm_npe m /\ owned_by ep (x / gm_npe m) r).
  { intros r Hr. destruct (pm_form 0%R iter n m ep pm W P r Hr) as (ids & nb & -> & S & I & _). cbn [pm_l2g_node the_pmesh].
    assert (Q : exists L, map (fun x => rd (gm_eind m) x) L = map Ok ids /\ forall x, In x L -> 0 <= x < gm_num_elems m * gm_npe m /\ owned_by ep (x / gm_npe m) r).
    { clear S. assert (I' : forall g, In g ids -> node_used m ep g r) by (intros g Hg; now apply I). clear I. induction ids as [|g ids IH].
      - exists []. split; [reflexivity|intros ? []].
      - destruct IH as (L & E & HL); [intros; apply I'; now right|]. destruct (I' g (or_introl eq_refl)) as (e & j & O & Hj & E1).
        pose proof O as O'. apply rd_in_range in O'. destruct (run_ep _ _ _ _ W) as (Lep & _). rewrite Lep in O'.
        exists ((e * gm_npe m + j) :: L). split; [cbn [map]; now rewrite E1, E|].
        intros x [<-|Hx]; [|now apply HL]. split; [nia|]. rewrite Z.div_add_l by lia. rewrite Z.div_small by lia. now rewrite Z.add_0_r. }
    destruct Q as (L & E & HL). exists L. split; [|split; [|exact HL]].
    - unfold zlen. f_equal. apply (f_equal (@List.length _)) in E. now rewrite !map_length in E.
    - apply (NoDup_map_inv (fun x => rd (gm_eind m) x)). rewrite E. apply FinFun.Injective_map_NoDup; [intros a b Hab; congruence|].
      clear -S. induction S as [|a l S IH F]; constructor; auto. rewrite Forall_forall in F. intros X. specialize (F a X). lia. }
  assert (K2 : exists F : Z -> list Z, forall r, 0 <= r < n -> zlen (F r) = zlen (pm_l2g_node (pm r)) /\ NoDup (F r) /\
     forall x, In x (F r) -> 0 <= x < gm_num_elems m * gm_npe m /\ owned_by ep (x / gm_npe m) r).
  { assert (Z2 : forall k : nat, exists F : Z -> list Z, forall r, 0 <= r < n -> r < Z.of_nat k -> zlen (F r) = zlen (pm_l2g_node (pm r)) /\ NoDup (F r) /\
     forall x, In x (F r) -> 0 <= x < gm_num_elems m * gm_npe m /\ owned_by ep (x / gm_npe m) r).
    { induction k as [|k (F & IH)]; [exists (fun _ => []); intros; lia|].
      destruct (Z_lt_le_dec (Z.of_nat k) n) as [Hk|Hk]; [|exists F; intros; apply IH; lia].
      destruct (K (Z.of_nat k) ltac:(lia)) as (L & HL). exists (fun r => if r =? Z.of_nat k then L else F r). intros r Hr Hr'.
      destruct (Z.eqb_spec r (Z.of_nat k)) as [->|]; [exact HL|]. apply IH; lia. }
    destruct (Z2 (Z.to_nat n)) as (F & HF). exists F. intros r Hr. apply HF; lia. }
  destruct K2 as (F & HF).
  assert (EL : forall l, (forall r, In r l -> 0 <= r < n) -> zlen (List.concat (map (fun r => pm_l2g_node (pm r)) l)) = zlen (List.concat (map F l))).
  { induction l as [|r l IH]; intros H; [reflexivity|]. cbn [map List.concat]. rewrite !zlen_app, IH by (intros; apply H; now right).
    destruct (HF r (H r (or_introl eq_refl))) as (-> & _). reflexivity. }
  rewrite EL by (intros r Hr; now apply In_zseq).
  assert (ND : NoDup (List.concat (map F (zseq n)))).
  { apply NoDup_concat; [apply NoDup_zseq| |].
    - intros r Hr. apply HF. now apply In_zseq.
    - intros r r' x Hr Hr' Hx Hx'. apply In_zseq in Hr, Hr'. destruct (HF r Hr) as (_ & _ & A). destruct (HF r' Hr') as (_ & _ & B).
      destruct (A x Hx) as (_ & OA). destruct (B x Hx') as (_ & OB). unfold owned_by in *. congruence. }
  rewrite <- (zlen_zseq (gm_num_elems m * gm_npe m)) by nia. unfold zlen. apply Nat2Z.inj_le. apply NoDup_incl_length; [exact ND|].
  intros x Hx. apply in_concat in Hx. destruct Hx as (l & Hl & Hx). apply in_map_iff in Hl. destruct Hl as (r & <- & Hr). apply In_zseq in Hr.
  apply In_zseq. now apply (HF r Hr).
Qed.

Lemma small_fits iter n (m : gmesh R) ep pm nb ns : run_wf iter n m ep -> partitioned 0%R iter n m ep pm -> 1 <= gm_dim m -> 0 < gm_npe m -> small m nb ns -> file_fits m nb ns n pm.
Proof.
  intros W P Hd Hn (S1 & S2). pose proof (stored_nodes iter n m ep pm W P) as K.
  assert (NE : 0 <= gm_num_elems m) by apply (wf_ne m (run_mesh _ _ _ _ W)).
  split; [nia|]. split; [exact S2|nia].
Qed.

Lemma final_time_sum st dt k : (final_time st dt k = INR k * dt)%R.
Proof.
  unfold final_time. induction k as [|k IH]; [cbn; lra|]. rewrite S_INR. cbn [Nat.iter nat_rect]. change (nat_rect _ _ _ k) with (Nat.iter k (advance st dt) 0%R). rewrite IH. destruct st; unfold advance; lra.
Qed.

Lemma elems_le iter n (m : gmesh R) ep pm r : run_wf iter n m ep -> partitioned 0%R iter n m ep pm -> 0 <= r < n -> 0 <= pm_num_elems_part (pm r) <= gm_num_elems m.
Proof.
  intros W P Hr. destruct (C01_element_ownership R 0%R iter n m ep pm W P) as (_ & _ & H & _). destruct (H r Hr) as (_ & ->). split; [apply zlen_nonneg|].
  rewrite (l2g_elem_form 0%R iter n m ep pm W P r Hr). unfold elems_of. rewrite <- (zlen_zseq (gm_num_elems m)) at 2 by apply (wf_ne m (run_mesh _ _ _ _ W)). apply zlen_filter_le.
Qed.

Lemma small_state iter n (m : gmesh R) ep pm s nb r : run_wf iter n m ep -> partitioned 0%R iter n m ep pm -> 0 <= nb -> small m nb (space_dim s + 2) -> 0 <= r < n ->
  fits (shape_of s pm nb r).
Proof.
  intros W P Hnb (_ & S2) Hr. pose proof (elems_le iter n m ep pm r W P Hr) as E. assert (D : 0 < space_dim s + 2) by (destruct s; cbn; lia).
  unfold fits, shape_of, extents_ok, entries. split; [lia|]. change (2 ^ 32) with (2 * 2 ^ 31). 
  assert (pm_num_elems_part (pm r) * nb * (space_dim s + 2) <= gm_num_elems m * (nb * (space_dim s + 2))) by (rewrite <- Z.mul_assoc; apply Z.mul_le_mono_nonneg_r; nia). lia.
Qed.

(** An execution in terms of configuration and mesh. *)
Lemma program_inv inputs meshes argv metis n inp m cfg N g : 1 <= n -> reads inputs meshes argv inp m -> asks_for inp cfg -> cf_physics cfg = Euler ->
  parts_asked inp n -> metis_valid metis m n -> num_iterations (cf_end cfg) (cf_dt cfg) = Ok N ->
  program inputs meshes argv metis n g ->
  let s := elements_of (cf_dim cfg) in
  let bt := cf_basis cfg in let p := cf_order cfg in
  let gamma := ph_gamma (cf_phys cfg) in let nb := nfun bt p in let nqf := face_count s p in
  exists iter pm ep h f ord pord jk U U' w w',
    run_wf iter n m ep /\ partitioned 0%R iter n m ep pm /\
    all_set_up s bt p 1 m pm n h f /\ inner_loops_ok pm n ord pord /\
    starting s m bt p (cf_ic cfg) (cf_phys cfg) n pm h U /\ boundary_zero s m pm n nqf (fst w) /\
    marching s m ep pm n nqf nb gamma (tables s bt p pm gamma (cf_flux cfg) h f ord pord jk) (fun r => vh_iMM (h r))
      (repeat (cf_stepper cfg, B2R (cf_dt cfg)) (Z.to_nat N)) U w U' w' /\
    output m nb (cf_dim cfg + 2) (INR (Z.to_nat N) * B2R (cf_dt cfg))%R n pm U' g.
Proof.
  intros Hn (name & mname & mf & md & N1 & I1 & M1 & F1 & MW & RM & EM) AF EU PA MV EN (iter & junk & cfg0 & md0 & pm & ep & h & f & ord & pord & jk & U & U' & w & w' & N0 & H).
  cbv zeta in H. destruct H as (AO & MS & EP & AS & IL & ST & BZ & EN0 & MA & OU).
  assert (CF : forall r, 0 <= r < n -> cfg0 = cfg /\ mesh_ctor 0%R (iter r) metis (in_top_npart inp) (in_npart inp) (boundary_names inp) mf n r = Ok (md0, pm r)).
  { intros r Hr. specialize (MS r Hr). apply C85_startup in MS. destruct MS as (name' & inp' & mname' & mf' & N2 & I2 & A & _ & _ & _ & _ & M2 & F2 & C2).
    rewrite N1 in N2. injection N2 as <-. rewrite I1 in I2. injection I2 as <-. rewrite M1 in M2. injection M2 as <-. rewrite F1 in F2. injection F2 as <-.
    split; [now apply (asks_unique inp)|exact C2]. }
  destruct (CF 0 ltac:(lia)) as (-> & C0). rewrite EN in EN0. injection EN0 as <-.
  assert (CT : forall r, 0 <= r < n -> mesh_ctor 0%R (iter r) metis false (in_npart inp) (boundary_names inp) mf n r = Ok (md0, pm r)).
  { intros r Hr. destruct (CF r Hr) as (_ & C). destruct PA as [PA|PA]; [now rewrite PA in C|]. rewrite PA in C |- *. destruct (in_top_npart inp); [|exact C]. exact C. }
  assert (PT : forall r, 0 <= r < n -> md0 = md /\ partition_tables 0%R (iter r) n n r m ep = Ok (pm r)).
  { intros r Hr. specialize (CT r Hr). unfold mesh_ctor, num_partitions_of in CT. cbn [bind] in CT. rewrite RM in CT. cbn [bind] in CT.
    apply bind_inv in CT as (ep' & E1 & CT). apply bind_inv in CT as (pm' & E2 & CT). injection CT as E3 E4. subst md0 pm'. split; [reflexivity|]. rewrite EP in E1. injection E1 as <-.
    unfold partition in E2. apply bind_inv in E2 as (x & E2 & E3). apply bind_inv in E3 as (y & _ & E3). injection E3 as ->. now rewrite <- EM. }
  destruct (PT 0 ltac:(lia)) as (-> & _). rewrite EM in *. clear CF.
  destruct (C76_mesh_constructor R 0%R iter metis (in_npart inp) (boundary_names inp) mf n MW Hn AO) as (md' & RM' & H1 & H2 & _).
  rewrite RM in RM'. injection RM' as <-. rewrite EM in *.
  assert (IN : intended metis n m ep).
  { destruct (Z.eq_dec n 1) as [->|N2].
    - left. split; [reflexivity|]. unfold elem_partition_of in EP. cbn in EP. injection EP as <-.
      assert (NE : 0 <= gm_num_elems m). { destruct (C72_mesh_read R (boundary_names inp) mf MW) as (md' & RM' & MW' & _). rewrite RM in RM'. injection RM' as <-. rewrite EM in MW'. apply (wf_ne m MW'). }
      split; [now rewrite zlen_vec|]. intros e He. now apply rd_zero.
    - right. split; [lia|]. unfold elem_partition_of in EP. destruct (Z.ltb_spec 1 n); [|lia]. destruct (metis m n) as [ep'|] eqn:ME; [|discriminate EP]. injection EP as <-.
      split; [reflexivity|]. apply MV; [lia|exact ME]. }
  destruct (H2 ep IN) as (RW & _). rewrite final_time_sum in OU.
  exists iter, pm, ep, h, f, ord, pord, jk, U, U', w, w'. split; [exact RW|]. split; [intros r Hr; now apply PT|]. auto 10.
Qed.

(** ** C84: the file is the discontinuous Galerkin solution *)

(** Whatever the number of ranks, the partition, the schedules and the memory: if
    the two executables run to completion on an input file for quadrilaterals, the
    converted file exists and holds the discontinuous Galerkin solution of the
    case the input file describes, at time [N dt]. *)
Theorem C84_solution_quads : forall inputs meshes argv metis n inp m cfg N u g,
  1 <= n -> reads inputs meshes argv inp m -> asks_for inp cfg -> enough_data inp cfg -> cf_dim cfg = 2 -> cf_physics cfg = Euler ->
  parts_asked inp n -> metis_valid metis m n -> num_iterations (cf_end cfg) (cf_dt cfg) = Ok N ->
  let bt := cf_basis cfg in let p := cf_order cfg in let gamma := ph_gamma (cf_phys cfg) in let dt := B2R (cf_dt cfg) in
  good_quads m -> basis_for EQuad bt -> supported bt p -> order_ok p -> (1 < gamma)%R ->
  starts_as 2 (cf_ic cfg) (cf_phys cfg) 0 u -> small m (nfun bt p) 4 ->
  program inputs meshes argv metis n g ->
  exists c, quad_solution m bt p gamma (cf_flux cfg) u (repeat (cf_stepper cfg, dt) (Z.to_nat N)) c /\
    g = Ok (solution_file m (nfun bt p) 4 (INR (Z.to_nat N) * dt)%R c).
Proof.
  intros inputs meshes argv metis n inp m cfg N u g Hn RS AF _ D2 EU PA MV EN bt p gamma dt [FV FD SQ CF Hne Hall] BF Sup Op Gm SA SM PR.
  destruct (program_inv inputs meshes argv metis n inp m cfg N g Hn RS AF EU PA MV EN PR) as (iter & pm & ep & h & f & ord & pord & jk & U & U' & w & w' & WF & PT & H).
  rewrite D2 in H. change (elements_of 2) with EQuad in H. cbn [face_count] in H. destruct H as (AS & IL & ST & BZ & MA & OU). fold bt p gamma dt in AS, IL, ST, BZ, MA, OU.
  change (starting EQuad m bt p (cf_ic cfg) (cf_phys cfg) n pm h U) with (initialised m bt p (cf_ic cfg) (cf_phys cfg) 0 n pm h U) in ST. change (2 + 2) with 4 in OU.
  assert (RD : ready EQuad bt p 1 m) by (constructor; auto; [lia|apply SQ|now apply convex_untangled]).
  assert (Hnb : 0 < nfun bt p) by (unfold nfun, order_ok in *; apply Z.pow_pos_nonneg; [lia|destruct bt; cbn; lia]).
  destruct (gather 0%R iter n m ep pm U WF PT) as (c & Hc).
  destruct (gather 0%R iter n m ep pm (fun r => vh_iMM (h r)) WF PT) as (iM & HiM).
  assert (HU : holds_solution pm n (nfun bt p) 4 c U) by (intros r le e j k Hr He _ _; now apply Hc).
  assert (FT : forall r, 0 <= r < n -> fits (shape_of EQuad pm (nfun bt p) r)) by (intros r Hr; apply (small_state iter n m ep pm EQuad (nfun bt p) r WF PT); auto; lia).
  destruct (C78_run_is_dg 0%R iter n m ep pm bt p h f gamma (cf_flux cfg) ord pord jk _ c U w U' w' WF PT FV FD SQ CF BF Sup Op Gm AS IL FT HU BZ MA)
    as (nq & P & W & fp & fw & nq2 & P2 & W2 & EQ & EF & EQ2 & R1).
  destruct (initialised_projection 0%R iter n m ep pm bt p h f (cf_ic cfg) (cf_phys cfg) 0 u U WF PT RD AS SA ST) as (nq' & P' & W' & nq3 & P3 & W3 & EQ' & EQ3 & R2).
  rewrite EQ2 in EQ'. injection EQ' as <- <- <-.
  assert (HI : forall e, 0 <= e < gm_num_elems m -> inverse_of (nfun bt p) (PropDG.mass_matrix bt p m nq2 P2 W2 e) (iM e)).
  { intros e He. destruct (owner_of 0%R iter n m ep pm e WF PT He) as (r & le & Hr & Hle).
    destruct (AS r Hr) as (jk' & eo1 & eo2 & fo & LO & E0).
    destruct (C69_inverse_mass_matrices 0%R iter n m ep pm EQuad bt p 1 r jk' eo1 eo2 fo (h r) (f r) WF PT RD Hr LO E0) as (nq' & P' & W' & EQ' & Inv).
    rewrite EQ2 in EQ'. injection EQ' as <- <- <-. specialize (Inv le e Hle).
    intros i j Hi Hj. destruct (Inv i j Hi Hj) as (I1 & I2). split.
    - rewrite <- I1. apply rsum_ext. intros a Ha. f_equal. symmetry. now apply HiM.
    - rewrite <- I2. apply rsum_ext. intros a Ha. f_equal. symmetry. now apply HiM. }
  specialize (R1 iM HI). eexists. split.
  - exists nq, P, W, fp, fw, nq2, P2, W2. split; [exact EQ|]. split; [exact EF|]. split; [exact EQ2|].
    exists iM, c. split; [exact HI|]. split; [|intros e j k _ _ _; reflexivity].
    exists nq3, P3, W3. split; [exact EQ3|]. intros e i k He Hi Hk. destruct (owner_of 0%R iter n m ep pm e WF PT He) as (r & le & Hr & Hle).
    rewrite <- (R2 r le e k Hr Hle Hk i Hi). apply rsum_ext. intros j Hj. f_equal. symmetry. now apply Hc.
  - destruct SQ as ((D1 & D3) & _). cbn in D1, D3.
    apply (output_of iter n m ep (nfun bt p) 4 _ pm U'); auto; try lia.
    apply (small_fits iter n m ep); auto; lia.
Qed.
Print Assumptions C84_solution_quads.

Theorem C84_solution_hexahedra : forall inputs meshes argv metis n inp m cfg N u g,
  1 <= n -> reads inputs meshes argv inp m -> asks_for inp cfg -> enough_data inp cfg -> cf_dim cfg = 3 -> cf_physics cfg = Euler ->
  parts_asked inp n -> metis_valid metis m n -> num_iterations (cf_end cfg) (cf_dt cfg) = Ok N ->
  let bt := cf_basis cfg in let p := cf_order cfg in let gamma := ph_gamma (cf_phys cfg) in let dt := B2R (cf_dt cfg) in
  good_hexes m -> basis_for EHex bt -> supported bt p -> order_ok p -> (1 < gamma)%R ->
  starts_as 3 (cf_ic cfg) (cf_phys cfg) 0 u -> small m (nfun bt p) 5 ->
  program inputs meshes argv metis n g ->
  exists c, hex_solution m bt p gamma (cf_flux cfg) u (repeat (cf_stepper cfg, dt) (Z.to_nat N)) c /\
    g = Ok (solution_file m (nfun bt p) 5 (INR (Z.to_nat N) * dt)%R c).
Proof.
  intros inputs meshes argv metis n inp m cfg N u g Hn RS AF _ D2 EU PA MV EN bt p gamma dt [FV FD FH CF Hne Hall] BF Sup Op Gm SA SM PR.
  destruct (program_inv inputs meshes argv metis n inp m cfg N g Hn RS AF EU PA MV EN PR) as (iter & pm & ep & h & f & ord & pord & jk & U & U' & w & w' & WF & PT & H).
  rewrite D2 in H. change (elements_of 3) with EHex in H. cbn [face_count] in H. destruct H as (AS & IL & ST & BZ & MA & OU). fold bt p gamma dt in AS, IL, ST, BZ, MA, OU.
  change (starting EHex m bt p (cf_ic cfg) (cf_phys cfg) n pm h U) with (hexes_initialised m bt p (cf_ic cfg) (cf_phys cfg) 0 n pm h U) in ST. change (3 + 2) with 5 in OU.
  assert (RD : ready EHex bt p 1 m) by (constructor; auto; [lia|apply FH|apply FH]).
  assert (Hnb : 0 < nfun bt p) by (unfold nfun, order_ok in *; apply Z.pow_pos_nonneg; [lia|destruct bt; cbn; lia]).
  destruct (gather 0%R iter n m ep pm U WF PT) as (c & Hc).
  destruct (gather 0%R iter n m ep pm (fun r => vh_iMM (h r)) WF PT) as (iM & HiM).
  assert (HU : holds_solution pm n (nfun bt p) 5 c U) by (intros r le e j k Hr He _ _; now apply Hc).
  assert (FT : forall r, 0 <= r < n -> fits (shape_of EHex pm (nfun bt p) r)) by (intros r Hr; apply (small_state iter n m ep pm EHex (nfun bt p) r WF PT); auto; lia).
  destruct (C78_run_is_dg_hexahedra 0%R iter n m ep pm bt p h f gamma (cf_flux cfg) ord pord jk _ c U w U' w' WF PT FV FD FH CF BF Sup Op Gm AS IL FT HU BZ MA)
    as (nq & P & W & fp & fw & nq2 & P2 & W2 & EQ & EF & EQ2 & R1).
  destruct (hexes_projection 0%R iter n m ep pm bt p h f (cf_ic cfg) (cf_phys cfg) 0 u U WF PT RD AS SA ST) as (nq' & P' & W' & nq3 & P3 & W3 & EQ' & EQ3 & R2).
  rewrite EQ2 in EQ'. injection EQ' as <- <- <-.
  assert (HI : forall e, 0 <= e < gm_num_elems m -> inverse_of (nfun bt p) (mass_matrix3 bt p m nq2 P2 W2 e) (iM e)).
  { intros e He. destruct (owner_of 0%R iter n m ep pm e WF PT He) as (r & le & Hr & Hle).
    destruct (AS r Hr) as (jk' & eo1 & eo2 & fo & LO & E0).
    destruct (C69_inverse_mass_matrices 0%R iter n m ep pm EHex bt p 1 r jk' eo1 eo2 fo (h r) (f r) WF PT RD Hr LO E0) as (nq' & P' & W' & EQ' & Inv).
    rewrite EQ2 in EQ'. injection EQ' as <- <- <-. specialize (Inv le e Hle).
    intros i j Hi Hj. destruct (Inv i j Hi Hj) as (I1 & I2). split.
    - rewrite <- I1. apply rsum_ext. intros a Ha. f_equal. symmetry. now apply HiM.
    - rewrite <- I2. apply rsum_ext. intros a Ha. f_equal. symmetry. now apply HiM. }
  specialize (R1 iM HI). eexists. split.
  - exists nq, P, W, fp, fw, nq2, P2, W2. split; [exact EQ|]. split; [exact EF|]. split; [exact EQ2|].
    exists iM, c. split; [exact HI|]. split; [|intros e j k _ _ _; reflexivity].
    exists nq3, P3, W3. split; [exact EQ3|]. intros e i k He Hi Hk. destruct (owner_of 0%R iter n m ep pm e WF PT He) as (r & le & Hr & Hle).
    rewrite <- (R2 r le e k Hr Hle Hk i Hi). apply rsum_ext. intros j Hj. f_equal. symmetry. now apply Hc.
  - destruct FH as ((D1 & D3) & _). change (nfun (geom_basis EHex) 1) with 8 in D3. cbn in D1.
    apply (output_of iter n m ep (nfun bt p) 5 _ pm U'); auto; try lia.
    apply (small_fits iter n m ep); auto; lia.
Qed.
Print Assumptions C84_solution_hexahedra.

(** ** C84: the file does not depend on the number of ranks *)

(** Two complete executions on the same input file, on [n] and on [n2] ranks, with
    any METIS results, give the same file. *)
Theorem C84_same_file : forall inputs meshes argv metis metis2 n n2 inp m cfg N u g g2,
  1 <= n -> 1 <= n2 -> reads inputs meshes argv inp m -> asks_for inp cfg -> enough_data inp cfg -> cf_physics cfg = Euler ->
  parts_asked inp n -> parts_asked inp n2 -> metis_valid metis m n -> metis_valid metis2 m n2 -> num_iterations (cf_end cfg) (cf_dt cfg) = Ok N ->
  let bt := cf_basis cfg in let p := cf_order cfg in let gamma := ph_gamma (cf_phys cfg) in
  (cf_dim cfg = 2 /\ good_quads m /\ basis_for EQuad bt \/ cf_dim cfg = 3 /\ good_hexes m /\ basis_for EHex bt) ->
  supported bt p -> order_ok p -> (1 < gamma)%R ->
  starts_as (cf_dim cfg) (cf_ic cfg) (cf_phys cfg) 0 u -> small m (nfun bt p) (cf_dim cfg + 2) ->
  program inputs meshes argv metis n g -> program inputs meshes argv metis2 n2 g2 ->
  g2 = g /\ exists f, g = Ok f.
Proof.
  intros inputs meshes argv metis metis2 n n2 inp m cfg N u g g2 Hn Hn2 RS AF _ EU PA PA2 MV MV2 EN bt p gamma CASES Sup Op Gm SA SM PR PR2.
  destruct (program_inv inputs meshes argv metis n inp m cfg N g Hn RS AF EU PA MV EN PR) as (iter & pm & ep & h & f & ord & pord & jk & U & U' & w & w' & WF & PT & H).
  destruct (program_inv inputs meshes argv metis2 n2 inp m cfg N g2 Hn2 RS AF EU PA2 MV2 EN PR2) as (iter2 & pm2 & ep2 & h2 & f2 & ord2 & pord2 & jk2 & V & V' & w2 & w2' & WF2 & PT2 & H2).
  assert (Hnb : 0 < nfun bt p) by (unfold nfun, order_ok in *; apply Z.pow_pos_nonneg; [lia|destruct bt; cbn; lia]).
  fold bt p gamma in H, H2. set (steps := repeat (cf_stepper cfg, B2R (cf_dt cfg)) (Z.to_nat N)) in *.
  destruct CASES as [(D & [FV FD SQ CF Hne Hall] & BF)|(D & [FV FD FH CF Hne Hall] & BF)]; rewrite D in H, H2, SA, SM.
  - change (elements_of 2) with EQuad in H, H2. cbn [face_count] in H, H2. change (2 + 2) with 4 in *.
    destruct H as (AS & IL & ST & BZ & MA & OU), H2 as (AS2 & IL2 & ST2 & BZ2 & MA2 & OU2).
    assert (D' := SQ). destruct D' as ((D1 & D3) & _). cbn in D1, D3.
    assert (RN : run_from m bt p gamma (cf_flux cfg) steps n pm h U U').
    { exists iter, ep, f, ord, pord, jk, w, w'. split; [exact WF|]. split; [exact PT|]. split; [exact AS|]. split; [exact IL|]. split; [|auto].
      intros r Hr. apply (small_state iter n m ep pm EQuad (nfun bt p) r WF PT); auto; lia. }
    assert (RN2 : run_from m bt p gamma (cf_flux cfg) steps n2 pm2 h2 V V').
    { exists iter2, ep2, f2, ord2, pord2, jk2, w2, w2'. split; [exact WF2|]. split; [exact PT2|]. split; [exact AS2|]. split; [exact IL2|]. split; [|auto].
      intros r Hr. apply (small_state iter2 n2 m ep2 pm2 EQuad (nfun bt p) r WF2 PT2); auto; lia. }
    destruct (C79_same_file m bt p gamma (cf_flux cfg) (cf_ic cfg) (cf_phys cfg) 0%R u steps (INR (Z.to_nat N) * B2R (cf_dt cfg))%R n pm h U U' n2 pm2 h2 V V'
      FV FD SQ CF BF Sup Op Gm SA Hne Hall ST RN (small_fits iter n m ep pm _ _ WF PT ltac:(lia) ltac:(lia) SM) ST2 RN2 (small_fits iter2 n2 m ep2 pm2 _ _ WF2 PT2 ltac:(lia) ltac:(lia) SM)) as (x & X1 & X2).
    apply X1 in OU. apply X2 in OU2. subst. eauto.
  - change (elements_of 3) with EHex in H, H2. cbn [face_count] in H, H2. change (3 + 2) with 5 in *.
    destruct H as (AS & IL & ST & BZ & MA & OU), H2 as (AS2 & IL2 & ST2 & BZ2 & MA2 & OU2).
    assert (D' := FH). destruct D' as ((D1 & D3) & _). change (nfun (geom_basis EHex) 1) with 8 in D3. cbn in D1.
    assert (RN : hex_run m bt p gamma (cf_flux cfg) steps n pm h U U').
    { exists iter, ep, f, ord, pord, jk, w, w'. split; [exact WF|]. split; [exact PT|]. split; [exact AS|]. split; [exact IL|]. split; [|auto].
      intros r Hr. apply (small_state iter n m ep pm EHex (nfun bt p) r WF PT); auto; lia. }
    assert (RN2 : hex_run m bt p gamma (cf_flux cfg) steps n2 pm2 h2 V V').
    { exists iter2, ep2, f2, ord2, pord2, jk2, w2, w2'. split; [exact WF2|]. split; [exact PT2|]. split; [exact AS2|]. split; [exact IL2|]. split; [|auto].
      intros r Hr. apply (small_state iter2 n2 m ep2 pm2 EHex (nfun bt p) r WF2 PT2); auto; lia. }
    destruct (C79_same_file_hexahedra m bt p gamma (cf_flux cfg) (cf_ic cfg) (cf_phys cfg) 0%R u steps (INR (Z.to_nat N) * B2R (cf_dt cfg))%R n pm h U U' n2 pm2 h2 V V'
      FV FD FH CF BF Sup Op Gm SA Hne Hall ST RN (small_fits iter n m ep pm _ _ WF PT ltac:(lia) ltac:(lia) SM) ST2 RN2 (small_fits iter2 n2 m ep2 pm2 _ _ WF2 PT2 ltac:(lia) ltac:(lia) SM)) as (x & X1 & X2).
    apply X1 in OU. apply X2 in OU2. subst. eauto.
Qed.
Print Assumptions C84_same_file.

(** ** A concrete case *)

(** The four quadrilaterals of C71 as a mesh file, an input file, and METIS
    results for two ranks. *)
Definition case_file : mesh_file R :=
  mkMeshFile 2 1 4 9 4 4 (Some 2) [0;0; 10;0; 20;0; 0;10; 11;9; 20;10; 0;20; 10;20; 20;20]%R
    [0;1;3;4; 1;2;4;5; 3;4;6;7; 4;5;7;8] [0;1;0;1;3;1; 2;1;0;3;3;1; 0;2;0;2;0;1; 1;2;0;3;0;1] (fun _ => None).
Definition case_input : input :=
  mkInput (Some 2) (Some 2) (Some "LagrangeQuad") None (Some "mesh.h5") false None None (Some "Uniform") (Some [1;0;0;5]%R)
    (Some "Euler") (Some "HLLC") (Some 2%R) (Some 1%R) None (Some (ddiv (dint 1) (dint 2))) (Some (ddiv (dint 1) (dint 2))).
Definition case_config : config :=
  mkConfig 2 LagrangeQuad 2 Uniform Euler HLLC (Build_phys 2 1 (fun k => match rd [1;0;0;5]%R k with Ok v => v | Fail _ => 0%R end)) ForwardEuler
    (ddiv (dint 1) (dint 2)) (ddiv (dint 1) (dint 2)).
Definition case_metis (m : gmesh R) (n : Z) : option (list Z) := if n =? 2 then Some [0; 1; 0; 1] else None.
Definition case_inputs (name : string) : option input := if String.eqb name "case.toml" then Some case_input else None.
Definition case_meshes (name : string) : option (mesh_file R) := if String.eqb name "mesh.h5" then Some case_file else None.

Lemma case_phys : cf_phys case_config = demo_phys.
Proof.
  unfold case_config, demo_phys. cbn [cf_phys]. f_equal. apply FunctionalExtensionality.functional_extensionality. intros k.
  destruct (Z_lt_le_dec k 0) as [Hk|Hk].
  - unfold rd, demo_U. destruct (Z.ltb_spec k 0); [|lia]. destruct (Z.eqb_spec k 0); [lia|]. destruct (Z.eqb_spec k 3); [lia|reflexivity].
  - destruct (Z_lt_le_dec k 4) as [H4|H4].
    + assert (C : k = 0 \/ k = 1 \/ k = 2 \/ k = 3) by lia. destruct C as [->|[->|[->| ->]]]; reflexivity.
    + assert (E : rd [1;0;0;5]%R k = Fail OutOfBounds) by (apply rd_fail; unfold zlen; cbn [List.length]; lia).
      rewrite E. unfold demo_U. destruct (Z.eqb_spec k 0); [lia|]. destruct (Z.eqb_spec k 3); [lia|reflexivity].
Qed.

Lemma case_asks : asks_for case_input case_config.
Proof. constructor; try reflexivity; try (now left); try (now right). - exists [1;0;0;5]%R. auto. - intros _. split; now left. Qed.

Lemma case_wf : mesh_file_wf [] case_file.
Proof.
  assert (RN : forall l k v (P : Z -> Prop), Forall P l -> rd l k = Ok v -> P v).
  { intros l k v P F E. rewrite Forall_forall in F. apply F. eapply rd_In; eassumption. }
  constructor; try (cbn -[IZR]; lia); try reflexivity.
  - change UINT_MAX with 4294967295. cbn. lia.
  - change UINT_MAX with 4294967295. cbn. lia.
  - change UINT_MAX with 4294967295. cbn. lia.
  - change UINT_MAX with 4294967295. cbn. lia.
  - intros k v. apply (RN _ k v (fun v => 0 <= v < 9)). cbn. repeat constructor; lia.
  - intros k v. apply (RN _ k v (fun v => 0 <= v)). cbn. repeat constructor; lia.
  - intros f s v Hf Hs. change (mf_niface case_file) with 4 in Hf. assert (C : f = 0 \/ f = 1 \/ f = 2 \/ f = 3) by lia.
    destruct C as [-> | [-> | [-> | ->]]], Hs as [-> | ->]; intros E; vm_compute in E; injection E as <-; reflexivity.
  - intros e He. change (mf_nelem case_file) with 4 in He. assert (C : e = 0 \/ e = 1 \/ e = 2 \/ e = 3) by lia. destruct C as [-> | [-> | [-> | ->]]]; vm_compute; discriminate.
  - intros e rows He F. inversion F; subst. cbn. lia.
Qed.

Lemma case_reads : exists md, read_mesh [] case_file = Ok md /\ md_mesh md = demo_rmesh.
Proof. eexists. split; [cbv -[IZR]; reflexivity|reflexivity]. Qed.

Lemma case_nodes x : 0 <= x < gm_num_nodes demo_rmesh -> in_some_element demo_rmesh x.
Proof.
  intros Hx. change (gm_num_nodes demo_rmesh) with 9 in Hx.
  assert (C : x = 0 \/ x = 1 \/ x = 2 \/ x = 3 \/ x = 4 \/ x = 5 \/ x = 6 \/ x = 7 \/ x = 8) by lia.
  assert (K : forall e j, 0 <= e < 4 -> 0 <= j < 4 -> rd (gm_eind demo_rmesh) (e * 4 + j) = Ok x -> in_some_element demo_rmesh x) by (intros e j He Hj E; exists e, j; auto).
  destruct C as [->|[->|[->|[->|[->|[->|[->|[->| ->]]]]]]]];
    [apply (K 0 0)|apply (K 0 1)|apply (K 1 1)|apply (K 0 2)|apply (K 0 3)|apply (K 1 3)|apply (K 2 2)|apply (K 2 3)|apply (K 3 3)]; reflexivity || lia.
Qed.

(** The two executables run to completion on it, on one rank and on two. *)
Lemma case_program n : n = 1 \/ n = 2 -> exists g, program case_inputs case_meshes ["solver"; "-input"; "case.toml"] case_metis n g.
Proof.
  intros Hn. destruct case_reads as (md & RM & EM).
  set (iter := fun (_ : Z) (l : list Z) => l). assert (AO : forall r, any_order (iter r)) by (intros r l; apply Permutation_refl).
  destruct (C76_mesh_constructor R 0%R iter case_metis None [] case_file n case_wf ltac:(lia) AO) as (md' & RM' & _ & H & _).
  rewrite RM in RM'. injection RM' as <-. rewrite EM in H. set (ep := if n =? 2 then [0; 1; 0; 1] else [0; 0; 0; 0]).
  assert (IN : intended case_metis n demo_rmesh ep).
  { destruct Hn as [-> | ->]; [left|right].
    - split; [reflexivity|]. split; [reflexivity|]. intros e He. change (gm_num_elems demo_rmesh) with 4 in He. assert (C : e = 0 \/ e = 1 \/ e = 2 \/ e = 3) by lia. destruct C as [->|[->|[->| ->]]]; reflexivity.
    - split; [lia|]. split; [reflexivity|]. split; [reflexivity|]. repeat constructor; lia. }
  destruct (H ep IN) as (WF & pm & PT & CT).
  assert (CT' : forall r, 0 <= r < n -> mesh_ctor 0%R (iter r) case_metis false None [] case_file n r = Ok (md, pm r)).
  { intros r Hr. apply CT; [exact Hr|]. destruct (pm_form 0%R iter n demo_rmesh ep pm WF PT r Hr) as (ids & nb & -> & _). cbn [pm_num_ifaces_part the_pmesh].
    assert (C : (n = 1 /\ r = 0) \/ (n = 2 /\ r = 0) \/ (n = 2 /\ r = 1)) by lia. subst ep. clear -C. destruct C as [(-> & ->)|[(-> & ->)|(-> & ->)]]; cbv -[IZR]; discriminate. }
  destruct (demo_runs_at iter n ep pm (B2R (ddiv (dint 1) (dint 2))) WF PT) as (h & U & U' & IT & f & ord & pord & jk & w & w' & _ & _ & AS & IL & FT & BZ & MA).
  destruct (gather 0%R iter n demo_rmesh ep pm U' WF PT) as (c & Hc).
  eexists. exists iter, (fun _ => (0%R, 0%R)), case_config, md, pm, ep, h, f, ord, pord, jk, U, U', w, w', 1. rewrite EM. cbv zeta.
  change (elements_of (cf_dim case_config)) with EQuad. change (ph_gamma (cf_phys case_config)) with 2%R.
  cbn [cf_basis cf_order case_config cf_ic cf_flux cf_stepper cf_dt cf_end cf_dim face_count]. change (mkConfig 2 LagrangeQuad 2 Uniform Euler HLLC _ _ _ _) with case_config.
  split; [exact AO|]. split.
  { intros r Hr. apply C85_startup. exists "case.toml", case_input, "mesh.h5", case_file. split; [reflexivity|]. split; [reflexivity|]. split; [exact case_asks|]. split; [now left|].
    split; [discriminate|]. split; [intros q Q; discriminate Q|]. split; [discriminate|]. split; [reflexivity|]. split; [reflexivity|]. exact (CT' r Hr). }
  split. { destruct IN as [(-> & _)|(N2 & M & _)]; [reflexivity|]. unfold elem_partition_of. destruct (Z.ltb_spec 1 n); [now rewrite M|lia]. }
  split; [exact AS|]. split; [exact IL|]. split. { change (Build_phys 2 1 _) with (cf_phys case_config). rewrite case_phys. exact IT. }
  split; [exact BZ|]. split; [reflexivity|]. split; [exact MA|].
  change (2 + 2) with 4. apply (output_of iter n demo_rmesh ep (nfun LagrangeQuad 2) 4 _ pm U' c); auto; try reflexivity.
  - apply demo_fits with (iter := iter) (ep := ep); auto. lia.
  - exact case_nodes.
Qed.

Example C84_demo :
  reads case_inputs case_meshes ["solver"; "-input"; "case.toml"] case_input demo_rmesh /\ asks_for case_input case_config /\ enough_data case_input case_config /\
  cf_dim case_config = 2 /\ cf_physics case_config = Euler /\ parts_asked case_input 1 /\ parts_asked case_input 2 /\
  metis_valid case_metis demo_rmesh 1 /\ metis_valid case_metis demo_rmesh 2 /\
  num_iterations (cf_end case_config) (cf_dt case_config) = Ok 1 /\ good_quads demo_rmesh /\ basis_for EQuad LagrangeQuad /\ supported LagrangeQuad 2 /\ order_ok 2 /\
  (1 < ph_gamma (cf_phys case_config))%R /\ starts_as 2 (cf_ic case_config) (cf_phys case_config) 0 (fun _ k => ph_IC (cf_phys case_config) k) /\
  small demo_rmesh (nfun LagrangeQuad 2) 4 /\
  (exists g, program case_inputs case_meshes ["solver"; "-input"; "case.toml"] case_metis 1 g) /\
  (exists g, program case_inputs case_meshes ["solver"; "-input"; "case.toml"] case_metis 2 g).
Proof.
  destruct case_reads as (md & RM & EM). destruct demo_straight as (SQ & CF & FV & FD).
  split. { exists "case.toml", "mesh.h5", case_file, md. split; [reflexivity|]. split; [reflexivity|]. split; [reflexivity|]. split; [reflexivity|]. split; [exact case_wf|]. split; [exact RM|exact EM]. }
  split; [exact case_asks|]. split. { intros data E. injection E as <-. cbn [cf_ic case_config cf_dim]. unfold zlen. cbn [List.length]. lia. }
  split; [reflexivity|]. split; [reflexivity|]. split; [now left|]. split; [now left|]. split; [intros ep H; lia|]. split. { intros ep _ E. injection E as <-. split; [reflexivity|]. repeat constructor; lia. }
  split; [reflexivity|]. split. { constructor; auto; [reflexivity|exact case_nodes]. }
  split; [now left|]. split; [now left|]. split; [unfold order_ok; lia|]. split; [cbn; lra|]. split; [apply uniform_starts; lia|]. split; [split; reflexivity|].
  split; apply case_program; lia.
Qed.

(** The hypothesis of C85's theorems about accepted input files is met. *)
Example C85_demo : exists md pm, main_start case_inputs case_meshes ["solver"; "-input"; "case.toml"] (fun l => l) case_metis (0%R, 0%R) 2 1 = Ok (Some (case_config, md, pm)).
Proof.
  destruct case_reads as (md & RM & EM). exists md.
  destruct (C76_mesh_constructor R 0%R (fun _ l => l) case_metis None [] case_file 2 case_wf ltac:(lia) (fun r l => Permutation_refl l)) as (md' & RM' & _ & H & _).
  rewrite RM in RM'. injection RM' as <-. rewrite EM in H.
  destruct (H [0; 1; 0; 1]) as (WF & pm & PT & CT). { right. split; [lia|]. split; [reflexivity|]. split; [reflexivity|]. repeat constructor; lia. }
  exists (pm 1). apply C85_startup. exists "case.toml", case_input, "mesh.h5", case_file. split; [reflexivity|]. split; [reflexivity|]. split; [exact case_asks|]. split; [now left|].
  split; [discriminate|]. split; [intros q Q; discriminate Q|]. split; [discriminate|]. split; [reflexivity|]. split; [reflexivity|].
  apply CT; [lia|]. destruct (pm_form 0%R _ 2 demo_rmesh _ pm WF PT 1 ltac:(lia)) as (ids & nb & -> & _). cbv -[IZR]. discriminate.
Qed.
