(** PropEnd.v -- C91: from the input file to the solution file, with all ranks,
    threads and messages interleaved in any way. *)
From Coq Require Import ZArith List Lia Reals Lra String Bool Permutation.
From Flocq Require Import BinarySingleNaN.
From Verif Require Import Base RBase MeshModel MeshSpec MeshProof MeshReadProof MeshProof2 PropMesh IOModel IOProof PropIO PropOutput PropHexOutput.
From Verif Require Import ReadModel PropRead PropCtor UtilModel TimeModel ProgramModel PropProgram.
From Verif Require Import BasisModel SolverModel SolverSpec PhysModel PhysSpec PhysProof PropBasis PropSolver PropNormals StepModel PropIntegral PropStep PropSetup PropMeshRun PropInit DGSpec DGProof PropDG SetupModel SetupSpec PropHex PropLinAlg PropTime PropWhole PropTotal.
From Verif Require Import SolverMesh TeamModel TeamKernels PropTeam TeamSetup TeamStep PropDevice AsyncModel PropAsync.
Import ListNotations.
Local Open Scope string_scope.
Local Open Scope Z_scope.
Open Scope res_scope.

(** * The discontinuous Galerkin solution is unique *)

Section Unique.
Context (iter : Z -> list Z -> list Z) (n : Z) (m : gmesh R) (ep : list Z) (WF : run_wf iter n m ep).
Context (S : scheme).
Let ns := space_dim (sc_shape S) + 2.
Let nb := sc_nb S.

Definition same_coeffs (c c' : arr3) : Prop := forall e j k, 0 <= e < gm_num_elems m -> 0 <= j < nb -> 0 <= k < ns -> c e j k = c' e j k.
Context (iM iM' : arr3) (HM : forall e i b, 0 <= e < gm_num_elems m -> 0 <= i < nb -> 0 <= b < nb -> iM e i b = iM' e i b).

Lemma d23 : dim23 (space_dim (sc_shape S)).
Proof. destruct (sc_shape S); [now left|now right]. Qed.

Lemma side_range f sd : 0 <= f < gm_nIF m -> 0 <= side_elem m f sd < gm_num_elems m.
Proof. intros Hf. apply (side_nonneg iter n m ep WF f sd _ _ _ (side_has iter n m ep WF S f sd Hf)). Qed.

Lemma residual_ext c c' : same_coeffs c c' -> forall e i k, 0 <= e < gm_num_elems m -> 0 <= i < nb -> 0 <= k < ns -> dg_residual S m c e i k = dg_residual S m c' e i k.
Proof.
  intros H e i k He Hi Hk. unfold dg_residual. f_equal.
  - unfold dg_volume. apply rsum_ext. intros q Hq. f_equal. apply rsum_ext. intros j Hj. f_equal.
    apply euler_flux_extU; [exact d23| |exact Hk]. intros x Hx. unfold dg_state. apply rsum_ext. intros b Hb. f_equal. now apply H.
  - apply rsum_ext. intros f Hf. assert (FL : forall iq, dg_flux S m c f iq k = dg_flux S m c' f iq k).
    { intros iq. unfold dg_flux. apply numflux_state; [exact d23| | |exact Hk]; intros x Hx; unfold dg_trace; apply rsum_ext; intros b Hb; f_equal; apply H; auto; apply side_range; exact Hf. }
    f_equal; unfold dg_side; destruct (_ =? _); try reflexivity; f_equal; apply rsum_ext; intros iq Hiq; now rewrite FL.
Qed.

Lemma rate_ext c c' : same_coeffs c c' -> same_coeffs (dg_rate S m iM c) (dg_rate S m iM' c').
Proof. intros H e j k He Hj Hk. unfold dg_rate. apply rsum_ext. intros b Hb. rewrite (HM e j b He Hj Hb), (residual_ext c c' H e b k He Hb Hk). reflexivity. Qed.
Lemma shift_ext c c' a d d' : same_coeffs c c' -> same_coeffs d d' -> same_coeffs (shift c a d) (shift c' a d').
Proof. intros H1 H2 e j k He Hj Hk. unfold shift. now rewrite (H1 e j k He Hj Hk), (H2 e j k He Hj Hk). Qed.
Lemma step_ext st dt c c' : same_coeffs c c' -> same_coeffs (dg_step S m iM st dt c) (dg_step S m iM' st dt c').
Proof.
  intros H. destruct st; cbn [dg_step]; [apply shift_ext; [exact H|now apply rate_ext]|]. cbv zeta.
  assert (K1 := rate_ext c c' H). assert (K2 := rate_ext _ _ (shift_ext c c' (dt / 2)%R _ _ H K1)). assert (K3 := rate_ext _ _ (shift_ext c c' (dt / 2)%R _ _ H K2)).
  assert (K4 := rate_ext _ _ (shift_ext c c' dt _ _ H K3)). apply shift_ext; [exact H|]. intros e j k He Hj Hk. now rewrite (K1 e j k), (K2 e j k), (K3 e j k), (K4 e j k).
Qed.
Lemma march_ext steps : forall c c', same_coeffs c c' -> same_coeffs (dg_march S m iM steps c) (dg_march S m iM' steps c').
Proof. induction steps as [|[st dt] rest IH]; intros c c' H; [exact H|]. unfold dg_march. cbn [fold_left]. apply IH. now apply step_ext. Qed.
End Unique.

Lemma dg_unique iter n m ep s bt p S M u steps c c' : run_wf iter n m ep -> sc_shape S = s -> sc_nb S = nfun bt p ->
  dg_solution s m bt p S M u steps c -> dg_solution s m bt p S M u steps c' ->
  forall e j k, 0 <= e < gm_num_elems m -> 0 <= j < nfun bt p -> 0 <= k < space_dim s + 2 -> c e j k = c' e j k.
Proof.
  intros WF Es Eb (iM & c0 & HI & (nq & P & W & EQ & PJ) & HC) (iM' & c0' & HI' & (nq' & P' & W' & EQ' & PJ') & HC') e j k He Hj Hk.
  rewrite EQ in EQ'. injection EQ' as <- <- <-. rewrite HC, HC' by assumption.
  assert (X := march_ext iter n m ep WF S iM iM'). unfold same_coeffs in X. rewrite Es, Eb in X. apply X; try assumption.
  - intros e' i b He' Hi Hb. apply (inverse_unique (nfun bt p) (M e')); auto.
  - intros e' i x He' Hi Hx. revert i Hi. apply (solves_unique (nfun bt p) (M e') (iM e') (fun i => c0 e' i x) (fun i => c0' e' i x)); [now apply HI|].
    intros i Hi. rewrite (PJ e' i x He' Hi Hx), (PJ' e' i x He' Hi Hx). reflexivity.
Qed.

(** * Start-up *)

Lemma startup_inv inputs meshes argv metis n inp m cfg iter junk cfg0 md0 pm ep : 1 <= n -> reads inputs meshes argv inp m -> asks_for inp cfg -> cf_physics cfg = Euler ->
  parts_asked inp n -> metis_valid metis m n -> (forall r, any_order (iter r)) ->
  (forall r, 0 <= r < n -> main_start inputs meshes argv (iter r) metis (junk r) n r = Ok (Some (cfg0, md0, pm r))) -> elem_partition_of metis n (md_mesh md0) = Ok ep ->
  cfg0 = cfg /\ md_mesh md0 = m /\ run_wf iter n m ep /\ partitioned 0%R iter n m ep pm.
Proof.
  intros Hn (name & mname & mf & md & N1 & I1 & M1 & F1 & MW & RM & EM) AF EU PA MV AO MS EP.
  assert (CF : forall r, 0 <= r < n -> cfg0 = cfg /\ mesh_ctor 0%R (iter r) metis (in_top_npart inp) (in_npart inp) (boundary_names inp) mf n r = Ok (md0, pm r)).
  { intros r Hr. specialize (MS r Hr). apply C85_startup in MS. destruct MS as (name' & inp' & mname' & mf' & N2 & I2 & A & _ & _ & _ & _ & M2 & F2 & C2).
    rewrite N1 in N2. injection N2 as <-. rewrite I1 in I2. injection I2 as <-. rewrite M1 in M2. injection M2 as <-. rewrite F1 in F2. injection F2 as <-.
    split; [now apply (asks_unique inp)|exact C2]. }
  destruct (CF 0 ltac:(lia)) as (-> & C0). split; [reflexivity|].
  assert (CT : forall r, 0 <= r < n -> mesh_ctor 0%R (iter r) metis false (in_npart inp) (boundary_names inp) mf n r = Ok (md0, pm r)).
  { intros r Hr. destruct (CF r Hr) as (_ & C). destruct PA as [PA|PA]; [now rewrite PA in C|]. rewrite PA in C |- *. destruct (in_top_npart inp); [|exact C]. exact C. }
  assert (PT : forall r, 0 <= r < n -> md0 = md /\ partition_tables 0%R (iter r) n n r m ep = Ok (pm r)).
  { intros r Hr. specialize (CT r Hr). unfold mesh_ctor, num_partitions_of in CT. cbn [bind] in CT. rewrite RM in CT. cbn [bind] in CT.
    apply bind_inv in CT as (ep' & E1 & CT). apply bind_inv in CT as (pm' & E2 & CT). injection CT as E3 E4. subst md0 pm'. split; [reflexivity|]. rewrite EP in E1. injection E1 as <-.
    unfold partition in E2. apply bind_inv in E2 as (x & E2 & E3). apply bind_inv in E3 as (y & _ & E3). injection E3 as ->. now rewrite <- EM. }
  destruct (PT 0 ltac:(lia)) as (-> & _). rewrite EM in *. clear CF. split; [reflexivity|].
  destruct (C76_mesh_constructor R 0%R iter metis (in_npart inp) (boundary_names inp) mf n MW Hn AO) as (md' & RM' & H1 & H2 & _).
  rewrite RM in RM'. injection RM' as <-. rewrite EM in *.
  assert (IN : intended metis n m ep).
  { destruct (Z.eq_dec n 1) as [->|N2].
    - left. split; [reflexivity|]. unfold elem_partition_of in EP. cbn in EP. injection EP as <-.
      assert (NE : 0 <= gm_num_elems m). { destruct (C72_mesh_read R (boundary_names inp) mf MW) as (md' & RM' & MW' & _). rewrite RM in RM'. injection RM' as <-. rewrite EM in MW'. apply (wf_ne m MW'). }
      split; [now rewrite zlen_vec|]. intros e He. now apply rd_zero.
    - right. split; [lia|]. unfold elem_partition_of in EP. destruct (Z.ltb_spec 1 n); [|lia]. destruct (metis m n) as [ep'|] eqn:ME; [|discriminate EP]. injection EP as <-.
      split; [reflexivity|]. apply MV; [lia|exact ME]. }
  destruct (H2 ep IN) as (RW & _). split; [exact RW|]. intros r Hr. now apply PT.
Qed.

(** * The solver on [n] ranks *)

(** main.cpp 26-100 up to the initialisation: every rank starts up (C85), allocates
    its memory and executes the set-up kernels (C88).  [items]: what it will do now,
    with its device memory [M1]: initialise the solution and take the steps of the
    time loop.  Free choices: hash-set iteration, team sizes and the assignment of
    iterations to threads in every launch, memory layout, loop order when packing
    messages, previous contents of memory. *)
Definition launched (inputs : string -> option input) (meshes : string -> option (mesh_file R)) (argv : list string)
  (metis : gmesh R -> Z -> option (list Z)) (n : Z) (pm : Z -> pmesh R) (D : Z -> rdata) (order : Z -> nat -> Z -> Z -> list Z) (items : list ditem) (M1 : Z -> mem) : Prop :=
  exists iter junk cfg md ep h f ord pord jk lay sch ts N,
    let s := elements_of (cf_dim cfg) in
    let bt := cf_basis cfg in let p := cf_order cfg in let m := md_mesh md in let gamma := ph_gamma (cf_phys cfg) in
    (forall r, any_order (iter r)) /\
    (forall r, 0 <= r < n -> main_start inputs meshes argv (iter r) metis (junk r) n r = Ok (Some (cfg, md, pm r))) /\
    elem_partition_of metis n m = Ok ep /\
    devices_set_up s bt p m pm n h f M1 /\ inner_loops_ok pm n ord pord /\
    initial_tasks s bt p m pm n (cf_ic cfg) (cf_phys cfg) M1 ts /\
    (forall k r, 0 <= r < n -> thread_assignment (fst (sch k r)) (snd (sch k r))) /\
    (forall r k i c, Permutation (order r k i c) (zseq c)) /\
    num_iterations (cf_end cfg) (cf_dt cfg) = Ok N /\
    D = tables s bt p pm gamma (cf_flux cfg) h f ord pord jk /\
    items = Kernels ts :: march_items D lay (fun r => view3 viM (M1 r)) (repeat (cf_stepper cfg, B2R (cf_dt cfg)) (Z.to_nat N)) sch.

(** The input file describes the case [cfg] in two dimensions on the good mesh [m],
    and the discontinuous Galerkin solution of the case stays physical: there is one
    file - that of the mesh, the final time and the solution - such that on any
    number of ranks, with any partition, the run ends whatever the schedule, and
    saving and converting what it leaves on the devices gives exactly this file. *)
Theorem C91_program_quads : forall inputs meshes argv inp m cfg N u,
  reads inputs meshes argv inp m -> asks_for inp cfg -> enough_data inp cfg -> cf_dim cfg = 2 -> cf_physics cfg = Euler ->
  num_iterations (cf_end cfg) (cf_dt cfg) = Ok N ->
  let bt := cf_basis cfg in let p := cf_order cfg in let gamma := ph_gamma (cf_phys cfg) in let dt := B2R (cf_dt cfg) in
  let steps := repeat (cf_stepper cfg, dt) (Z.to_nat N) in
  good_quads m -> basis_for EQuad bt -> supported bt p -> order_ok p -> (1 < gamma)%R ->
  starts_as 2 (cf_ic cfg) (cf_phys cfg) 0 u -> small m (nfun bt p) 4 -> quad_physical m bt p gamma (cf_flux cfg) u steps ->
  exists c, quad_solution m bt p gamma (cf_flux cfg) u steps c /\
    forall n metis pm D order v0 items M1, 1 <= n -> parts_asked inp n -> metis_valid metis m n ->
    launched inputs meshes argv metis n pm D order items M1 ->
    always_ends n pm D order v0 items M1 (fun M' =>
      forall g, output m (nfun bt p) 4 (final_time (cf_stepper cfg) dt (Z.to_nat N)) n pm (fun r => view3 vUc (M' r)) g <->
                g = Ok (solution_file m (nfun bt p) 4 (INR (Z.to_nat N) * dt)%R c)).
Proof.
  intros inputs meshes argv inp m cfg N u RE AF _ D2 EU EN bt p gamma dt steps GQ BF Sup Op Gm SA SM QP.
  assert (QS : exists c, quad_solution m bt p gamma (cf_flux cfg) u steps c).
  { destruct QP as (nq & P & W & fp & fw & nq2 & P2 & W2 & EQ & EFQ & EQ2 & iM & c0 & HI & PJ & SP).
    exists (dg_march (quad_scheme bt p m gamma (cf_flux cfg) nq P W (p + 1) fp fw) m iM steps c0), nq, P, W, fp, fw, nq2, P2, W2. split; [exact EQ|]. split; [exact EFQ|]. split; [exact EQ2|].
    exists iM, c0. split; [exact HI|]. split; [exact PJ|]. reflexivity. }
  destruct QS as (c & QS). exists c. split; [exact QS|].
  intros n metis pm D order v0 items M1 Hn PA MV (iter & junk & cfg0 & md & ep & h & f & ord & pord & jk & lay & sch & ts & N0 & H). cbv zeta in H.
  destruct H as (AO & MS & EP & DS & IL & IT & TA & ORD & EN0 & ED & EI).
  destruct (startup_inv inputs meshes argv metis n inp m cfg iter junk cfg0 md pm ep Hn RE AF EU PA MV AO MS EP) as (-> & EM & WF & PT). rewrite EM in *.
  rewrite D2 in DS, IT, ED. change (elements_of 2) with EQuad in DS, IT, ED. rewrite EN in EN0. injection EN0 as <-.
  fold bt p gamma dt in DS, IT, ED. fold dt in EI. fold steps in EI.
  destruct (C90_asynchronous_run iter n m ep pm bt p gamma (cf_flux cfg) (cf_ic cfg) (cf_phys cfg) u steps h f ord pord jk lay sch order v0 M1 ts WF PT GQ BF Sup Op Gm SM SA QP DS IL IT TA ORD)
    as (c' & QS' & AE). rewrite <- ED in AE. rewrite <- EI in AE. revert AE. apply always_ends_imp. intros M' HO g. rewrite final_time_sum.
  assert (Hnb : 0 < nfun bt p) by (unfold nfun, order_ok in *; apply Z.pow_pos_nonneg; [lia|destruct bt; cbn; lia]).
  destruct GQ as [FV FD SQ CF Hne Hall]. assert (D' := SQ). destruct D' as ((D1 & D3) & _). cbn in D1, D3.
  apply (output_of iter n m ep); auto; try lia; [exact (small_fits iter n m ep pm _ _ WF PT ltac:(lia) ltac:(lia) SM)|].
  intros r le e j k Hr Re Hj Hk. rewrite (HO r le e j k Hr Re Hj Hk).
  destruct QS as (nq & P & W & fp & fw & nq2 & P2 & W2 & EQ & EF & EQ2 & QS), QS' as (nq' & P' & W' & fp' & fw' & nq2' & P2' & W2' & EQ' & EF' & EQ2' & QS').
  rewrite EQ in EQ'. injection EQ' as <- <- <-. rewrite EF in EF'. injection EF' as <- <-. rewrite EQ2 in EQ2'. injection EQ2' as <- <- <-.
  apply (dg_unique iter n m ep EQuad bt p (quad_scheme bt p m gamma (cf_flux cfg) nq P W (p + 1) fp fw) (PropDG.mass_matrix bt p m nq2 P2 W2) u steps c' c WF eq_refl eq_refl QS' QS); auto.
  exact (SetupProof.owned_elem 0%R iter n m ep pm WF PT r le e Hr Re).
Qed.
Print Assumptions C91_program_quads.

(** The same for hexahedra. *)
Theorem C91_program_hexahedra : forall inputs meshes argv inp m cfg N u,
  reads inputs meshes argv inp m -> asks_for inp cfg -> enough_data inp cfg -> cf_dim cfg = 3 -> cf_physics cfg = Euler ->
  num_iterations (cf_end cfg) (cf_dt cfg) = Ok N ->
  let bt := cf_basis cfg in let p := cf_order cfg in let gamma := ph_gamma (cf_phys cfg) in let dt := B2R (cf_dt cfg) in
  let steps := repeat (cf_stepper cfg, dt) (Z.to_nat N) in
  good_hexes m -> basis_for EHex bt -> supported bt p -> order_ok p -> (1 < gamma)%R ->
  starts_as 3 (cf_ic cfg) (cf_phys cfg) 0 u -> small m (nfun bt p) 5 -> hex_physical m bt p gamma (cf_flux cfg) u steps ->
  exists c, hex_solution m bt p gamma (cf_flux cfg) u steps c /\
    forall n metis pm D order v0 items M1, 1 <= n -> parts_asked inp n -> metis_valid metis m n ->
    launched inputs meshes argv metis n pm D order items M1 ->
    always_ends n pm D order v0 items M1 (fun M' =>
      forall g, output m (nfun bt p) 5 (final_time (cf_stepper cfg) dt (Z.to_nat N)) n pm (fun r => view3 vUc (M' r)) g <->
                g = Ok (solution_file m (nfun bt p) 5 (INR (Z.to_nat N) * dt)%R c)).
Proof.
  intros inputs meshes argv inp m cfg N u RE AF _ D2 EU EN bt p gamma dt steps GQ BF Sup Op Gm SA SM QP.
  assert (QS : exists c, hex_solution m bt p gamma (cf_flux cfg) u steps c).
  { destruct QP as (nq & P & W & fp & fw & nq2 & P2 & W2 & EQ & EFQ & EQ2 & iM & c0 & HI & PJ & SP).
    exists (dg_march (hex_scheme bt p m gamma (cf_flux cfg) nq P W ((p + 2) * (p + 2)) fp fw) m iM steps c0), nq, P, W, fp, fw, nq2, P2, W2. split; [exact EQ|]. split; [exact EFQ|]. split; [exact EQ2|].
    exists iM, c0. split; [exact HI|]. split; [exact PJ|]. reflexivity. }
  destruct QS as (c & QS). exists c. split; [exact QS|].
  intros n metis pm D order v0 items M1 Hn PA MV (iter & junk & cfg0 & md & ep & h & f & ord & pord & jk & lay & sch & ts & N0 & H). cbv zeta in H.
  destruct H as (AO & MS & EP & DS & IL & IT & TA & ORD & EN0 & ED & EI).
  destruct (startup_inv inputs meshes argv metis n inp m cfg iter junk cfg0 md pm ep Hn RE AF EU PA MV AO MS EP) as (-> & EM & WF & PT). rewrite EM in *.
  rewrite D2 in DS, IT, ED. change (elements_of 3) with EHex in DS, IT, ED. rewrite EN in EN0. injection EN0 as <-.
  fold bt p gamma dt in DS, IT, ED. fold dt in EI. fold steps in EI.
  destruct (C90_asynchronous_run_hexahedra iter n m ep pm bt p gamma (cf_flux cfg) (cf_ic cfg) (cf_phys cfg) u steps h f ord pord jk lay sch order v0 M1 ts WF PT GQ BF Sup Op Gm SM SA QP DS IL IT TA ORD)
    as (c' & QS' & AE). rewrite <- ED in AE. rewrite <- EI in AE. revert AE. apply always_ends_imp. intros M' HO g. rewrite final_time_sum.
  assert (Hnb : 0 < nfun bt p) by (unfold nfun, order_ok in *; apply Z.pow_pos_nonneg; [lia|destruct bt; cbn; lia]).
  destruct GQ as [FV FD FH CF Hne Hall]. assert (D' := FH). destruct D' as ((D1 & D3) & _). change (nfun (geom_basis EHex) 1) with 8 in D3. cbn in D1.
  apply (output_of iter n m ep); auto; try lia; [exact (small_fits iter n m ep pm _ _ WF PT ltac:(lia) ltac:(lia) SM)|].
  intros r le e j k Hr Re Hj Hk. rewrite (HO r le e j k Hr Re Hj Hk).
  destruct QS as (nq & P & W & fp & fw & nq2 & P2 & W2 & EQ & EF & EQ2 & QS), QS' as (nq' & P' & W' & fp' & fw' & nq2' & P2' & W2' & EQ' & EF' & EQ2' & QS').
  rewrite EQ in EQ'. injection EQ' as <- <- <-. rewrite EF in EF'. injection EF' as <- <-. rewrite EQ2 in EQ2'. injection EQ2' as <- <- <-.
  apply (dg_unique iter n m ep EHex bt p (hex_scheme bt p m gamma (cf_flux cfg) nq P W ((p + 2) * (p + 2)) fp fw) (mass_matrix3 bt p m nq2 P2 W2) u steps c' c WF eq_refl eq_refl QS' QS); auto.
  exact (SetupProof.owned_elem 0%R iter n m ep pm WF PT r le e Hr Re).
Qed.
Print Assumptions C91_program_hexahedra.

(** Such a start exists for every input file C86 accepts, for example with teams of
    [T] threads taking turns. *)
Theorem C91_starts : forall inputs meshes argv metis n inp m cfg ep N T order,
  1 <= n -> reads inputs meshes argv inp m -> asks_for inp cfg -> cf_physics cfg = Euler -> quadrature_known inp ->
  parts_asked inp n -> intended metis n m ep -> enough_faces m ep n -> num_iterations (cf_end cfg) (cf_dt cfg) = Ok N ->
  let bt := cf_basis cfg in let p := cf_order cfg in
  (cf_dim cfg = 2 /\ good_quads m /\ basis_for EQuad bt \/ cf_dim cfg = 3 /\ good_hexes m /\ basis_for EHex bt) -> supported bt p -> order_ok p ->
  0 < T -> (forall r k i c, Permutation (order r k i c) (zseq c)) ->
  exists pm D items M1, launched inputs meshes argv metis n pm D order items M1.
Proof.
  intros inputs meshes argv metis n inp m cfg ep N T order Hn RE AF EU QK PA IN EF EN bt p CASES Sup Op HT ORD.
  set (iter := fun (_ : Z) (l : list Z) => l). assert (AO : forall r, any_order (iter r)) by (intros r l; apply Permutation_refl).
  assert (D23 : cf_dim cfg = 2 \/ cf_dim cfg = 3) by (destruct CASES as [(-> & _)|(-> & _)]; auto).
  assert (BS : cf_basis cfg <> LegendreSeg).
  { fold bt. destruct CASES as [(_ & _ & BF)|(_ & _ & BF)]; intros E; rewrite E in BF; destruct BF as [B|B]; discriminate B. }
  destruct (startup_completes inputs meshes argv metis n inp m cfg ep iter (0%R, 0%R) Hn RE AF D23 BS EU QK PA IN EF AO) as (md & pm & EM & WF & PT & EP & MS).
  assert (RD : ready (elements_of (cf_dim cfg)) bt p 1 m).
  { destruct CASES as [(-> & [FV FD SQ CF _ _] & BF)|(-> & [FV FD FH CF _ _] & BF)]; constructor; auto; try lia; try apply SQ; try apply FH; now apply convex_untangled. }
  destruct (devices_start iter n m ep pm _ bt p (cf_ic cfg) (cf_phys cfg) T HT WF PT RD) as (h & f & M1 & ts & DS & IT).
  do 4 eexists. exists iter, (fun _ => (0%R, 0%R)), cfg, md, ep, h, f, (any_ord pm), any_pord, (fun _ => zero1), LRight, (fun _ _ => (T, in_turns T)), ts, N. cbv zeta. rewrite EM.
  split; [exact AO|]. split; [exact MS|]. split; [exact EP|]. split; [exact DS|]. split; [apply any_ok|]. split; [exact IT|].
  split; [intros k r _; apply in_turns_ok; exact HT|]. split; [exact ORD|]. split; [exact EN|]. split; reflexivity.
Qed.
Print Assumptions C91_starts.

From Verif Require Import PropHexDemo PropHexCase.

Definition case_ep (n : Z) : list Z := if n =? 2 then [0; 1; 0; 1] else [0; 0; 0; 0].
Lemma case_intended n : n = 1 \/ n = 2 -> intended case_metis n demo_rmesh (case_ep n).
Proof.
  intros [-> | ->]; [left|right].
  - split; [reflexivity|]. split; [reflexivity|]. intros e He. change (gm_num_elems demo_rmesh) with 4 in He. assert (C : e = 0 \/ e = 1 \/ e = 2 \/ e = 3) by lia. destruct C as [->|[->|[->| ->]]]; reflexivity.
  - split; [lia|]. split; [reflexivity|]. split; [reflexivity|]. repeat constructor; lia.
Qed.
Lemma case_enough n : n = 1 \/ n = 2 -> enough_faces demo_rmesh (case_ep n) n.
Proof.
  assert (K : forall ep f e r, (rd2 (gm_IF demo_rmesh) f 0 = Ok e \/ rd2 (gm_IF demo_rmesh) f 3 = Ok e) -> rd ep e = Ok r -> face_touches demo_rmesh ep f r) by (intros ep f e r H O; exists e; split; [exact H|exact O]).
  assert (T : forall a b c : Z, a <> b -> a <> c -> b <> c -> NoDup [a; b; c]).
  { intros a b c H1 H2 H3. constructor; [cbn; intuition congruence|]. constructor; [cbn; intuition congruence|]. constructor; [cbn; tauto|constructor]. }
  intros [-> | ->] r Hr.
  - exists [0; 1; 2]. split; [apply T; lia|]. split; [cbn; lia|]. assert (r = 0) as -> by lia. intros f [<-|[<-|[<-|[]]]]; eapply K; try (now left); reflexivity.
  - assert (C : r = 0 \/ r = 1) by lia. destruct C as [-> | ->].
    + exists [0; 1; 2]. split; [apply T; lia|]. split; [cbn; lia|]. intros f [<-|[<-|[<-|[]]]]; eapply K; try (now left); reflexivity.
    + exists [0; 1; 3]. split; [apply T; lia|]. split; [cbn; lia|]. intros f [<-|[<-|[<-|[]]]]; eapply K; try (now right); reflexivity.
Qed.
Lemma case_admissible : admissible 2 2 (ph_IC (cf_phys case_config)).
Proof. rewrite case_phys. unfold admissible, pressure, density, energy, vdot, velocity, momentum. rewrite rsum_2. unfold density. cbn. lra. Qed.

(** One case in two dimensions: on one rank and on two, runs start, always end, and
    give one and the same file. *)
Example C91_demo : exists file, forall n, n = 1 \/ n = 2 -> exists pm D items M1 s,
  launched case_inputs case_meshes ["solver"; "-input"; "case.toml"] case_metis n pm D backwards items M1 /\
  areaches n pm D backwards zero2 (astart items M1) s /\ afinished n s /\
  output demo_rmesh 9 4 (final_time ForwardEuler (B2R (ddiv (dint 1) (dint 2))) 1) n pm (fun r => view3 vUc (a_mem (s_rank s r))) (Ok file).
Proof.
  destruct C84_demo as (H1 & H2 & H3 & H4 & H5 & H6 & H7 & H8 & H9 & H10 & H11 & H12 & H13 & H14 & H15 & H16 & H17 & _).
  destruct (C91_program_quads case_inputs case_meshes ["solver"; "-input"; "case.toml"] case_input demo_rmesh case_config 1 _ H1 H2 H3 H4 H5 H10 H11 H12 H13 H14 H15 H16 H17) as (c & _ & R).
  { apply uniform_quads; auto; [cbn; lia|exact case_admissible]. }
  eexists. intros n Hn.
  destruct (C91_starts case_inputs case_meshes ["solver"; "-input"; "case.toml"] case_metis n case_input demo_rmesh case_config (case_ep n) 1 3 backwards) as (pm & D & items & M1 & L); auto; try lia.
  - intros q Q; discriminate Q.
  - destruct Hn as [-> | ->]; assumption.
  - now apply case_intended.
  - now apply case_enough.
  - exact backwards_ok.
  - destruct (R n case_metis pm D backwards zero2 items M1 ltac:(lia) ltac:(destruct Hn as [-> | ->]; assumption) ltac:(destruct Hn as [-> | ->]; assumption) L) as (_ & _ & _ & EN & FI).
    destruct (EN _ (ar_refl _ _ _ _ _ _)) as (s & _ & RE & F). destruct (FI s RE F) as (_ & HO).
    exists pm, D, items, M1, s. split; [exact L|]. split; [exact RE|]. split; [exact F|]. apply HO. reflexivity.
Qed.

(** The same in three dimensions. *)
Example C91_hexahedra_demo : exists file, forall n, n = 1 \/ n = 2 -> exists pm D items M1 s,
  launched cube_inputs cube_meshes ["solver"; "-input"; "case.toml"] case_metis n pm D backwards items M1 /\
  areaches n pm D backwards zero2 (astart items M1) s /\ afinished n s /\
  output four_cubes 8 5 (final_time ForwardEuler (B2R (ddiv (dint 1) (dint 2))) 1) n pm (fun r => view3 vUc (a_mem (s_rank s r))) (Ok file).
Proof.
  destruct (C86_demo 1 (or_introl eq_refl)) as (_ & H2 & H3 & H4 & H5 & H6 & _ & _ & _ & H10 & H11 & H12 & H13 & H14 & H15 & H16 & H17 & H18 & H19).
  destruct (C91_program_hexahedra cube_inputs cube_meshes ["solver"; "-input"; "case.toml"] cube_input four_cubes cube_config 1 _ H2 H3 H4 H11 H5 H10 H12 H13 H15 H16 H17 H18 H19 H14) as (c & _ & R).
  eexists. intros n Hn.
  assert (MV : metis_valid case_metis four_cubes n).
  { intros ep N2 E. destruct Hn as [-> | ->]; [lia|]. injection E as <-. split; [reflexivity|]. repeat constructor; lia. }
  assert (PA : parts_asked cube_input n) by now left.
  destruct (C91_starts cube_inputs cube_meshes ["solver"; "-input"; "case.toml"] case_metis n cube_input four_cubes cube_config (cube_ep n) 1 3 backwards) as (pm & D & items & M1 & L); auto; try lia.
  - now apply cube_intended.
  - now apply cube_enough.
  - exact backwards_ok.
  - destruct (R n case_metis pm D backwards zero2 items M1 ltac:(lia) PA MV L) as (_ & _ & _ & EN & FI).
    destruct (EN _ (ar_refl _ _ _ _ _ _)) as (s & _ & RE & F). destruct (FI s RE F) as (_ & HO).
    exists pm, D, items, M1, s. split; [exact L|]. split; [exact RE|]. split; [exact F|]. apply HO. reflexivity.
Qed.
