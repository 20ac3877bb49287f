(** PropDouble.v -- C98: in binary64, with straight quadrilaterals and
    Lax-Friedrichs fluxes, the result does not depend on the number of ranks. *)
From Coq Require Import ZArith Reals List Lia Bool.
From Flocq Require Import Core BinarySingleNaN.
From Verif Require Import Base RBase MeshModel MeshSpec MeshProof PropMesh ShapeModel ShapeProof PropShape
  SolverModel SetupModel SolverSpec PhysModel LinAlgProof ArithModel ArithProof ArithSetup ArithRun PropArith ArithLibrary ArithDouble.
Import ListNotations.
Local Open Scope Z_scope.

(** * The gradients of the geometric basis of an edge *)

(** basis/tools.cpp 8-24 (more than one node) *)
Definition dnodes (start stop : d64) (nnodes i : Z) : d64 :=
  let dx := ddiv (dminus stop start) (dminus (dint nnodes) (dint 1)) in dplus start (dmult (dint i) dx).
(** basis/tools.cpp 130-149 *)
Definition dlagrange_grad (x : d64) (nnodes : Z) (xnodes : Z -> d64) (i : Z) : d64 :=
  zloop nnodes (fun j g => if i =? j then g else
    dplus g (zloop nnodes (fun k prod =>
      if i =? k then prod
      else if j =? k then dmult prod (ddiv (dint 1) (dminus (xnodes i) (xnodes k)))
      else dmult prod (ddiv (dminus x (xnodes k)) (dminus (xnodes i) (xnodes k)))) (dint 1))) (dint 0).
(** basis/basis.cpp 31-46 as called by 306-325: geometric order [g]. *)
Definition edge_gradients (g : Z) (x : d64) : Z -> Z -> d64 :=
  fun i d => if d =? 0 then dlagrange_grad x (g + 1) (dnodes (dint (-1)) (dint 1) (g + 1)) i else dint 0.

(** Linear edges: -1/2 and 1/2 at every point, even at a NaN. *)
Lemma linear_gradients x : edge_gradients 1 x 1 0 = dopp (edge_gradients 1 x 0 0).
Proof.
  cbv -[dplus dminus dmult ddiv dint dopp]. apply B2SF_inj. vm_compute. reflexivity.
Qed.

(** The nodes of an interior face, seen from its two elements, are the same in
    opposite order. *)
Definition edges_shared {A} (m : gmesh A) : Prop :=
  forall f eL kL oL eR kR oR, has_side m f false eL kL oL -> has_side m f true eR kR oR ->
  forall i, 0 <= i <= 1 ->
    rd (gm_eind m) (eL * gm_npe m + face_node EQuad kL 1 i) = rd (gm_eind m) (eR * gm_npe m + face_node EQuad kR 1 (1 - i)).

Lemma dplus_0 x : eqz (dplus (dint 0) x) x.
Proof. rewrite zero64. destruct x as [s|s| |s mx ex Hx]; [right; destruct s; cbn; eauto|left; reflexivity..]. Qed.

(** Two terms with opposite factors: swapping the numbers changes the sign. *)
Lemma swap_sum xa xb c : 
  eqz (dplus (dplus (dint 0) (dmult xb c)) (dmult xa (dopp c))) (dopp (dplus (dplus (dint 0) (dmult xa c)) (dmult xb (dopp c)))).
Proof.
  rewrite !dmult_opp_r.
  eapply eqz_trans; [apply dplus_eqz; [apply dplus_0|apply eqz_refl]|].
  apply eqz_sym. eapply eqz_trans; [apply dopp_eqz, dplus_eqz; [apply dplus_0|apply eqz_refl]|].
  eapply eqz_trans; [apply eqz_sym, dplus_opp|]. rewrite dopp_opp, dplus_comm. apply eqz_refl.
Qed.

Lemma dmult_eqz_l x x' y : eqz x x' -> eqz (dmult x y) (dmult x' y).
Proof.
  intros [->|(s & s' & -> & ->)]; [now left|]. unfold dmult. destruct y; cbn [Bmult]; [right; eauto|now left|now left|right; eauto].
Qed.
Lemma dint_m1 : dint (-1) = dopp (dint 1).
Proof. apply B2SF_inj. vm_compute. reflexivity. Qed.

Section Quads.
Context (C : kcase double) (m : gmesh d64).
Hypothesis QUAD : c_shape double C = EQuad.
Hypothesis LIN : c_g double C = 1.
Hypothesis LF : c_flux double C = LaxFriedrichs.
Context (x : Z -> d64).
Hypothesis GRAD : forall iq, c_fgrad double C iq = edge_gradients 1 (x iq).

Lemma lf_same_flux Nn Nn' : eqz (Nn 0) (Nn' 0) -> eqz (Nn 1) (Nn' 1) -> same_flux double C Nn Nn'.
Proof.
  intros H0 H1 UL UR F0 F0' Q0 Q0'. rewrite QUAD, LF. cbn [space_dim knumflux same_res].
  eapply agree_trans; [apply (lax_zero_sign _ UL UR Nn Nn' F0 Q0 H0 H1)|].
  apply (klax_agree double 2); [now left|apply agree_refl..].
Qed.

Lemma edge_normals_eqz f eL kL oL eR kR oR iq d : has_side m f false eL kL oL -> has_side m f true eR kR oR ->
  (forall i, 0 <= i <= 1 ->
    rd (gm_eind m) (eL * gm_npe m + face_node EQuad kL 1 i) = rd (gm_eind m) (eR * gm_npe m + face_node EQuad kR 1 (1 - i))) ->
  eqz (side_normal double (kokkos double) m (c_shape double C) (c_g double C) (c_fgrad double C) f false iq d)
      (side_normal double (kokkos double) m (c_shape double C) (c_g double C) (c_fgrad double C) f true iq d).
Proof.
  intros (L1 & L2 & _) (R1 & R2 & _) SH.
  assert (X : forall d, eqz (kgemm double (kokkos double) 2 1 2 (dint 1) (fun d p => gnode double m eR (face_node EQuad kR 1 p) d) (edge_gradients 1 (x iq)) false (fun _ _ => dint 0) d 0)
     (dopp (kgemm double (kokkos double) 2 1 2 (dint 1) (fun d p => gnode double m eL (face_node EQuad kL 1 p) d) (edge_gradients 1 (x iq)) false (fun _ _ => dint 0) d 0))).
  { intros d'. unfold kgemm. destruct (inb 2 d'); cbn [andb inb]; [|right; exists false, true; split; reflexivity].
    change (inb 1 0) with true. cbn iota. cbn [l_entry kokkos]. unfold kk_entry.
    assert (Z2 : forall {S} (b : Z -> S -> S) s, zloop 2 b s = b 1 (b 0 s)) by reflexivity.
    rewrite !Z2. cbn [fadd fmul f0 double]. rewrite (linear_gradients (x iq)).
    assert (E : forall i, 0 <= i <= 1 -> gnode double m eR (face_node EQuad kR 1 i) d' = gnode double m eL (face_node EQuad kL 1 (1 - i)) d').
    { intros i Hi. unfold gnode. change (num double) with d64. rewrite (SH (1 - i)) by lia. now replace (1 - (1 - i)) with i by lia. }
    rewrite (E 0), (E 1) by lia. change (1 - 0) with 1. change (1 - 1) with 0. apply swap_sum. }
  unfold side_normal. rewrite QUAD, LIN. change (0 + 1) with 1. change (3 + 1) with 4. cbv beta iota zeta.
  change (num double) with d64. change (0 + 1) with 1 in L2. change (3 + 1) with 4 in R2. rewrite L1, L2, R1, R2, GRAD.
  unfold knormal. cbn [face_nodes_count]. change (1 + 1) with 2. cbv zeta.
  destruct (d =? 0); cbn [f1 fm1 fmul double].
  - eapply eqz_trans; [|apply eqz_sym, dmult_eqz_r, X]. rewrite dint_m1, dmult_opp_l, dmult_opp_r, dopp_opp. apply eqz_refl.
  - eapply eqz_trans; [|apply eqz_sym, dmult_eqz_r, X]. rewrite dint_m1. repeat (rewrite dmult_opp_l || rewrite dmult_opp_r || rewrite dopp_opp). apply eqz_refl.
Qed.

Lemma edge_normals_match f eL kL oL eR kR oR : has_side m f false eL kL oL -> has_side m f true eR kR oR ->
  (forall i, 0 <= i <= 1 ->
    rd (gm_eind m) (eL * gm_npe m + face_node EQuad kL 1 i) = rd (gm_eind m) (eR * gm_npe m + face_node EQuad kR 1 (1 - i))) ->
  normals_match double (kokkos double) C m f.
Proof. intros HL HR SH iq Hq. apply lf_same_flux; eapply edge_normals_eqz; eauto. Qed.
End Quads.

(** * The theorem *)

(** Binary64; quadrilaterals with straight edges, Lax-Friedrichs fluxes, any
    order, either stepper: runs on any two numbers of ranks and assignments of
    the elements end with the same bits in every element. *)
Theorem C98_quadrilaterals : forall (C : kcase double) (m : gmesh d64) (x : Z -> d64) steps,
  case_fits double C m -> c_shape double C = EQuad -> c_g double C = 1 -> c_flux double C = LaxFriedrichs ->
  (forall iq, c_fgrad double C iq = edge_gradients 1 (x iq)) -> edges_shared m ->
  forall iter1 n1 ep1 pm1 U1 iter2 n2 ep2 pm2 U2,
  computes double (kokkos double) C iter1 n1 m ep1 steps pm1 U1 -> computes double (kokkos double) C iter2 n2 m ep2 steps pm2 U2 ->
  same_bits double C n1 n2 pm1 pm2 U1 U2.
Proof.
  intros C m x steps CF Q G1 LF GR SH iter1 n1 ep1 pm1 U1 iter2 n2 ep2 pm2 U2 R1 R2.
  apply (C97_partitions double (kokkos double) C m steps (kokkos_reads double) CF iter1 n1 ep1 pm1 U1 iter2 n2 ep2 pm2 U2 R1 R2).
  intros f Hf. right. destruct R1 as (WF & _).
  pose proof (file_side double C iter1 n1 m ep1 WF f false Hf) as SL. pose proof (file_side double C iter1 n1 m ep1 WF f true Hf) as SR.
  exact (edge_normals_match C m Q G1 LF x GR f _ _ _ _ _ _ SL SR (SH f _ _ _ _ _ _ SL SR)).
Qed.
Print Assumptions C98_quadrilaterals.

(** * Non-vacuity: four quadrilaterals on one and on three ranks *)
Ltac destruct_or H := cbn [In] in H; repeat match type of H with _ \/ _ => destruct H as [H|H] | False => destruct H end.
Definition dmesh : gmesh d64 :=
  mkGMesh 2 4 9 4 4 (gm_eind demo_mesh) (map (map (fun z => ddiv (dint z) (dint 10))) (gm_coord demo_mesh)) (gm_IF demo_mesh).
(** Order zero, one point, gas at rest; face gradients of the code. *)
Definition dtab : vtable d64 :=
  mkVT d64 1 (fun _ => dint 4) (fun _ _ => dint 1) (fun _ _ _ => dint 0) (fun _ _ => ddiv (dint 1) (dint 4))
    (fun _ k d => let s := if d =? 0 then Z.odd k else (1 <? k) in ddiv (dint (if s then 1 else -1)) (dint 4)).
Definition dcase : kcase double :=
  mkKC double EQuad 1 1 4 1 dtab dtab dtab (fun _ _ _ => dint 1) (fun _ => dint 2) (fun _ => edge_gradients 1 (dint 0))
    (ddiv (dint 14) (dint 10)) LaxFriedrichs StepRK4 (ddiv (dint 1) (dint 10))
    (fun x _ s => if s =? 0 then dplus (dint 1) (x 0) else if s =? 3 then ddiv (dint 5) (dint 2) else dint 0).
Lemma dmesh_sides f sd e k o : has_side dmesh f sd e k o ->
  In (f, sd, e, k, o) [(0,false,0,1,0); (0,true,1,3,1); (1,false,2,1,0); (1,true,3,3,1); (2,false,0,2,0); (2,true,2,0,1); (3,false,1,2,0); (3,true,3,0,1)].
Proof.
  intros (H1 & H2 & H3). unfold rd2 in *. destruct (rd (gm_IF dmesh) f) as [row|] eqn:E; [|discriminate].
  pose proof (rd_in_range _ _ _ E) as Rg. change (zlen (gm_IF dmesh)) with 4%Z in Rg.
  assert (Cf : f = 0 \/ f = 1 \/ f = 2 \/ f = 3) by lia.
  destruct Cf as [-> | [-> | [-> | ->]]]; injection E as <-; destruct sd; injection H1 as <-; injection H2 as <-; injection H3 as <-; cbn; tauto.
Qed.
Lemma dcase_fits : case_fits double dcase dmesh.
Proof.
  split; try reflexivity; try (cbn; lia).
  - intros f sd e k o H. apply dmesh_sides in H. cbn [In] in H. destruct_or H; injection H as E1 E2 E3 E4 E5; subst; cbn; lia.
  - intros f sd e k o f' sd' o' H H'. apply dmesh_sides in H, H'. cbn [In] in H, H'.
    destruct_or H; injection H as E1 E2 E3 E4 E5; subst; destruct_or H'; first [discriminate H'|injection H'; intros; subst; auto].
  - intros x x' u u' H i _. cbn [c_ic dcase]. now rewrite (H 0 ltac:(cbn; lia)).
Qed.
Lemma dmesh_shared : edges_shared dmesh.
Proof.
  intros f eL kL oL eR kR oR HL HR i Hi. apply dmesh_sides in HL, HR. cbn [In] in HL, HR.
  assert (Ci : i = 0 \/ i = 1) by lia.
  destruct_or HL; try discriminate HL; injection HL as E1 E2 E3 E4; subst; destruct_or HR; try discriminate HR;
    injection HR; intros; subst; destruct Ci as [-> | ->]; reflexivity.
Qed.
Example C98_demo : exists pm1 U1 pm3 U3,
  computes double (kokkos double) dcase (fun _ l => l) 1 dmesh [0; 0; 0; 0] 5 pm1 U1 /\
  computes double (kokkos double) dcase (fun _ l => rev l) 3 dmesh demo_ep 5 pm3 U3 /\
  same_bits double dcase 1 3 pm1 pm3 U1 U3.
Proof.
  assert (W : mesh_wf dmesh).
  { destruct (run_mesh _ _ _ _ demo_run). split; try assumption.
    cbn [gm_coord gm_dim dmesh demo_mesh map]. repeat (constructor; [reflexivity|]). constructor. }
  assert (W1 : run_wf (fun _ l => l) 1 dmesh [0; 0; 0; 0]).
  { constructor; [exact W| |intros r l; reflexivity]. split; [reflexivity|]. repeat constructor; cbn; lia. }
  assert (W3 : run_wf (fun _ l => rev l) 3 dmesh demo_ep).
  { constructor; [exact W| |intros r l; symmetry; apply Permutation.Permutation_rev]. split; [reflexivity|]. repeat constructor; cbn; lia. }
  destruct (C97_runs double (kokkos double) dcase _ _ _ _ 5 eq_refl W1) as (pm1 & U1 & R1).
  destruct (C97_runs double (kokkos double) dcase _ _ _ _ 5 eq_refl W3) as (pm3 & U3 & R3).
  exists pm1, U1, pm3, U3. split; [exact R1|]. split; [exact R3|].
  exact (C98_quadrilaterals dcase dmesh (fun _ => dint 0) 5 dcase_fits eq_refl eq_refl eq_refl (fun _ => eq_refl) dmesh_shared _ _ _ _ _ _ _ _ _ _ R1 R3).
Qed.
