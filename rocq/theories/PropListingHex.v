(** PropListingHex.v -- C107 for hexahedra. *)
From Coq Require Import ZArith List Lia Reals Lra String Bool Permutation.
From Flocq Require Import BinarySingleNaN.
From Verif Require Import Base RBase MeshModel MeshSpec MeshProof CommProof IOProof4 PropMesh IOModel PropIO PropOutput.
From Verif Require Import ReadModel PropRead PropCtor UtilModel TimeModel ProgramModel PropProgram.
From Verif Require Import LinAlgModel PropLinAlg BasisModel ShapeModel QuadProof ShapeProof PropShape SolverModel SolverSpec SolverMesh SolverFlux PhysModel PhysSpec PhysProof PropPhys PropBasis PropSolver PropNormals StepModel PropIntegral PropStep PropQuad SetupModel SetupSpec SetupProof SetupFaces PropSetup PropMeshRun PropInit PropPost DGSpec DGProof PropDG PropHex PropFree PropHexFree PropTime PropWhole PropTotal PropEnd PropRenumber PropCorner PropCornerHex PropListing.
Import ListNotations.
Local Open Scope Z_scope.
Local Open Scope R_scope.
Open Scope res_scope.

(** [m'] is the mesh [m] of hexahedra written down again: element [e] has the number
    [pe e] and its corners and faces the numbers they get by the turns [r (pe e)] of
    the cube; face [f] has the number [pf f] and its sides are exchanged where
    [turn f]. *)
Record written_again3 (m m' : gmesh R) (pe pf : Z -> Z) (turn : Z -> bool) (r : Z -> list bool) : Prop := {
  wh_ne : gm_num_elems m' = gm_num_elems m;
  wh_nf : gm_nIF m' = gm_nIF m;
  wh_pe : Permutation (map pe (zseq (gm_num_elems m))) (zseq (gm_num_elems m));
  wh_pf : Permutation (map pf (zseq (gm_nIF m))) (zseq (gm_nIF m));
  wh_nodes : forall e i i' d, (0 <= e < gm_num_elems m)%Z -> (0 <= i < 8)%Z -> (0 <= i' < 8)%Z -> (0 <= d < 3)%Z ->
    (forall d, (0 <= d < 3)%Z -> cube_corner i' d = spins (r (pe e)) (cube_corner i) d) -> elem_nodes m' (pe e) i' d = elem_nodes m e i d;
  wh_sides : forall f sd e k o, has_side m f sd e k o -> exists k' o' a, has_side m' (pf f) (xorb sd (turn f)) (pe e) k' o' /\ (0 <= k' < 6)%Z /\ (0 <= o' <= 7)%Z /\ (0 <= a < 4)%Z /\
    (forall s t d, (0 <= d < 3)%Z -> (let '(s', t') := hex_turn a s t in hex_face k' s' t' d) = spins (r (pe e)) (hex_face k s t) d) /\
    (forall s t, hex_turn o' s t = (let '(s', t') := hex_turn o s t in hex_turn a s' t')) }.

Lemma corner_same i j : (0 <= i < 8)%Z -> (0 <= j < 8)%Z -> (forall d, (0 <= d < 3)%Z -> cube_corner i d = cube_corner j d) -> i = j.
Proof.
  intros Hi Hj H. assert (K : forall d, (0 <= d < 3)%Z -> digit 2 d i = digit 2 d j).
  { intros d Hd. specialize (H d Hd). unfold cube_corner in H. apply eq_IZR. lra. }
  pose proof (K 0%Z ltac:(lia)) as K0. pose proof (K 1%Z ltac:(lia)) as K1. pose proof (K 2%Z ltac:(lia)) as K2. clear K H.
  assert (C : (i = 0 \/ i = 1 \/ i = 2 \/ i = 3 \/ i = 4 \/ i = 5 \/ i = 6 \/ i = 7)%Z) by lia. assert (C' : (j = 0 \/ j = 1 \/ j = 2 \/ j = 3 \/ j = 4 \/ j = 5 \/ j = 6 \/ j = 7)%Z) by lia.
  destruct C as [-> | [-> | [-> | [-> | [-> | [-> | [-> | ->]]]]]]], C' as [-> | [-> | [-> | [-> | [-> | [-> | [-> | ->]]]]]]]; try reflexivity; vm_compute in K0, K1, K2; congruence.
Qed.

(** The corner that [j] is turned to. *)
Definition slot (l : list bool) (j : Z) : Z := match List.find (fun i => (fn_spins LagrangeHex 1 l i =? j)%Z) (zseq 8) with Some i => i | None => 0%Z end.
Lemma slot_ok l j : (0 <= j < 8)%Z -> (0 <= slot l j < 8)%Z /\ fn_spins LagrangeHex 1 l (slot l j) = j.
Proof.
  intros Hj. unfold slot. destruct (List.find _ (zseq 8)) as [i|] eqn:E.
  - apply find_some in E. destruct E as (E1 & E2). apply In_zseq in E1. apply Z.eqb_eq in E2. auto.
  - exfalso. pose proof (spins_permute LagrangeHex 1 ltac:(lia) l) as P. unfold permutes in P.
    assert (I : In j (map (fn_spins LagrangeHex 1 l) (zseq 8))) by (apply (Permutation_in _ (Permutation_sym P)); now apply In_zseq).
    apply in_map_iff in I. destruct I as (i & Ei & Hi). pose proof (find_none _ _ E i Hi) as N. cbn beta in N. rewrite Ei, Z.eqb_refl in N. discriminate N.
Qed.
Lemma slot_corner l j d : (0 <= j < 8)%Z -> (0 <= d < 3)%Z -> cube_corner (slot l j) d = spins l (cube_corner j) d.
Proof. intros Hj Hd. destruct (slot_ok l j Hj) as (A & B). rewrite <- (corner_spins l (slot l j) d A Hd). now rewrite B. Qed.
Lemma slot_unique l i i' : (0 <= i < 8)%Z -> (0 <= i' < 8)%Z -> (forall d, (0 <= d < 3)%Z -> cube_corner i' d = spins l (cube_corner i) d) -> slot l i = i'.
Proof.
  intros Hi Hi' H. apply corner_same; [now apply slot_ok|exact Hi'|]. intros d Hd. now rewrite slot_corner, H.
Qed.

Section Mid.
Context (m m' : gmesh R) (pe pf : Z -> Z) (turn : Z -> bool) (r : Z -> list bool) (W : mesh_wf m) (W' : mesh_wf m') (N8 : gm_npe m' = 8%Z) (FV : faces_valid EHex m)
  (WA : written_again3 m m' pe pf turn r).

Definition pf_back (F : Z) : Z := match List.find (fun f => (pf f =? F)%Z) (zseq (gm_nIF m)) with Some f => f | None => 0%Z end.
Definition new_row (F : Z) : list Z :=
  match rd (gm_IF m) (pf_back F) with
  | Ok [eL; fL; oL; eR; fR; oR] => if turn (pf_back F) then [pe eR; fR; oR; pe eL; fL; oL] else [pe eL; fL; oL; pe eR; fR; oR]
  | _ => []
  end.
(** The numbers of [m'], the corners of [m]. *)
Definition midway : gmesh R := mkGMesh (gm_dim m') (gm_num_elems m') (gm_num_nodes m') (gm_nIF m') (gm_npe m')
  (map (fun t => match rd (gm_eind m') (8 * (t / 8) + slot (r (t / 8)%Z) (t mod 8)) with Ok g => g | _ => 0%Z end) (zseq (gm_num_elems m' * 8)))
  (gm_coord m') (map new_row (zseq (gm_nIF m'))).

Lemma pe_in3 e : (0 <= e < gm_num_elems m)%Z -> (0 <= pe e < gm_num_elems m')%Z.
Proof.
  intros He. rewrite (wh_ne _ _ _ _ _ _ WA). apply In_zseq. apply (Permutation_in _ (wh_pe _ _ _ _ _ _ WA)). apply in_map. now apply In_zseq.
Qed.
Lemma pf_in3 f : (0 <= f < gm_nIF m)%Z -> (0 <= pf f < gm_nIF m')%Z.
Proof.
  intros He. rewrite (wh_nf _ _ _ _ _ _ WA). apply In_zseq. apply (Permutation_in _ (wh_pf _ _ _ _ _ _ WA)). apply in_map. now apply In_zseq.
Qed.
Lemma pf_back_ok F : (0 <= F < gm_nIF m')%Z -> (0 <= pf_back F < gm_nIF m)%Z /\ pf (pf_back F) = F.
Proof.
  intros HF. rewrite (wh_nf _ _ _ _ _ _ WA) in HF. unfold pf_back. destruct (List.find _ (zseq (gm_nIF m))) as [f|] eqn:E.
  - apply find_some in E. destruct E as (E1 & E2). apply In_zseq in E1. apply Z.eqb_eq in E2. auto.
  - exfalso. apply In_zseq in HF. apply (Permutation_in _ (Permutation_sym (wh_pf _ _ _ _ _ _ WA))) in HF.
    apply in_map_iff in HF. destruct HF as (i & Ei & Hi). pose proof (find_none _ _ E i Hi) as N. cbn beta in N. rewrite Ei, Z.eqb_refl in N. discriminate N.
Qed.
Lemma pf_back_pf f : (0 <= f < gm_nIF m)%Z -> pf_back (pf f) = f.
Proof.
  intros Hf. destruct (pf_back_ok (pf f) (pf_in3 f Hf)) as (A & B).
  assert (ND : NoDup (map pf (zseq (gm_nIF m)))) by (apply (Permutation_NoDup (Permutation_sym (wh_pf _ _ _ _ _ _ WA))); apply NoDup_zseq).
  apply In_zseq in A, Hf. revert A Hf B ND. generalize (pf_back (pf f)). induction (zseq (gm_nIF m)) as [|a l IH]; intros g A Hf B ND; [destruct A|].
  cbn [map] in ND. inversion ND as [|? ? N1 N2]; subst. destruct A as [<-|A], Hf as [<-|Hf]; auto.
  - exfalso. apply N1. rewrite B. now apply in_map.
  - exfalso. apply N1. rewrite <- B. now apply in_map.
Qed.
Lemma midway_eind e j : (0 <= e < gm_num_elems m')%Z -> (0 <= j < 8)%Z -> rd (gm_eind midway) (e * 8 + j) = rd (gm_eind m') (e * 8 + slot (r e) j).
Proof.
  intros He Hj. cbn [midway gm_eind]. rewrite (rd_map _ _ _ (e * 8 + j)%Z) by (apply rd_zseq; lia).
  replace ((e * 8 + j) / 8)%Z with e by (symmetry; rewrite Z.add_comm, Z.div_add, Z.div_small by lia; lia).
  replace ((e * 8 + j) mod 8)%Z with j by (symmetry; rewrite Z.add_comm, Z.mod_add, Z.mod_small by lia; lia).
  replace (8 * e)%Z with (e * 8)%Z by lia. destruct (slot_ok (r e) j Hj) as (B & _).
  destruct (rd_total (gm_eind m') (e * 8 + slot (r e) j)) as (g & ->); [|reflexivity]. rewrite (wf_eind_len m' W'), N8. lia.
Qed.
Lemma midway_nodes e j d : (0 <= e < gm_num_elems m')%Z -> (0 <= j < 8)%Z -> elem_nodes midway e j d = elem_nodes m' e (slot (r e) j) d.
Proof. intros He Hj. unfold elem_nodes. change (gm_npe midway) with (gm_npe m'). rewrite N8, midway_eind by assumption. reflexivity. Qed.
Lemma old_row f : (0 <= f < gm_nIF m)%Z -> exists eL fL oL eR fR oR, rd (gm_IF m) f = Ok [eL; fL; oL; eR; fR; oR] /\ (0 <= eL < gm_num_elems m /\ 0 <= eR < gm_num_elems m /\ 0 <= fL /\ 0 <= oL /\ 0 <= fR /\ 0 <= oR)%Z.
Proof.
  intros Hf. destruct (rd_total (gm_IF m) f) as (row & E); [now rewrite (wf_if_len m W)|].
  pose proof (wf_if m W) as F. rewrite Forall_forall in F. destruct (F row (rd_In _ _ _ E)) as (eL & fL & oL & eR & fR & oR & -> & B). rewrite E. eauto 10.
Qed.
Lemma midway_wf : mesh_wf midway.
Proof.
  destruct W'. constructor; auto; cbn [midway gm_eind gm_num_elems gm_npe gm_num_nodes gm_nIF gm_IF].
  - rewrite zlen_map, zlen_zseq by lia. now rewrite N8.
  - apply Forall_forall. intros g Hg. apply in_map_iff in Hg. destruct Hg as (t & <- & Ht). apply In_zseq in Ht.
    pose proof (Z.div_mod t 8 ltac:(lia)) as D. pose proof (Z.mod_pos_bound t 8 ltac:(lia)) as D'. destruct (slot_ok (r (t / 8)%Z) (t mod 8) D') as (B & _).
    destruct (rd_total (gm_eind m') (8 * (t / 8) + slot (r (t / 8)%Z) (t mod 8))) as (g & E). { rewrite wf_eind_len, N8. lia. }
    rewrite E. rewrite Forall_forall in wf_eind. apply wf_eind. eapply rd_In; exact E.
  - rewrite zlen_map, zlen_zseq by lia. reflexivity.
  - apply Forall_forall. intros row Hr. apply in_map_iff in Hr. destruct Hr as (F & <- & HF). apply In_zseq in HF. destruct (pf_back_ok F HF) as (A & _).
    destruct (old_row _ A) as (eL & fL & oL & eR & fR & oR & E & B1 & B2 & B3). unfold new_row. rewrite E. pose proof (pe_in3 eL B1). pose proof (pe_in3 eR B2).
    destruct (turn (pf_back F)); do 6 eexists; (split; [reflexivity|]); repeat split; try lia.
Qed.
(** Sides come from sides. *)
Lemma midway_row F sd E k o : has_side midway F sd E k o -> (0 <= F < gm_nIF m')%Z /\ exists e, E = pe e /\ has_side m (pf_back F) (xorb sd (turn (pf_back F))) e k o.
Proof.
  intros H. destruct (side_range midway F sd E k o midway_wf H) as (HF & _). change (gm_nIF midway) with (gm_nIF m') in HF. split; [exact HF|].
  destruct (pf_back_ok F HF) as (A & _). destruct (old_row _ A) as (eL & fL & oL & eR & fR & oR & ER & _).
  unfold has_side, rd2 in *. cbv zeta in *. cbn [midway gm_IF] in H. rewrite (rd_map _ _ F F) in H by (apply rd_zseq; lia). cbn [bind] in H. unfold new_row in H. rewrite ER in *. cbn [bind].
  destruct (turn (pf_back F)), sd; cbn in H |- *; destruct H as (H0 & H1 & H2); injection H0 as <-; injection H1 as <-; injection H2 as <-; (eexists; split; [reflexivity|]; (split; [|split]; reflexivity)).
Qed.
Lemma midway_has f sd e k o : has_side m f sd e k o -> has_side midway (pf f) (xorb sd (turn f)) (pe e) k o.
Proof.
  intros H. destruct (side_range m f sd e k o W H) as (Hf & _). destruct (old_row _ Hf) as (eL & fL & oL & eR & fR & oR & ER & _). pose proof (pf_in3 f Hf) as HF.
  unfold has_side, rd2 in *. cbv zeta in *. cbn [midway gm_IF]. rewrite (rd_map _ _ (pf f) (pf f)) by (apply rd_zseq; lia). cbn [bind]. unfold new_row. rewrite pf_back_pf by exact Hf. rewrite ER in *. cbn [bind] in H.
  destruct (turn f), sd; cbn in H |- *; destruct H as (H0 & H1 & H2); injection H0 as <-; injection H1 as <-; injection H2 as <-; (split; [|split]; reflexivity).
Qed.
Lemma first_numbers3 : renumbered EHex m midway pe pf turn.
Proof.
  assert (WA' := WA). destruct WA' as [A1 A2 A3 A4 A5 A6]. constructor; auto.
  - intros e k d He Hk Hd. cbn [corners space_dim] in Hk, Hd. rewrite midway_nodes by (auto; now apply pe_in3).
    apply A5; auto; [now apply slot_ok|]. intros d' Hd'. now apply slot_corner.
  - intros f sd e k o H. now apply midway_has.
Qed.
Lemma then_corners3 : relisted3 midway m' r.
Proof.
  constructor; try reflexivity.
  - intros e i i' d He Hi Hi' Hd H. rewrite midway_nodes by assumption. now rewrite (slot_unique _ i i').
  - intros F sd E k o H. destruct (midway_row _ _ _ _ _ H) as (HF & e & -> & H0). destruct (pf_back_ok F HF) as (A & B).
    destruct (wh_sides _ _ _ _ _ _ WA _ _ _ _ _ H0) as (k' & o' & a & H1 & R). rewrite B, xorb_assoc, xorb_nilpotent, xorb_false_r in H1. exists k', o', a. now split.
Qed.
Lemma midway_used : (forall x, (0 <= x < gm_num_nodes m')%Z -> in_some_element m' x) -> forall x, (0 <= x < gm_num_nodes midway)%Z -> in_some_element midway x.
Proof.
  intros H x Hx. destruct (H x Hx) as (e & j & He & Hj & E). rewrite N8 in Hj, E.
  exists e, (fn_spins LagrangeHex 1 (r e) j). pose proof (spins_range LagrangeHex 1 ltac:(lia) (r e) j Hj) as B. change ((1 + 1) * (1 + 1) * (1 + 1))%Z with 8%Z in B.
  split; [exact He|]. change (gm_npe midway) with (gm_npe m'). rewrite N8. split; [exact B|]. rewrite midway_eind by assumption.
  rewrite (slot_unique (r e) (fn_spins LagrangeHex 1 (r e) j) j); auto. intros d Hd. symmetry. now apply corner_spins.
Qed.
End Mid.

Theorem C107_solution_hexahedra : forall m m' pe pf turn r bt p gamma ft u steps c c',
  mesh_wf m -> mesh_wf m' -> good_hexes m -> mesh_fits EHex 1 m' -> (forall x, (0 <= x < gm_num_nodes m')%Z -> in_some_element m' x) ->
  basis_for EHex bt -> supported bt p -> order_ok p -> 1 < gamma -> written_again3 m m' pe pf turn r ->
  (ft = LaxFriedrichs \/ unturned m turn \/ hex_calm turn m bt p gamma ft u steps) ->
  hex_solution m bt p gamma ft u steps c -> hex_solution m' bt p gamma ft u steps c' ->
  forall e y, (0 <= e < gm_num_elems m)%Z ->
    (forall d, (0 <= d < 3)%Z -> place EHex 1 (elem_nodes m' (pe e)) (spins (r (pe e)) y) d = place EHex 1 (elem_nodes m e) y d) /\
    forall k, (0 <= k < 5)%Z -> value bt p c' (pe e) (spins (r (pe e)) y) k = value bt p c e y k.
Proof.
  intros m m' pe pf turn r bt p gamma ft u steps c c' W W' GQ MF' ND' BF Sup Op Gm WA FC Q Q' e y He.
  assert (N8 : gm_npe m' = 8%Z) by exact (proj2 MF').
  assert (FV : faces_valid EHex m) by apply GQ.
  pose proof (first_numbers3 m m' pe pf turn r W W' N8 WA) as RN. pose proof (then_corners3 m m' pe pf turn r W W' N8 WA) as RL.
  pose proof (midway_wf m m' pe pf turn r W W' N8 WA) as WM. pose proof (midway_used m m' pe pf turn r W' N8 ND') as NM.
  assert (MFM : mesh_fits EHex 1 (midway m m' pe pf turn r)) by exact MF'.
  pose proof (C93_good_hexahedra m _ pe pf turn W WM RN GQ MFM NM) as GM.
  destruct (C107_hexahedra_exist _ bt p gamma ft u steps GM BF Sup Op) as (cm & QM).
  assert (HE : (0 <= pe e < gm_num_elems (midway m m' pe pf turn r))%Z) by (exact (pe_in3 m m' pe pf turn r WA e He)).
  split.
  - intros d Hd. rewrite (proj1 (C106_solution_hexahedra _ m' r bt p gamma ft u steps cm c' WM W' GM (proj1 MF') BF Sup Op RL QM Q' (pe e) y 0%Z HE ltac:(lia))).
    apply place_nodes. intros i Hi. now apply (rn_nodes _ _ _ _ _ _ RN).
  - intros k Hk. rewrite (proj2 (C106_solution_hexahedra _ m' r bt p gamma ft u steps cm c' WM W' GM (proj1 MF') BF Sup Op RL QM Q' (pe e) y k HE Hk)).
    unfold value. apply rsum_ext. intros j Hj. f_equal. exact (C93_solution_hexahedra m _ pe pf turn bt p gamma ft u steps c cm W WM GQ MFM NM Gm RN FC Q QM e j k He Hj Hk).
Qed.
Print Assumptions C107_solution_hexahedra.

Theorem C107_good_hexahedra : forall m m' pe pf turn r, mesh_wf m -> mesh_wf m' -> good_hexes m -> mesh_fits EHex 1 m' ->
  (forall x, (0 <= x < gm_num_nodes m')%Z -> in_some_element m' x) -> written_again3 m m' pe pf turn r -> good_hexes m'.
Proof.
  intros m m' pe pf turn r W W' GQ MF' ND' WA. assert (N8 : gm_npe m' = 8%Z) by exact (proj2 MF').
  assert (FV : faces_valid EHex m) by apply GQ.
  pose proof (first_numbers3 m m' pe pf turn r W W' N8 WA) as RN. pose proof (then_corners3 m m' pe pf turn r W W' N8 WA) as RL.
  pose proof (midway_wf m m' pe pf turn r W W' N8 WA) as WM.
  pose proof (C93_good_hexahedra m _ pe pf turn W WM RN GQ MF' (midway_used m m' pe pf turn r W' N8 ND')) as GM.
  exact (C106_good_hexahedra _ m' r WM W' RL GM MF' ND').
Qed.
Print Assumptions C107_good_hexahedra.

Theorem C107_program_hexahedra : forall inputs meshes argv metis n inp m inputs' meshes' argv' metis' n' inp' m' cfg N u pe pf turn r g g',
  (1 <= n)%Z -> reads inputs meshes argv inp m -> asks_for inp cfg -> enough_data inp cfg -> parts_asked inp n -> metis_valid metis m n ->
  (1 <= n')%Z -> reads inputs' meshes' argv' inp' m' -> asks_for inp' cfg -> enough_data inp' cfg -> parts_asked inp' n' -> metis_valid metis' m' n' ->
  cf_dim cfg = 3%Z -> cf_physics cfg = Euler -> num_iterations (cf_end cfg) (cf_dt cfg) = Ok N ->
  let bt := cf_basis cfg in let p := cf_order cfg in let gamma := ph_gamma (cf_phys cfg) in let dt := B2R (cf_dt cfg) in
  let steps := repeat (cf_stepper cfg, dt) (Z.to_nat N) in
  good_hexes m -> mesh_fits EHex 1 m' -> (forall x, (0 <= x < gm_num_nodes m')%Z -> in_some_element m' x) -> basis_for EHex bt -> supported bt p -> order_ok p -> 1 < gamma ->
  starts_as 3 (cf_ic cfg) (cf_phys cfg) 0 u -> small m (nfun bt p) 5 -> small m' (nfun bt p) 5 ->
  written_again3 m m' pe pf turn r ->
  (cf_flux cfg = LaxFriedrichs \/ unturned m turn \/ hex_calm turn m bt p gamma (cf_flux cfg) u steps) ->
  program inputs meshes argv metis n g -> program inputs' meshes' argv' metis' n' g' ->
  exists c c', g = Ok (solution_file m (nfun bt p) 5 (INR (Z.to_nat N) * dt) c) /\
    g' = Ok (solution_file m' (nfun bt p) 5 (INR (Z.to_nat N) * dt) c') /\
    forall e y, (0 <= e < gm_num_elems m)%Z ->
      (forall d, (0 <= d < 3)%Z -> place EHex 1 (elem_nodes m' (pe e)) (spins (r (pe e)) y) d = place EHex 1 (elem_nodes m e) y d) /\
      forall k, (0 <= k < 5)%Z -> value bt p c' (pe e) (spins (r (pe e)) y) k = value bt p c e y k.
Proof.
  intros inputs meshes argv metis n inp m inputs' meshes' argv' metis' n' inp' m' cfg N u pe pf turn r g g' Hn RE AF ED PA MV Hn' RE' AF' ED' PA' MV' D2 EU EN
    bt p gamma dt steps GQ MF' ND' BF Sup Op Gm SA SM SM' WA FC PR PR'.
  destruct (C84_solution_hexahedra inputs meshes argv metis n inp m cfg N u g Hn RE AF ED D2 EU PA MV EN GQ BF Sup Op Gm SA SM PR) as (c & Q & ->).
  pose proof (C107_good_hexahedra m m' pe pf turn r (reads_wf _ _ _ _ _ RE) (reads_wf _ _ _ _ _ RE') GQ MF' ND' WA) as GQ'.
  destruct (C84_solution_hexahedra inputs' meshes' argv' metis' n' inp' m' cfg N u g' Hn' RE' AF' ED' D2 EU PA' MV' EN GQ' BF Sup Op Gm SA SM' PR') as (c' & Q' & ->).
  exists c, c'. split; [reflexivity|]. split; [reflexivity|].
  exact (C107_solution_hexahedra m m' pe pf turn r bt p gamma (cf_flux cfg) u steps c c' (reads_wf _ _ _ _ _ RE) (reads_wf _ _ _ _ _ RE') GQ MF' ND' BF Sup Op Gm WA FC Q Q').
Qed.
Print Assumptions C107_program_hexahedra.
