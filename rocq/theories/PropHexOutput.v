(** PropHexOutput.v -- C79 for hexahedra. *)
From Coq Require Import ZArith List Lia Reals Lra Bool Permutation Sorted.
From Verif Require Import Base RBase MeshModel MeshSpec MeshProof MeshReadProof MeshProof2 PropMesh IOModel IOProof IOProof2 IOProof3 IOProof4 PropIO PropOutput.
From Verif Require Import BasisModel SolverModel SolverSpec PhysModel PropBasis PropSolver PropNormals PropConserve StepModel PropStep PropSetup PropMeshRun PropInit DGSpec DGProof PropDG PropResidual SetupModel SetupSpec MassProof SetupProof PropHex PropHexDemo.
Import ListNotations.
Local Open Scope Z_scope.
Open Scope res_scope.

(** Two complete runs -- set up, initialised, marched, saved, converted -- of the
    same mesh of hexahedra, on different numbers of ranks with different partitions and
    schedules, produce the same file; each does produce one. *)
Theorem C79_same_file_hexahedra : forall m bt p gamma ft ic ph t u steps time n pm h U U' n2 pm2 h2 V V',
  faces_valid EHex m -> faces_distinct m -> flat_hexes m -> conforming_hexes m ->
  basis_for EHex bt -> supported bt p -> order_ok p -> (1 < gamma)%R ->
  starts_as 3 ic ph t u ->
  0 < gm_num_elems m -> (forall x, 0 <= x < gm_num_nodes m -> in_some_element m x) ->
  hexes_initialised m bt p ic ph t n pm h U -> hex_run m bt p gamma ft steps n pm h U U' -> file_fits m (nfun bt p) 5 n pm ->
  hexes_initialised m bt p ic ph t n2 pm2 h2 V -> hex_run m bt p gamma ft steps n2 pm2 h2 V V' -> file_fits m (nfun bt p) 5 n2 pm2 ->
  exists g : solfile R,
    (forall o, output m (nfun bt p) 5 time n pm U' o <-> o = Ok g) /\
    (forall o, output m (nfun bt p) 5 time n2 pm2 V' o <-> o = Ok g).
Proof.
  intros m bt p gamma ft ic ph t u steps time n pm h U U' n2 pm2 h2 V V' FV FD FH CF BF Sup Op Gm SA Hne Hall IN RN FF IN2 RN2 FF2.
  pose proof (C78_whole_run_hexahedra m bt p gamma ft ic ph t u steps n pm h U U' n2 pm2 h2 V V' FV FD FH CF BF Sup Op Gm SA IN IN2 RN RN2) as SAME.
  destruct RN as (iter & ep & f & ord & pord & junk & w & w' & WF & PT & _).
  destruct RN2 as (iter2 & ep2 & f2 & ord2 & pord2 & junk2 & w2 & w2' & WF2 & PT2 & _).
  destruct (gather 0%R iter n m ep pm U' WF PT) as (c & Hc).
  assert (Hnb : 0 < nfun bt p) by (unfold nfun, order_ok in *; apply Z.pow_pos_nonneg; [lia|destruct bt; cbn; lia]).
  exists (solution_file m (nfun bt p) 5 time c).
  destruct FH as ((D1 & D2) & _). change (nfun (geom_basis EHex) 1) with 8 in D2. cbn in D1. assert (Hd : 0 < gm_dim m) by lia. assert (Hnpe : 0 < gm_npe m) by lia.
  split; intros o.
  - apply (output_of iter n m ep); auto; lia.
  - apply (output_of iter2 n2 m ep2); auto; try lia. intros r le e j k Hr He Hj Hk.
    assert (RE : (0 <= e < gm_num_elems m)%Z) by (apply (SetupProof.owned_elem 0%R iter2 n2 m ep2 pm2 WF2 PT2 r le e Hr He)).
    destruct (PropDG.owner_of 0%R iter n m ep pm e WF PT RE) as (r1 & le1 & Hr1 & He1).
    rewrite <- (SAME r1 le1 r le e j k) by assumption. now apply Hc.
Qed.
Print Assumptions C79_same_file_hexahedra.

(** The hypotheses are met on two ranks and on one. *)
Lemma hex_fits iter n ep pm : run_wf iter n (two_hexes 0) ep -> partitioned 0%R iter n (two_hexes 0) ep pm -> 0 <= n <= 10 ->
  file_fits (two_hexes 0) (nfun LagrangeHex 1) 5 n pm.
Proof.
  intros W P Hn. split; [reflexivity|]. split; [reflexivity|].
  assert (K : forall l, (forall r, In r l -> 0 <= r < n) -> zlen (concat (map (fun r => pm_l2g_node (pm r)) l)) <= 12 * zlen l).
  { induction l as [|r l IH]; intros H; [now cbn|]. cbn [map concat]. rewrite zlen_app.
    assert (zlen (r :: l) = 1 + zlen l) as -> by (unfold zlen; cbn [length]; lia).
    specialize (IH (fun x Hx => H x (or_intror Hx))).
    assert (zlen (pm_l2g_node (pm r)) <= 12); [|lia].
    destruct (pm_form 0%R iter n (two_hexes 0) ep pm W P r (H r (or_introl eq_refl))) as (ids & nb & -> & S & I & _). cbn [pm_l2g_node the_pmesh].
    unfold zlen. change 12 with (Z.of_nat (length (zseq 12))). apply Nat2Z.inj_le. apply NoDup_incl_length.
    - clear -S. induction S as [|a l S IH F]; constructor; auto. rewrite Forall_forall in F. intros X. specialize (F a X). lia.
    - intros x Hx. apply In_zseq. apply I in Hx. destruct Hx as (e & j & OW & Hj & R).
      pose proof (wf_eind _ (run_mesh _ _ _ _ W)) as F. rewrite Forall_forall in F. apply F. eapply rd_In; eauto. }
  specialize (K (zseq n) (fun r => proj1 (In_zseq n r))). rewrite zlen_zseq in K by lia.
  change (gm_dim (two_hexes 0)) with 3. lia.
Qed.

Example C79_hexahedra_demo : exists pm h U U' pm2 h2 V V',
  starts_as 3 Uniform hex_phys 0 (fun _ k => gas_at_rest k) /\ 0 < gm_num_elems (two_hexes 0) /\
  (forall x, 0 <= x < gm_num_nodes (two_hexes 0) -> in_some_element (two_hexes 0) x) /\
  hexes_initialised (two_hexes 0) LagrangeHex 1 Uniform hex_phys 0 2 pm h U /\
  hex_run (two_hexes 0) LagrangeHex 1 2 HLLC [(ForwardEuler, 1 / 10)%R] 2 pm h U U' /\ file_fits (two_hexes 0) (nfun LagrangeHex 1) 5 2 pm /\
  hexes_initialised (two_hexes 0) LagrangeHex 1 Uniform hex_phys 0 1 pm2 h2 V /\
  hex_run (two_hexes 0) LagrangeHex 1 2 HLLC [(ForwardEuler, 1 / 10)%R] 1 pm2 h2 V V' /\ file_fits (two_hexes 0) (nfun LagrangeHex 1) 5 1 pm2.
Proof.
  assert (W1 : run_wf (fun _ l => rev l) 2 (two_hexes 0) [1; 0]).
  { constructor; [apply two_wf| |intros r l; symmetry; apply Permutation_rev]. split; [reflexivity|]. repeat constructor; lia. }
  assert (W2 : run_wf (fun _ l => l) 1 (two_hexes 0) [0; 0]).
  { constructor; [apply two_wf| |intros ? ?; apply Permutation_refl]. split; [reflexivity|]. repeat constructor; lia. }
  destruct (hex_runs_demo _ 2 _ W1) as (pm & h & U & U' & P1 & I1 & R1).
  destruct (hex_runs_demo _ 1 _ W2) as (pm2 & h2 & V & V' & P2 & I2 & R2).
  exists pm, h, U, U', pm2, h2, V, V'. split; [apply (uniform_starts 3 hex_phys 0); lia|]. split; [reflexivity|].
  split.
  { intros x Hx. change (gm_num_nodes (two_hexes 0)) with 12 in Hx.
    assert (K : forall e j, 0 <= e < 2 -> 0 <= j < 8 -> rd (gm_eind (two_hexes 0)) (e * 8 + j) = Ok x -> in_some_element (two_hexes 0) x) by (intros e j He Hj E; exists e, j; auto).
    assert (C : x = 0 \/ x = 1 \/ x = 2 \/ x = 3 \/ x = 4 \/ x = 5 \/ x = 6 \/ x = 7 \/ x = 8 \/ x = 9 \/ x = 10 \/ x = 11) by lia.
    destruct C as [->|[->|[->|[->|[->|[->|[->|[->|[->|[->|[->| ->]]]]]]]]]]];
      [apply (K 0 0)|apply (K 0 1)|apply (K 1 1)|apply (K 0 2)|apply (K 0 3)|apply (K 1 3)|apply (K 0 4)|apply (K 0 5)|apply (K 1 5)|apply (K 0 6)|apply (K 0 7)|apply (K 1 7)]; reflexivity || lia. }
  pose proof (hex_fits _ 2 _ pm W1 P1 ltac:(lia)). pose proof (hex_fits _ 1 _ pm2 W2 P2 ltac:(lia)). auto 10.
Qed.
