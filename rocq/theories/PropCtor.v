(** PropCtor.v -- C76: the Mesh constructor (src/mesh/mesh.cpp 28-62): number of
    partitions, reading, METIS, tables, composed. *)
From Coq Require Import ZArith List Lia String.
From Verif Require Import Base MeshModel MeshSpec MeshProof PropMesh ReadModel PropRead.
Import ListNotations.
Local Open Scope Z_scope.

(** src/mesh/mesh.cpp 28-62 on rank [rank].  [top_has], [mesh_value]: the
    npartitions keys of the input file; [names]: its boundary names; [metis]: the
    METIS call, a function of the mesh and the number of parts.  The report printed
    by the head rank is left out. *)
Definition mesh_ctor {A} (zero : A) (iter : list Z -> list Z) (metis : gmesh A -> Z -> option (list Z)) (top_has : bool) (mesh_value : option Z)
  (names : list string) (mf : mesh_file A) (num_ranks rank : Z) : res (mesh_data A * pmesh A) :=
  num_partitions <- num_partitions_of top_has mesh_value num_ranks ;;
  md <- read_mesh names mf ;;
  ep <- elem_partition_of metis num_partitions (md_mesh md) ;;
  pm <- partition zero iter num_partitions num_ranks rank (md_mesh md) ep ;;
  Ok (md, pm).

(** The assignment of elements to the [n] ranks that the run must use: all on rank
    0 if there is one rank, METIS's otherwise. *)
Definition intended {A} (metis : gmesh A -> Z -> option (list Z)) (n : Z) (m : gmesh A) (ep : list Z) : Prop :=
  (n = 1 /\ zlen ep = gm_num_elems m /\ forall e, 0 <= e < gm_num_elems m -> rd ep e = Ok 0) \/
  (2 <= n /\ metis m n = Some ep /\ assignment m n ep).

Lemma rd_zero ne e : 0 <= e < ne -> rd (vec ne 0) e = Ok 0.
Proof. intros H. rewrite (rd_nth 0) by (rewrite zlen_vec; lia). unfold vec. now rewrite nth_repeat. Qed.

Theorem C76_mesh_constructor : forall A (zero : A) iter metis mesh_value names mf n, mesh_file_wf names mf -> 1 <= n -> (forall r, any_order (iter r)) ->
  exists md, read_mesh names mf = Ok md /\
    (n = 1 -> exists ep, intended metis n (md_mesh md) ep) /\
    (forall ep, intended metis n (md_mesh md) ep ->
       run_wf iter n (md_mesh md) ep /\
       exists pm, partitioned zero iter n (md_mesh md) ep pm /\
         forall r, 0 <= r < n ->
           (3 <= pm_num_ifaces_part (pm r) -> mesh_ctor zero (iter r) metis false mesh_value names mf n r = Ok (md, pm r)) /\
           (pm_num_ifaces_part (pm r) < 3 -> mesh_ctor zero (iter r) metis false mesh_value names mf n r = Fail OutOfBounds)) /\
    (2 <= n -> metis (md_mesh md) n = None -> forall r, mesh_ctor zero (iter r) metis false mesh_value names mf n r = Fail Thrown).
Proof.
  intros A zero iter metis mv names mf n WF Hn AO.
  destruct (C72_mesh_read A names mf WF) as (md & ER & MW & _ & EN & _). exists md. split; [exact ER|].
  assert (Hne : 0 <= gm_num_elems (md_mesh md)) by apply (wf_ne _ MW).
  split; [|split].
  - intros ->. exists (vec (gm_num_elems (md_mesh md)) 0). left. split; [reflexivity|]. split; [now rewrite zlen_vec|].
    intros e He. now apply rd_zero.
  - intros ep IN.
    assert (EP : elem_partition_of metis n (md_mesh md) = Ok ep).
    { unfold elem_partition_of. destruct IN as [(-> & L & Z0)|(H2 & M & _)].
      - cbn. f_equal. apply rd_ext; [rewrite zlen_vec by lia; now symmetry|].
        intros i Hi. rewrite zlen_vec in Hi by lia. rewrite rd_zero by lia. symmetry. now apply Z0.
      - destruct (Z.ltb_spec 1 n); [|lia]. now rewrite M. }
    assert (RW : run_wf iter n (md_mesh md) ep).
    { constructor; [exact MW| |exact AO]. destruct IN as [(-> & L & Z0)|(_ & _ & AS)]; [|exact AS].
      split; [exact L|]. apply Forall_forall. intros x Hx. apply In_nth_error in Hx. destruct Hx as (k & Hk).
      assert (K : (k < List.length ep)%nat) by (apply nth_error_Some; congruence).
      assert (E : rd ep (Z.of_nat k) = Ok 0) by (apply Z0; unfold zlen in L; lia).
      rewrite (rd_nth 0) in E by (unfold zlen; lia). rewrite Nat2Z.id, (nth_error_nth _ _ _ Hk) in E. injection E as ->. lia. }
    split; [exact RW|]. destruct (C05_partitioned_exists A zero iter n (md_mesh md) ep RW) as (pm & PT).
    exists pm. split; [exact PT|]. intros r Hr. destruct (C08_check_view_partial A zero iter n (md_mesh md) ep pm RW PT r Hr) as (C1 & C2).
    unfold mesh_ctor, num_partitions_of. cbn [bind]. rewrite ER. cbn [bind]. rewrite EP. cbn [bind].
    split; intros H; [rewrite C1 by exact H|rewrite C2 by exact H]; reflexivity.
  - intros H2 M r. unfold mesh_ctor, num_partitions_of. cbn [bind]. rewrite ER. cbn [bind]. unfold elem_partition_of.
    destruct (Z.ltb_spec 1 n); [|lia]. now rewrite M.
Qed.
Print Assumptions C76_mesh_constructor.

(** A number of partitions the user asks for is the number METIS is asked for; if
    it is the number of ranks the result is the one without the request. *)
Theorem C76_requested_partitions : forall A (zero : A) iter metis names mf n r,
  (forall v, mesh_ctor zero iter metis true (Some n) names mf n r = mesh_ctor zero iter metis false v names mf n r) /\
  (forall v md, read_mesh names mf = Ok md -> 2 <= v -> metis (md_mesh md) v = None -> mesh_ctor zero iter metis true (Some v) names mf n r = Fail Thrown) /\
  (forall v md pm, mesh_ctor zero iter metis true (Some v) names mf n r = Ok (md, pm) -> 2 <= v -> exists ep, metis (md_mesh md) v = Some ep /\ partition zero iter v n r (md_mesh md) ep = Ok pm).
Proof.
  intros A zero iter metis names mf n r. split; [reflexivity|]. unfold mesh_ctor, num_partitions_of. cbn [bind]. split.
  - intros v md E Hv M. rewrite E. cbn [bind]. unfold elem_partition_of. destruct (Z.ltb_spec 1 v); [|lia]. now rewrite M.
  - intros v md pm E Hv. destruct (read_mesh names mf) as [md'|]; [|discriminate]. cbn [bind] in E. unfold elem_partition_of in E.
    destruct (Z.ltb_spec 1 v); [|lia]. destruct (metis (md_mesh md') v) as [ep|] eqn:M; [|discriminate]. cbn [bind] in E.
    destruct (partition zero iter v n r (md_mesh md') ep) as [pm'|] eqn:Q; [|discriminate]. cbn [bind] in E. injection E as <- <-. eauto.
Qed.
Print Assumptions C76_requested_partitions.

(** Two ranks, the four-element mesh, and an oracle that splits it in halves: both
    ranks get the half meant for them. *)
Definition demo_names : list string := ["bottom"%string; "left"%string].
Definition demo_metis (m : gmesh Z) (n : Z) : option (list Z) := if n =? 2 then Some [0; 0; 1; 1] else None.
Example C76_demo : exists md, read_mesh demo_names demo_file = Ok md /\ intended demo_metis 2 (md_mesh md) [0; 0; 1; 1] /\
    exists p0 p1, mesh_ctor 0 (fun l => l) demo_metis false None demo_names demo_file 2 0 = Ok (md, p0) /\
      mesh_ctor 0 (fun l => l) demo_metis false None demo_names demo_file 2 1 = Ok (md, p1) /\
      pm_l2g_elem p0 = [0; 1] /\ pm_l2g_elem p1 = [2; 3].
Proof.
  eexists. split; [vm_compute; reflexivity|]. split.
  - right. split; [lia|]. split; [reflexivity|]. split; [reflexivity|]. repeat constructor; lia.
  - do 2 eexists. split; [vm_compute; reflexivity|]. split; [vm_compute; reflexivity|]. split; reflexivity.
Qed.
