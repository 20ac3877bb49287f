(** ArithReal.v -- the two models of the numerical kernels agree: with the real
    numbers for the arithmetic and the loops of the library as in LinAlgModel.v,
    ArithModel's kernels compute what the kernels of LinAlgModel.v, PhysModel.v
    and SolverModel.v compute. *)
From Coq Require Import ZArith Reals List Lia Lra Bool FunctionalExtensionality Permutation.
From Verif Require Import Base RBase LinAlgModel LinAlgProof PhysModel SolverModel SolverSpec ShapeModel SetupModel ArithModel ArithLibrary.
From Verif Require SolverFaces SolverProof PhysProof PhysSpec SolverFlux SolverConserve ArithProof DGProof.
Import ListNotations.
Local Open Scope R_scope.

(** The real numbers as an [arith]. *)
Definition reals : arith :=
  mkArith R 0 1 0.5 2 6 (-1) Rplus Rminus Rmult Rdiv Ropp sqrt Rmax
    (fun x y => if Rlt_dec x y then true else false) (fun x y => if Rle_dec x y then true else false).
Notation RL := (kokkos reals).

Ltac kred := cbn [num f0 f1 fhalf f2 f6 fm1 fadd fsub fmul fdiv fneg fsqrt fmaxi flt fle reals] in *.

(** * Linear algebra *)
Lemma dot_reals dim a b : (dim = 2 \/ dim = 3)%Z -> kdot reals dim a b = dot_inst dim a b.
Proof. intros [-> | ->]; reflexivity. Qed.

Lemma det_reals dim M d0 : (dim = 2 \/ dim = 3)%Z -> kdet reals dim M = det dim M d0.
Proof. intros [-> | ->]; reflexivity. Qed.

Lemma sum_loop k (f : Z -> R) c : zloop k (fun p c => c + f p) c = c + rsum k f.
Proof.
  destruct (Z.le_gt_cases 0 k) as [H|H].
  - revert H. induction k as [k H|k H IH] using zind; intros Hk; [rewrite zloop_0, rsum_0 by lia; lra|].
    rewrite zloop_S, rsum_S by lia. rewrite IH by lia. lra.
  - rewrite zloop_0, rsum_0 by lia. lra.
Qed.

Lemma gemm_reals m n k alpha A B acc C : kgemm reals RL m n k alpha A B acc C = gemm m n k alpha A B (if acc then 1 else 0) C.
Proof.
  apply functional_extensionality; intros i. apply functional_extensionality; intros j.
  rewrite gemm_entry. unfold kgemm. destruct (inb m i && inb n j)%bool; [|reflexivity].
  cbn [l_entry kokkos]. unfold kk_entry. kred. rewrite (sum_loop k (fun p => alpha * A i p * B p j)).
  rewrite (rsum_ext k (fun p => alpha * A i p * B p j) (fun p => alpha * (A i p * B p j))) by (intros; ring).
  rewrite rsum_scal. destruct acc; lra.
Qed.

Lemma identity_reals n I : kidentity reals n I = identity n n I.
Proof.
  apply functional_extensionality; intros i. apply functional_extensionality; intros j.
  rewrite identity_entry. unfold kidentity. destruct (inb n i && inb n j && (i =? j)%Z)%bool; reflexivity.
Qed.

Lemma inv_reals n M I : kinv reals RL n M I = invA n M I.
Proof.
  unfold kinv, invA.
  destruct (n =? 1)%Z; [reflexivity|]. destruct (n =? 2)%Z; [reflexivity|]. destruct (n =? 3)%Z; [reflexivity|].
  rewrite identity_reals. reflexivity.
Qed.

(** * Physics *)
Lemma ckdiv_inv x y r : ckdiv x y = Ok r -> r = x / y.
Proof. unfold ckdiv. destruct (Req_EM_T y 0); congruence. Qed.
Lemma cksqrt_inv x r : cksqrt x = Ok r -> r = sqrt x.
Proof. unfold cksqrt. destruct (Rlt_dec x 0); congruence. Qed.
Lemma bind_inv {A B} (x : res A) (k : A -> res B) b : bind x k = Ok b -> exists a, x = Ok a /\ k a = Ok b.
Proof. destruct x as [a|]; cbn; [eauto|discriminate]. Qed.
Lemma Ok_inj {A} (a b : A) : Ok a = Ok b -> a = b.
Proof. congruence. Qed.
Ltac step H a E := let H' := fresh in apply bind_inv in H; destruct H as (a & E & H').
Ltac stepd H a := apply bind_inv in H; destruct H as (a & ?E & H); 
  match goal with E1 : ckdiv _ _ = Ok a |- _ => apply ckdiv_inv in E1; subst a | E1 : cksqrt _ = Ok a |- _ => apply cksqrt_inv in E1; subst a | _ => idtac end.

Lemma pressure_reals dim gamma U P : (dim = 2 \/ dim = 3)%Z -> get_pressure dim gamma U = Ok P -> kpressure reals dim gamma U = P.
Proof.
  intros Hd H. unfold get_pressure in H. cbv zeta in H. stepd H r. apply Ok_inj in H; rewrite <- H; clear H.
  unfold kpressure. cbv zeta. rewrite dot_reals by exact Hd. reflexivity.
Qed.

Lemma wavespeed_reals dim gamma U a : (dim = 2 \/ dim = 3)%Z -> get_maxwavespeed dim gamma U = Ok a -> kwavespeed reals dim gamma U = a.
Proof.
  intros Hd H. unfold get_maxwavespeed in H. cbv zeta in H. stepd H r. stepd H s. stepd H P. stepd H b. apply Ok_inj in H; rewrite <- H; clear H.
  unfold kwavespeed. cbv zeta. rewrite dot_reals by exact Hd. rewrite (pressure_reals dim gamma U P Hd E). reflexivity.
Qed.

Ltac split_idx i n :=
  lazymatch n with
  | O => idtac
  | S ?m => split_idx i m; destruct (Z.eqb_spec i (Z.of_nat m)) as [->|?]; [reflexivity|]
  end.

Lemma conv_flux_reals dim gamma U F0 F : (dim = 2 \/ dim = 3)%Z -> conv_flux_interior dim gamma U F0 = Ok F -> kconv_flux reals dim gamma U F0 = F.
Proof.
  intros [-> | ->] H; unfold conv_flux_interior in H; cbn [Z.eqb Pos.eqb] in H.
  - unfold conv_flux_interior2 in H. stepd H r. cbv zeta in H. stepd H P.
    pose proof (pressure_reals 2 gamma U P (or_introl eq_refl) E) as EP. apply Ok_inj in H; rewrite <- H; clear H.
    apply functional_extensionality; intros i. unfold kconv_flux. cbv zeta. cbn [Z.eqb Pos.eqb]. rewrite EP. kred.
    unfold klist, upd1. destruct (Z.ltb_spec i 0) as [L|L].
    + repeat (match goal with |- context [(i =? ?c)%Z] => destruct (Z.eqb_spec i c); [lia|] end). reflexivity.
    + repeat (match goal with |- context [(i =? ?c)%Z] => destruct (Z.eqb_spec i c) as [->|?]; [reflexivity|] end).
      apply nth_overflow. cbn [length]. lia.
  - unfold conv_flux_interior3 in H. stepd H r. cbv zeta in H. stepd H P.
    pose proof (pressure_reals 3 gamma U P (or_intror eq_refl) E) as EP. apply Ok_inj in H; rewrite <- H; clear H.
    apply functional_extensionality; intros i. unfold kconv_flux. cbv zeta. cbn [Z.eqb Pos.eqb]. rewrite EP. kred.
    unfold klist, upd1. destruct (Z.ltb_spec i 0) as [L|L].
    + repeat (match goal with |- context [(i =? ?c)%Z] => destruct (Z.eqb_spec i c); [lia|] end). reflexivity.
    + repeat (match goal with |- context [(i =? ?c)%Z] => destruct (Z.eqb_spec i c) as [->|?]; [reflexivity|] end).
      apply nth_overflow. cbn [length]. lia.
Qed.

(** Loops that write one entry of a row after the other. *)
Lemma fill_any n (f : Z -> R) F j : zloop n (fun is F => upd1 F is (f is)) F j = if inb n j then f j else F j.
Proof.
  destruct (Z.le_gt_cases 0 n) as [H|H].
  - revert H. induction n as [n H|n H IH] using zind; intros Hn.
    + rewrite zloop_0 by lia. rewrite (proj2 (inb_false n j)) by lia. reflexivity.
    + rewrite zloop_S by lia. unfold upd1 at 1. destruct (Z.eqb_spec j n) as [->|Hj].
      * rewrite (proj2 (inb_true _ n)) by lia. reflexivity.
      * rewrite IH by lia. unfold inb. destruct (Z.ltb_spec j n), (Z.ltb_spec j (n + 1)%Z); try reflexivity; try lia.
  - rewrite zloop_0 by lia. rewrite (proj2 (inb_false n j)) by lia. reflexivity.
Qed.

Lemma accum_any n m (g : Z -> Z -> R) F j : (0 <= m)%Z ->
  zloop n (fun is F => zloop m (fun d F => upd1 F is (F is + g is d)) F) F j =
  if inb n j then zloop m (fun d a => a + g j d) (F j) else F j.
Proof.
  intros Hm.
  assert (ROW : forall is F j, zloop m (fun d F => upd1 F is (F is + g is d)) F j = if (j =? is)%Z then zloop m (fun d a => a + g is d) (F is) else F j).
  { intros is. clear -Hm. revert Hm. induction m as [m H|m H IH] using zind; intros Hm F j.
    - rewrite !zloop_0 by lia. destruct (Z.eqb_spec j is) as [->|]; reflexivity.
    - rewrite !zloop_S by lia. unfold upd1 at 1. rewrite !IH by lia. rewrite Z.eqb_refl. destruct (j =? is)%Z; reflexivity. }
  destruct (Z.le_gt_cases 0 n) as [H|H].
  - revert H j. induction n as [n H|n H IH] using zind; intros Hn j.
    + rewrite zloop_0 by lia. rewrite (proj2 (inb_false n j)) by lia. reflexivity.
    + rewrite zloop_S by lia. rewrite ROW. destruct (Z.eqb_spec j n) as [->|Hj].
      * rewrite (proj2 (inb_true _ n)) by lia. rewrite IH by lia. rewrite (proj2 (inb_false n n)) by lia. reflexivity.
      * rewrite IH by lia. unfold inb. destruct (Z.ltb_spec j n), (Z.ltb_spec j (n + 1)%Z); try reflexivity; try lia.
  - rewrite zloop_0 by lia. rewrite (proj2 (inb_false n j)) by lia. reflexivity.
Qed.

Lemma laxfriedrichs_reals dim gamma UL UR Nn F0 Fq0 F : (dim = 2 \/ dim = 3)%Z ->
  laxfriedrichs dim gamma UL UR Nn F0 Fq0 = Ok F -> klaxfriedrichs reals dim gamma UL UR Nn F0 Fq0 = F.
Proof.
  intros Hd H. unfold laxfriedrichs in H. cbv zeta in H. stepd H nm. apply bind_inv in H. destruct H as (x & _ & H).
  stepd H FL. stepd H FR. stepd H aL. stepd H aR. apply Ok_inj in H; rewrite <- H; clear H.
  repeat match goal with E : conv_flux_interior _ _ _ _ = _ |- _ => apply conv_flux_reals in E; [|exact Hd]
    | E : get_maxwavespeed _ _ _ = _ |- _ => apply wavespeed_reals in E; [|exact Hd] end.
  apply functional_extensionality; intros is. unfold klaxfriedrichs. cbv zeta. rewrite E, E0, E1, E2. kred.
  rewrite fill_any. destruct (inb (dim + 2) is) eqn:Ei; [|reflexivity].
  rewrite !accum_any by lia. rewrite Ei. destruct (Rlt_dec aL aR); reflexivity.
Qed.

Lemma hllc_row (dim : Z) (a0 aE : R) (f : Z -> R) F j : (dim = 2 \/ dim = 3)%Z ->
  upd1 (zloop dim (fun i F => upd1 F (1 + i) (f i)) (upd1 F 0 a0)) (dim + 1) aE j =
  if (j =? 0)%Z then a0 else if ((1 <=? j) && (j <=? dim))%Z%bool then f (j - 1)%Z else if (j =? dim + 1)%Z then aE else F j.
Proof.
  intros Hd. unfold upd1 at 1.
  assert (E : forall n j, (0 <= n)%Z -> zloop n (fun i F => upd1 F (1 + i) (f i)) (upd1 F 0 a0) j =
    if (j =? 0)%Z then a0 else if ((1 <=? j) && (j <=? n))%Z%bool then f (j - 1)%Z else F j).
  { clear. intros n. induction n as [n H|n H IH] using zind; intros j Hn.
    - rewrite zloop_0 by lia. unfold upd1. destruct (Z.eqb_spec j 0); [reflexivity|].
      destruct (Z.leb_spec 1 j), (Z.leb_spec j n); cbn [andb]; try reflexivity; lia.
    - rewrite zloop_S by lia. unfold upd1 at 1. rewrite IH by lia. destruct (Z.eqb_spec j (1 + n)) as [->|Hj].
      + destruct (Z.eqb_spec (1 + n) 0); [lia|]. destruct (Z.leb_spec 1 (1 + n)), (Z.leb_spec (1 + n) (n + 1)); try lia. cbn [andb]. f_equal. lia.
      + destruct (Z.eqb_spec j 0); [reflexivity|]. destruct (Z.leb_spec 1 j), (Z.leb_spec j n), (Z.leb_spec j (n + 1)); cbn [andb]; try reflexivity; lia. }
  rewrite E by lia. destruct (Z.eqb_spec j (dim + 1)) as [->|Hj].
  - destruct (Z.eqb_spec (dim + 1) 0); [lia|]. destruct (Z.leb_spec 1 (dim + 1)), (Z.leb_spec (dim + 1) dim); cbn [andb]; try reflexivity; lia.
  - reflexivity.
Qed.

Lemma hllc_star_reals dim djac n U rho un P s sStar F0 F : (dim = 2 \/ dim = 3)%Z ->
  hllc_star dim djac n U rho un P s sStar F0 = Ok F -> khllc_star reals dim djac n U rho un P s sStar F0 = F.
Proof.
  intros Hd H. unfold hllc_star in H. stepd H c. cbv zeta in H. stepd H q. apply Ok_inj in H; rewrite <- H; clear H.
  apply functional_extensionality; intros j. rewrite hllc_row by exact Hd. unfold khllc_star. cbv zeta. kred.
  destruct (Z.eqb_spec j 0); [reflexivity|]. destruct ((1 <=? j)%Z && (j <=? dim)%Z)%bool; [|].
  - cbv beta. assert (J : (1 + (j - 1))%Z = j) by lia. rewrite ?J. reflexivity.
  - destruct (Z.eqb_spec j (dim + 1)) as [->|]; reflexivity.
Qed.

Lemma hllc_q_reals gam pStar P q : hllc_q gam pStar P = Ok q ->
  (if flt reals 1 (pStar / P) then sqrt (1 + (gam + 1) / (2 * gam) * (pStar / P - 1)) else 1) = q.
Proof.
  intros H. unfold hllc_q in H. stepd H r. kred. destruct (Rlt_dec 1 (pStar / P)).
  - stepd H g. now apply cksqrt_inv in H.
  - now injection H.
Qed.

Lemma hllc_outer_reals dim djac n U rho un P F0 (assoc : bool) : (dim = 2 \/ dim = 3)%Z ->
  (fun is => if (is =? 0)%Z then djac * rho * un
    else if ((1 <=? is) && (is <=? dim))%Z%bool then djac * (U is * un + P * n (is - 1)%Z)
    else if (is =? dim + 1)%Z then (if assoc then djac * ((U is + P) * un) else djac * (U is + P) * un) else F0 is) =
  hllc_outer dim djac n U rho un P F0.
Proof.
  intros Hd. apply functional_extensionality; intros j. unfold hllc_outer. rewrite hllc_row by exact Hd.
  destruct (Z.eqb_spec j 0); [reflexivity|]. destruct ((1 <=? j)%Z && (j <=? dim)%Z)%bool.
  - cbv beta. assert (J : (1 + (j - 1))%Z = j) by lia. rewrite ?J. reflexivity.
  - destruct (Z.eqb_spec j (dim + 1)) as [->|]; [|reflexivity]. destruct assoc; ring.
Qed.

Lemma hllc_reals dim gam UL UR Nn F0 F : (dim = 2 \/ dim = 3)%Z ->
  hllc dim gam UL UR Nn F0 = Ok F -> khllc reals dim gam UL UR Nn F0 = Ok F.
Proof.
  intros Hd H. unfold hllc in H. stepd H djac. stepd H djac1. cbv zeta in H. stepd H rhoL1. stepd H PL. stepd H aL. stepd H rhoR1. stepd H PR. stepd H aR.
  apply bind_inv in H. destruct H as (qL & EqL & H). apply bind_inv in H. destruct H as (qR & EqR & H). stepd H sStar.
  repeat match goal with E : get_pressure _ _ _ = _ |- _ => apply pressure_reals in E; [|exact Hd] end.
  apply hllc_q_reals in EqL, EqR.
  unfold khllc. cbv zeta. rewrite !dot_reals by exact Hd. rewrite E, E0.
  change (fun i => UL (1 + i)%Z) with (tail1 UL). change (fun i => UR (1 + i)%Z) with (tail1 UR). cbn [num f0 f1 fhalf f2 f6 fm1 fadd fsub fmul fdiv fneg fsqrt fmaxi fle reals].
  rewrite EqL, EqR. kred.
  match type of H with (if Rle_dec 0 ?x then _ else _) = _ => set (sL := x) in * end.
  destruct (Rle_dec 0 sL) as [L1|L1].
  { rewrite <- H. f_equal. exact (hllc_outer_reals dim _ _ UL _ _ _ F0 true Hd). }
  match type of H with (if Rle_dec ?x 0 then _ else _) = _ => set (sR := x) in * end.
  destruct (Rle_dec sR 0) as [L2|L2].
  { rewrite <- H. f_equal. exact (hllc_outer_reals dim _ _ UR _ _ _ F0 false Hd). }
  match type of H with (if Rle_dec 0 ?x then _ else _) = _ => set (sS := x) in * end.
  destruct (Rlt_dec sL 0) as [_|C]; [|lra]. cbn [andb].
  destruct (Rle_dec 0 sS) as [L3|L3]; [now apply hllc_star_reals in H; [rewrite <- H|exact Hd]|].
  destruct (Rlt_dec sS 0) as [_|C]; [|lra]. cbn [andb].
  destruct (Rlt_dec 0 sR) as [L4|L4]; [now apply hllc_star_reals in H; [rewrite <- H|exact Hd]|discriminate].
Qed.

Lemma numflux_reals t dim gam UL UR Nn F0 Fq0 F : (dim = 2 \/ dim = 3)%Z ->
  get_conv_flux_numerical t dim gam UL UR Nn F0 Fq0 = Ok F -> knumflux reals t dim gam UL UR Nn F0 Fq0 = Ok F.
Proof.
  intros Hd H. destruct t; cbn in H |- *; [|now apply hllc_reals].
  f_equal. now apply laxfriedrichs_reals.
Qed.

(** * The residual of one rank *)

(** The tables of a rank of the real model, as tables of the other one. *)
Definition real_data (s : eshape) (g : kgeom reals) (d : rdata) : kdata reals :=
  mkKD reals (d_rank d) s (d_gamma d) (d_flux d) (d_ne d) (d_nb d) (d_nqf d) (d_nif d) (d_rows d)
    (mkVT R (d_nq d) (d_wts d) (d_basis_val d) (d_basis_ref_grad d) (fun _ _ => 0) (fun _ _ _ => 0))
    (mkKG reals (g_jac reals g) (d_djac d) (d_ijac d) (g_iMM reals g))
    (d_face_basis d) (d_face_wts d) (d_normals d) (d_qL d) (d_qR d) (d_order d)
    (fun k => match k with O => d_porder d 0 (d_ne d) (d_nq d) | S _ => d_porder d k (d_nif d) (d_nqf d) end) (d_garbage d).
Definition real_views (v : rviews) : kviews reals := mkKV reals (v_Uq v) (v_UqL v) (v_UqR v) (v_Fq v) (v_Fe v).

Lemma state_reals order np ns nb bval Uc Uq : kevaluate_state reals RL order np ns nb bval Uc Uq = evaluate_state order np ns nb bval Uc Uq.
Proof.
  unfold kevaluate_state, evaluate_state, ploop. revert Uq. induction order as [|e l IH]; intros Uq; [reflexivity|].
  cbn [fold_left]. rewrite gemm_reals. apply IH.
Qed.

Lemma nested_sum n m (f : Z -> Z -> R) c : zloop n (fun q a => zloop m (fun d a => a + f q d) a) c = c + rsum n (fun q => rsum m (f q)).
Proof.
  rewrite (zloop_ext n _ (fun q a => a + rsum m (f q))) by (intros; apply (sum_loop m (f i))). apply (sum_loop n (fun q => rsum m (f q))).
Qed.

Section Residual.
Context (s : eshape) (g : kgeom reals) (d : rdata).
Context (HD : space_dim s = d_dim d) (HF : faces_per_elem s = d_NFACE d) (HQ : (0 < d_nqf d)%Z) (HB : (0 <= d_nb d)%Z) (OK : orders_ok d).
Notation kd := (real_data s g d).
Notation ns := (d_dim d + 2)%Z.

Lemma dim_cases : (d_dim d = 2 \/ d_dim d = 3)%Z.
Proof. rewrite <- HD. destruct s; [left|right]; reflexivity. Qed.

Lemma volume_flux_reals Uq v Uq' v' : volume_fluxes (d_dim d) (d_gamma d) (d_djac d) (d_ijac d) (d_wts d) (d_garbage d) (d_garbage d)
    (d_porder d 0 (d_ne d) (d_nq d)) (Uq, v) = Ok (Uq', v') ->
  forall e q k i, (0 <= e < d_ne d)%Z -> (0 <= q < d_nq d)%Z -> (0 <= k < ns)%Z -> (0 <= i < d_dim d)%Z ->
    kvolume_fluxes reals kd (d_porder d 0 (d_ne d) (d_nq d)) Uq v e q k i = v' e q k i.
Proof.
  intros H e q k i He Hq Hk Hi. destruct OK as [O1 O2]. pose proof (O2 0%nat (d_ne d) (d_nq d)) as OP.
  pose proof (ArithProof.each_once_NoDup _ _ _ OP) as ND.
  pose proof (DGProof.volume_fluxes_density _ _ _ _ _ _ _ dim_cases _ _ _ _ ND H) as DEN.
  assert (DEN2 : forall e q, (0 <= e < d_ne d)%Z -> (0 <= q < d_nq d)%Z -> PhysSpec.density (Uq e q) <> 0).
  { intros a b Ha Hb. apply DEN. apply (ArithProof.perm_In_pairs _ _ _ a b OP). easy. }
  destruct (SolverProof.volume_fluxes_ok (d_dim d) (d_gamma d) (d_djac d) (d_ijac d) (d_wts d) (d_garbage d) (d_garbage d) _ _ _ Uq v dim_cases OP DEN2)
    as (U1 & v1 & E1 & V).
  pose proof (Ok_inj _ _ (eq_trans (eq_sym H) E1)) as EE. pose proof (f_equal snd EE) as EV1. cbn [snd] in EV1. rewrite EV1.
  rewrite V, !(proj2 (inb_true _ _)) by easy. cbn [andb]. clear V.
  unfold kvolume_fluxes.
  rewrite (ArithProof.sweep_own (fun p _ => kvolume_flux reals kd Uq (fst p) (snd p)) _ _ _ v OP e q He Hq). cbn [fst snd].
  unfold kvolume_flux. cbv zeta. cbn [k_gamma k_geom k_T k_junk vt_wts g_ijac g_djac real_data]. unfold k_ns, k_dim. cbn [k_shape real_data]. rewrite HD.
  destruct (PhysProof.conv_flux_interior_ok (d_dim d) (d_gamma d) (Uq e q) (d_garbage d) dim_cases (DEN2 e q He Hq)) as (F & EF & FE & _).
  change (fun is => Uq e q is) with (Uq e q). rewrite (conv_flux_reals _ _ _ _ _ dim_cases EF). kred.
  rewrite (sum_loop (d_dim d) (fun j => F (j * (d_dim d + 2) + k)%Z * d_ijac d e q i j * d_djac d e q * d_wts d q)).
  rewrite Rplus_0_l, Rmult_assoc, <- rsum_scal_r. apply rsum_ext. intros j Hj. rewrite <- FE by lia.
  replace (k + j * (d_dim d + 2))%Z with (j * (d_dim d + 2) + k)%Z by lia. ring.
Qed.

Lemma element_reals Uc rs rs' : element_residuals d Uc rs = Ok rs' -> kelement_residuals reals RL kd Uc rs = rs'.
Proof.
  intros H. unfold element_residuals in H. cbv zeta in H. apply bind_inv in H. destruct H as ([U1 v1] & EV & H).
  apply Ok_inj in H. rewrite <- H. clear H. cbn [snd].
  apply functional_extensionality; intros e. apply functional_extensionality; intros i. apply functional_extensionality; intros k.
  pose proof (proj1 OK) as O1. pose proof (proj2 OK) as O2.
  rewrite (SolverProof.volume_flux_integral_entry _ (d_ne d)) by apply O1.
  unfold kelement_residuals. cbv zeta. cbn [k_ne k_nb k_order k_porder k_T vt_nq vt_val real_data].
  assert (EK : k_ns reals kd = ns) by (unfold k_ns, k_dim; cbn [k_shape real_data]; now rewrite HD).
  rewrite !EK. rewrite state_reals. unfold kvolume_integral. cbn [k_nb k_T vt_nq vt_grad real_data]. rewrite EK.
  unfold k_dim. cbn [k_shape real_data]. rewrite HD.
  set (VF := kvolume_fluxes _ _ _ _ _). set (a0 := fun e ib is : Z => if (inb (d_ne d) e && inb (d_nb d) ib && inb ns is)%bool then 0 else rs e ib is).
  set (f := fun (e : Z) (row : Z -> Z -> R) (ib is : Z) => if (inb (d_nb d) ib && inb ns is)%bool then
      zloop (d_nq d) (fun iq a => zloop (d_dim d) (fun id a => a + d_basis_ref_grad d iq ib id * VF e iq is id) a) (row ib is) else row ib is).
  assert (PG : forall e, (In e (d_order d 1) -> ploop (d_order d 1) (fun e rs => setr rs e (f e (rs e))) a0 e = f e (a0 e)) /\
    (~ In e (d_order d 1) -> ploop (d_order d 1) (fun e rs => setr rs e (f e (rs e))) a0 e = a0 e)).
  { apply (ArithProof.ploop_get (fun (t : Z -> Z -> Z -> R) e => t e)).
    - apply (Permutation_NoDup (Permutation_sym (O1 1%nat))), NoDup_zseq.
    - intros x t e'. unfold setr. destruct (Z.eqb_spec e' x) as [->|]; reflexivity. }
  change (ploop (d_order d 1) (fun e rs => setr rs e (f e (rs e))) a0 e i k =
    (if (inb (d_ne d) e && inb (d_nb d) i && inb ns k)%bool then
      (if within3 (d_ne d, d_nb d, ns) e i k then 0 else rs e i k) +
        rsum (d_nq d) (fun q => rsum (d_dim d) (fun d0 => d_basis_ref_grad d q i d0 * v1 e q k d0))
     else if within3 (d_ne d, d_nb d, ns) e i k then 0 else rs e i k)).
  assert (WI : within3 (d_ne d, d_nb d, ns) e i k = (inb (d_ne d) e && inb (d_nb d) i && inb ns k)%bool).
  { unfold within3, inb. destruct (0 <=? e)%Z, (e <? d_ne d)%Z, (0 <=? i)%Z, (i <? d_nb d)%Z, (0 <=? k)%Z, (k <? ns)%Z; reflexivity. }
  destruct (PG e) as [P1 P2]. destruct (inb (d_ne d) e) eqn:Ee.
  2:{ rewrite P2, WI by (intros C; apply (Permutation_in _ (O1 1%nat)) in C; apply In_zseq in C; apply inb_true in C; congruence).
      unfold a0. rewrite Ee. reflexivity. }
  rewrite P1 by (apply (Permutation_in _ (Permutation_sym (O1 1%nat))); apply In_zseq; now apply inb_true).
  unfold f. rewrite (nested_sum (d_nq d) (d_dim d)), WI. unfold a0. rewrite Ee.
  destruct (inb (d_nb d) i && inb ns k)%bool eqn:Eik.
  - apply andb_true_iff in Eik. destruct Eik as [Ei Ek]. rewrite Ei, Ek. cbn [andb]. f_equal.
    apply inb_true in Ee, Ei, Ek. apply rsum_ext. intros q Hq. apply rsum_ext. intros j Hj. f_equal.
    now apply (volume_flux_reals _ _ _ _ EV).
  - cbn [andb]. destruct (inb (d_nb d) i), (inb ns k); cbn [andb] in *; congruence.
Qed.

(** Face states. *)
Lemma flat_reals p b : (0 <= p < d_NFACE d * d_nqf d)%Z -> (0 <= b < d_nb d)%Z ->
  flat_face_basis (d_NFACE d) (d_nqf d) (d_nb d) (d_face_basis d) p b = kflat reals (d_nqf d) (d_face_basis d) p b.
Proof. intros Hp Hb. unfold kflat. apply SolverFlux.flat_face_basis_entry; auto. nia. Qed.

Lemma rd2_ent rows i j x : rd2 rows i j = Ok x -> SolverFaces.ent rows i j = x.
Proof. intros H. unfold SolverFaces.ent. now rewrite H. Qed.

Lemma copy_row (ext ext' : ext3) (src : Z -> res R) (val : Z -> R) (h : R -> R) V V' i j n : (forall k x, src k = Ok x -> x = val k) ->
  zfor n (fun k V => v <- src k ;; wr3 ext V i j k (h v))%res V = Ok V' ->
  V' = set2 V i j (fun k => if inb n k then h (val k) else V i j k).
Proof.
  intros HS. destruct (Z.le_gt_cases 0 n) as [Hn|Hn].
  2:{ unfold zfor. replace (zseq n) with (@nil Z) by (destruct n; try lia; reflexivity). cbn [foreach]. intros H. apply Ok_inj in H. rewrite <- H.
      apply functional_extensionality; intros a. apply functional_extensionality; intros b. unfold set2.
      destruct (Z.eqb_spec a i) as [->|], (Z.eqb_spec b j) as [->|]; cbn [andb]; try reflexivity.
      apply functional_extensionality; intros k. now rewrite (proj2 (inb_false n k)) by lia. }
  revert V'. revert Hn. induction n as [n H|n H IH] using zind; intros Hn V' E.
  - assert (n = 0)%Z by lia. subst n. cbn in E. apply Ok_inj in E. rewrite <- E.
    apply functional_extensionality; intros a. apply functional_extensionality; intros b. unfold set2.
    destruct (Z.eqb_spec a i) as [->|], (Z.eqb_spec b j) as [->|]; cbn [andb]; try reflexivity.
    apply functional_extensionality; intros k. now rewrite (proj2 (inb_false 0 k)) by lia.
  - rewrite zfor_S in E by lia. apply bind_inv in E. destruct E as (V1 & E1 & E). specialize (IH H V1 E1). subst V1.
    apply bind_inv in E. destruct E as (v & Ev & E). apply HS in Ev. subst v.
    unfold wr3 in E. destruct (within3 ext i j n); [|discriminate]. apply Ok_inj in E. rewrite <- E.
    apply functional_extensionality; intros a. apply functional_extensionality; intros b. apply functional_extensionality; intros k.
    unfold upd3, set2. destruct (Z.eqb_spec a i) as [->|], (Z.eqb_spec b j) as [->|]; cbn [andb]; try reflexivity.
    destruct (Z.eqb_spec k n) as [->|Hk].
    + now rewrite (proj2 (inb_true (n + 1) n)) by lia.
    + unfold inb. destruct (Z.ltb_spec k n), (Z.ltb_spec k (n + 1)%Z); try reflexivity; lia.
Qed.

Lemma foreach_sweep {S} order (f : Z * Z -> S -> res S) (h : Z * Z -> S -> S) x x' :
  (forall p a b, In p order -> f p a = Ok b -> h p a = b) -> foreach order f x = Ok x' -> sweep order h x = x'.
Proof.
  revert x. induction order as [|p l IH]; intros x HF' H; cbn [foreach] in H; [now apply Ok_inj in H|].
  apply bind_inv in H. destruct H as (y & E & H). cbn [sweep fold_left]. rewrite (HF' p x y (or_introl eq_refl) E).
  apply IH; [|exact H]. intros q a b Hq. apply HF'. now right.
Qed.

Lemma rd3_val ext a i j k x : rd3 ext a i j k = Ok x -> x = a i j k.
Proof. unfold rd3. destruct (within3 ext i j k); congruence. Qed.

Lemma kns : k_ns reals kd = ns.
Proof. unfold k_ns, k_dim. cbn [k_shape real_data]. now rewrite HD. Qed.
Lemma knp : k_np reals kd = (d_NFACE d * d_nqf d)%Z.
Proof. unfold k_np. cbn [k_shape k_nqf real_data]. now rewrite HF. Qed.

Lemma evaluate_ext order ne np n nb bv bv' Uc Uq : Permutation order (zseq ne) ->
  (forall p b, (0 <= p < np)%Z -> (0 <= b < nb)%Z -> bv p b = bv' p b) -> evaluate_state order np n nb bv Uc Uq = evaluate_state order np n nb bv' Uc Uq.
Proof.
  intros P E. apply functional_extensionality; intros e. apply functional_extensionality; intros i. apply functional_extensionality; intros k.
  rewrite !(SolverProof.evaluate_state_entry _ ne) by exact P. destruct (inb ne e && inb np i && inb n k)%bool eqn:B; [|reflexivity].
  apply andb_true_iff in B. destruct B as [B _]. apply andb_true_iff in B. destruct B as [_ B]. apply inb_true in B.
  apply rsum_ext. intros j Hj. now rewrite E.
Qed.

Lemma before_reals Uc v v' : face_residuals_before d Uc v = Ok v' -> kface_before reals RL kd Uc (real_views v) = real_views v'.
Proof.
  intros H. unfold face_residuals_before in H. cbv zeta in H. apply bind_inv in H. destruct H as ([UL UR] & E & H).
  apply Ok_inj in H. rewrite <- H. clear H v'. cbn [fst snd]. destruct OK as [O1 O2].
  unfold kface_before. cbv zeta. rewrite kns, knp. cbn [k_order k_nb k_nqf k_fval k_porder real_data kv_Uq kv_UqL kv_UqR kv_Fq kv_Fe real_views].
  rewrite state_reals.
  rewrite <- (evaluate_ext _ _ _ _ _ _ _ Uc (v_Uq v) (O1 2%nat) flat_reals).
  set (Uq := evaluate_state _ _ _ _ _ _ _) in *. clearbody Uq.
  assert (S : kface_states reals kd (d_porder d 1 (d_nif d) (d_nqf d)) Uq (v_UqL v) (v_UqR v) = (UL, UR)).
  { unfold kface_states. unfold construct_face_states in E. refine (foreach_sweep _ _ _ _ _ _ E). clear E.
    intros [lf iq] [A B] [A' B'] _ E. apply bind_inv in E. destruct E as (rL & E1 & E). apply bind_inv in E. destruct E as (rR & E2 & E).
    apply bind_inv in E. destruct E as (A1 & EL & E). apply bind_inv in E. destruct E as (B1 & ER & E). apply Ok_inj in E.
    rewrite <- E. clear E. cbn [fst snd]. unfold kface_state. rewrite !kns. cbn [k_rank k_rows k_nqf k_qL k_qR real_data].
    unfold SolverFaces.srank, SolverFaces.selem, SolverFaces.sface, SolverFaces.qidx, SolverFaces.col. cbn [Z.add Pos.add].
    rewrite (rd2_ent _ _ _ _ E1). change (4 + 0)%Z with 4%Z. rewrite (rd2_ent _ _ _ _ E2). f_equal.
    - destruct (d_rank d =? rL)%Z; [|now apply Ok_inj in EL].
      apply bind_inv in EL. destruct EL as (eL & E3 & EL). apply bind_inv in EL. destruct EL as (fL & E4 & EL). cbv zeta in EL.
      rewrite (rd2_ent _ _ _ _ E3), (rd2_ent _ _ _ _ E4).
      rewrite (copy_row (d_nif d, d_nqf d, ns) (0, 0, 0)%Z _ (fun k => Uq eL (fL * d_nqf d + d_qL d lf iq)%Z k) (fun x => x) A A1 lf iq ns) with (2 := EL); [reflexivity|].
      intros k x. apply rd3_val.
    - destruct (d_rank d =? rR)%Z; [|now apply Ok_inj in ER].
      apply bind_inv in ER. destruct ER as (eL & E3 & ER). apply bind_inv in ER. destruct ER as (fL & E4 & ER). cbv zeta in ER.
      change (4 + 1)%Z with 5%Z. change (4 + 2)%Z with 6%Z.
      rewrite (rd2_ent _ _ _ _ E3), (rd2_ent _ _ _ _ E4).
      rewrite (copy_row (d_nif d, d_nqf d, ns) (0, 0, 0)%Z _ (fun k => Uq eL (fL * d_nqf d + d_qR d lf iq)%Z k) (fun x => x) B B1 lf iq ns) with (2 := ER); [reflexivity|].
      intros k x. apply rd3_val. }
  rewrite S. reflexivity.
Qed.

(** After the exchange. *)
Lemma row_loop (f : Z -> R) n (V : arr3) i j : zloop n (fun k V => upd3 V i j k (f k)) V = set2 V i j (fun k => if inb n k then f k else V i j k).
Proof.
  apply functional_extensionality; intros a. apply functional_extensionality; intros b. apply functional_extensionality; intros k.
  rewrite SolverProof.fill_row3. unfold set2, inb. destruct (a =? i)%Z eqn:Ea, (b =? j)%Z eqn:Eb; cbn [andb]; try reflexivity.
  apply Z.eqb_eq in Ea, Eb. subst. reflexivity.
Qed.

Lemma after_reals UL UR v rs v' rs' : face_residuals_after d UL UR v rs = Ok (v', rs') ->
  kface_after reals RL kd UL UR (real_views v) rs = Ok (real_views v', rs').
Proof.
  intros H. unfold face_residuals_after in H. cbv zeta in H. apply bind_inv in H. destruct H as (Fq & EF & H).
  apply bind_inv in H. destruct H as (Fe & EE & H). apply Ok_inj in H. injection H as <- <-. destruct OK as [O1 O2].
  unfold kface_after. cbn [k_order k_porder real_data kv_Uq kv_UqL kv_UqR kv_Fq kv_Fe real_views v_Uq v_UqL v_UqR v_Fq v_Fe].
  assert (S1 : foreach (d_porder d 2 (d_nif d) (d_nqf d)) (kface_flux reals kd UL UR) (v_Fq v) = Ok Fq).
  { unfold face_fluxes in EF. revert EF. generalize (v_Fq v). induction (d_porder d 2 (d_nif d) (d_nqf d)) as [|[lf iq] l IH]; intros F0 E; [exact E|].
    cbn [foreach] in E |- *. apply bind_inv in E. destruct E as (F1 & E1 & E).
    unfold face_flux_point in E1. apply bind_inv in E1. destruct E1 as (F & E2 & E1). apply Ok_inj in E1.
    rewrite row_loop in E1. unfold kface_flux at 1. unfold k_dim. rewrite kns. cbn [k_flux k_shape k_gamma k_normals k_junk k_fwts real_data]. rewrite HD.
    apply numflux_reals in E2; [|exact dim_cases].
    match goal with |- context [knumflux reals ?a ?b ?c ?d ?e ?f ?g ?h] => replace (knumflux reals a b c d e f g h) with (Ok F) by (symmetry; exact E2) end.
    cbn [bind]. kred. rewrite E1. now apply IH. }
  rewrite S1. cbn [bind].
  assert (S2 : kflux_states reals kd (d_porder d 3 (d_nif d) (d_nqf d)) Fq (v_Fe v) = Fe).
  { unfold kflux_states. unfold construct_flux_state in EE. refine (foreach_sweep _ _ _ _ _ _ EE). clear EE.
    intros [lf iq] A A' _ E. apply bind_inv in E. destruct E as (rL & E1 & E). apply bind_inv in E. destruct E as (rR & E2 & E).
    apply bind_inv in E. destruct E as (A1 & EL & ER).
    assert (SL : kflux_side reals kd false Fq (lf, iq) A = A1).
    { unfold kflux_side. rewrite !kns. cbn [k_rank k_rows k_nqf k_qL k_qR real_data].
      unfold SolverFaces.srank, SolverFaces.selem, SolverFaces.sface, SolverFaces.qidx, SolverFaces.col.
      rewrite (rd2_ent _ _ _ _ E1). destruct (d_rank d =? rL)%Z; [|now apply Ok_inj in EL].
      apply bind_inv in EL. destruct EL as (eL & E3 & EL). apply bind_inv in EL. destruct EL as (fL & E4 & EL). cbv zeta in EL.
      rewrite (rd2_ent _ _ _ _ E3), (rd2_ent _ _ _ _ E4).
      rewrite (copy_row _ (0, 0, 0)%Z _ (fun k => Fq lf iq k) (fun x => -1 * x) A A1 _ _ ns) with (2 := EL); [reflexivity|].
      intros k x. apply rd3_val. }
    rewrite SL. unfold kflux_side. rewrite !kns. cbn [k_rank k_rows k_nqf k_qL k_qR real_data].
    unfold SolverFaces.srank, SolverFaces.selem, SolverFaces.sface, SolverFaces.qidx, SolverFaces.col.
    change (4 + 0)%Z with 4%Z. change (4 + 1)%Z with 5%Z. change (4 + 2)%Z with 6%Z.
    rewrite (rd2_ent _ _ _ _ E2). destruct (d_rank d =? rR)%Z; [|now apply Ok_inj in ER].
    apply bind_inv in ER. destruct ER as (eL & E3 & ER). apply bind_inv in ER. destruct ER as (fL & E4 & ER). cbv zeta in ER.
    rewrite (rd2_ent _ _ _ _ E3), (rd2_ent _ _ _ _ E4).
    rewrite (copy_row _ (0, 0, 0)%Z _ (fun k => Fq lf iq k) (fun x => x) A1 A' _ _ ns) with (2 := ER); [reflexivity|].
    intros k x. apply rd3_val. }
  rewrite S2. f_equal. f_equal.
  apply functional_extensionality; intros e. apply functional_extensionality; intros i. apply functional_extensionality; intros k.
  assert (S3 : kface_integral reals RL kd (d_order d 3) Fe rs =
    face_flux_integral (d_order d 3) (d_NFACE d * d_nqf d) (d_nb d) ns (kflat reals (d_nqf d) (d_face_basis d)) Fe rs).
  { unfold kface_integral, face_flux_integral, ploop. rewrite kns, knp. cbn [k_nb k_nqf k_fval real_data]. generalize rs.
    induction (d_order d 3) as [|x l IH]; intros t; [reflexivity|]. cbn [fold_left]. rewrite gemm_reals. apply IH. }
  rewrite S3. rewrite !(SolverProof.face_flux_integral_entry _ (d_ne d)) by apply O1.
  destruct (inb (d_ne d) e && inb (d_nb d) i && inb ns k)%bool eqn:B; [|reflexivity].
  apply andb_true_iff in B. destruct B as [B _]. apply andb_true_iff in B. destruct B as [_ B]. apply inb_true in B.
  f_equal. apply rsum_ext. intros p Hp. now rewrite flat_reals.
Qed.
End Residual.
