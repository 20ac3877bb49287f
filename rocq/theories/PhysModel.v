(** PhysModel.v -- model of src/physics: the Euler equations of an ideal gas,
    the Lax-Friedrichs and HLLC numerical fluxes, the initial conditions.

    States and fluxes are arrays [arr1]; a 2D state has the entries 0..3, a 3D
    state 0..4 (GLOBAL_NUM_SPECIES = 1, so NUM_STATE_VARS = dim + 2,
    base.h 65).  [rtype] is the real numbers.  Divisions and square roots are
    checked: a zero divisor or a negative radicand is [Fail BadArith] (in C++
    it would give an infinity or a NaN). *)
From Coq Require Import ZArith List Lia Reals Lra.
From Verif Require Import Base RBase LinAlgModel.
Import ListNotations.
Local Open Scope R_scope.

Definition ckdiv (x y : R) : res R := if Req_EM_T y 0 then Fail BadArith else Ok (x / y).
Definition cksqrt (x : R) : res R := if Rlt_dec x 0 then Fail BadArith else Ok (sqrt x).

(** Slice of a state: U + 1, or the loop copying U[1 + i] to mom[i]. *)
Definition tail1 (U : arr1) : arr1 := fun i => U (1 + i)%Z.

(** euler/functions.cpp 10-23. *)
Definition get_pressure (dim : Z) (gamma : R) (U : arr1) : res R :=
  let mom := tail1 U in
  rKE <- ckdiv (dot_inst dim mom mom) (U 0%Z) ;;
  Ok ((gamma - 1) * (U (dim + 1)%Z - 0.5 * rKE)).

(** euler/functions.cpp 25-40. *)
Definition get_maxwavespeed (dim : Z) (gamma : R) (U : arr1) : res R :=
  let mom := tail1 U in
  rho1 <- ckdiv 1 (U 0%Z) ;;
  m <- cksqrt (dot_inst dim mom mom) ;;
  let sqrtrKE := m * rho1 in
  P <- get_pressure dim gamma U ;;
  a <- cksqrt (gamma * P * rho1) ;;
  Ok (sqrtrKE + a).

(** euler/functions.cpp 43-62: 2D fluxes, direction by direction. *)
Definition conv_flux_interior2 (gamma : R) (U Fdir : arr1) : res arr1 :=
  r1 <- ckdiv 1 (U 0%Z) ;;
  let ru := U 1%Z in let rv := U 2%Z in let rE := U 3%Z in
  P <- get_pressure 2 gamma U ;;
  let Fdir := upd1 Fdir 0 ru in
  let Fdir := upd1 Fdir 1 (ru*ru*r1 + P) in
  let Fdir := upd1 Fdir 2 (ru*rv*r1) in
  let Fdir := upd1 Fdir 3 ((rE + P)*ru*r1) in
  let Fdir := upd1 Fdir 4 rv in
  let Fdir := upd1 Fdir 5 (ru*rv*r1) in
  let Fdir := upd1 Fdir 6 (rv*rv*r1 + P) in
  Ok (upd1 Fdir 7 ((rE + P)*rv*r1)).

(** euler/functions.cpp 64-91: 3D fluxes. *)
Definition conv_flux_interior3 (gamma : R) (U Fdir : arr1) : res arr1 :=
  r1 <- ckdiv 1 (U 0%Z) ;;
  let ru := U 1%Z in let rv := U 2%Z in let rw := U 3%Z in let rE := U 4%Z in
  P <- get_pressure 3 gamma U ;;
  let Fdir := upd1 Fdir 0 ru in
  let Fdir := upd1 Fdir 1 (ru*ru*r1 + P) in
  let Fdir := upd1 Fdir 2 (ru*rv*r1) in
  let Fdir := upd1 Fdir 3 (ru*rw*r1) in
  let Fdir := upd1 Fdir 4 ((rE + P)*ru*r1) in
  let Fdir := upd1 Fdir 5 rv in
  let Fdir := upd1 Fdir 6 (rv*ru*r1) in
  let Fdir := upd1 Fdir 7 (rv*rv*r1 + P) in
  let Fdir := upd1 Fdir 8 (rv*rw*r1) in
  let Fdir := upd1 Fdir 9 ((rE + P)*rv*r1) in
  let Fdir := upd1 Fdir 10 rw in
  let Fdir := upd1 Fdir 11 (rw*ru*r1) in
  let Fdir := upd1 Fdir 12 (rw*rv*r1) in
  let Fdir := upd1 Fdir 13 (rw*rw*r1 + P) in
  Ok (upd1 Fdir 14 ((rE + P)*rw*r1)).

(** The template instance selected by the dimension; Physics::
    get_conv_flux_interior (base.cpp 36-46) for the Euler physics type.  (For
    NavierStokes, which can be named in the input, base.cpp 43 prints an error
    and leaves Fdir as it is; that case is not modelled.) *)
Definition conv_flux_interior (dim : Z) : R -> arr1 -> arr1 -> res arr1 :=
  if (dim =? 2)%Z then conv_flux_interior2 else conv_flux_interior3.

(** base/functions.cpp 34-87.  [Fq0]: contents of the uninitialised worker
    array, [F0]: contents of the output before the call. *)
Definition laxfriedrichs (dim : Z) (gamma : R) (UL UR N F0 Fq0 : arr1) : res arr1 :=
  let NS := (dim + 2)%Z in
  let n2 := zloop dim (fun idim n_mag => n_mag + N idim * N idim) 0 in
  n_mag <- cksqrt n2 ;;
  _ <- ckdiv 1 n_mag ;;
  let n_hat := fun idim => N idim / n_mag in
  FL <- conv_flux_interior dim gamma UL Fq0 ;;
  let FqL := zloop NS (fun is FqL => zloop dim (fun idim FqL =>
        upd1 FqL is (FqL is + FL (is + idim * NS)%Z * n_hat idim)) FqL) (fun _ => 0) in
  FR <- conv_flux_interior dim gamma UR FL ;;
  let FqR := zloop NS (fun is FqR => zloop dim (fun idim FqR =>
        upd1 FqR is (FqR is + FR (is + idim * NS)%Z * n_hat idim)) FqR) (fun _ => 0) in
  let dU := fun is => UR is - UL is in
  aL <- get_maxwavespeed dim gamma UL ;;
  aR <- get_maxwavespeed dim gamma UR ;;
  let a := if Rlt_dec aL aR then aR else aL in
  Ok (zloop NS (fun is F =>
        upd1 F is (n_mag * (0.5 * (FqL is + FqR is) - 0.5 * a * dU is))) F0).

(** One branch of the HLLC flux: euler/functions.cpp 242-255 (sides outside the
    wave fan) and 256-285 (star region).  The C++ text repeats these blocks for
    the two sides; here they are functions of the side's quantities (the energy
    products of 249 and 255 associate differently, which makes no difference in
    real arithmetic). *)
Definition hllc_outer (dim : Z) (djac : R) (n U : arr1) (rho un P : R) (F : arr1) : arr1 :=
  let F := upd1 F 0 (djac * rho * un) in
  let F := zloop dim (fun i F => upd1 F (1 + i) (djac * (U (1 + i)%Z * un + P * n i))) F in
  upd1 F (dim + 1) (djac * ((U (dim + 1)%Z + P) * un)).

Definition hllc_star (dim : Z) (djac : R) (n U : arr1) (rho un P s sStar : R) (F : arr1) : res arr1 :=
  c <- ckdiv (s - un) (s - sStar) ;;
  let factor1 := sStar - un in
  q <- ckdiv P (rho * (s - un)) ;;
  let factor2 := sStar + q in
  let F := upd1 F 0 (djac * (rho * un + rho * s * (c - 1))) in
  let F := zloop dim (fun i F => upd1 F (1 + i)
      (djac * (U (1 + i)%Z * un + P * n i + s * (U (1 + i)%Z * (c - 1) + rho * c * factor1 * n i)))) F in
  Ok (upd1 F (dim + 1)
      (djac * ((U (dim + 1)%Z + P) * un + s * (U (dim + 1)%Z * (c - 1) + rho * c * factor1 * factor2)))).

(** Wave speed factor, euler/functions.cpp 231-234 (2D), 335-338 (3D). *)
Definition hllc_q (gam pStar P : R) : res R :=
  r <- ckdiv pStar P ;;
  if Rlt_dec 1 r then
    g <- ckdiv (gam + 1) (2 * gam) ;; cksqrt (1 + g * (r - 1))
  else Ok 1.

(** euler/functions.cpp 196-296 (2D) and 298-399 (3D): the two specialisations
    have the same text up to the dimension. *)
Definition hllc (dim : Z) (gam : R) (UL UR N F : arr1) : res arr1 :=
  djac <- cksqrt (dot_inst dim N N) ;;
  djac1 <- ckdiv 1 djac ;;
  let n := fun i => N i * djac1 in
  let rhoL := UL 0%Z in
  rhoL1 <- ckdiv 1 rhoL ;;
  let unL := dot_inst dim (tail1 UL) n * rhoL1 in
  PL <- get_pressure dim gam UL ;;
  aL <- cksqrt (gam * PL * rhoL1) ;;
  let rhoR := UR 0%Z in
  rhoR1 <- ckdiv 1 rhoR ;;
  let unR := dot_inst dim (tail1 UR) n * rhoR1 in
  PR <- get_pressure dim gam UR ;;
  aR <- cksqrt (gam * PR * rhoR1) ;;
  let rAvg := 0.5 * (rhoL + rhoR) in
  let aAvg := 0.5 * (aL + aR) in
  let pStar := Rmax 0 (0.5 * (PL + PR - (unR - unL) * rAvg * aAvg)) in
  qL <- hllc_q gam pStar PL ;;
  qR <- hllc_q gam pStar PR ;;
  let sL := unL - aL * qL in
  let sR := unR + aR * qR in
  sStar <- ckdiv (PR - PL + rhoL * unL * (sL - unL) - rhoR * unR * (sR - unR))
                 (rhoL * (sL - unL) - rhoR * (sR - unR)) ;;
  if Rle_dec 0 sL then Ok (hllc_outer dim djac n UL rhoL unL PL F)
  else if Rle_dec sR 0 then Ok (hllc_outer dim djac n UR rhoR unR PR F)
  else if Rle_dec 0 sStar then hllc_star dim djac n UL rhoL unL PL sL sStar F
  else if Rlt_dec 0 sR then hllc_star dim djac n UR rhoR unR PR sR sStar F
  else Fail Aborted.

(** common/enums.h 81-84 *)
Inductive flux_type := LaxFriedrichs | HLLC.

(** base.cpp 48-62 *)
Definition get_conv_flux_numerical (t : flux_type) (dim : Z) (gamma : R) (UL UR N F0 Fq0 : arr1) : res arr1 :=
  match t with
  | LaxFriedrichs => laxfriedrichs dim gamma UL UR N F0 Fq0
  | HLLC => hllc dim gamma UL UR N F0
  end.

(** Parameters of the physics object (base.h 46-68). *)
Record phys := { ph_gamma : R; ph_R : R; ph_IC : arr1 }.

(** C++ pow with a non-integer exponent: defined for positive arguments. *)
Definition ckpow (x y : R) : res R := if Rlt_dec 0 x then Ok (Rpower x y) else Fail BadArith.

(** euler/functions.cpp 94-145; assert(Rg == 1.0) at 109 (active in debug
    builds; modelled as active). *)
Definition vortex2 (ph : phys) (x : arr1) (t : R) (Uq : arr1) : res arr1 :=
  let rhob := ph_IC ph 0%Z in
  let ub := ph_IC ph 1%Z in
  let vb := ph_IC ph 2%Z in
  let pb := ph_IC ph 3%Z in
  let vs := ph_IC ph 4%Z in
  let gamma := ph_gamma ph in
  let Rg := ph_R ph in
  if Req_EM_T Rg 1 then
    Tb <- ckdiv pb (rhob * Rg) ;;
    pw <- ckpow rhob gamma ;;
    s <- ckdiv pb pw ;;
    let xr := x 0%Z - ub * t in
    let yr := x 1%Z - vb * t in
    r <- cksqrt (xr ^ 2 + yr ^ 2) ;;
    let dU := vs / (2 * PI) * exp (0.5 * (1 - r ^ 2)) in
    let du := dU * -1 * yr in
    let dv := dU * xr in
    g <- ckdiv (-1 * (gamma - 1) * vs ^ 2) (8 * gamma * PI ^ 2) ;;
    let dT := g * exp (1 - r ^ 2) in
    let u := ub + du in
    let v := vb + dv in
    let T := Tb + dT in
    Ts <- ckdiv T s ;;
    e <- ckdiv 1 (gamma - 1) ;;
    rho <- ckpow Ts e ;;
    let rhou := rho * u in
    let rhov := rho * v in
    c <- ckdiv (rho * Rg) (gamma - 1) ;;
    k <- ckdiv (0.5 * (rhou * rhou + rhov * rhov)) rho ;;
    let rhoE := c * T + k in
    Ok (upd1 (upd1 (upd1 (upd1 Uq 0 rho) 1 rhou) 2 rhov) 3 rhoE)
  else Fail Aborted.

(** euler/functions.cpp 147-191; [t] is not used. *)
Definition vortex3 (ph : phys) (x : arr1) (t : R) (Uq : arr1) : res arr1 :=
  let rho0 := 1 in let sos0 := 1 in let L := 1 in
  let Mach := 1 in
  let radius := L / 10 in
  let sigma := 1 in
  let gamma := ph_gamma ph in
  let beta := Mach * 5 * sqrt 2 / (4 * PI) * exp 0.5 in
  let u0 := Mach * sos0 in
  let x1 := x 0%Z - 0.5 in
  let y1 := x 2%Z - 0.5 in
  let f := -0.5 / (sigma * sigma) * (x1 * x1 + y1 * y1) / (radius * radius) in
  let Omega := beta * exp f in
  let du := - y1 / radius * Omega in
  let dv := x1 / radius * Omega in
  let dT := - (gamma - 1) / 2 * Omega * Omega in
  e1 <- ckdiv gamma (gamma - 1) ;;
  g1 <- ckdiv 1 gamma ;;
  pw <- ckpow (1 + dT) e1 ;;
  let p := g1 * pw in
  e2 <- ckdiv 1 (gamma - 1) ;;
  rho <- ckpow (rho0 + dT) e2 ;;
  let Uq := upd1 Uq 0 rho in
  let Uq := upd1 Uq 1 (Uq 0%Z * (u0 + du)) in
  let Uq := upd1 Uq 2 0 in
  let Uq := upd1 Uq 3 (Uq 0%Z * dv) in
  let mom := tail1 Uq in
  rKE <- ckdiv (dot_inst 3 mom mom) (Uq 0%Z) ;;
  c <- ckdiv p (gamma - 1) ;;
  Ok (upd1 Uq 4 (c + 0.5 * rKE)).

(** base.cpp 139-157 (2D and 3D have the same body). *)
Definition set_uniform (NS : Z) (ph : phys) (Uq : arr1) : arr1 :=
  zloop NS (fun is Uq => upd1 Uq is (ph_IC ph is)) Uq.

(** base.cpp 159-174 (the "Gaussian" state is a sine, see the TODO there). *)
Definition set_gaussian (ph : phys) (x Uq : arr1) : arr1 :=
  zloop 4 (fun is Uq => upd1 Uq is
    (ph_IC ph is * sin (30 * x 0%Z * x 0%Z * x 1%Z) * (x 0%Z + 1) * (x 1%Z + 1))) Uq.

(** base.cpp 176-194. *)
Definition set_sphere (ph : phys) (x Uq : arr1) : arr1 :=
  let v1 := 1 in let v0 := 0 in let Rr := 0.5 in let w := 0.5 in
  let magR := sqrt (x 0%Z * x 0%Z + x 1%Z * x 1%Z + x 2%Z * x 2%Z) in
  zloop 5 (fun is Uq => upd1 Uq is
    (0.5 * (v1 - v0) * (tanh (PI * (Rr - magR) / w) + 1) + v0)) Uq.

(** common/enums.h 93-98 *)
Inductive ic_type := Uniform | Gaussian | Sphere | IsentropicVortex.

(** base.cpp 75-103: initial state; base.cpp 105-136: exact solution used by the
    error computation (the bool: whether "no exact solution" was printed). *)
Definition call_IC (dim : Z) (ic : ic_type) (ph : phys) (x : arr1) (t : R) (Uq : arr1) : res arr1 :=
  if (dim =? 2)%Z then
    match ic with
    | Uniform => Ok (set_uniform 4 ph Uq)
    | Gaussian => Ok (set_gaussian ph x Uq)
    | IsentropicVortex => vortex2 ph x t Uq
    | Sphere => Ok Uq
    end
  else
    match ic with
    | Sphere => Ok (set_sphere ph x Uq)
    | Uniform => Ok (set_uniform 5 ph Uq)
    | IsentropicVortex => vortex3 ph x t Uq
    | Gaussian => Ok Uq
    end.

Definition call_exact_solution (dim : Z) (ic : ic_type) (ph : phys) (x : arr1) (t : R) (Uq : arr1)
  : res (arr1 * bool) :=
  if (dim =? 2)%Z then
    match ic with
    | Uniform => Ok (set_uniform 4 ph Uq, false)
    | Gaussian => Ok (set_gaussian ph x Uq, false)
    | IsentropicVortex => U <- vortex2 ph x t Uq ;; Ok (U, false)
    | Sphere => Ok (Uq, true)
    end
  else
    match ic with
    | Sphere => Ok (set_sphere ph x Uq, false)
    | Uniform => Ok (set_uniform 5 ph Uq, false)
    | IsentropicVortex => U <- vortex3 ph x t Uq ;; Ok (U, false)
    | Gaussian => Ok (Uq, true)
    end.
