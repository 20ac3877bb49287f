(** ProgramModel.v -- model of the solver executable's start-up: src/exec/main.cpp,
    the look-ups of the Mesh constructor (src/mesh/mesh.cpp 28-62), the Solver
    constructor (src/solver/base.cpp 21-66) and the Physics constructor
    (src/physics/base/base.cpp 17-34).

    The assertions in these functions (main.cpp 74, numerics_data.cpp 239) are not
    active in the Release build that CMakeLists.txt selects and are left out. *)
From Coq Require Import ZArith List Lia Reals String.
From Verif Require Import Base RBase MeshModel ReadModel PropCtor UtilModel TimeModel.
From Verif Require SizeModel BasisModel PhysModel DGSpec.
Import ListNotations.
Local Open Scope Z_scope.
Local Open Scope string_scope.
Open Scope res_scope.

(** The entries of a parsed input file that the program looks up; [None]: absent.
    Decimals other than the step and the end time are taken as reals. *)
Record input := mkInput {
  in_dim : option Z;                    (* Physics.dim *)
  in_order : option Z;                  (* Numerics.order *)
  in_basis : option string;             (* Numerics.basis *)
  in_quad : option string;              (* Numerics.quad *)
  in_mesh : option string;              (* Mesh.file *)
  in_top_npart : bool;                  (* npartitions at the top level *)
  in_npart : option Z;                  (* Mesh.npartitions *)
  in_boundaries : option (list string); (* Boundaries.names *)
  in_ic : option string;                (* InitialCondition.name *)
  in_ic_data : option (list R);         (* InitialCondition.data *)
  in_phys : option string;              (* Physics.name *)
  in_flux : option string;              (* Physics.convective_flux_fcn *)
  in_gamma : option R;                  (* Physics.gamma *)
  in_gas : option R;                    (* Physics.GasConstant *)
  in_stepper : option string;           (* Stepper.type *)
  in_dt : option dbl;                   (* Stepper.timestep *)
  in_end : option dbl                   (* Stepper.end *)
}.

(** toml::find throws when the key is absent; toml::find_or has a default. *)
Definition find {B} (o : option B) : res B := match o with Some v => Ok v | None => Fail Thrown end.
Definition find_or {B} (o : option B) (d : B) : B := match o with Some v => v | None => d end.

(** enums.h: the enumerator with a given number. *)
Definition basis_types : list SizeModel.BasisType :=
  [SizeModel.LagrangeSeg; SizeModel.LagrangeQuad; SizeModel.LagrangeHex; SizeModel.LegendreSeg; SizeModel.LegendreQuad; SizeModel.LegendreHex;
   SizeModel.LagrangeGLL1D; SizeModel.LagrangeGLL2D; SizeModel.LagrangeGLL3D; SizeModel.LagrangeGL2D; SizeModel.LagrangeGL3D; SizeModel.TriangleLagrange].
Definition flux_types := [PhysModel.LaxFriedrichs; PhysModel.HLLC].
Definition ic_types := [PhysModel.Uniform; PhysModel.Gaussian; PhysModel.Sphere; PhysModel.IsentropicVortex].
Definition stepper_types := [DGSpec.ForwardEuler; DGSpec.RungeKutta4].
Inductive physics_type := Euler | NavierStokes.
Definition physics_types := [Euler; NavierStokes].
Definition parse {B} (e : enum) (values : list B) (s : string) : res B := i <- enum_from_string e s ;; rd values i.

(** The Basis object of the six types basis.cpp 237-290 knows; the others leave
    its function pointers unset (SizeModel.basis_shape). *)
Definition basis_object (t : SizeModel.BasisType) : res BasisModel.basis_type :=
  match t with
  | SizeModel.LagrangeSeg => Ok BasisModel.LagrangeSeg
  | SizeModel.LagrangeQuad => Ok BasisModel.LagrangeQuad
  | SizeModel.LagrangeHex => Ok BasisModel.LagrangeHex
  | SizeModel.LegendreSeg => Ok BasisModel.LegendreSeg
  | SizeModel.LegendreQuad => Ok BasisModel.LegendreQuad
  | SizeModel.LegendreHex => Ok BasisModel.LegendreHex
  | _ => Fail Uninitialised
  end.

(** What the solver object of a rank holds after construction. *)
Record config := mkConfig {
  cf_dim : Z;                       (* template argument *)
  cf_basis : BasisModel.basis_type;
  cf_order : Z;
  cf_ic : PhysModel.ic_type;
  cf_physics : physics_type;
  cf_flux : PhysModel.flux_type;
  cf_phys : PhysModel.phys;         (* gamma, R, IC_data *)
  cf_stepper : DGSpec.stepper;
  cf_dt : dbl;
  cf_end : dbl
}.

(** numerics_data.cpp 229-320: NumericsParams(toml_input, gorder): basis type and
    sizes.  A negative order (cast to unsigned in the code) is outside the model. *)
Definition numerics_params (inp : input) (gorder : Z) : res (SizeModel.BasisType * SizeModel.nparams) :=
  order <- find (in_order inp) ;;
  name <- find (in_basis inp) ;;
  basis <- parse e_BasisType basis_types name ;;
  np <- SizeModel.NumericsParams basis order gorder ;;
  let default := match basis with SizeModel.TriangleLagrange => "TriangleDunavant" | _ => "GaussLegendre" end in
  _ <- enum_from_string e_QuadratureType (find_or (in_quad inp) default) ;;
  Ok (basis, np).

(** mesh.cpp 28-62; [meshes]: the mesh files that can be opened. *)
Definition open_mesh (meshes : string -> option (mesh_file R)) (inp : input) (iter : list Z -> list Z) (metis : gmesh R -> Z -> option (list Z))
  (num_ranks rank : Z) : res (mesh_data R * pmesh R) :=
  name <- find (in_mesh inp) ;;
  mf <- find (meshes name) ;;
  mesh_ctor 0%R iter metis (in_top_npart inp) (in_npart inp) (find_or (in_boundaries inp) []) mf num_ranks rank.

(** physics/base/base.cpp 26-34 (set_physical_params): gamma and R keep their
    previous content [junk] unless the physics is Euler. *)
Definition physical_params (ty : physics_type) (inp : input) (junk : R * R) : R * R :=
  match ty with
  | Euler => (find_or (in_gamma inp) 1.4%R, find_or (in_gas inp) 287.05%R)
  | NavierStokes => junk
  end.

(** solver/base.cpp 21-66 and main.cpp 72-83 (initial-condition data).  Reads past
    the end of the data array are not tracked: there the model has 0. *)
Definition solver_ctor (inp : input) (dim : Z) (params_basis : SizeModel.BasisType) (junk : R * R) : res config :=
  ic_name <- find (in_ic inp) ;;
  order <- find (in_order inp) ;;
  basis <- basis_object params_basis ;;
  phys <- find (in_phys inp) ;;
  physics <- parse e_PhysicsType physics_types phys ;;
  flux <- parse e_NumericalFluxType flux_types (find_or (in_flux inp) "LaxFriedrichs") ;;
  ic <- parse e_ICType ic_types ic_name ;;
  let '(gamma, gas) := physical_params physics inp junk in
  stepper <- parse e_StepperType stepper_types (find_or (in_stepper inp) "FE") ;;
  dt <- find (in_dt inp) ;;
  tfinal <- find (in_end inp) ;;
  data <- find (in_ic_data inp) ;;
  Ok (mkConfig dim basis order ic physics flux
        (PhysModel.Build_phys gamma gas (fun k => match rd data k with Ok v => v | Fail _ => 0%R end)) stepper dt tfinal).

(** main.cpp 53-83 up to precompute_matrix_helpers, on rank [rank]. *)
Definition run_solver_start (meshes : string -> option (mesh_file R)) (inp : input) (dim : Z) (iter : list Z -> list Z)
  (metis : gmesh R -> Z -> option (list Z)) (junk : R * R) (num_ranks rank : Z) : res (config * mesh_data R * pmesh R) :=
  let gorder := 1 in
  '(basis, np) <- numerics_params inp gorder ;;
  _ <- SizeModel.basis_shape (SizeModel.np_gbasis np) ;;              (* 59: Basis(gbasis, gorder) *)
  '(md, pm) <- open_mesh meshes inp iter metis num_ranks rank ;;
  _ <- find (in_dim inp) ;;
  cfg <- solver_ctor inp dim basis junk ;;
  Ok (cfg, md, pm).

(** main.cpp 26-49; [inputs]: the input files that can be parsed.  [Ok None]: main
    returns without having called run_solver. *)
Definition main_start (inputs : string -> option input) (meshes : string -> option (mesh_file R)) (argv : list string)
  (iter : list Z -> list Z) (metis : gmesh R -> Z -> option (list Z)) (junk : R * R) (num_ranks rank : Z) : res (option (config * mesh_data R * pmesh R)) :=
  name <- input_file_name argv ;;
  inp <- find (inputs name) ;;
  dim <- find (in_dim inp) ;;
  if (dim =? 2)%Z then s <- run_solver_start meshes inp 2 iter metis junk num_ranks rank ;; Ok (Some s)
  else if (dim =? 3)%Z then s <- run_solver_start meshes inp 3 iter metis junk num_ranks rank ;; Ok (Some s)
  else Ok None.

(** stepper.cpp: what a step adds to solver.time (FE: line 50; RK4: lines 98, 125). *)
Definition advance (st : DGSpec.stepper) (dt t : R) : R :=
  (match st with DGSpec.ForwardEuler => t + dt | DGSpec.RungeKutta4 => t + dt / 2.0 + dt / 2.0 end)%R.
(** solver/base.cpp 388-394: solver.time after the time loop, from 0 (line 25). *)
Definition final_time (st : DGSpec.stepper) (dt : R) (steps : nat) : R := Nat.iter steps (advance st dt) 0%R.
