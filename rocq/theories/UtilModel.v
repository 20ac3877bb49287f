(** UtilModel.v -- utilities (src/utils), the enumeration tables
    (src/common/enums.h) and the command line (src/exec/main.cpp). *)
From Coq Require Import ZArith List Lia Bool String Ascii Decimal DecimalString NArith.
From Verif Require Import Base.
Import ListNotations.
Local Open Scope Z_scope.
Local Open Scope res_scope.

(** utils.h 93-104, on the contents of the two ranges.  The while loop advances
    one of the iterators in each iteration. *)
Fixpoint have_common_element (fuel : nat) (l1 l2 : list Z) : bool :=
  match fuel with
  | O => false
  | S fuel =>
    match l1, l2 with
    | a :: r1, b :: r2 =>
      if a <? b then have_common_element fuel r1 l2
      else if b <? a then have_common_element fuel l1 r2
      else true
    | _, _ => false
    end
  end.
(** The loop runs at most [length l1 + length l2] times. *)
Definition common (l1 l2 : list Z) : bool := have_common_element (List.length l1 + List.length l2) l1 l2.

(** operator<< of an integer, decimal; std::setw and std::setfill('0'): pad on
    the left (default adjustment) up to width [w]. *)
Local Open Scope string_scope.
Definition dec (n : Z) : string :=
  match n with
  | Zneg p => "-" ++ NilZero.string_of_uint (N.to_uint (Npos p))
  | _ => NilZero.string_of_uint (N.to_uint (Z.to_N n))
  end.
Fixpoint zeros (n : nat) : string := match n with O => "" | S k => "0" ++ zeros k end.
Definition pad (w : nat) (s : string) : string := zeros (w - String.length s) ++ s.

(** utils.cpp 101-107 *)
Definition get_fname_with_iter (prefix suffix : string) (iter : Z) : string :=
  prefix ++ "_" ++ pad 8 (dec iter) ++ suffix.
(** utils.cpp 109-120 *)
Definition get_fname_with_iter_srID (prefix suffix : string) (iter srID : Z) : string :=
  prefix ++ "_" ++ pad 8 (dec iter) ++ "_" ++ pad 3 (dec srID) ++ suffix.

(** utils.cpp 122-128: nullptr is [None]. *)
Fixpoint get_option (argv : list string) (option : string) : Datatypes.option string :=
  match argv with
  | [] => None
  | a :: rest => if String.eqb a option then match rest with [] => None | v :: _ => Some v end else get_option rest option
  end.
(** utils.cpp 130-132 *)
Fixpoint exist_option (argv : list string) (option : string) : bool :=
  match argv with [] => false | a :: rest => if String.eqb a option then true else exist_option rest option end.
(** exec/main.cpp 31-35 (also post/main.cpp 259-263): name of the input file;
    std::string of a null pointer is undefined. *)
Definition input_file_name (argv : list string) : res string :=
  if exist_option argv "-input" then
    match get_option argv "-input" with Some f => Ok f | None => Fail NullDeref end
  else Ok "input.toml".

(** ** Enumerations *)
Record enum := mkEnum { e_values : list string; e_names : list string }.
(** enums.h 20-26: vector operator[] of the enumerator's value. *)
Definition enum_to_string (e : enum) (v : Z) : res string := rd (e_names e) v.
(** enums.h 32-54: std::find, then the index. *)
Fixpoint find_index (l : list string) (s : string) (i : Z) : res Z :=
  match l with [] => Fail Thrown | a :: r => if String.eqb a s then Ok i else find_index r s (i + 1)%Z end.
Definition enum_from_string (e : enum) (s : string) : res Z := find_index (e_names e) s 0.
(** enums.h 56-66: enumerators in declaration order and the name table. *)
Definition e_PhysicsType := mkEnum ["Euler"; "NavierStokes"] ["Euler"; "NavierStokes"].
(** enums.h 68-78: enumerators in declaration order and the name table. *)
Definition e_StepperType := mkEnum ["ForwardEuler"; "RungeKutta4"] ["FE"; "RK4"].
(** enums.h 81-91: enumerators in declaration order and the name table. *)
Definition e_NumericalFluxType := mkEnum ["LaxFriedrichs"; "HLLC"] ["LaxFriedrichs"; "HLLC"].
(** enums.h 93-107: enumerators in declaration order and the name table. *)
Definition e_ICType := mkEnum ["Uniform"; "Gaussian"; "Sphere"; "IsentropicVortex"] ["Uniform"; "Gaussian"; "Sphere"; "IsentropicVortex"].
(** enums.h 109-139: enumerators in declaration order and the name table. *)
Definition e_BasisType := mkEnum ["LagrangeSeg"; "LagrangeQuad"; "LagrangeHex"; "LegendreSeg"; "LegendreQuad"; "LegendreHex"; "LagrangeGLL1D"; "LagrangeGLL2D"; "LagrangeGLL3D"; "LagrangeGL2D"; "LagrangeGL3D"; "TriangleLagrange"] ["LagrangeSeg"; "LagrangeQuad"; "LagrangeHex"; "LegendreSeg"; "LegendreQuad"; "LegendreHex"; "LagrangeGLL1D"; "LagrangeGLL2D"; "LagrangeGLL3D"; "LagrangeGL2D"; "LagrangeGL3D"; "TriangleLagrange"].
(** enums.h 141-155: enumerators in declaration order and the name table. *)
Definition e_QuadratureType := mkEnum ["GaussLegendre"; "GaussLobatto"; "TriangleDunavant"; "TriangleGaussLegendre"] ["GaussLegendre"; "GaussLobatto"; "TriangleDunavant"; "TriangleGaussLegendre"].
(** enums.h 157-167: enumerators in declaration order and the name table. *)
Definition e_NodeType := mkEnum ["Equidistant"; "Interior"] ["Equidistant"; "Interior"].
(** enums.h 169-181: enumerators in declaration order and the name table. *)
Definition e_NormType := mkEnum ["DomainIntegral"; "L1"; "L2"] ["DomainIntegral"; "L1"; "L2"].
(** enums.h 183-197: enumerators in declaration order and the name table. *)
Definition e_ShapeType := mkEnum ["Segment"; "Quadrilateral"; "Hexahedron"; "Triangle"] ["Segment"; "Quadrilateral"; "Hexahedron"; "Triangle"].
(** enums.h 199-215: enumerators in declaration order and the name table. *)
Definition e_DGSchemeType := mkEnum ["DG"; "SumFact"; "LegendreStruct"; "ColocatedGL"; "ColocatedGLL"] ["DG"; "SumFact"; "LegendreStruct"; "ColocatedGL"; "ColocatedGLL"].
(** enums.h 217-227: enumerators in declaration order and the name table. *)
Definition e_InitType := mkEnum ["L2Projection"; "Interpolation"] ["L2Projection"; "Interpolation"].
Definition enums := [e_PhysicsType; e_StepperType; e_NumericalFluxType; e_ICType; e_BasisType; e_QuadratureType; e_NodeType; e_NormType; e_ShapeType; e_DGSchemeType; e_InitType].
