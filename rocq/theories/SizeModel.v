(** SizeModel.v -- the functions that compute numbers of basis functions, nodes
    and points (src/numerics/numerics_data.cpp, basis/shape.cpp, basis/basis.cpp).
    Integers without wrap-around; pow and ceil of small integers are exact in
    double precision. *)
From Coq Require Import ZArith List Lia Bool.
From Verif Require Import Base.
Import ListNotations.
Local Open Scope Z_scope.
Local Open Scope res_scope.

(** enums.h 109-122 *)
Inductive BasisType := LagrangeSeg | LagrangeQuad | LagrangeHex | LegendreSeg | LegendreQuad | LegendreHex
  | LagrangeGLL1D | LagrangeGLL2D | LagrangeGLL3D | LagrangeGL2D | LagrangeGL3D | TriangleLagrange.
(** enums.h 141-146 *)
Inductive QuadratureType := GaussLegendre | GaussLobatto | TriangleDunavant | TriangleGaussLegendre.
(** enums.h 199-205 *)
Inductive DGSchemeType := DG | SumFact | LegendreStruct | ColocatedGL | ColocatedGLL.

(** numerics_data.cpp 11-36 *)
Definition get_num_bases (type : BasisType) (order : Z) : res Z :=
  match type with
  | LagrangeSeg | LagrangeGLL1D => Ok (order + 1)
  | LagrangeQuad | LagrangeGLL2D | LagrangeGL2D | LegendreQuad => Ok ((order + 1) * (order + 1))
  | LagrangeHex | LagrangeGLL3D | LagrangeGL3D | LegendreHex => Ok ((order + 1) * (order + 1) * (order + 1))
  | TriangleLagrange => Ok ((order + 1) * (order + 2) / 2)
  | _ => Fail Thrown
  end.
(** numerics_data.cpp 38-57 *)
Definition get_num_bases_1d (type : BasisType) (order : Z) : res Z :=
  match type with
  | LagrangeSeg | LagrangeGLL1D | LagrangeQuad | LagrangeGLL2D | LagrangeGL2D | LegendreQuad
  | LagrangeHex | LagrangeGLL3D | LagrangeGL3D | LegendreHex => Ok (order + 1)
  | TriangleLagrange => Ok 0
  | _ => Fail Thrown
  end.
(** ceil((order + a.) / 2.) *)
Definition ceil_half (a : Z) : Z := - ((- a) / 2).
(** numerics_data.cpp 76-139, the switch over the order *)
Definition dunavant (order : Z) : Z :=
  if (0 <=? order) && (order <=? 20) then
    nth (Z.to_nat order) [1; 1; 3; 4; 6; 7; 12; 13; 16; 19; 25; 27; 33; 37; 42; 48; 52; 61; 70; 73; 79] 1
  else 1.
(** numerics_data.cpp 59-148 *)
Definition get_num_quad (type : QuadratureType) (dim order : Z) : Z :=
  match type with
  | GaussLegendre => ceil_half (order + 1) ^ dim
  | GaussLobatto => (1 + ceil_half (order + 1)) ^ dim
  | TriangleGaussLegendre => ceil_half (order + 2) ^ dim
  | TriangleDunavant => if dim =? 1 then ceil_half (order + 1) ^ dim else dunavant order
  end.
(** numerics_data.cpp 150-168 *)
Definition get_num_quad_1d (type : QuadratureType) (order : Z) : Z :=
  match type with
  | GaussLegendre => ceil_half (order + 1)
  | GaussLobatto => 1 + ceil_half (order + 1)
  | TriangleGaussLegendre | TriangleDunavant => 0
  end.
(** numerics_data.cpp 170-179 *)
Definition get_iMM_size (type : DGSchemeType) (nb : Z) : Z := match type with LegendreStruct => nb | _ => nb * nb end.
(** numerics_data.cpp 181-223: (nppp, nppsc, nppscn) *)
Definition get_solfile_params (type : BasisType) (order : Z) : res (Z * Z * Z) :=
  match type with
  | LagrangeQuad | LagrangeGLL2D | LagrangeGL2D | LegendreQuad => Ok ((Z.max order 1 + 1) ^ 2, Z.max order 1 ^ 2, 4)
  | LagrangeHex | LagrangeGLL3D | LagrangeGL3D | LegendreHex => Ok ((Z.max order 1 + 1) ^ 3, Z.max order 1 ^ 3, 8)
  | TriangleLagrange => Ok ((Z.max order 1 + 1) * (Z.max order 1 + 2) / 2, Z.max order 1 * Z.max order 1, 3)
  | _ => Fail Thrown
  end.
(** numerics_data.cpp 229-280: order, nb, nb1d, gbasis, nface, norient, gnb *)
Record nparams := mkNP { np_order : Z; np_nb : Z; np_nb1d : Z; np_gbasis : BasisType; np_nface : Z; np_norient : Z; np_gnb : Z }.
Definition NumericsParams (basis : BasisType) (order gorder : Z) : res nparams :=
  nb <- get_num_bases basis order;;
  nb1d <- get_num_bases_1d basis order;;
  g <- match basis with
       | LagrangeSeg | LagrangeGLL1D => Ok (LagrangeSeg, 2, 1)
       | LagrangeQuad | LagrangeGLL2D | LagrangeGL2D | LegendreQuad => Ok (LagrangeQuad, 4, 2)
       | LagrangeHex | LagrangeGLL3D | LagrangeGL3D | LegendreHex => Ok (LagrangeHex, 6, 8)
       | TriangleLagrange => Ok (TriangleLagrange, 3, 2)
       | _ => Fail Thrown
       end;;
  let '(gbasis, nface, norient) := g in
  gnb <- get_num_bases gbasis gorder;;
  Ok (mkNP order nb nb1d gbasis nface norient gnb).

(** shape.cpp 534-594; a Shape that was never assigned has no functions. *)
Inductive ShapeType := Segment | Quadrilateral | Hexahedron.
Definition NDIMS (s : ShapeType) : Z := match s with Segment => 1 | Quadrilateral => 2 | Hexahedron => 3 end.
Definition NFACES (s : ShapeType) : Z := match s with Segment => 2 | Quadrilateral => 4 | Hexahedron => 6 end.
Definition NCORNERS (s : ShapeType) : Z := match s with Segment => 2 | Quadrilateral => 4 | Hexahedron => 8 end.
Definition NUM_ORIENT_PER_FACE (s : ShapeType) : Z := match s with Segment => 1 | Quadrilateral => 2 | Hexahedron => 8 end.
Definition face_type (s : ShapeType) : option ShapeType :=
  match s with Segment => None | Quadrilateral => Some Segment | Hexahedron => Some Quadrilateral end.
(** shape.cpp 9-12, 28-30, 209-211 *)
Definition get_num_basis_coeff (s : ShapeType) (p : Z) : Z :=
  match s with Segment => p + 1 | Quadrilateral => (p + 1) * (p + 1) | Hexahedron => (p + 1) * (p + 1) * (p + 1) end.
(** shape.cpp 14-18, 32-35, 213-216 *)
Definition get_num_nodes_per_face (s : ShapeType) (g : Z) : Z :=
  match s with Segment => 1 | Quadrilateral => g + 1 | Hexahedron => (g + 1) * (g + 1) end.
(** shape.cpp 20-23, 37-40, 218-221 *)
Definition get_num_nodes_per_elem (s : ShapeType) (g : Z) : Z :=
  match s with Segment => g + 1 | Quadrilateral => (g + 1) * (g + 1) | Hexahedron => (g + 1) * (g + 1) * (g + 1) end.

(** basis.cpp 237-290: the shape set by the constructor, and nb.  For the other
    types no branch is taken and nb is computed through an unset pointer. *)
Definition basis_shape (t : BasisType) : res ShapeType :=
  match t with
  | LagrangeSeg | LegendreSeg => Ok Segment
  | LagrangeQuad | LegendreQuad => Ok Quadrilateral
  | LagrangeHex | LegendreHex => Ok Hexahedron
  | _ => Fail Uninitialised
  end.
Definition basis_nb (t : BasisType) (order : Z) : res Z := s <- basis_shape t;; Ok (get_num_basis_coeff s order).
