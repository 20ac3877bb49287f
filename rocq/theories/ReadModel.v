(** ReadModel.v -- Mesh::read_mesh (src/mesh/mesh.cpp 79-206) as one function of
    the mesh file. *)
From Coq Require Import ZArith List String.
From Verif Require Import Base MeshModel.
Import ListNotations.
Local Open Scope Z_scope.

(** The data sets of a mesh file (names: mesh.cpp 16-26 and 181, 187).  A data
    set that is absent and must be read raises an HDF5 error ([None] for the
    boundary groups; the other mandatory data sets are taken to be there). *)
Record mesh_file (A : Type) := mkMeshFile {
  mf_dim : Z;                              (* Dimension *)
  mf_qorder : Z;                           (* QOrder *)
  mf_nelem : Z;                            (* nElem *)
  mf_nnode : Z;                            (* nNode *)
  mf_niface : Z;                           (* nIFace *)
  mf_npe : Z;                              (* nNodePerElem *)
  mf_npf : option Z;                       (* nNodePerFace, may be absent *)
  mf_coords : list A;                      (* NodeCoords, flat, row-major *)
  mf_e2n : list Z;                         (* Elem2Nodes, flat, row-major *)
  mf_ifaces : list Z;                      (* IFaceData, flat, row-major *)
  mf_group : string -> option (Z * list Z) (* BFG_<name>_nBFace, BFG_<name>_BFaceData *)
}.
Arguments mkMeshFile {A}.
Arguments mf_dim {A}. Arguments mf_qorder {A}. Arguments mf_nelem {A}. Arguments mf_nnode {A}.
Arguments mf_niface {A}. Arguments mf_npe {A}. Arguments mf_npf {A}. Arguments mf_coords {A}.
Arguments mf_e2n {A}. Arguments mf_ifaces {A}. Arguments mf_group {A}.

(** The members of Mesh that read_mesh sets. *)
Record mesh_data (A : Type) := mkMeshData {
  md_mesh : gmesh A;
  md_order : Z;
  md_npf : Z;
  md_eptr : list Z;
  md_e2f : list (list Z);                  (* elem_to_IF *)
  md_nIF_in_elem : list Z;
  md_bdata : list (string * list (list Z)); (* BFG_to_data *)
  md_e2b : list (list Z);                  (* elem_to_BF *)
  md_nBG_in_elem : list Z;
  md_nBFG : Z;
  md_nBF : Z
}.
Arguments mkMeshData {A}.
Arguments md_mesh {A}. Arguments md_order {A}. Arguments md_npf {A}. Arguments md_eptr {A}.
Arguments md_e2f {A}. Arguments md_nIF_in_elem {A}. Arguments md_bdata {A}. Arguments md_e2b {A}.
Arguments md_nBG_in_elem {A}. Arguments md_nBFG {A}. Arguments md_nBF {A}.

(** src/mesh/mesh.cpp 181, 187: the data sets of the named groups. *)
Definition find_groups {A} (mf : mesh_file A) (names : list string) : res (list (Z * list Z)) :=
  foreach names (fun nm gs => match mf_group mf nm with Some g => Ok (gs ++ [g]) | None => Fail Thrown end) [].

(** src/mesh/mesh.cpp 79-206.  [names] is the list of boundary names of the
    input file (lines 46-52; empty when there is none).  Simplifications: the
    groups' data sets are fetched before the loop over the groups instead of
    inside it; BFG_to_data is an association list in group order (names
    distinct). *)
Definition read_mesh {A} (names : list string) (mf : mesh_file A) : res (mesh_data A) :=
  let npf := match mf_npf mf with Some k => k | None => 1 end in      (* 99-108 *)
  coord <- read_coords (mf_nnode mf) (mf_dim mf) (mf_coords mf) ;;
  '(IF, e2f, nIF_in_elem) <- read_faces (mf_nelem mf) (mf_niface mf) (mf_ifaces mf) ;;
  eptr <- read_eptr (mf_nelem mf) (mf_npe mf) ;;
  groups <- find_groups mf names ;;
  '(datas, (e2b, cnt, _), nBF) <- read_bgroups (mf_nelem mf) groups ;;
  Ok (mkMeshData (mkGMesh (mf_dim mf) (mf_nelem mf) (mf_nnode mf) (mf_niface mf) (mf_npe mf) (mf_e2n mf) coord IF)
        (mf_qorder mf) npf eptr e2f nIF_in_elem (combine names datas) e2b cnt (zlen names) nBF).
