(** Surface::eval(size_t), the triangle mesh of a patch. *)
From Verif Require Import Base MeshModel.
Open Scope R_scope.

(** The triangles and the points of a mesh. *)
Record pmesh := mkMesh { pm_tris : list tri; pm_points : list V3 }.

(** surface.cc:142-151.  [Domain::parameters] is [parametersImpl] (its cache is
    the subject of C09), [eval] is the virtual function of the patch; [None]
    when the parameters or a point are not defined. *)
Definition surfaceMesh (n : nat) (center : V2) (vs : list V2) (eval : V2 -> option V3) (r : nat) : option pmesh :=
  uvs <- parametersImpl n center vs r ;;
  pts <- mapM eval uvs ;;
  Some (mkMesh (meshTopology n r) pts).

(** The same on a circular domain (generalized Bezier patches, corner based). *)
Definition surfaceMeshCircle (n : nat) (eval : V2 -> option V3) (r : nat) : option pmesh :=
  uvs <- parametersImplCircle n r ;;
  pts <- mapM eval uvs ;;
  Some (mkMesh (meshTopologyCircle n r) pts).
