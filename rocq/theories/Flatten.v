(** Model of the functions that split faces of a mesh in place: FlattenBoundaryFaces and
    TriangulateAllFaces, src/grid/meshprocessing.cpp 15-113.

    [m] is meshin, prepared: its surfaces are marked ordered and its borders are set, so that
    PrepareForUse only orders the surfaces that are not marked (mesh.cpp 3065-3068; see
    SplitSurf.v).  The capacities of the vector of surfaces at the three calls of OrderEdges
    are parameters, because they depend on the copies 73 and 107.  The coordinates of the
    centres (CalcTriVertPos 66 and 100) are left out; newSurfs 69 and 103 is not used. *)
From Verif Require Import Base Containers Mesh Order MeshTri SplitSurf.
From Verif Require Calc Triangulate.
Import Mesh.
Set Implicit Arguments.
Open Scope Z_scope.

(** The triangles of a triangulation as MeshTriangulation reads them
    (triangulate.cpp 647-687). *)
Definition of_face (f : Triangulate.face) : tri := mkTriangle (Triangulate.fc_parent f) (Calc.tri_pts (Triangulate.fc_tri f)).

Section Faces.
Variable table : list Z -> Z -> list nat.
Variable fuel : nat.
(** The capacities at triangulate.cpp 766, meshprocessing.cpp 74 or 108 and 77 or 111. *)
Variables cap1 cap2 cap3 : Z.

(** 62-77 and 96-111: the surfaces at the positions [sub], or all of them. *)
Definition split_faces (m : mesh) (sub : list Z) : outcome mesh :=
  do t <- Triangulate.triangulate_container m Calc.t_mesh sub Triangulate.no_tris ;
  do r <- mesh_triangulation m (map of_face (Triangulate.items (Triangulate.t_stat t))) ;
  do a <- order_edges table fuel (fst r) cap1 ;
  do b <- order_edges table fuel (fst (fst a)) cap2 ;
  do m3 <- mesh_tighten (fst (fst b)) ;
  do c <- order_edges table fuel m3 cap3 ;
  Ok (fst (fst c)).

(** TriangulateAllFaces 82-113. *)
Definition triangulate_all_faces (m : mesh) : outcome mesh := split_faces m [].

(** [near k v w]: fabs(coord[k] of v - coord[k] of w) < tol, as computed at 49-50. *)
Variable near : Z -> Z -> Z -> bool.
(** 43-53: one of isFlat is still true. *)
Definition is_flat (vs : list Z) : bool :=
  match vs with [] => true | v0 :: r => existsb (fun k => forallb (fun v => near k v v0) r) [0; 1; 2] end.
(** 38-56, for one surface. *)
Definition is_bent (m : mesh) (s : surf) : outcome bool :=
  if (su_border s && (3 <? length (su_edgeind s))%nat)%bool then
    do vs <- ordered_verts m (su_edgeind s) ;
    do ps <- omap_list (at_ (verts m)) (find_list ve_index (verts m) vs) ;
    Ok (negb (is_flat (map ve_index ps)))
  else Ok false.
(** 36-58: subList. *)
Fixpoint bent_faces (m : mesh) (i : Z) (l : list surf) : outcome (list Z) :=
  match l with
  | [] => Ok []
  | s :: r => do b <- is_bent m s ; do p <- bent_faces m (i + 1) r ; Ok (if b then i :: p else p)
  end.
(** FlattenBoundaryFaces 15-80. *)
Definition flatten_boundary_faces (m : mesh) : outcome mesh :=
  do sub <- bent_faces m 0 (surfs m) ;
  match sub with [] => Ok m | _ => split_faces m sub end.
End Faces.
