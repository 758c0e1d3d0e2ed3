(** Specification for C111: the faces of a mesh split in place. *)
From Verif Require Import Base Mesh SpecMesh SpecOrder SpecMeshTri SpecSplitSurf MeshTri.
Import Mesh.
Set Implicit Arguments.
Open Scope Z_scope.

(** The two meshes differ only in the order of the references in their lists. *)
Definition rearranged (m m' : mesh) : Prop :=
  same_objects m m' /\ same_refs m m' /\ map ed_vertind (edges m') = map ed_vertind (edges m).
(** [m'] is [m] with the surfaces [chosen] split into fans of triangles around a new vertex
    (the fans [F] of a mesh that differs from [m'] in the order of references only), and
    nothing else added or removed. *)
Definition faces_split (m m' : mesh) (chosen : Z -> Prop) (F : list fan) : Prop :=
  exists m1 ts from, kept m m1 /\ fans_for m m1 ts F from /\ (forall i, to_split ts i <-> chosen i) /\ rearranged m1 m'.
(** Every surface is marked ordered and listed as one closed polygon. *)
Definition all_in_order (m : mesh) : Prop :=
  forall t, In t (surfs m) -> su_ordered t = true /\ one_polygon m (su_edgeind t).
(** [v] is a corner of [s]. *)
Definition corner (m : mesh) (s : surf) (v : Z) : Prop := exists e, In e (su_edgeind s) /\ edge_touches m e v.
(** In one of the directions 0, 1, 2 all corners are near the corner [v0]. *)
Definition flat_at (near : Z -> Z -> Z -> bool) (m : mesh) (s : surf) (v0 : Z) : Prop :=
  exists k, 0 <= k < 3 /\ forall v, corner m s v -> v <> v0 -> near k v v0 = true.
(** [v0] is the first corner of [s], in the order of its list of edges. *)
Definition first_corner (m : mesh) (s : surf) (v0 : Z) : Prop :=
  exists vs, NoDup (v0 :: vs) /\ polygon (edge_joins m) (su_edgeind s) (v0 :: vs).
(** A surface of the border of four edges or more that is not flat, seen from its first
    corner. *)
Definition bent (near : Z -> Z -> Z -> bool) (m : mesh) (s : surf) : Prop :=
  su_border s = true /\ (3 < length (su_edgeind s))%nat /\ exists v0, first_corner m s v0 /\ ~ flat_at near m s v0.
(** Edges have two ends at most. *)
Definition two_ended (m : mesh) : Prop := forall e, In e (edges m) -> (length (ed_vertind e) <= 2)%nat.
