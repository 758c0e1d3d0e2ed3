(** Specification for C108: a mesh whose surfaces are split into triangles. *)
From Verif Require Import Base Mesh SpecMesh SpecOrder MeshTri.
Import Mesh.
Set Implicit Arguments.
Open Scope Z_scope.

(** The surfaces that are split: the parents of triangles with a centre. *)
Definition to_split (ts : list tri) (i : Z) : Prop := exists t, In t ts /\ mixed t = true /\ tr_parent t = i.
(** The triangles belong to surfaces of the mesh, and those of mixed types have a centre. *)
Definition legal_tris (m : mesh) (ts : list tri) : Prop :=
  forall t, In t ts -> mixed t = true -> has_surf m (tr_parent t) /\ exists p, In p (tr_points t) /\ fst p = centre_type.
(** Every surface is listed as a closed polygon of three edges or more with different
    corners. *)
Definition polygonal (m : mesh) : Prop :=
  forall s, In s (surfs m) -> (3 <= length (su_edgeind s))%nat /\ exists vs, NoDup vs /\ polygon (edge_joins m) (su_edgeind s) vs.
(** [ts] are the triangles that replace surface [s] with corners [vs]: the one beside edge k
    has that edge and two edges from its ends to the new vertex [V], and the cells of [s] on
    its sides.  The first has the index of [s], the others have new indices. *)
Definition fan_of (m m' : mesh) (s : surf) (vs : list Z) (V : Z) (ts : list surf) : Prop :=
  ~ has_vert m V /\ has_vert m' V /\ length ts = length (su_edgeind s) /\
  (forall k t, nth_error ts k = Some t -> In t (surfs m') /\ su_voluind t = su_voluind s /\
     (if (k =? 0)%nat then su_index t = su_index s else ~ has_surf m (su_index t)) /\
     exists a b e x y, su_edgeind t = [a; b; e] /\ nth_error (su_edgeind s) k = Some e /\
       nth_error vs k = Some x /\ nth_error (tl vs ++ firstn 1 vs) k = Some y /\
       ~ has_edge m a /\ ~ has_edge m b /\
       ((edge_joins m' a V x /\ edge_joins m' b V y) \/ (edge_joins m' a V y /\ edge_joins m' b V x))).
(** The vertices, edges (with their ends) and volumes of [m] are in [m']. *)
Definition kept (m m' : mesh) : Prop :=
  (exists l, map ve_index (verts m') = map ve_index (verts m) ++ l) /\
  (exists l, map (fun e => (ed_index e, ed_vertind e)) (edges m') = map (fun e => (ed_index e, ed_vertind e)) (edges m) ++ l) /\
  map vo_index (volus m') = map vo_index (volus m) /\ meshDim m' = meshDim m.
(** A surface that was split, its corners, the vertex in its middle and the triangles. *)
Record fan := mkFan { f_surf : surf; f_corners : list Z; f_vertex : Z; f_tris : list surf }.
(** What splitting [m] for the triangles [ts] gives: one fan per surface to split; the other
    surfaces stay as they are and there are no further surfaces; the new vertices are those
    in the middle of the fans, each at a centre of its surface; the new edges join them to
    the corners. *)
Definition fans_for (m m' : mesh) (ts : list tri) (F : list fan) (from : list Z) : Prop :=
  NoDup (map (fun f => su_index (f_surf f)) F) /\
  (forall i, In i (map (fun f => su_index (f_surf f)) F) <-> to_split ts i) /\
  (forall f, In f F -> In (f_surf f) (surfs m) /\ NoDup (f_corners f) /\
     polygon (edge_joins m) (su_edgeind (f_surf f)) (f_corners f) /\ fan_of m m' (f_surf f) (f_corners f) (f_vertex f) (f_tris f)) /\
  (forall t, In t (surfs m') <-> (In t (surfs m) /\ ~ to_split ts (su_index t)) \/ exists f, In f F /\ In t (f_tris f)) /\
  map ve_index (verts m') = map ve_index (verts m) ++ map f_vertex F /\
  (forall e, has_edge m' e -> has_edge m e \/ exists f x, In f F /\ In x (f_corners f) /\ edge_joins m' e (f_vertex f) x) /\
  Forall2 (fun f c => exists t, In t ts /\ tr_parent t = su_index (f_surf f) /\ In (centre_type, c) (tr_points t)) F from.
