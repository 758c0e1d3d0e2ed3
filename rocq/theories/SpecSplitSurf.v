(** Specifications for the ordering of the surfaces of a mesh. *)
From Verif Require Import Base Mesh SpecMesh SpecOrder.
Set Implicit Arguments.
Open Scope Z_scope.

(** Among edges no two of which are connected through the list there are at
    most [k]: the list is made of at most [k] polygons. *)
Definition at_most (m : mesh) (k : nat) (l : list Z) : Prop :=
  forall es, NoDup es -> incl es l ->
    (forall e f, In e es -> In f es -> e <> f -> ~ reach (edges_meet m l) e f) -> (length es <= k)%nat.

(** One closed polygon through distinct corners, or nothing. *)
Definition one_polygon (m : mesh) (l : list Z) : Prop :=
  NoDup l /\ exists vs, NoDup vs /\ polygon (edge_joins m) l vs.

(** Each surface of the second mesh is a part of the surface [parent] of the
    first: same cells, same border flag; the edges of a surface are shared out
    among its parts, each edge to one part.  Edges refer to the part in the
    place where they referred to the whole.  Vertices, ends of edges and the
    volumes other than their lists of surfaces are the same. *)
Definition parts_of (parent : Z -> Z) (m m' : mesh) : Prop :=
  verts m' = verts m /\ meshDim m' = meshDim m /\
  map (fun v => (vo_index v, vo_border v)) (volus m') = map (fun v => (vo_index v, vo_border v)) (volus m) /\
  map (fun e => (ed_index e, ed_border e, ed_vertind e)) (edges m') =
    map (fun e => (ed_index e, ed_border e, ed_vertind e)) (edges m) /\
  map (fun e => map parent (ed_surfind e)) (edges m') = map ed_surfind (edges m) /\
  (exists more, map su_index (surfs m') = map su_index (surfs m) ++ more) /\
  (forall i, ~ (exists t, In t (skipn (length (surfs m)) (surfs m')) /\ su_index t = i) -> parent i = i) /\
  (forall t, In t (surfs m') -> exists s, In s (surfs m) /\ su_index s = parent (su_index t) /\
     su_border t = su_border s /\ su_voluind t = su_voluind s) /\
  (forall s e, SE m s e <-> exists t, parent t = s /\ SE m' t e) /\
  (forall t u e, SE m' t e -> SE m' u e -> parent t = parent u -> t = u).

(** Surfaces that can be put in order: either marked ordered and one polygon, or
    a set of at most [k] simple polygons. *)
Definition orderable (k : nat) (m : mesh) (s : surf) : Prop :=
  if su_ordered s then one_polygon m (su_edgeind s)
  else simple_loops m (su_edgeind s) /\ at_most m k (su_edgeind s).

(** Sides of surfaces are designated by positive numbers, or 0; in three
    dimensions there are two. *)
Definition sided (m : mesh) : Prop :=
  (forall s v, SV m s v -> 0 <= v) /\
  (2 < meshDim m -> forall s, In s (surfs m) -> (2 <= length (su_voluind s))%nat).
