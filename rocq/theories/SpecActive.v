(** Vocabulary for the statements about the active triangles of the mesh. *)
From Coq Require Import List ZArith.
From Verif Require Import Base Containers Mesh Order Edit Calc Triangulate.
Set Implicit Arguments.
Open Scope Z_scope.

(** The surface of triangle [f] is crossed by the snake: a part of it is recorded. *)
Definition crossed (ts : list trisf) (f : face) : Prop := exists s, In s ts /\ ts_parent s = fc_parent f.
(** Vertex [v] of the mesh is (is not) inside the snake. *)
Definition vertex_in (m : mesh) (inside : list bool) (v : Z) (b : bool) : Prop :=
  exists i x, nth_error (verts m) i = Some x /\ ve_index x = v /\ nth_error inside i = Some b.
(** The first point of type mesh of a triangle. *)
Inductive first_mesh_point (v : Z) : list (Z * Z) -> Prop :=
| first_here r : first_mesh_point v ((t_mesh, v) :: r)
| first_later p r : fst p <> t_mesh -> first_mesh_point v r -> first_mesh_point v (p :: r).
(** [f] is the first triangle of its surface in the list. *)
Definition leads (l : list face) (f : face) : Prop := exists a b, l = a ++ f :: b /\ forall g, In g a -> fc_parent g <> fc_parent f.
(** Everything but the active triangles is the same. *)
Definition only_active (t t' : tris) : Prop :=
  t_stat t' = t_stat t /\ t_dyna t' = t_dyna t /\ t_inter t' = t_inter t /\ t_vert t' = t_vert t /\ t_surf t' = t_surf t.
(** What happens to the surface of [f]. *)
Definition decided (m : mesh) (inside : list bool) (ts : list trisf) (f : face) (b : bool) : Prop :=
  (crossed ts f /\ b = false) \/ (~ crossed ts f /\ exists v, first_mesh_point v (tri_pts (fc_tri f)) /\ vertex_in m inside v b).
