(** Specification for C99: which parts of a snake go. *)
From Verif Require Import Base Mesh SpecMesh SpecFlood Num Snake SpecSnake Spawn SpecSpawn.
Set Implicit Arguments.
Open Scope Z_scope.

(** Two vertices in the same part. *)
Definition same_part (c : mesh) (u v : Z) : Prop := joined (has_vert c) (share_edge c) u v.
(** The vertex is a corner of a surface of the snake in one of the cells. *)
Definition in_cells {N : num} (k : snake N) (cells : list Z) (v : Z) : Prop :=
  exists s c, In (s, c) (k_surfs k) /\ In c cells /\ on_surface (k_conn k) s v.
(** Some vertex of its part is. *)
Definition part_in_cells {N : num} (k : snake N) (cells : list Z) (v : Z) : Prop :=
  exists u, same_part (k_conn k) v u /\ in_cells k cells u.
(** The parts in the cells go for outerBorder 1, the others for outerBorder 0. *)
Definition goes {N : num} (k : snake N) (cells : list Z) (o v : Z) : Prop :=
  has_vert (k_conn k) v /\ if 0 <? o then part_in_cells k cells v else ~ part_in_cells k cells v.
(** No surface has corners in two parts, and each has a corner. *)
Definition whole (c : mesh) : Prop :=
  forall s, has_surf c s -> (exists v, on_surface c s v) /\ forall u v, on_surface c s u -> on_surface c s v -> same_part c u v.
(** What becomes of a snaxel that stays: for outerBorder 1 it is turned round. *)
Definition turned {N : num} (o : Z) (x : snax N) : snax N := if 0 <? o then flip_snax x else x.
