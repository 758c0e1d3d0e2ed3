(** Specification of the connections to edit in a snake (C114). *)
From Verif Require Import Base Mesh Num Snake Spawn Detect.
Set Implicit Arguments.
Open Scope Z_scope.

(** The edge [e] of the snake joins two snaxels [a] and [b] on the same edge of the mesh. *)
Definition flattened {N : num} (k : snake N) (e : edge) (a b : Z) : Prop :=
  In e (edges (k_conn k)) /\ ed_vertind e = [a; b] /\
  exists s t, In s (k_snaxs k) /\ sx_index s = a /\ In t (k_snaxs k) /\ sx_index t = b /\ sx_edge s = sx_edge t.

(** [c] merges the snaxel [b] into [a]. *)
Definition merges (c : connec) (a b : Z) : Prop := cn_type c = 1 /\ cn_keep c = a /\ cn_rmv c = [b].
(** Two merges are the same or have no snaxel in common. *)
Definition agree (a b a1 b1 : Z) : Prop := a = a1 /\ b = b1 \/ a <> a1 /\ a <> b1 /\ b <> a1 /\ b <> b1.

(** An edge that starts with the same end twice, and the edge that it becomes. *)
Definition looped (e : edge) : Prop := exists a r, ed_vertind e = a :: a :: r.
Definition emptied (e : edge) : edge := mkEdge (ed_index e) (ed_border e) [] [].
(** Edge [i] is removed by a record of [l]. *)
Definition recorded (l : list connec) (i : Z) : Prop := exists c, In c l /\ cn_type c = 2 /\ In i (cn_rmv c).
