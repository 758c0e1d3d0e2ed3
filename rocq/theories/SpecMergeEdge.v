(** Specification of the search for snake edges on the same surface. *)
From Verif Require Import Base Mesh.
Set Implicit Arguments.
Open Scope Z_scope.

(** The edge at position [p] lists surface [s]. *)
Definition edge_lists (es : list edge) (p s : Z) : Prop :=
  exists e, 0 <= p /\ nth_error es (Z.to_nat p) = Some e /\ In s (ed_surfind e).
(** Positions [p] and [q] have the same parent. *)
Definition same_parent (keys : list Z) (p q : Z) : Prop :=
  0 <= p /\ 0 <= q /\
  exists k, nth_error keys (Z.to_nat p) = Some k /\ nth_error keys (Z.to_nat q) = Some k.
(** Surface [s] of the edge at [cur] is also a surface of another edge with the
    same parent. *)
Definition shared_surf (es : list edge) (keys : list Z) (cur s : Z) : Prop :=
  edge_lists es cur s /\
  exists p, p <> cur /\ same_parent keys cur p /\ edge_lists es p s.
(** One parent per edge, [cur] is a position, and no edge lists a surface
    twice. *)
Definition snake_edges (es : list edge) (keys : list Z) (cur : Z) : Prop :=
  length es = length keys /\ 0 <= cur < Z.of_nat (length es) /\
  forall e, In e es -> NoDup (ed_surfind e).
