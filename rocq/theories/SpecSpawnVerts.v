(** Specification for C98: the vertices around which a snake is started, in terms of the
    cells, the surfaces and the targets of the parents. *)
From Coq Require Import ZArith List QArith Qabs.
From Verif Require Import Base Mesh SpecMesh Spawn SpecSpawn Family SpecFamily.
Import ListNotations.
Set Implicit Arguments.
Open Scope Z_scope.

(** The vertex is a corner of a surface with the exterior on one side. *)
Definition at_outside (m : mesh) (n : Z) : Prop := exists s, touches m n s /\ SV m s 0.
(** The cell has such a surface, or a corner of one. *)
Definition outer_cell (m : mesh) (c : Z) : Prop :=
  (exists s, VS m c s /\ SV m s 0) \/ (exists s e n, VS m c s /\ SE m s e /\ EV m e n /\ at_outside m n).
(** The target is 1, for outerBorder 0, or not 0, for outerBorder 1, up to DBL_EPSILON. *)
Definition wanted (o : Z) (q : Q) : Prop :=
  if o =? 0 then (Qabs (q - 1) < 1 # 4503599627370496)%Q else (1 # 4503599627370496 < Qabs q)%Q.
(** An outer cell of which one parent gives such a target. *)
Definition wanted_cell (m : mesh) (t : tree) (h : cells) (o c : Z) : Prop :=
  outer_cell m c /\ exists j q, Z.of_nat j < nParents t /\ parent_target m t h j c q /\ wanted o q.
(** The vertex is a corner of such a cell. *)
Definition off_outside (m : mesh) (t : tree) (h : cells) (o n : Z) : Prop :=
  exists c s e, wanted_cell m t h o c /\ VS m c s /\ SE m s e /\ EV m e n.
(** The vertex is a corner of a surface between two cells of which, in one parent, exactly
    one has target 1 (outerBorder 0) or 0 (outerBorder 1). *)
Definition on_front (m : mesh) (t : tree) (h : cells) (o n : Z) : Prop :=
  exists s v0 v1, In s (surfs m) /\ (exists e, In e (su_edgeind s) /\ EV m e n) /\ sides s v0 v1 /\ v0 <> 0 /\ v1 <> 0 /\
    exists j q0 q1, Z.of_nat j < nParents t /\ parent_target m t h j v0 q0 /\ parent_target m t h j v1 q1 /\
      exactly_one (at_bound (o =? 1) q0) (at_bound (o =? 1) q1).
(** A mesh in which every vertex that is not at the outside is an interior one and every
    edge has two ends. *)
Definition cellular (m : mesh) : Prop :=
  (forall n, has_vert m n -> ~ at_outside m n -> interior m n) /\
  (forall e, In e (edges m) -> exists a b, ed_vertind e = [a; b]).
