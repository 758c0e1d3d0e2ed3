(** Specifications for the block grid theorems. *)
From Coq Require Import QArith.
From Verif Require Import Base Mesh SpecMesh.
Set Implicit Arguments.
Open Scope Z_scope.

(** Objects are numbered 1, 2, 3, ... in the order in which they are stored. *)
Definition numbered (ids : list Z) (n : Z) : Prop :=
  Z.of_nat (length ids) = n /\ forall k i, nth_error ids k = Some i -> i = Z.of_nat k + 1.
(** A list of [n] different numbers between 1 and [top]. *)
Definition names (n : nat) (top : Z) (l : list Z) : Prop :=
  length l = n /\ NoDup l /\ forall x, In x l -> 1 <= x <= top.
(** The structured hexahedral mesh of nx by ny by nz cells. *)
Definition structured (nx ny nz : Z) (m : mesh) : Prop :=
  let nv := (nx + 1) * (ny + 1) * (nz + 1) in
  let ne := nx * (ny + 1) * (nz + 1) + (nx + 1) * ny * (nz + 1) + (nx + 1) * (ny + 1) * nz in
  let ns := nx * ny * (nz + 1) + nx * (ny + 1) * nz + (nx + 1) * ny * nz in
  let nc := nx * ny * nz in
  numbered (map ve_index (verts m)) nv /\ numbered (map ed_index (edges m)) ne /\
  numbered (map su_index (surfs m)) ns /\ numbered (map vo_index (volus m)) nc /\
  (forall c, In c (volus m) -> names 6 ns (vo_surfind c)) /\
  (forall s, In s (surfs m) -> names 4 ne (su_edgeind s)) /\
  (forall s, In s (surfs m) -> length (su_voluind s) = 2%nat /\ NoDup (su_voluind s) /\ forall v, In v (su_voluind s) -> 0 <= v <= nc) /\
  (forall e, In e (edges m) -> names 2 nv (ed_vertind e)) /\
  well_connected m.

(** The three coordinates given by numerators and denominators. *)
Definition point (nd : (Z * Z * Z) * (Z * Z * Z)) : Q * Q * Q :=
  let '((a, b, c), (d, e, f)) := nd in (a # Z.to_pos d, b # Z.to_pos e, c # Z.to_pos f)%Q.
Definition in_unit_cube (p : Q * Q * Q) : Prop :=
  let '(x, y, z) := p in (0 <= x <= 1 /\ 0 <= y <= 1 /\ 0 <= z <= 1)%Q.
Definition same_point (p q : Q * Q * Q) : Prop :=
  let '(x, y, z) := p in let '(x', y', z') := q in (x == x' /\ y == y' /\ z == z')%Q.
(** [q] is one cell width further than [p] along one axis. *)
Definition one_cell_along (nx ny nz : Z) (p q : Q * Q * Q) : Prop :=
  let '(x, y, z) := p in let '(x', y', z') := q in
  let w n := (1 # Z.to_pos (Z.max n 1))%Q in
  ((x' == x + w nx /\ y' == y /\ z' == z) \/ (x' == x /\ y' == y + w ny /\ z' == z) \/
   (x' == x /\ y' == y /\ z' == z + w nz))%Q.
