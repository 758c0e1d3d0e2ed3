(** Specification of the grouping and merging of close vertices. *)
From Coq Require Import Reals.
From Verif Require Import Base Mesh SpecMesh Geom.
Set Implicit Arguments.
Open Scope Z_scope.

(** Vertex [i] lies at [(x, y, z)]. *)
Definition lies_at (g : gmesh) (i : Z) (x y z : R) : Prop :=
  exists k v r, nth_error (verts (gtopo g)) k = Some v /\ ve_index v = i /\
    nth_error (gcoord g) k = Some (x :: y :: z :: r).
Definition distance (x y z x' y' z' : R) : R :=
  sqrt ((x - x') * (x - x') + (y - y') * (y - y') + (z - z') * (z - z'))%R.
(** An edge shorter than [tol] has the ends [u] and [v]. *)
Definition short_edge (g : gmesh) (tol : R) (e u v : Z) : Prop :=
  (exists x, In x (edges (gtopo g)) /\ ed_index x = e /\ (ed_vertind x = [u; v] \/ ed_vertind x = [v; u])) /\
  exists x y z x' y' z', lies_at g u x y z /\ lies_at g v x' y' z' /\ (distance x y z x' y' z' < tol)%R.
(** A path of such edges. *)
Inductive joined (g : gmesh) (tol : R) : Z -> Z -> Prop :=
| joined_refl u : joined g tol u u
| joined_step u v w e : joined g tol u v -> short_edge g tol e v w -> joined g tol u w.

(** Unique indices, vertices and edges referring to each other, edges with two
    ends, three coordinates for each vertex. *)
Definition grid_ready (g : gmesh) : Prop :=
  NoDup (map ve_index (verts (gtopo g))) /\ NoDup (map ed_index (edges (gtopo g))) /\
  (forall v e, VE (gtopo g) v e <-> EV (gtopo g) e v) /\
  (forall e, In e (edges (gtopo g)) -> length (ed_vertind e) = 2%nat) /\
  length (gcoord g) = length (verts (gtopo g)) /\
  (forall p, In p (gcoord g) -> (3 <= length p)%nat).

(** The group of vertex [i]; -1 is no group. *)
Definition in_group (m : mesh) (lab : list Z) (i k : Z) : Prop :=
  exists p v, nth_error (verts m) p = Some v /\ ve_index v = i /\ nth_error lab p = Some k.
(** [rep] sends the vertices of each group to one of them, and no other. *)
Definition representative (m : mesh) (lab : list Z) (rep : Z -> Z) : Prop :=
  (forall i k, in_group m lab i k -> k <> -1 -> in_group m lab (rep i) k) /\
  (forall i j k, in_group m lab i k -> in_group m lab j k -> k <> -1 -> rep i = rep j) /\
  (forall i, (forall k, in_group m lab i k -> k = -1) -> rep i = i).
(** What findall returns for a vector. *)
Definition findall_of (lab : list Z) (findall : Z -> list Z) : Prop :=
  forall k, NoDup (findall k) /\ forall p, In p (findall k) <-> 0 <= p /\ nth_error lab (Z.to_nat p) = Some k.
