(** Specifications for edge ordering. *)
From Verif Require Import Base Mesh SpecMesh.
Set Implicit Arguments.
Open Scope Z_scope.

(** The table groups the positions of each value, in any order. *)
Definition is_table (e2v : list Z) (rng : Z -> list nat) : Prop :=
  forall v, Permutation (rng v) (positions (Z.eqb v) e2v).

(** Element [e] of a list has the pair [a], [b]. *)
Definition pair_of (ids e2v : list Z) (e a b : Z) : Prop :=
  exists p, nth_error ids p = Some e /\
            nth_error e2v (2 * p) = Some a /\ nth_error e2v (2 * p + 1) = Some b.
Definition touches ids e2v e v := exists a b, pair_of ids e2v e a b /\ (v = a \/ v = b).
Definition share ids e2v e f := exists v, touches ids e2v e v /\ touches ids e2v f v.
Definition joins ids e2v e a b := pair_of ids e2v e a b \/ pair_of ids e2v e b a.

(** Each entry has something in common with the next. *)
Definition chained {A} (rel : A -> A -> Prop) (l : list A) : Prop :=
  forall i e f, nth_error l i = Some e -> nth_error l (S i) = Some f -> rel e f.

(** [l] is a closed polygon through the corners [vs]: element [i] joins corner
    [i] to the next one, the last one joins back to the first. *)
Definition polygon (join : Z -> Z -> Z -> Prop) (l vs : list Z) : Prop :=
  length vs = length l /\
  forall i e a b, nth_error l i = Some e -> nth_error vs i = Some a ->
    nth_error (tl vs ++ firstn 1 vs) i = Some b -> join e a b.

(** Reachable through shared values. *)
Inductive reach {A} (rel : A -> A -> Prop) : A -> A -> Prop :=
| reach_refl a : reach rel a a
| reach_step a b c : reach rel a b -> rel b c -> reach rel a c.

(** Every value is used by exactly two elements, each element has two different
    values. *)
Definition two_regular (e2v : list Z) : Prop :=
  (forall v, In v e2v -> length (positions (Z.eqb v) e2v) = 2%nat) /\
  (forall p a b, nth_error e2v (2 * p) = Some a -> nth_error e2v (2 * p + 1) = Some b -> a <> b).

(** The same notions read off a mesh. *)
Definition edge_is (m : mesh) (e a b : Z) : Prop :=
  exists x, In x (edges m) /\ ed_index x = e /\ ed_vertind x = [a; b].
Definition edge_joins m e a b := edge_is m e a b \/ edge_is m e b a.
Definition edge_touches m e v := exists w, edge_joins m e v w.
Definition edges_meet m (l : list Z) e f :=
  In e l /\ In f l /\ exists v, edge_touches m e v /\ edge_touches m f v.

(** Every edge of the list has two different ends and at each end exactly one
    other edge of the list: the list is a set of simple closed polygons. *)
Definition simple_loops (m : mesh) (l : list Z) : Prop :=
  (forall e, In e l -> exists a b, edge_is m e a b /\ a <> b) /\
  (forall e v, In e l -> edge_touches m e v -> exists f, In f l /\ f <> e /\ edge_touches m f v /\
     forall g, In g l -> edge_touches m g v -> g = e \/ g = f).
