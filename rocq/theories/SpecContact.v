(** Specification for C100: what merging snaxels in contact does. *)
From Verif Require Import Base Mesh SpecMesh Num Snake SpecSnake Spawn SpecSpawn.
Set Implicit Arguments.
Open Scope Z_scope.

(** No snaxel is in contact with two others. *)
Definition paired (imp : list (Z * Z)) : Prop :=
  forall i t i' t', In (i, t) imp -> In (i', t') imp -> 0 < t -> 0 < t' ->
    i <> t /\ (i = i' -> t = t') /\ (t = t' -> i = i') /\ (i = t' -> t = i').
(** [a] is merged into [b]: their contact is reported for [a] before it is for [b]. *)
Definition goes_into (imp : list (Z * Z)) (a b : Z) : Prop :=
  0 < b /\ exists l1 l2, imp = l1 ++ (a, b) :: l2 /\ ~ In (b, a) l1.
(** What the number of a vertex becomes. *)
Definition became (imp : list (Z * Z)) (u v : Z) : Prop :=
  goes_into imp u v \/ (v = u /\ forall w, ~ goes_into imp u w).
(** An edge after the merge. *)
Definition moved_ends (imp : list (Z * Z)) (e e' : edge) : Prop :=
  ed_index e' = ed_index e /\ ed_border e' = ed_border e /\ ed_surfind e' = ed_surfind e /\
  Forall2 (became imp) (ed_vertind e) (ed_vertind e').
(** A snaxel after the merge: one that another was merged into has stopped. *)
Definition after_contact {N : num} (imp : list (Z * Z)) (x x' : snax N) : Prop :=
  ((exists a, goes_into imp a (sx_index x)) /\
   x' = @mkSnax N (sx_index x) (sx_d x) n0 (sx_from x) (sx_to x) (sx_edge x) (sx_freeze x) (sx_order x)) \/
  ((forall a, ~ goes_into imp a (sx_index x)) /\ x' = x).
