(** Specifications of the helpers that cut a mesh along a box. *)
From Coq Require Import Reals.
From Verif Require Import Base Mesh.
Set Implicit Arguments.
Open Scope Z_scope.

(** [l] is [a] and [b] shuffled together, the elements of [b] being those that
    satisfy [P]. *)
Inductive dealt (P : Z -> Prop) : list Z -> list Z -> list Z -> Prop :=
| dealt_nil : dealt P [] [] []
| dealt_in x l a b : ~ P x -> dealt P l a b -> dealt P (x :: l) (x :: a) b
| dealt_out x l a b : P x -> dealt P l a b -> dealt P (x :: l) a (x :: b).
(** The element with index [i] is marked. *)
Definition marked {T} (index : T -> Z) (l : list T) (out : list bool) (i : Z) : Prop :=
  exists k t, nth_error l k = Some t /\ index t = i /\ nth_error out k = Some true.

(** A point of the box, of its surface. *)
Definition in_box (l1 l2 l3 u1 u2 u3 x y z : R) : Prop :=
  (l1 <= x <= u1 /\ l2 <= y <= u2 /\ l3 <= z <= u3)%R.
Definition on_box (l1 l2 l3 u1 u2 u3 x y z : R) : Prop :=
  in_box l1 l2 l3 u1 u2 u3 x y z /\ (x = l1 \/ x = u1 \/ y = l2 \/ y = u2 \/ z = l3 \/ z = u3).
(** The point at [t] of the way from [a] to [b]. *)
Definition between (a b t : R) : R := (a + t * (b - a))%R.
(** The segment from [a] leaves the box at [t]. *)
Definition leaves_at (l1 l2 l3 u1 u2 u3 a1 a2 a3 b1 b2 b3 t : R) : Prop :=
  (forall s, 0 <= s <= t -> in_box l1 l2 l3 u1 u2 u3 (between a1 b1 s) (between a2 b2 s) (between a3 b3 s))%R /\
  (forall s, t < s -> ~ in_box l1 l2 l3 u1 u2 u3 (between a1 b1 s) (between a2 b2 s) (between a3 b3 s))%R.
