(** Specification of the box around points, C116. *)
From Coq Require Import QArith.
From Verif Require Import Base Tetgen.
Set Implicit Arguments.

(** Coordinate [j] of point [i]. *)
Definition coordinate (t : tetout Q) (i j : nat) (x : Q) : Prop := nth_error (pointlist t) (i * 3 + j) = Some x.
(** The least and the greatest of coordinate [j] of the first [n] points. *)
Definition least (t : tetout Q) (n j : nat) (l : Q) : Prop :=
  (exists i, (i < n)%nat /\ coordinate t i j l) /\ forall i x, (i < n)%nat -> coordinate t i j x -> (l <= x)%Q.
Definition greatest (t : tetout Q) (n j : nat) (h : Q) : Prop :=
  (exists i, (i < n)%nat /\ coordinate t i j h) /\ forall i x, (i < n)%nat -> coordinate t i j x -> (x <= h)%Q.
