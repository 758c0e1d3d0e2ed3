(** Specification vocabulary for the geometry theorems, over real numbers and
    independent of the functions of Geom.v. *)
From Coq Require Import Reals List ZArith.
From Verif Require Import Base.
Import ListNotations.
Set Implicit Arguments.
Open Scope R_scope.

(** Inner product, length and difference of points given by coordinates. *)
Fixpoint ip (a b : list R) : R :=
  match a, b with x :: a', y :: b' => x * y + ip a' b' | _, _ => 0 end.
Definition euclid (a : list R) : R := sqrt (ip a a).
Fixpoint pminus (a b : list R) : list R :=
  match a, b with x :: a', y :: b' => (x - y) :: pminus a' b' | _, _ => [] end.
Definition dist (a b : list R) : R := euclid (pminus a b).
Definition pscale (k : R) (a : list R) : list R := map (Rmult k) a.
Fixpoint pplus (a b : list R) : list R :=
  match a, b with x :: a', y :: b' => (x + y) :: pplus a' b' | _, _ => [] end.
Definition point3 (p : list R) : Prop := length p = 3%nat.
Definition rsum (l : list R) : R := fold_right Rplus 0 l.

(** The convex hull of finitely many points of space: the intersection of the closed
    half spaces that contain them. *)
Definition in_hull (pts : list (list R)) (p : list R) : Prop :=
  point3 p /\ forall n c, point3 n -> (forall q, In q pts -> ip n q <= c) -> ip n p <= c.

(** [lo] and [hi] are the least and greatest of [xs]. *)
Definition extremes (lo hi : R) (xs : list R) : Prop :=
  In lo xs /\ In hi xs /\ forall x, In x xs -> lo <= x <= hi.
(** The coordinates of points in one direction. *)
Definition direction (j : nat) (ps : list (list R)) : list R := map (fun p => nth j p 0) ps.
