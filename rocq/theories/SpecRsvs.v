(** Vocabulary for the statements about the derivatives of the optimiser:
    partial derivatives, lengths, areas, volumes and centroids, written without
    the generated formulas. *)
From Coq Require Import Reals List Permutation.
Import ListNotations.
Set Implicit Arguments.
Open Scope R_scope.

(** ** Partial derivatives of functions of the variables x 0, x 1, ... *)
Definition set_at (x : nat -> R) (j : nat) (t : R) : nat -> R := fun i => if Nat.eqb i j then t else x i.
(** [d] is the derivative of [f] at [x] with respect to variable [j]. *)
Definition partial_at (f : (nat -> R) -> R) (x : nat -> R) (j : nat) (d : R) : Prop :=
  derivable_pt_lim (fun t => f (set_at x j t)) (x j) d.
(** [h] is the derivative, with respect to variable [j], of the derivative of [f] with respect to variable [i]. *)
Definition second_at (f : (nat -> R) -> R) (x : nat -> R) (i j : nat) (h : R) : Prop :=
  exists (g : R -> R) (delta : R), 0 < delta /\
    (forall t, Rabs (t - x j) < delta -> partial_at f (set_at x j t) i (g t)) /\
    derivable_pt_lim g (x j) h.

(** ** Points.  Point [i] of the variables has coordinates x (3 i), x (3 i + 1), x (3 i + 2). *)
Definition point (x : nat -> R) (i : nat) : nat -> R := fun k => x (3 * i + k)%nat.
(** The variables made of the coordinates of a list of points. *)
Fixpoint flat (l : list (nat -> R)) : nat -> R := fun i =>
  match l with
  | [] => 0
  | p :: r => match i with 0%nat => p 0%nat | 1%nat => p 1%nat | 2%nat => p 2%nat | S (S (S i)) => flat r i end
  end.

(** ** Geometry *)
Definition vsub (a b : nat -> R) : nat -> R := fun k => a k - b k.
Definition vdot (a b : nat -> R) : R := a 0%nat * b 0%nat + a 1%nat * b 1%nat + a 2%nat * b 2%nat.
Definition det (a b c : nat -> R) : R :=
  a 0%nat * (b 1%nat * c 2%nat - b 2%nat * c 1%nat) - a 1%nat * (b 0%nat * c 2%nat - b 2%nat * c 0%nat)
  + a 2%nat * (b 0%nat * c 1%nat - b 1%nat * c 0%nat).
(** Volume of the tetrahedron with the origin as fourth corner; the sign is
    positive for corners that turn clockwise when seen from outside. *)
Definition signed_volume (a b c : nat -> R) : R := - det a b c / 6.
(** Four times the square of the area of a triangle, by Gram's determinant. *)
Definition gram (a b c : nat -> R) : R :=
  let u := vsub b a in let v := vsub c a in vdot u u * vdot v v - vdot u v * vdot u v.
Definition triangle_area (a b c : nat -> R) : R := sqrt (gram a b c) / 2.
(** The area with the square of its double shifted by [eps]. *)
Definition shifted_area (eps : R) (a b c : nat -> R) : R := sqrt (gram a b c + eps) / 2.
Definition dist (a b : nat -> R) : R := sqrt (vdot (vsub a b) (vsub a b)).
(** The point at fraction [d] of the way from [a] to [b]. *)
Definition along (a b : nat -> R) (d : R) : nat -> R := fun k => a k + d * (b k - a k).

(** ** Centroid of the outline of a polygon: corner [i] is [c i], i < n *)
Definition next (n i : nat) : nat := if Nat.eqb (S i) n then 0%nat else S i.
Definition prev (n i : nat) : nat := match i with 0%nat => (n - 1)%nat | S i => i end.
Definition sum_to (n : nat) (f : nat -> R) : R := fold_right Rplus 0 (map f (seq 0 n)).
Definition side (n : nat) (c : nat -> nat -> R) (i : nat) : R := dist (c i) (c (next n i)).
Definition middle (n : nat) (c : nat -> nat -> R) (i : nat) (k : nat) : R := (c i k + c (next n i) k) / 2.
Definition outline (n : nat) (c : nat -> nat -> R) : R := sum_to n (side n c).
(** Coordinate [k] of the centre of mass of a wire along the polygon. *)
Definition wire_centre (n : nat) (c : nat -> nat -> R) (k : nat) : R :=
  sum_to n (fun i => side n c i * middle n c i k) / outline n c.
(** The polygon with coordinate [m] of corner [v] set to [t]. *)
Definition move (c : nat -> nat -> R) (v m : nat) (t : R) : nat -> nat -> R :=
  fun i k => if andb (Nat.eqb i v) (Nat.eqb k m) then t else c i k.
(** [d] is the derivative of coordinate [k] of the centre when coordinate [m] of corner [v] moves. *)
Definition centre_slope (n : nat) (c : nat -> nat -> R) (k v m : nat) (d : R) : Prop :=
  derivable_pt_lim (fun t => wire_centre n (move c v m t) k) (c v m) d.
(** [h] is the derivative of that slope when coordinate [m2] of corner [v2] moves. *)
Definition centre_curvature (n : nat) (c : nat -> nat -> R) (k v m v2 m2 : nat) (h : R) : Prop :=
  exists (g : R -> R) (delta : R), 0 < delta /\
    (forall t, Rabs (t - c v2 m2) < delta -> centre_slope n (move c v2 m2 t) k v m (g t)) /\
    derivable_pt_lim g (c v2 m2) h.

(** ** Closed surfaces of triangles *)
Definition translate (t a : nat -> R) : nat -> R := fun k => a k + t k.
Section Faces.
Variable P : Type.
(** The directed edges of a triangle. *)
Definition tri_edges (f : P * P * P) : list (P * P) := let '(a, b, c) := f in [(a, b); (b, c); (c, a)].
(** Every edge is used as often in one direction as in the other. *)
Definition closed_surface (l : list (P * P * P)) : Prop :=
  Permutation (map (fun e => (snd e, fst e)) (flat_map tri_edges l)) (flat_map tri_edges l).
End Faces.

(** ** Histories of calls on an object *)
From Verif Require Import RsvsMath.
(** The vector last given for point [i]. *)
Definition latest_step (i : nat) (acc : option vec) (o : op) : option vec :=
  match o with
  | Assign l => nth_error l i
  | AssignOne j v => if Nat.eqb j i then Some v else acc
  | _ => acc
  end.
Definition latest (i : nat) (ops : list op) : option vec := fold_left (latest_step i) ops None.
(** The value last set for the area, or the one it starts with. *)
Definition surf_eps_step (acc : R) (o : op) : R := match o with SetEpsilons c => e_surf c | _ => acc end.
Definition surf_eps (s0 : statics) (ops : list op) : R := fold_left surf_eps_step ops (surf_m s0).

