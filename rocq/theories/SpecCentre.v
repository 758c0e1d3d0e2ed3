(** Vocabulary for the statements about the centroid of an outline. *)
From Coq Require Import Reals List.
From Verif Require Import Base RsvsMath SpecRsvs.
Set Implicit Arguments.
Open Scope R_scope.

(** Bound for the distance between the slope of the centre and the same formula
    with [e] added under the roots that divide and [e2] under the others. *)
Definition slope_error (n : nat) (c : nat -> nat -> R) (e e2 : R) (k v m : nat) : R :=
  let a := side n c (prev n v) in let b := side n c v in
  ((if Nat.eqb k m then e2 / (4 * a) + e2 / (4 * b) else 0)
   + Rabs (middle n c (prev n v) k - wire_centre n c k) * (e / (2 * (a * a)))
   + Rabs (middle n c v k - wire_centre n c k) * (e / (2 * (b * b)))) / outline n c.

(** Histories of calls on one SurfCentroid object, in a program that may also set
    the epsilons. *)
Inductive centre_op := CAssign (p : list vec) | CCalc | CCalcFD | CEpsilons (e : rsvseps).
Definition centre_step (st : statics * centroid) (o : centre_op) : outcome (statics * centroid) :=
  let (s, c) := st in
  match o with
  | CAssign p => Ok (s, centroid_assign p c)
  | CCalc => do c' <- centroid_calc s c ; Ok (s, c')
  | CCalcFD => do c' <- centroid_calc_fd s c ; Ok (s, c')
  | CEpsilons e => Ok (set_environment e s, c)
  end.
Fixpoint centre_run (st : statics * centroid) (l : list centre_op) : outcome (statics * centroid) :=
  match l with [] => Ok st | o :: r => do st' <- centre_step st o ; centre_run st' r end.
