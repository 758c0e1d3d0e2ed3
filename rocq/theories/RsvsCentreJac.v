(** Lemmas about the generated Jacobian of the centroid of an outline. *)
From Coq Require Import Reals List Lia Lra.
From Verif Require Import Base RsvsMath SpecRsvs.
Set Implicit Arguments.
Open Scope R_scope.

(** The slope of coordinate [k] of the centre when coordinate [m] of a corner
    moves, with its two neighbours, [e] added under the roots that divide and
    [e2] under the others. *)
Definition slope_with (e e2 : R) (before p after : vec) (L : R) (S : vec) (k m : nat) : R :=
  let A := vdot (vsub p before) (vsub p before) in let B := vdot (vsub p after) (vsub p after) in
  ((if Nat.eqb k m then (sqrt (A + e2) + sqrt (B + e2)) / 2 else 0)
   + (before k + p k) / 2 * (p m - before m) * / sqrt (A + e)
   + (p k + after k) / 2 * (p m - after m) * / sqrt (B + e)) * / L
  - S k * / L * / L * ((p m - before m) * / sqrt (A + e) + (p m - after m) * / sqrt (B + e)).

Ltac each i tac := destruct i as [|i]; [solve [tac] | first [exfalso; lia | each i tac]].

Ltac prep := lazy [put_all fold_left put fst snd andb Nat.eqb Nat.mul Nat.add column pt nth vdot vsub slope_with next prev Nat.sub].
Ltac same := f_equal; ring.
(** Replaces every root by the first one in the goal that is equal to it. *)
Ltac merge_roots := repeat match goal with
  | |- context [sqrt ?A] => let r := fresh "r" in let E := fresh "E" in
      remember (sqrt A) as r eqn:E;
      repeat match goal with |- context [sqrt ?B] => replace (sqrt B) with r by (rewrite E; same) end; clear E
  end.
Ltac inverses := repeat match goal with |- context [/ ?r] => is_var r; generalize (/ r); intro end.

Lemma self_df_is e1 e2 q0 q1 q2 L S J k m : (k < 3)%nat -> (m < 3)%nat ->
  put_all (SurfCentroidSelf_df e1 e2 (column [q0; q1; q2] 0) (column [q0; q1; q2] 1) (column [q0; q1; q2] 2) L (S 0%nat) (S 1%nat) (S 2%nat)) J k m
  = slope_with e1 0 q0 q1 q2 L S k m.
Proof.
  intros Hk Hm. unfold SurfCentroidSelf_df, Rdiv. rewrite ?Rinv_mult.
  each k ltac:(each m ltac:(prep; unfold Rdiv; rewrite ?Rinv_mult; merge_roots; inverses; field)).
Qed.

