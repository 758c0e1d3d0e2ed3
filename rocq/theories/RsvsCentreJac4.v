(** The generated Jacobian of the centroid of four corners. *)
From Coq Require Import Reals List Lia Lra.
From Verif Require Import Base RsvsMath SpecRsvs RsvsCentreJac.
Set Implicit Arguments.
Open Scope R_scope.

Lemma df4_is e1 e2 p L S J k v m : length p = 4%nat -> (k < 3)%nat -> (v < 4)%nat -> (m < 3)%nat ->
  put_all (SurfCentroid4_df e1 e2 (column p 0) (column p 1) (column p 2) L (S 0%nat) (S 1%nat) (S 2%nat)) J k (v + m * 4)%nat
  = slope_with (e1 + e2) e2 (pt p (prev 4 v)) (pt p v) (pt p (next 4 v)) L S k m.
Proof.
  intros Hp Hk Hv Hm. destruct p as [|p0 [|p1 [|p2 [|p3 [|? ?]]]]]; try discriminate Hp. unfold SurfCentroid4_df.
  each v ltac:(each m ltac:(each k ltac:(prep; unfold Rdiv; rewrite ?Rinv_mult; merge_roots; inverses; field))).
Qed.

