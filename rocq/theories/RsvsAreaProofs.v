(** Lemmas about the derivatives of the area of a triangle. *)
From Coq Require Import Reals List Lia Lra.
From Coquelicot Require Import Coquelicot.
From Verif Require Import Base RsvsMath SpecRsvs RsvsProofs.
Set Implicit Arguments.
Open Scope R_scope.

Definition area3 (eps : R) (x : nat -> R) : R := shifted_area eps (point x 0) (point x 1) (point x 2).
Definition gram3 (eps : R) (x : nat -> R) : R := gram (point x 0) (point x 1) (point x 2) + eps.

Lemma area_value p0 p1 p2 eps : Area_f p0 p1 p2 eps = shifted_area eps p0 p1 p2.
Proof.
  unfold Area_f, shifted_area, gram. cbv zeta. unfold Rdiv. 
  match goal with |- sqrt ?A * ?u = sqrt ?B * ?v => replace A with B by (lit; ring); replace u with v by field; reflexivity end.
Qed.

Lemma gram_nonneg p0 p1 p2 : 0 <= gram p0 p1 p2.
Proof.
  unfold gram. cbv zeta. generalize (vsub p1 p0), (vsub p2 p0). intros u v. unfold vdot.
  replace (_ - _) with
    ((u 0%nat * v 1%nat - u 1%nat * v 0%nat) * (u 0%nat * v 1%nat - u 1%nat * v 0%nat)
     + (u 0%nat * v 2%nat - u 2%nat * v 0%nat) * (u 0%nat * v 2%nat - u 2%nat * v 0%nat)
     + (u 1%nat * v 2%nat - u 2%nat * v 1%nat) * (u 1%nat * v 2%nat - u 2%nat * v 1%nat)) by ring.
  pose proof (Rle_0_sqr (u 0%nat * v 1%nat - u 1%nat * v 0%nat)).
  pose proof (Rle_0_sqr (u 0%nat * v 2%nat - u 2%nat * v 0%nat)).
  pose proof (Rle_0_sqr (u 1%nat * v 2%nat - u 2%nat * v 1%nat)).
  unfold Rsqr in *. lra.
Qed.

Lemma area_jac eps x J i : 0 < gram3 eps x -> (i < 9)%nat ->
  partial_at (area3 eps) x i (put_all (Area_df (point x 0) (point x 1) (point x 2) eps) J 0%nat i).
Proof.
  intros H Hi. unfold partial_at, Area_df, area3, shifted_area. apply is_derive_Reals.
  pose proof (sqrt_lt_R0 _ H) as Hs. pose proof (Rlt_le _ _ H) as Hl.
  remember (sqrt (gram3 eps x)) as s eqn:E. symmetry in E. unfold gram3 in *. revert H Hl E.
  each i ltac:(lit; intros H Hl E; auto_derive; [pos H|]; roots s E Hl; field; lra).
Qed.

Lemma area_hes eps x m i j : 0 < gram3 eps x -> (i < 9)%nat -> (j < 9)%nat ->
  second_at (area3 eps) x i j (put_all (Area_ddf (point x 0) (point x 1) (point x 2) eps) m i j).
Proof.
  intros H Hi Hj.
  assert (N : exists delta, 0 < delta /\ forall t, Rabs (t - x j) < delta -> 0 < gram3 eps (set_at x j t)).
  { apply near_positive.
    - apply (ex_derive_continuous (fun t => gram3 eps (set_at x j t))). unfold gram3. clear - Hj. each j ltac:(lit; auto_derive; trivial).
    - rewrite set_at_ext_lt with (n := 9%nat); auto. intros y z Ey. unfold gram3. lit. rewrite !Ey by lia. reflexivity. }
  destruct N as [delta [Hd N]].
  exists (fun t => let y := set_at x j t in put_all (Area_df (point y 0) (point y 1) (point y 2) eps) zero_mat 0%nat i), delta.
  split; auto. split; [intros t Ht; apply area_jac; auto|].
  apply is_derive_Reals. unfold Area_df, Area_ddf.
  pose proof (sqrt_lt_R0 _ H) as Hs. pose proof (Rlt_le _ _ H) as Hl. clear N.
  remember (sqrt (gram3 eps x)) as s eqn:E. symmetry in E. unfold gram3 in *. revert H Hl E.
  each i ltac:(each j ltac:(lit; intros H Hl E; auto_derive;
     [split; [pos H|]; split; trivial; roots s E Hl; lra|roots s E Hl; field; lra])).
Qed.
