(** Lemmas about the derivatives of volumes, areas and lengths. *)
From Coq Require Import Reals List Lia Lra.
From Coquelicot Require Import Coquelicot.
From Verif Require Import Base RsvsMath SpecRsvs.
Set Implicit Arguments.
Open Scope R_scope.

Ltac lit := cbv [put_all fold_left put fst snd andb Nat.eqb Nat.mul Nat.add
  set_at point flat signed_volume det vsub vdot gram dist along].

Ltac each i tac := destruct i as [|i]; [solve [tac] | first [exfalso; lia | each i tac]].

Lemma volume_value p0 p1 p2 : Volume_f p0 p1 p2 = signed_volume p0 p1 p2.
Proof. unfold Volume_f, signed_volume, det. cbv zeta. field. Qed.

(** *** Volume *)
Definition vol (x : nat -> R) : R := signed_volume (point x 0) (point x 1) (point x 2).

Lemma volume_jac x J i : (i < 9)%nat ->
  partial_at vol x i (put_all (Volume_df (point x 0) (point x 1) (point x 2)) J 0%nat i).
Proof.
  intros H. unfold partial_at, Volume_df, vol. apply is_derive_Reals.
  each i ltac:(lit; auto_derive; trivial; field).
Qed.

Lemma put_all_other ws m i j : (forall w, In w ws -> fst w <> (i, j)) -> put_all ws m i j = m i j.
Proof.
  unfold put_all. revert m. induction ws as [|w r IH]; intros m H; simpl; auto.
  rewrite IH by (intros; apply H; right; auto). unfold put.
  destruct (Nat.eqb_spec i (fst (fst w))); destruct (Nat.eqb_spec j (snd (fst w))); simpl; auto.
  exfalso. apply (H w); [left; auto|]. subst. destruct w as [[? ?] ?]; reflexivity.
Qed.

Lemma set_at_same x j : set_at x j (x j) j = x j.
Proof. unfold set_at. rewrite Nat.eqb_refl. reflexivity. Qed.

Definition second_by f (df : (nat -> R) -> nat -> R) x i j h :
  (forall y, partial_at f y i (df y i)) -> derivable_pt_lim (fun t => df (set_at x j t) i) (x j) h -> second_at f x i j h.
Proof.
  intros H K. exists (fun t => df (set_at x j t) i), 1. split; [lra|]. split; auto.
Qed.

(** Entries of the Hessian that are zero and not written. *)
Definition volume_hes_clear (m : mat) : Prop :=
  forall i j, (i < 9)%nat -> (j < 9)%nat -> (i / 3 = j / 3)%nat \/ (i mod 3 = j mod 3)%nat -> m i j = 0.

Lemma volume_hes_keep p0 p1 p2 m : volume_hes_clear m -> volume_hes_clear (put_all (Volume_ddf p0 p1 p2) m).
Proof.
  intros H i j Hi Hj Hs. rewrite put_all_other; auto.
  assert (E : map fst (Volume_ddf p0 p1 p2) = map fst (Volume_ddf p0 p0 p0)) by reflexivity.
  intros w Hw Ew. apply (in_map fst) in Hw. rewrite E, Ew in Hw. clear E Ew.
  cbv [Volume_ddf map fst] in Hw. cbn [In] in Hw.
  repeat (destruct Hw as [Hw|Hw]; [inversion Hw; subst; simpl in Hs; lia|]). destruct Hw.
Qed.

Lemma volume_hes x m i j : volume_hes_clear m -> (i < 9)%nat -> (j < 9)%nat ->
  second_at vol x i j (put_all (Volume_ddf (point x 0) (point x 1) (point x 2)) m i j).
Proof.
  intros Hm Hi Hj.
  apply second_by with (df := fun y i => put_all (Volume_df (point y 0) (point y 1) (point y 2)) zero_mat 0%nat i).
  { intros y. apply volume_jac; auto. }
  assert (Hz : forall a b, (a < 9)%nat -> (b < 9)%nat -> (a / 3 = b / 3)%nat \/ (a mod 3 = b mod 3)%nat -> m a b = 0) by exact Hm.
  apply is_derive_Reals. unfold Volume_df, Volume_ddf.
  each i ltac:(each j ltac:(lit; auto_derive; trivial; rewrite ?Hz by (simpl; lia); field)).
Qed.

(** *** Volume2 *)
Definition vol2 (g0 g1 g2 h0 h1 h2 : vec) (x : nat -> R) : R :=
  signed_volume (along g0 h0 (x 0%nat)) (along g1 h1 (x 1%nat)) (along g2 h2 (x 2%nat)).

Lemma volume2_value d0 d1 d2 g0 g1 g2 h0 h1 h2 :
  Volume2_f d0 d1 d2 g0 g1 g2 h0 h1 h2 = signed_volume (along g0 h0 d0) (along g1 h1 d1) (along g2 h2 d2).
Proof. unfold Volume2_f, signed_volume, det, along. cbv zeta. field. Qed.

Lemma volume2_jac g0 g1 g2 h0 h1 h2 x J i : (i < 3)%nat ->
  partial_at (vol2 g0 g1 g2 h0 h1 h2) x i (put_all (Volume2_df (x 0%nat) (x 1%nat) (x 2%nat) g0 g1 g2 h0 h1 h2) J 0%nat i).
Proof.
  intros H. unfold partial_at, Volume2_df, vol2. apply is_derive_Reals.
  each i ltac:(lit; auto_derive; trivial; field).
Qed.

Definition volume2_hes_clear (m : mat) : Prop := m 1%nat 1%nat = 0 /\ m 2%nat 2%nat = 0.

Lemma volume2_hes_keep d0 d1 d2 g0 g1 g2 h0 h1 h2 m : volume2_hes_clear m ->
  volume2_hes_clear (put_all (Volume2_ddf d0 d1 d2 g0 g1 g2 h0 h1 h2) m).
Proof.
  intros [A B]. split; rewrite put_all_other; auto; intros w Hw Ew; apply (in_map fst) in Hw; rewrite Ew in Hw;
    cbv [Volume2_ddf map fst] in Hw; cbn [In] in Hw;
    repeat (destruct Hw as [Hw|Hw]; [discriminate Hw|]); destruct Hw.
Qed.

Lemma volume2_hes g0 g1 g2 h0 h1 h2 x m i j : volume2_hes_clear m -> (i < 3)%nat -> (j < 3)%nat ->
  second_at (vol2 g0 g1 g2 h0 h1 h2) x i j (put_all (Volume2_ddf (x 0%nat) (x 1%nat) (x 2%nat) g0 g1 g2 h0 h1 h2) m i j).
Proof.
  intros [M1 M2] Hi Hj.
  apply second_by with (df := fun y i => put_all (Volume2_df (y 0%nat) (y 1%nat) (y 2%nat) g0 g1 g2 h0 h1 h2) zero_mat 0%nat i).
  { intros y. apply volume2_jac; auto. }
  apply is_derive_Reals. unfold Volume2_df, Volume2_ddf.
  each i ltac:(each j ltac:(lit; auto_derive; trivial; rewrite ?M1, ?M2; field)).
Qed.

(** *** LengthEdge *)
Definition len2 (x : nat -> R) : R := dist (point x 0) (point x 1).
Definition sq2 (x : nat -> R) : R := vdot (vsub (point x 0) (point x 1)) (vsub (point x 0) (point x 1)).

Lemma length_value p0 p1 : LengthEdge_f p0 p1 = dist p0 p1.
Proof. reflexivity. Qed.

Lemma pow32_sqrt x : 0 <= x -> pow32 x = sqrt x ^ 3.
Proof. intros H. unfold pow32. rewrite <- (sqrt_sqrt x) at 1 by auto. ring. Qed.

Lemma pow32_power x : 0 < x -> pow32 x = Rpower x (3 / 2).
Proof.
  intros H. unfold pow32. replace (3 / 2) with (1 + / 2) by lra.
  rewrite Rpower_plus, Rpower_1, Rpower_sqrt; auto.
Qed.

(** All roots of the goal are the root [s] of [S], in different spellings. *)
Ltac roots s E P := repeat match goal with
  | |- context [pow32 ?A] => replace (pow32 A) with (s ^ 3) by (rewrite <- E, <- pow32_sqrt; [f_equal; ring | exact P])
  | |- context [sqrt ?A] => replace (sqrt A) with s by (rewrite <- E; f_equal; ring)
  end.
Ltac pos H := eapply Rlt_le_trans; [exact H|]; right; ring.

Lemma length_jac x J i : 0 < sq2 x -> (i < 6)%nat ->
  partial_at len2 x i (put_all (LengthEdge_df (point x 0) (point x 1)) J 0%nat i).
Proof.
  intros H Hi. unfold partial_at, LengthEdge_df, len2, sq2 in *. apply is_derive_Reals.
  pose proof (sqrt_lt_R0 _ H) as Hs. pose proof (Rlt_le _ _ H) as Hl.
  remember (sqrt (vdot (vsub (point x 0) (point x 1)) (vsub (point x 0) (point x 1)))) as s eqn:E. symmetry in E. revert H Hl E.
  each i ltac:(lit; intros H Hl E; auto_derive; [pos H|]; roots s E Hl; field; lra).
Qed.

(** The condition under the root holds in a neighbourhood. *)
Lemma near_positive (f : (nat -> R) -> R) x j : continuous (fun t => f (set_at x j t)) (x j) -> 0 < f (set_at x j (x j)) ->
  exists delta, 0 < delta /\ forall t, Rabs (t - x j) < delta -> 0 < f (set_at x j t).
Proof.
  intros C P. pose proof (C (fun z => 0 < z) (open_gt 0 _ P)) as [d Hd].
  exists d. split; [apply cond_pos|]. intros t Ht. apply (Hd t). exact Ht.
Qed.

Lemma set_at_ext_lt f (n : nat) x j : (forall y z, (forall i, (i < n)%nat -> y i = z i) -> f y = f z) -> f (set_at x j (x j)) = (f x : R).
Proof.
  intros H. apply H. intros i _. unfold set_at. destruct (Nat.eqb_spec i j); subst; auto.
Qed.

Lemma length_hes x m i j : 0 < sq2 x -> (i < 6)%nat -> (j < 6)%nat ->
  second_at len2 x i j (put_all (LengthEdge_ddf (point x 0) (point x 1)) m i j).
Proof.
  intros H Hi Hj.
  assert (N : exists delta, 0 < delta /\ forall t, Rabs (t - x j) < delta -> 0 < sq2 (set_at x j t)).
  { apply near_positive.
    - apply (ex_derive_continuous (fun t => sq2 (set_at x j t))). unfold sq2. clear - Hj. each j ltac:(lit; auto_derive; trivial).
    - rewrite set_at_ext_lt with (n := 6%nat); auto. intros y z E. unfold sq2. lit. rewrite !E by lia. reflexivity. }
  destruct N as [delta [Hd N]].
  exists (fun t => let y := set_at x j t in put_all (LengthEdge_df (point y 0) (point y 1)) zero_mat 0%nat i), delta.
  split; auto. split; [intros t Ht; apply length_jac; auto|].
  apply is_derive_Reals. unfold LengthEdge_df, LengthEdge_ddf, sq2 in *.
  pose proof (sqrt_lt_R0 _ H) as Hs. pose proof (Rlt_le _ _ H) as Hl. clear N.
  remember (sqrt (vdot (vsub (point x 0) (point x 1)) (vsub (point x 0) (point x 1)))) as s eqn:E. symmetry in E. revert H Hl E.
  each i ltac:(each j ltac:(lit; intros H Hl E; auto_derive;
     [split; [pos H|]; split; trivial; roots s E Hl; lra|roots s E Hl; field; lra])).
Qed.
