(** The chain rule for the volume and the area of a triangle. *)
From Coq Require Import Reals List Lia Lra.
From Coquelicot Require Import Coquelicot.
From Verif Require Import Base RsvsMath SpecRsvs RsvsProofs RsvsAreaProofs RsvsCentreProofs.
Set Implicit Arguments.
Open Scope R_scope.

(** [D] is the differential of [f] at [x]: it gives the derivative along every curve. *)
Definition differential (f : (nat -> R) -> R) (x D : nat -> R) : Prop :=
  forall (y : R -> nat -> R) (g : nat -> R) t0, (forall s, (s < 9)%nat -> is_derive (fun t => y t s) t0 (g s)) ->
    (forall s, (s < 9)%nat -> y t0 s = x s) -> f (y t0) = f x /\ is_derive (fun t => f (y t)) t0 (sum_to 9 (fun s => D s * g s)).
Definition smooth (f : (nat -> R) -> R) (x : nat -> R) : Prop := exists D, differential f x D.

Lemma sum9_zero g : sum_to 9 (fun s => 0 * g s) = 0. Proof. unfold sum_to. cbn. ring. Qed.
Lemma sm_const c x : smooth (fun _ => c) x.
Proof. exists (fun _ => 0). intros y g t0 H E. split; auto. rewrite sum9_zero. apply (is_derive_const c). Qed.
Lemma sm_var i x : (i < 9)%nat -> smooth (fun y => y i) x.
Proof.
  intros L. exists (fun s => if Nat.eqb s i then 1 else 0). intros y g t0 H E. split; [auto|].
  replace (sum_to 9 _) with (g i); [auto|]. each i ltac:(unfold sum_to; cbn; ring).
Qed.
Ltac derive_is K := match type of K with is_derive _ _ ?d => match goal with |- is_derive _ _ ?d' => replace d' with d; [exact K|cbv beta] end end.
Lemma sm_plus f h x : smooth f x -> smooth h x -> smooth (fun y => f y + h y) x.
Proof.
  intros [D A] [D' B]. exists (fun s => D s + D' s). intros y g t0 H E. destruct (A y g t0 H E) as [A0 A1], (B y g t0 H E) as [B0 B1].
  split; [congruence|]. pose proof (is_derive_plus _ _ _ _ _ A1 B1) as K. derive_is K. unfold plus, sum_to; cbn. ring.
Qed.
Lemma sm_mult f h x : smooth f x -> smooth h x -> smooth (fun y => f y * h y) x.
Proof.
  intros [D A] [D' B]. exists (fun s => D s * h x + f x * D' s). intros y g t0 H E. destruct (A y g t0 H E) as [A0 A1], (B y g t0 H E) as [B0 B1].
  split; [congruence|]. pose proof (is_derive_mult _ _ _ _ _ A1 B1 Rmult_comm) as K. derive_is K. rewrite A0, B0. unfold plus, mult, sum_to; cbn. ring.
Qed.
Lemma sm_opp f x : smooth f x -> smooth (fun y => - f y) x.
Proof.
  intros [D A]. exists (fun s => - D s). intros y g t0 H E. destruct (A y g t0 H E) as [A0 A1].
  split; [congruence|]. pose proof (is_derive_opp _ _ _ A1) as K. derive_is K. unfold opp, sum_to; cbn. ring.
Qed.
Lemma sm_minus f h x : smooth f x -> smooth h x -> smooth (fun y => f y - h y) x.
Proof. intros A B. apply (sm_plus A (sm_opp B)). Qed.
Lemma sm_inv f x : f x <> 0 -> smooth f x -> smooth (fun y => / f y) x.
Proof.
  intros N [D A]. exists (fun s => - D s / f x ^ 2). intros y g t0 H E. destruct (A y g t0 H E) as [A0 A1].
  split; [congruence|]. assert (N' : f (y t0) <> 0) by (rewrite A0; auto). pose proof (is_derive_inv (fun t => f (y t)) _ _ A1 N') as K. derive_is K. rewrite A0. unfold sum_to; cbn. field. auto.
Qed.
Lemma sm_div f h x : h x <> 0 -> smooth f x -> smooth h x -> smooth (fun y => f y / h y) x.
Proof. intros N A B. apply (sm_mult A (sm_inv N B)). Qed.
Lemma sm_sqrt f x : 0 < f x -> smooth f x -> smooth (fun y => sqrt (f y)) x.
Proof.
  intros N [D A]. exists (fun s => D s / (2 * sqrt (f x))). intros y g t0 H E. destruct (A y g t0 H E) as [A0 A1].
  split; [congruence|]. pose proof (sqrt_lt_R0 _ N) as P.
  assert (N' : 0 < f (y t0)) by (rewrite A0; auto).
  pose proof (is_derive_sqrt (fun t => f (y t)) _ _ A1 N') as K.
  derive_is K. rewrite A0. unfold sum_to; cbn. field. lra.
Qed.

(** The differential is made of the partial derivatives. *)
Lemma differential_partial f x D s : differential f x D -> (s < 9)%nat -> partial_at f x s (D s).
Proof.
  intros A L. unfold partial_at. apply is_derive_Reals.
  destruct (A (fun t => set_at x s t) (fun r => if Nat.eqb r s then 1 else 0) (x s)) as [_ K].
  - intros r Lr. unfold set_at. destruct (Nat.eqb r s); [apply (is_derive_id (x s))|apply (is_derive_const (x r))].
  - intros r Lr. unfold set_at. destruct (Nat.eqb_spec r s); congruence.
  - derive_is K. clear - L. each s ltac:(unfold sum_to; cbn; ring).
Qed.
Lemma chain_rule f x (J : nat -> R) : smooth f x -> (forall s, (s < 9)%nat -> partial_at f x s (J s)) -> differential f x J.
Proof.
  intros [D A] P y g t0 H E. destruct (A y g t0 H E) as [A0 A1]. split; auto. derive_is A1. apply sum_to_ext. intros s L. f_equal.
  eapply uniqueness_limite; [apply (differential_partial A L)|apply P; auto].
Qed.

Ltac smooth_tac := cbv beta; match goal with
  | |- smooth (fun y => y ?i) _ => apply (@sm_var i); lia
  | |- smooth (fun y => @?a y + @?b y) _ => apply (@sm_plus a b); smooth_tac
  | |- smooth (fun y => @?a y - @?b y) _ => apply (@sm_minus a b); smooth_tac
  | |- smooth (fun y => @?a y * @?b y) _ => apply (@sm_mult a b); smooth_tac
  | |- smooth (fun y => @?a y / @?b y) _ => apply (@sm_div a b); [cbv beta|smooth_tac|smooth_tac]
  | |- smooth (fun y => - @?a y) _ => apply (@sm_opp a); smooth_tac
  | |- smooth (fun y => sqrt (@?a y)) _ => apply (@sm_sqrt a); [cbv beta|smooth_tac]
  | |- smooth (fun _ => ?c) _ => apply (@sm_const c)
  | |- _ => idtac
  end.

(** *** Volume *)
Lemma vol_smooth x : smooth vol x.
Proof. unfold vol, signed_volume, det, point. cbn [Nat.mul Nat.add]. smooth_tac. lra. Qed.
Lemma vol_differential x : differential vol x (fun r => put_all (Volume_df (point x 0) (point x 1) (point x 2)) zero_mat 0%nat r).
Proof. apply chain_rule; [apply vol_smooth|]. intros s L. apply volume_jac; auto. Qed.
Definition vol_slope (r : nat) (x : nat -> R) : R := put_all (Volume_df (point x 0) (point x 1) (point x 2)) zero_mat 0%nat r.
Lemma vol_slope_smooth r x : (r < 9)%nat -> smooth (vol_slope r) x.
Proof. intros L. unfold vol_slope, Volume_df. each r ltac:(lit; smooth_tac; lra). Qed.
Lemma vol_slope_differential r x : (r < 9)%nat ->
  differential (vol_slope r) x (fun s => put_all (Volume_ddf (point x 0) (point x 1) (point x 2)) zero_mat r s).
Proof.
  intros L. apply chain_rule; [apply vol_slope_smooth; auto|]. intros s Ls.
  destruct (@volume_hes x zero_mat r s) as (g & delta & Hd & P & K); auto; [intros ? ? ? ? ?; reflexivity|].
  unfold partial_at. apply is_derive_Reals. apply is_derive_Reals in K. eapply is_derive_ext_loc; [|exact K].
  exists (mkposreal _ Hd). intros t Ht. eapply uniqueness_limite; [apply (P t); exact Ht|]. apply volume_jac; auto.
Qed.

(** *** Area *)
Lemma gram_smooth eps x : smooth (gram3 eps) x.
Proof. unfold gram3, gram, vdot, vsub, point. cbn [Nat.mul Nat.add]. smooth_tac. Qed.
Lemma area_smooth eps x : 0 < gram3 eps x -> smooth (area3 eps) x.
Proof.
  intros H. apply (@sm_div (fun y => sqrt (gram3 eps y)) (fun _ => 2)); [lra| |apply sm_const]. apply sm_sqrt; auto. apply gram_smooth.
Qed.
Lemma area_differential eps x : 0 < gram3 eps x ->
  differential (area3 eps) x (fun r => put_all (Area_df (point x 0) (point x 1) (point x 2) eps) zero_mat 0%nat r).
Proof. intros H. apply chain_rule; [apply area_smooth; auto|]. intros s L. apply area_jac; auto. Qed.
Definition area_slope (eps : R) (r : nat) (x : nat -> R) : R := put_all (Area_df (point x 0) (point x 1) (point x 2) eps) zero_mat 0%nat r.
Lemma area_slope_smooth eps r x : 0 < gram3 eps x -> (r < 9)%nat -> smooth (area_slope eps r) x.
Proof.
  intros H L. unfold area_slope, Area_df. unfold gram3 in H. revert H.
  each r ltac:(lit; intros H; smooth_tac; try lra;
    match goal with
    | |- sqrt ?A <> 0 => apply Rgt_not_eq, sqrt_lt_R0; match type of H with 0 < ?B => replace A with B by ring; exact H end
    | |- 0 < ?A => match type of H with 0 < ?B => replace A with B by ring; exact H end
    end).
Qed.
Lemma area_slope_differential eps r x : 0 < gram3 eps x -> (r < 9)%nat ->
  differential (area_slope eps r) x (fun s => put_all (Area_ddf (point x 0) (point x 1) (point x 2) eps) zero_mat r s).
Proof.
  intros H L. apply chain_rule; [apply area_slope_smooth; auto|]. intros s Ls.
  destruct (@area_hes eps x zero_mat r s) as (g & delta & Hd & P & K); auto.
  assert (N : exists delta, 0 < delta /\ forall t, Rabs (t - x s) < delta -> 0 < gram3 eps (set_at x s t)).
  { apply near_positive.
    - apply (ex_derive_continuous (fun t => gram3 eps (set_at x s t))). destruct (gram_smooth eps x) as [D A].
      destruct (A (fun t => set_at x s t) (fun r => if Nat.eqb r s then 1 else 0) (x s)) as [_ Q]; [| |eexists; exact Q].
      + intros k Lr. unfold set_at. destruct (Nat.eqb k s); [apply (is_derive_id (x s))|apply (is_derive_const (x k))].
      + intros k Lr. unfold set_at. destruct (Nat.eqb_spec k s); congruence.
    - rewrite (@set_at_ext_lt (gram3 eps) 9); auto. intros y z E. unfold gram3, gram, vdot, vsub, point. cbn [Nat.mul Nat.add]. rewrite !E by lia. reflexivity. }
  destruct N as (d2 & Hd2 & N).
  unfold partial_at. apply is_derive_Reals. apply is_derive_Reals in K. eapply is_derive_ext_loc; [|exact K].
  assert (Hm : 0 < Rmin delta d2) by (apply Rmin_glb_lt; auto).
  exists (mkposreal _ Hm). intros t Ht. cbn in Ht. assert (Ht' : Rabs (t - x s) < Rmin delta d2) by exact Ht.
  eapply uniqueness_limite; [apply (P t); eapply Rlt_le_trans; [exact Ht'|apply Rmin_l]|]. apply area_jac; auto.
  apply N. eapply Rlt_le_trans; [exact Ht'|apply Rmin_r].
Qed.
