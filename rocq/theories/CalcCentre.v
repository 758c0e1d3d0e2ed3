(** The velocity of the centre of an outline whose corners move. *)
From Coq Require Import Reals List Lia Lra.
From Coquelicot Require Import Coquelicot.
From Verif Require Import Base RsvsMath SpecRsvs SpecCentre RsvsCentreProofs RsvsCentreJac RsvsCentreHes PropsCentre CalcChain.
Set Implicit Arguments.
Open Scope R_scope.

Lemma sum_to_scale n f x : sum_to n (fun i => x * f i) = x * sum_to n f.
Proof. unfold sum_to. induction (seq 0 n); cbn; [ring|rewrite IHl; ring]. Qed.
Lemma sum_to_shift n f : sum_to (S n) f = f 0%nat + sum_to n (fun i => f (S i)).
Proof. unfold sum_to. cbn. rewrite <- seq_shift, map_map. reflexivity. Qed.
Lemma sum_to_swap n m (f : nat -> nat -> R) : sum_to n (fun i => sum_to m (f i)) = sum_to m (fun j => sum_to n (fun i => f i j)).
Proof.
  induction n; [unfold sum_to at 1; cbn; symmetry; unfold sum_to; cbn; induction (seq 0 m); cbn; [auto|rewrite IHl; ring]|].
  rewrite sum_to_S, IHn, <- sum_to_plus. apply sum_to_ext. intros. rewrite sum_to_S. reflexivity.
Qed.
Lemma sum_to_next n f : sum_to n (fun i => f (next n i)) = sum_to n f.
Proof.
  destruct n; [reflexivity|]. rewrite sum_to_S. rewrite (sum_to_shift n f), Rplus_comm. f_equal.
  - unfold next. rewrite Nat.eqb_refl. reflexivity.
  - apply sum_to_ext. intros i L. unfold next. destruct (Nat.eqb_spec (S i) (S n)); [lia|reflexivity].
Qed.
Lemma prev_next n i : (i < n)%nat -> prev n (next n i) = i.
Proof. intros L. symmetry. apply next_is; auto. apply next_lt; auto. Qed.
Lemma sum_to_prev n (A g : nat -> R) : sum_to n (fun i => A i * g (next n i)) = sum_to n (fun v => A (prev n v) * g v).
Proof.
  rewrite <- (sum_to_next n (fun v => A (prev n v) * g v)). apply sum_to_ext. intros i L. rewrite prev_next; auto.
Qed.
Lemma sum3 f : sum_to 3 f = f 0%nat + f 1%nat + f 2%nat.
Proof. unfold sum_to. cbn. ring. Qed.

(** The slope of the centre, as a formula. *)
Definition slope (n : nat) (c : nat -> nat -> R) (k v m : nat) : R :=
  let u := prev n v in let w := next n v in
  let da := (c v m - c u m) / side n c u in let db := (c v m - c w m) / side n c v in
  (((if Nat.eqb k m then (side n c u + side n c v) / 2 else 0) + middle n c u k * da + middle n c v k * db) / outline n c
   - weighted n k c / (outline n c * outline n c) * (da + db)).

Section Moving.
Variables (n : nat) (c : R -> nat -> nat -> R) (g : nat -> nat -> R) (t0 : R).
Hypotheses (Hn : (3 <= n)%nat)
  (Hc : forall v k, (v < n)%nat -> (k < 3)%nat -> is_derive (fun t => c t v k) t0 (g v k))
  (Hs : forall v, (v < n)%nat -> 0 < side n (c t0) v).
Let u i m := (c t0 i m - c t0 (next n i) m) / side n (c t0) i.

Lemma side_moves i : (i < n)%nat -> is_derive (fun t => side n (c t) i) t0 (sum_to 3 (fun m => u i m * (g i m - g (next n i) m))).
Proof.
  intros L. pose proof (next_lt L) as L'. pose proof (Hs L) as P. unfold u. clear u. unfold side in *.
  set (w := next n i) in *. unfold dist in *.
  assert (D : forall m, (m < 3)%nat -> is_derive (fun t => vsub (c t i) (c t w) m) t0 (g i m - g w m)).
  { intros m Lm. unfold vsub. apply (is_derive_minus (fun t => c t i m) (fun t => c t w m)); apply Hc; auto. }
  assert (V : is_derive (fun t => vdot (vsub (c t i) (c t w)) (vsub (c t i) (c t w))) t0
     (sum_to 3 (fun m => 2 * (c t0 i m - c t0 w m) * (g i m - g w m)))).
  { unfold vdot. pose proof (is_derive_mult _ _ _ _ _ (D 0%nat ltac:(lia)) (D 0%nat ltac:(lia)) Rmult_comm) as K0.
    pose proof (is_derive_mult _ _ _ _ _ (D 1%nat ltac:(lia)) (D 1%nat ltac:(lia)) Rmult_comm) as K1.
    pose proof (is_derive_mult _ _ _ _ _ (D 2%nat ltac:(lia)) (D 2%nat ltac:(lia)) Rmult_comm) as K2.
    pose proof (is_derive_plus _ _ _ _ _ (is_derive_plus _ _ _ _ _ K0 K1) K2) as K. derive_is K.
    rewrite sum3. unfold plus, mult, vsub; cbn. ring. }
  assert (P' : 0 < vdot (vsub (c t0 i) (c t0 w)) (vsub (c t0 i) (c t0 w))).
  { destruct (Rlt_le_dec 0 (vdot (vsub (c t0 i) (c t0 w)) (vsub (c t0 i) (c t0 w)))) as [Q|Q]; auto. rewrite sqrt_neg_0 in P; auto. lra. }
  pose proof (is_derive_sqrt _ _ _ V P') as K. derive_is K. rewrite !sum3. field. lra.
Qed.
Lemma middle_moves i k : (i < n)%nat -> (k < 3)%nat -> is_derive (fun t => middle n (c t) i k) t0 ((g i k + g (next n i) k) / 2).
Proof.
  intros L Lk. unfold middle. pose proof (is_derive_plus _ _ _ _ _ (Hc L Lk) (Hc (next_lt L) Lk)) as K.
  pose proof (is_derive_scal _ _ (/ 2) _ K) as K2. eapply is_derive_ext; [|derive_is K2].
  - intros t. cbv beta. unfold plus; cbn. field.
  - unfold plus; cbn. field.
Qed.
Lemma outline_moves : is_derive (fun t => outline n (c t)) t0 (sum_to n (fun i => sum_to 3 (fun m => u i m * (g i m - g (next n i) m)))).
Proof. unfold outline. apply sum_to_derive. intros. apply side_moves; auto. Qed.
Lemma weighted_moves k : (k < 3)%nat -> is_derive (fun t => weighted n k (c t)) t0
  (sum_to n (fun i => middle n (c t0) i k * sum_to 3 (fun m => u i m * (g i m - g (next n i) m)) + side n (c t0) i * ((g i k + g (next n i) k) / 2))).
Proof.
  intros Lk. unfold weighted. apply sum_to_derive. intros i L.
  pose proof (is_derive_mult _ _ _ _ _ (side_moves L) (middle_moves L Lk) Rmult_comm) as K. derive_is K. unfold plus, mult; cbn. ring.
Qed.

Lemma centre_moves k : (k < 3)%nat ->
  is_derive (fun t => wire_centre n (c t) k) t0 (sum_to n (fun v => sum_to 3 (fun m => slope n (c t0) k v m * g v m))).
Proof.
  intros Lk. unfold wire_centre. pose proof (@outline_pos n (c t0) 0 ltac:(lia) (@Hs 0%nat ltac:(lia))) as P.
  assert (Nz : outline n (c t0) <> 0) by lra.
  pose proof (is_derive_div _ _ _ _ _ (weighted_moves Lk) outline_moves Nz) as K. derive_is K. clear K.
  fold (weighted n k (c t0)). set (L := outline n (c t0)) in *. set (W := weighted n k (c t0)).
  transitivity (sum_to n (fun i => / L * (middle n (c t0) i k * sum_to 3 (fun m => u i m * (g i m - g (next n i) m)) + side n (c t0) i * ((g i k + g (next n i) k) / 2))
    + - (W / (L * L)) * sum_to 3 (fun m => u i m * (g i m - g (next n i) m)))).
  { pose (p1 := fun i => middle n (c t0) i k * sum_to 3 (fun m => u i m * (g i m - g (next n i) m)) + side n (c t0) i * ((g i k + g (next n i) k) / 2)).
    pose (p2 := fun i => sum_to 3 (fun m => u i m * (g i m - g (next n i) m))).
    change (((sum_to n p1) * L - W * sum_to n p2) / L ^ 2 = sum_to n (fun i => / L * p1 i + - (W / (L * L)) * p2 i)).
    rewrite sum_to_plus, (sum_to_scale n p1 (/ L)), (sum_to_scale n p2). field. auto. }
  (* the part of a corner and the part of the next one *)
  transitivity (sum_to n (fun i => / L * (sum_to 3 (fun m => (middle n (c t0) i k - W / L) * u i m * g i m) + side n (c t0) i / 2 * g i k)
    + / L * (sum_to 3 (fun m => - (middle n (c t0) i k - W / L) * u i m * g (next n i) m) + side n (c t0) i / 2 * g (next n i) k))).
  { apply sum_to_ext. intros i Li. rewrite !sum3. field. auto. }
  rewrite sum_to_plus.
  pose (X := fun i v => / L * (sum_to 3 (fun m => - (middle n (c t0) i k - W / L) * u i m * g v m) + side n (c t0) i / 2 * g v k)).
  assert (E : sum_to n (fun i => X i (next n i)) = sum_to n (fun v => X (prev n v) v)).
  { rewrite <- (sum_to_next n (fun v => X (prev n v) v)). apply sum_to_ext. intros i Li. rewrite prev_next; auto. }
  unfold X in E. rewrite E, <- sum_to_plus. clear E X. apply sum_to_ext. intros v Lv.
  pose proof (Hs Lv) as Pv. pose proof (Hs (prev_lt Lv)) as Pp.
  unfold slope. fold L W. unfold u. rewrite (next_prev Lv).
  set (a := side n (c t0) (prev n v)) in *. set (b := side n (c t0) v) in *. set (w := next n v). set (p := prev n v).
  rewrite !sum3. destruct k as [|[|[|k]]]; [| | |lia]; cbn [Nat.eqb]; field; repeat split; lra.
Qed.
End Moving.

(** The Jacobian that is used, compared to that slope. *)
Lemma jac_close s p c' k v m : centroid_calc s (centroid_new p) = Ok c' ->
  let n := length p in / 1000000000000000 <= outline n (pt p) -> 0 <= centre_a s -> 0 <= centre2_a s ->
  (k < 3)%nat -> (v < n)%nat -> (m < 3)%nat -> (forall i, (i < n)%nat -> 0 < side n (pt p) i) ->
  Rabs (c_jac c' k (v + n * m)%nat - slope n (pt p) k v m) <= slope_error n (pt p) (centre_a s + centre2_a s) (centre2_a s) k v m.
Proof.
  intros H n L E1 E2 Lk Lv Lm Hs. rewrite (Nat.mul_comm n m).
  assert (N4 : (4 <= n)%nat).
  { pose proof (proj1 (proj1 (@C75_defined s (centroid_new p) eq_refl)) (ex_intro _ _ H)). auto. }
  pose proof (Hs _ Lv) as Pv. pose proof (Hs _ (prev_lt Lv)) as Pu.
  refine (@C75_jacobian s (centroid_new p) c' k v m _ H eq_refl L E1 E2 Lk Lv Lm Pu Pv _).
  unfold slope. apply centre_slope_is; auto; cbn [c_pts centroid_new]; fold n; lia.
Qed.

(** Only the first three coordinates matter. *)
Section Ext.
Variables (n : nat) (c c' : nat -> nat -> R).
Hypothesis Hc : forall v k, (v < n)%nat -> (k < 3)%nat -> c v k = c' v k.
Lemma side_ext i : (i < n)%nat -> side n c i = side n c' i.
Proof. intros L. unfold side, dist, vdot, vsub. pose proof (next_lt L). rewrite !Hc by (auto; lia). reflexivity. Qed.
Lemma middle_ext i k : (i < n)%nat -> (k < 3)%nat -> middle n c i k = middle n c' i k.
Proof. intros L Lk. unfold middle. pose proof (next_lt L). rewrite !Hc by auto. reflexivity. Qed.
Lemma outline_ext : outline n c = outline n c'.
Proof. unfold outline. apply sum_to_ext. intros. apply side_ext; auto. Qed.
Lemma weighted_ext k : (k < 3)%nat -> weighted n k c = weighted n k c'.
Proof. intros Lk. unfold weighted. apply sum_to_ext. intros. rewrite side_ext, middle_ext; auto. Qed.
Lemma centre_ext k : (k < 3)%nat -> wire_centre n c k = wire_centre n c' k.
Proof. intros Lk. unfold wire_centre. fold (weighted n k c) (weighted n k c'). rewrite weighted_ext, outline_ext; auto. Qed.
Lemma slope_ext k v m : (k < 3)%nat -> (v < n)%nat -> (m < 3)%nat -> slope n c k v m = slope n c' k v m.
Proof.
  intros Lk Lv Lm. unfold slope. pose proof (next_lt Lv). pose proof (prev_lt Lv).
  rewrite !side_ext, !middle_ext, outline_ext, weighted_ext, !Hc; auto.
Qed.
Lemma slope_error_ext a b k v m : (k < 3)%nat -> (v < n)%nat -> slope_error n c a b k v m = slope_error n c' a b k v m.
Proof.
  intros Lk Lv. unfold slope_error. pose proof (prev_lt Lv). rewrite !side_ext, !middle_ext, outline_ext, centre_ext; auto.
Qed.
End Ext.
