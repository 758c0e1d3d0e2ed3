(** Volumes and areas of triangles with their derivatives, summed up over the triangles. *)
From Coq Require Import Reals List Lia Lra ZArith.
From Coquelicot Require Import Coquelicot.
From Verif Require Import Base RsvsMath SpecRsvs SpecCentre Calc SpecCalc RsvsProofs RsvsAreaProofs RsvsCentreProofs CalcProofs CalcTriProofs CalcChain CalcCentre CalcPlaceProofs CalcRateProofs.
Import ListNotations.
Set Implicit Arguments.
Open Scope R_scope.

Lemma differential_ext f x J J' : (forall r, (r < 9)%nat -> J r = J' r) -> differential f x J -> differential f x J'.
Proof.
  intros E D y g t0 H1 H2. destruct (D y g t0 H1 H2) as [A B]. split; auto. derive_is B. apply sum_to_ext. intros r L. rewrite E; auto.
Qed.
Lemma vol_diff a b c : differential vol (flat [a; b; c]) (vol_jac a b c).
Proof. eapply differential_ext; [|apply vol_differential]. intros r L. unfold vol_jac, Volume_df. each r ltac:(lit; reflexivity). Qed.
Lemma area_diff eps a b c : 0 < eps -> differential (area3 eps) (flat [a; b; c]) (are_jac eps a b c).
Proof.
  intros P. eapply differential_ext; [|apply area_differential].
  - intros r L. unfold are_jac, Area_df. each r ltac:(lit; reflexivity).
  - unfold gram3. pose proof (gram_nonneg (point (flat [a; b; c]) 0) (point (flat [a; b; c]) 1) (point (flat [a; b; c]) 2)). lra.
Qed.
(** *** Sizes of the slopes *)
Lemma vol_jac_is a b c k : (k < 3)%nat -> vol_jac a b c k = signed_volume (unit_vec k) b c /\
  vol_jac a b c (3 + k)%nat = signed_volume a (unit_vec k) c /\ vol_jac a b c (6 + k)%nat = signed_volume a b (unit_vec k).
Proof.
  intros L. unfold vol_jac, Volume_df, signed_volume, det, unit_vec.
  destruct k as [|[|[|k]]]; [| | |lia]; (split; [|split]); lit; field.
Qed.
Lemma cauchy x0 x1 x2 y0 y1 y2 : (x0 * y0 + x1 * y1 + x2 * y2) * (x0 * y0 + x1 * y1 + x2 * y2) <= (x0 * x0 + x1 * x1 + x2 * x2) * (y0 * y0 + y1 * y1 + y2 * y2).
Proof.
  pose proof (Rle_0_sqr (x0 * y1 - x1 * y0)). pose proof (Rle_0_sqr (x0 * y2 - x2 * y0)). pose proof (Rle_0_sqr (x1 * y2 - x2 * y1)).
  unfold Rsqr in *. nra.
Qed.
Lemma slope_size N G W s eps : 0 <= eps -> 0 < s -> s * s = G + eps -> N * N <= G * W -> 0 <= G -> 0 <= W -> Rabs (N / (2 * s)) <= sqrt W / 2.
Proof.
  intros He Hs Es HN HG HW. unfold Rdiv. rewrite Rabs_mult, (Rabs_right (/ (2 * s))) by (apply Rle_ge, Rlt_le, Rinv_0_lt_compat; lra).
  apply Rmult_le_reg_r with (2 * s); [lra|]. rewrite Rmult_assoc, Rinv_l, Rmult_1_r by lra.
  replace (sqrt W * / 2 * (2 * s)) with (sqrt W * s) by field.
  apply Rsqr_incr_0_var; [|apply Rmult_le_pos; [apply sqrt_pos|lra]]. unfold Rsqr. rewrite <- Rabs_mult, Rabs_right by (apply Rle_ge, Rle_0_sqr).
  replace (sqrt W * s * (sqrt W * s)) with (sqrt W * sqrt W * (s * s)) by ring. rewrite sqrt_sqrt, Es by auto. nra.
Qed.
(** The numerators of the slopes of the area. *)
Definition are_num (a b c : vec) (w : vec) (k : nat) : R :=
  let u := vsub b a in let v := vsub c a in
  let n0 := u 1%nat * v 2%nat - u 2%nat * v 1%nat in let n1 := u 2%nat * v 0%nat - u 0%nat * v 2%nat in let n2 := u 0%nat * v 1%nat - u 1%nat * v 0%nat in
  match k with
  | 0%nat => - n1 * w 2%nat + n2 * w 1%nat
  | 1%nat => n0 * w 2%nat - n2 * w 0%nat
  | _ => - n0 * w 1%nat + n1 * w 0%nat
  end.
Lemma are_num_le a b c w k : are_num a b c w k * are_num a b c w k <= gram a b c * vdot w w.
Proof.
  unfold are_num. cbv zeta. set (u := vsub b a). set (v := vsub c a).
  replace (gram a b c) with ((u 1%nat * v 2%nat - u 2%nat * v 1%nat) * (u 1%nat * v 2%nat - u 2%nat * v 1%nat)
    + (u 2%nat * v 0%nat - u 0%nat * v 2%nat) * (u 2%nat * v 0%nat - u 0%nat * v 2%nat)
    + (u 0%nat * v 1%nat - u 1%nat * v 0%nat) * (u 0%nat * v 1%nat - u 1%nat * v 0%nat)) by (unfold gram, vdot; fold u v; cbv zeta; ring).
  generalize (u 1%nat * v 2%nat - u 2%nat * v 1%nat) (u 2%nat * v 0%nat - u 0%nat * v 2%nat) (u 0%nat * v 1%nat - u 1%nat * v 0%nat).
  intros n0 n1 n2. unfold vdot. generalize (w 0%nat) (w 1%nat) (w 2%nat). intros w0 w1 w2.
  pose proof (Rle_0_sqr n0). pose proof (Rle_0_sqr n1). pose proof (Rle_0_sqr n2). unfold Rsqr in *.
  pose proof (Rle_0_sqr w0). pose proof (Rle_0_sqr w1). pose proof (Rle_0_sqr w2). unfold Rsqr in *.
  destruct k as [|[|k]].
  - pose proof (cauchy 0 n1 n2 0 (- w2) w1). nra.
  - pose proof (cauchy n0 0 n2 w2 0 (- w0)). nra.
  - pose proof (cauchy n0 n1 0 (- w1) w0 0). nra.
Qed.
Lemma are_jac_is eps a b c k : 0 < eps -> (k < 3)%nat -> let s := sqrt (gram a b c + eps) in
  are_jac eps a b c k = are_num a b c (vsub b c) k / (2 * s) /\
  are_jac eps a b c (3 + k)%nat = are_num a b c (vsub c a) k / (2 * s) /\ are_jac eps a b c (6 + k)%nat = are_num a b c (vsub a b) k / (2 * s).
Proof.
  intros He L s. pose proof (gram_nonneg a b c) as G. assert (P : 0 < gram a b c + eps) by lra.
  assert (Hl : 0 < s) by (apply sqrt_lt_R0; auto). unfold s in *. clear s.
  remember (sqrt (gram a b c + eps)) as s eqn:E. symmetry in E. revert P Hl E. clear G. unfold are_jac, Area_df, are_num.
  destruct k as [|[|[|k]]]; [| | |lia]; lit; intros P Hl E; (split; [|split]);
    match type of E with sqrt ?B = s => repeat match goal with |- context [sqrt ?A] => replace (sqrt A) with s by (rewrite <- E; f_equal; ring) end end; field; lra.
Qed.
Lemma are_jac_le eps a b c k : 0 < eps -> (k < 3)%nat -> Rabs (are_jac eps a b c k) <= SpecRsvs.dist b c / 2 /\
  Rabs (are_jac eps a b c (3 + k)%nat) <= SpecRsvs.dist a c / 2 /\ Rabs (are_jac eps a b c (6 + k)%nat) <= SpecRsvs.dist a b / 2.
Proof.
  intros He L. destruct (@are_jac_is eps a b c k He L) as (-> & -> & ->). pose proof (gram_nonneg a b c) as G.
  assert (P : 0 < gram a b c + eps) by lra. assert (Hl : 0 < sqrt (gram a b c + eps)) by (apply sqrt_lt_R0; auto).
  assert (Es : sqrt (gram a b c + eps) * sqrt (gram a b c + eps) = gram a b c + eps) by (apply sqrt_sqrt; lra).
  assert (Q : forall w, 0 <= vdot w w).
  { intros w. unfold vdot. pose proof (Rle_0_sqr (w 0%nat)). pose proof (Rle_0_sqr (w 1%nat)). pose proof (Rle_0_sqr (w 2%nat)). unfold Rsqr in *. lra. }
  unfold SpecRsvs.dist. replace (vdot (vsub a c) (vsub a c)) with (vdot (vsub c a) (vsub c a)) by (unfold vdot, vsub; ring).
  split; [|split]; (eapply slope_size; [|exact Hl|exact Es|apply are_num_le|exact G|apply Q]; lra).
Qed.

Section OneTriangle.
Variables (st : statics) (e : tri_env) (d : Z -> R) (cc : Calc.calc) (t : triangle) (a b c : vec) (act : list Z)
  (dpos : mat) (hpos : nat -> mat) (qs : list nat).
Hypotheses (F : tri_facts st e cc t a b c act dpos hpos qs) (Hp : placed e d).

Lemma tri_same : same3 a (place e d (nth_pt t 0)) /\ same3 b (place e d (nth_pt t 1)) /\ same3 c (place e d (nth_pt t 2)).
Proof.
  destruct (@tri_split _ _ _ _ _ (tf_coords F)) as (_ & E0 & E1 & E2).
  destruct (@point_coord_is _ _ _ _ Hp E0) as (_ & S0 & _), (@point_coord_is _ _ _ _ Hp E1) as (_ & S1 & _), (@point_coord_is _ _ _ _ Hp E2) as (_ & S2 & _). auto.
Qed.
Lemma tri_known j : (j < 3)%nat -> known (nth_pt t j).
Proof.
  destruct (@tri_split _ _ _ _ _ (tf_coords F)) as (_ & E0 & E1 & E2).
  destruct (@point_coord_is _ _ _ _ Hp E0) as (S0 & _ & _), (@point_coord_is _ _ _ _ Hp E1) as (S1 & _ & _), (@point_coord_is _ _ _ _ Hp E2) as (S2 & _ & _).
  intros L. destruct j as [|[|[|j]]]; auto. lia.
Qed.
Lemma tri_value : signed_volume a b c = tri_volume e d t /\ triangle_area a b c = tri_area 0 e d t.
Proof.
  destruct tri_same as (S0 & S1 & S2). unfold tri_volume, tri_area, signed_volume, triangle_area, shifted_area, det, gram, vdot, vsub.
  rewrite !S0, !S1, !S2 by lia. rewrite Rplus_0_r. auto.
Qed.

Section Deriv.
Variables (i : Z) (q : nat).
Hypotheses (Hs : smooth_tri e d (useCentre cc) t) (H1 : 0 <= centre_a st) (H2 : 0 <= centre2_a st) (Hi : index_of i (dvMap cc) = Some q).

Lemma volume_error_is : sum_to 9 (fun r => Rabs (vol_jac a b c r) * errors st e d i t r) = volume_error st e d i t.
Proof.
  destruct tri_same as (S0 & S1 & S2). unfold volume_error. rewrite sum3. unfold sum_to. cbn [map seq fold_right].
  destruct (@vol_jac_is a b c 0 ltac:(lia)) as (A0 & A1 & A2), (@vol_jac_is a b c 1 ltac:(lia)) as (B0 & B1 & B2), (@vol_jac_is a b c 2 ltac:(lia)) as (C0 & C1 & C2).
  cbn [Nat.add] in *. rewrite A0, A1, A2, B0, B1, B2, C0, C1, C2. unfold errors. cbn [flat].
  unfold signed_volume, det. rewrite !S0, !S1, !S2 by lia. ring.
Qed.
Lemma area_error_le eps : 0 < eps -> (forall j k, (j < 3)%nat -> (k < 3)%nat -> 0 <= place_error st e d i (nth_pt t j) k) ->
  sum_to 9 (fun r => Rabs (are_jac eps a b c r) * errors st e d i t r) <= area_error st e d i t.
Proof.
  intros He Hpos. destruct tri_same as (S0 & S1 & S2). unfold area_error. rewrite sum3. unfold sum_to. cbn [map seq fold_right].
  assert (D0 : SpecRsvs.dist (place e d (nth_pt t 1)) (place e d (nth_pt t 2)) = SpecRsvs.dist b c) by (unfold SpecRsvs.dist, vdot, vsub; rewrite !S1, !S2 by lia; auto).
  assert (D1 : SpecRsvs.dist (place e d (nth_pt t 0)) (place e d (nth_pt t 2)) = SpecRsvs.dist a c) by (unfold SpecRsvs.dist, vdot, vsub; rewrite !S0, !S2 by lia; auto).
  assert (D2 : SpecRsvs.dist (place e d (nth_pt t 0)) (place e d (nth_pt t 1)) = SpecRsvs.dist a b) by (unfold SpecRsvs.dist, vdot, vsub; rewrite !S0, !S1 by lia; auto).
  rewrite D0, D1, D2.
  destruct (@are_jac_le eps a b c 0 He ltac:(lia)) as (A0 & A1 & A2), (@are_jac_le eps a b c 1 He ltac:(lia)) as (B0 & B1 & B2), (@are_jac_le eps a b c 2 He ltac:(lia)) as (C0 & C1 & C2).
  cbn [Nat.add] in *. unfold errors. cbn [flat].
  pose proof (Rmult_le_compat_r _ _ _ (Hpos 0%nat 0%nat ltac:(lia) ltac:(lia)) A0). pose proof (Rmult_le_compat_r _ _ _ (Hpos 0%nat 1%nat ltac:(lia) ltac:(lia)) B0). pose proof (Rmult_le_compat_r _ _ _ (Hpos 0%nat 2%nat ltac:(lia) ltac:(lia)) C0).
  pose proof (Rmult_le_compat_r _ _ _ (Hpos 1%nat 0%nat ltac:(lia) ltac:(lia)) A1). pose proof (Rmult_le_compat_r _ _ _ (Hpos 1%nat 1%nat ltac:(lia) ltac:(lia)) B1). pose proof (Rmult_le_compat_r _ _ _ (Hpos 1%nat 2%nat ltac:(lia) ltac:(lia)) C1).
  pose proof (Rmult_le_compat_r _ _ _ (Hpos 2%nat 0%nat ltac:(lia) ltac:(lia)) A2). pose proof (Rmult_le_compat_r _ _ _ (Hpos 2%nat 1%nat ltac:(lia) ltac:(lia)) B2). pose proof (Rmult_le_compat_r _ _ _ (Hpos 2%nat 2%nat ltac:(lia) ltac:(lia)) C2).
  lra.
Qed.
Lemma place_error_pos j k : (j < 3)%nat -> (k < 3)%nat -> 0 <= place_error st e d i (nth_pt t j) k.
Proof.
  intros Lj Lk. destruct (Hs Lj) as [S _]. unfold place_error. destruct (is_centre e (nth_pt t j)) eqn:E; [|lra].
  destruct (S E) as (N4 & Ty & Ho & Hd). set (l := corners_of e _) in *. set (n := length l) in *.
  assert (O : 0 < outline n (polygon e d l)) by lra.
  apply Rle_trans with (sum_to n (fun _ => 0 * 0)); [rewrite (sum_to_scale n (fun _ => 0) 0); lra|]. apply sum_to_le. intros v Lv.
  apply Rle_trans with (sum_to 3 (fun _ => 0 * 0)); [rewrite sum3; lra|]. apply sum_to_le. intros m Lm. rewrite Rmult_0_l.
  apply Rmult_le_pos; [|apply Rabs_pos]. unfold slope_error. pose proof (Hd _ Lv) as P1. pose proof (Hd _ (prev_lt Lv)) as P2.
  apply Rmult_le_pos; [|apply Rlt_le, Rinv_0_lt_compat; auto].
  assert (Q : forall x y, 0 <= x -> 0 < y -> 0 <= x / y) by (intros; apply Rmult_le_pos; [auto|apply Rlt_le, Rinv_0_lt_compat; auto]).
  apply Rplus_le_le_0_compat; [apply Rplus_le_le_0_compat|].
  - destruct (Nat.eqb k m); [|lra]. apply Rplus_le_le_0_compat; apply Q; try lra.
  - apply Rmult_le_pos; [apply Rabs_pos|]. apply Q; [lra|]. apply Rmult_lt_0_compat; [lra|]. apply Rmult_lt_0_compat; auto.
  - apply Rmult_le_pos; [apply Rabs_pos|]. apply Q; [lra|]. apply Rmult_lt_0_compat; [lra|]. apply Rmult_lt_0_compat; auto.
Qed.
Lemma volume_rate : exists x, rate (fun d => tri_volume e d t) d i x /\
  forall keep eps, (forall x, Rabs (cut keep x - x) <= eps) ->
    Rabs (dsum qs (fun j => cut keep (chain1 (vol_jac a b c) dpos j)) q - x) <= volume_error st e d i t + eps.
Proof.
  destruct (@tri_rate st e d i cc t a b c act dpos hpos qs q F Hp Hs H1 H2 Hi vol _ (@vol_diff a b c)) as [A B].
  eexists. split; [exact A|]. intros keep eps K. rewrite <- volume_error_is. apply B. auto.
Qed.
Lemma area_rate eps : 0 < eps -> exists x, rate (fun d => tri_area eps e d t) d i x /\
  Rabs (dsum qs (chain1 (are_jac eps a b c) dpos) q - x) <= area_error st e d i t.
Proof.
  intros He. destruct (@tri_rate st e d i cc t a b c act dpos hpos qs q F Hp Hs H1 H2 Hi (area3 eps) _ (area_diff a b c He)) as [A B].
  eexists. split; [exact A|]. specialize (B (fun _ => true) 0).
  eapply Rle_trans; [apply B|].
  - intros x. unfold cut. rewrite Rminus_eq_0, Rabs_R0. lra.
  - rewrite Rplus_0_r. apply area_error_le; auto. apply place_error_pos.
Qed.
End Deriv.
End OneTriangle.
