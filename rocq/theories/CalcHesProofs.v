(** The second derivatives of the volume and area of a triangle when two snaxels move. *)
From Coq Require Import Reals List Lia Lra ZArith.
From Coquelicot Require Import Coquelicot.
From Verif Require Import Base RsvsMath SpecRsvs SpecCentre Calc SpecCalc RsvsProofs RsvsAreaProofs RsvsCentreProofs CalcProofs CalcTriProofs CalcChain CalcCentre CalcPlaceProofs CalcRateProofs CalcSumProofs.
Import ListNotations.
Set Implicit Arguments.
Open Scope R_scope.

(** *** Sums over pairs of positions *)
Lemma pair_total_is qs h x y : pair_total qs h x y = dsum qs (fun j => dsum qs (fun i => h i j) x) y.
Proof.
  unfold pair_total, dsum. apply total_ext. intros iq _. destruct (Nat.eqb (snd iq) y).
  - apply total_ext. intros jq _. rewrite Bool.andb_true_r. reflexivity.
  - apply total_zero. intros jq _. rewrite Bool.andb_false_r. reflexivity.
Qed.
Lemma dsum_zero qs f q : (forall i, f i = 0) -> dsum qs f q = 0.
Proof. intros H. apply total_zero. intros iq _. rewrite H. destruct (Nat.eqb _ _); auto. Qed.

Definition no_centre (e : tri_env) (t : triangle) : Prop := forall j, (j < 3)%nat -> is_centre e (nth_pt t j) = false.
Definition pulls (e : tri_env) (i : Z) (t : triangle) : nat -> R := flat [pull e i (nth_pt t 0); pull e i (nth_pt t 1); pull e i (nth_pt t 2)].
Definition points (e : tri_env) (t : triangle) (d : Z -> R) : nat -> R :=
  flat [place e d (nth_pt t 0); place e d (nth_pt t 1); place e d (nth_pt t 2)].
Lemma speed_plain e d i p k : is_centre e p = false -> speed e d i p k = pull e i p k.
Proof. unfold speed. intros ->. reflexivity. Qed.
Lemma speeds_plain e d i t r : no_centre e t -> speeds e d i t r = pulls e i t r.
Proof.
  intros H. unfold speeds, pulls. destruct r as [|[|[|[|[|[|[|[|[|r]]]]]]]]]; cbn [flat]; rewrite ?speed_plain; auto; apply H; lia.
Qed.
Lemma errors_plain st e d i t r : no_centre e t -> errors st e d i t r = 0.
Proof.
  intros H. unfold errors, place_error. rewrite !H by lia. destruct r as [|[|[|[|[|[|[|[|[|r]]]]]]]]]; reflexivity.
Qed.
Lemma plain_smooth e d centre t : no_centre e t -> smooth_tri e d centre t.
Proof. intros H j L. rewrite (H j L). split; auto. intros K. rewrite (H j L) in K. discriminate. Qed.
Lemma place_same e d i p k : is_centre e p = false -> place e (slide d i (d i)) p k = place e d p k.
Proof.
  intros H. unfold place, is_centre in *. destruct (Z.eqb (fst p) t_tri); [|apply corner_same]. cbn [andb] in H. rewrite H. reflexivity.
Qed.

Section Plain.
Variables (e : tri_env) (t : triangle).
Hypotheses (Hn : no_centre e t) (Hk : forall j, (j < 3)%nat -> known (nth_pt t j)).

Lemma points_move_plain d i r : (r < 9)%nat -> is_derive (fun u => points e t (slide d i u) r) (d i) (pulls e i t r).
Proof.
  intros L. rewrite <- (speeds_plain d i r Hn). unfold points, speeds.
  assert (A : forall j k, (j < 3)%nat -> (k < 3)%nat -> is_derive (fun u => place e (slide d i u) (nth_pt t j) k) (d i) (speed e d i (nth_pt t j) k)).
  { intros j k Lj Lk. apply place_moves; auto. intros K. rewrite (Hn Lj) in K. discriminate. }
  each r ltac:(cbn [flat]; apply A; lia).
Qed.
Lemma points_same d i r : (r < 9)%nat -> points e t (slide d i (d i)) r = points e t d r.
Proof.
  intros L. unfold points. revert r L. apply (@flat9 eq). intros k Lk. rewrite !place_same by (apply Hn; lia). auto.
Qed.
Lemma plain_rate2 f (slopes : nat -> (nat -> R) -> R) (H : nat -> nat -> R) d i j :
  (forall x, differential f x (fun r => slopes r x)) ->
  (forall r, (r < 9)%nat -> differential (slopes r) (points e t d) (H r)) ->
  rate2 (fun d => f (points e t d)) d i j (sum_to 9 (fun r => sum_to 9 (fun s => pulls e i t r * H r s * pulls e j t s))).
Proof.
  intros D1 D2. exists (fun u => sum_to 9 (fun r => slopes r (points e t (slide d j u)) * pulls e i t r)). split.
  - intros u. unfold rate. apply is_derive_Reals.
    apply (D1 (points e t (slide d j u)) (fun v => points e t (slide (slide d j u) i v)) (pulls e i t)).
    + intros s L. apply points_move_plain; auto.
    + intros s L. apply points_same; auto.
  - apply is_derive_Reals. apply (@sum_to_derive 9 (fun u r => slopes r (points e t (slide d j u)) * pulls e i t r) _ (d j)).
    intros r L. destruct (D2 r L (fun v => points e t (slide d j v)) (pulls e j t) (d j)) as [_ K].
    + intros s Ls. apply points_move_plain; auto.
    + intros s Ls. apply points_same; auto.
    + pose proof (is_derive_scal_l _ _ _ (pulls e i t r) K) as K2. cbv beta in K2. unfold scal in K2; cbn in K2; unfold mult in K2; cbn in K2.
      derive_is K2. transitivity (pulls e i t r * sum_to 9 (fun s => H r s * pulls e j t s)); [apply Rmult_comm|]. rewrite <- sum_to_scale. apply sum_to_ext. intros s Ls. ring.
Qed.
End Plain.

Lemma differential_at f x x' D : (forall r, (r < 9)%nat -> x r = x' r) -> differential f x D -> differential f x' D.
Proof.
  intros E H y g t0 A B. destruct (H y g t0 A) as [K1 K2]; [intros s L; rewrite E; auto|]. split; auto.
  destruct (H (fun _ => x') (fun _ => 0) t0) as [K3 _]; [intros s L; apply (is_derive_const (x' s))|intros s L; symmetry; auto|]. cbv beta in K3. congruence.
Qed.
Lemma vol_hes_diff a b c x r : (forall s, (s < 9)%nat -> flat [a; b; c] s = x s) -> (r < 9)%nat -> differential (vol_slope r) x (vol_hes a b c r).
Proof.
  intros E L. apply (differential_at _ E). replace (vol_hes a b c) with (vol_hes (point (flat [a; b; c]) 0) (point (flat [a; b; c]) 1) (point (flat [a; b; c]) 2)).
  - apply vol_slope_differential; auto.
  - unfold vol_hes. f_equal.
Qed.
Lemma are_hes_diff eps a b c x r : 0 < eps -> (forall s, (s < 9)%nat -> flat [a; b; c] s = x s) -> (r < 9)%nat -> differential (area_slope eps r) x (are_hes eps a b c r).
Proof.
  intros P E L. apply (differential_at _ E). replace (are_hes eps a b c) with (are_hes eps (point (flat [a; b; c]) 0) (point (flat [a; b; c]) 1) (point (flat [a; b; c]) 2)).
  - apply area_slope_differential; auto. unfold gram3. match goal with |- 0 < gram ?u ?v ?w + _ => pose proof (gram_nonneg u v w) end. lra.
  - unfold are_hes. f_equal.
Qed.

Section TriHes.
Variables (st : statics) (e : tri_env) (d : Z -> R) (cc : Calc.calc) (t : triangle) (a b c : vec) (act : list Z)
  (dpos : mat) (hpos : nat -> mat) (qs : list nat) (i j : Z) (x y : nat).
Hypotheses (F : tri_facts st e cc t a b c act dpos hpos qs) (Hp : placed e d) (Hn : no_centre e t)
  (H1 : 0 <= centre_a st) (H2 : 0 <= centre2_a st) (Hi : index_of i (dvMap cc) = Some x) (Hj : index_of j (dvMap cc) = Some y).

Lemma hpos_zero r u v : hpos r u v = 0.
Proof.
  pose proof (tf_hes F) as E. destruct (@tri_split _ _ _ _ _ (tf_coords F)) as (E3 & E0 & E1 & E2).
  destruct (@point_coord_is _ _ _ _ Hp E0) as (K0 & _ & L0), (@point_coord_is _ _ _ _ Hp E1) as (K1 & _ & L1), (@point_coord_is _ _ _ _ Hp E2) as (K2 & _ & L2).
  assert (Q : forall p l, is_centre e p = false -> (forall x, fst p = t_tri -> lookup (snd p) (trivert e) = Ok x -> tripoint_of e (snd p) = x) ->
    point_hes st e act (useCentre cc) (useHessian cc) p = Ok l -> l = []).
  { intros [ty k] l Ic LK K. unfold point_hes in K. unfold is_centre in Ic. cbn [fst snd] in *.
    destruct (Z.eqb_spec ty t_tri) as [->|]; cbn [andb] in *; [|injection K as <-; auto].
    destruct (useCentre cc && useHessian cc)%bool; [|injection K as <-; auto].
    destruct (lookup k (trivert e)) as [tp| | |]; cbn [bind] in K; try discriminate. rewrite (LK _ eq_refl eq_refl) in Ic.
    unfold moving in Ic. apply Bool.orb_false_elim in Ic. destruct Ic as [_ Ic]. rewrite Ic in K. injection K as <-. auto. }
  unfold tri_hes in E. rewrite E3 in E. cbn [bind combine seq concat_all fst snd] in E.
  destruct (point_hes st e act (useCentre cc) (useHessian cc) (nth_pt t 0)) as [l0| | |] eqn:P0; cbn [bind] in E; try discriminate.
  destruct (point_hes st e act (useCentre cc) (useHessian cc) (nth_pt t 1)) as [l1| | |] eqn:P1; cbn [bind] in E; try discriminate.
  destruct (point_hes st e act (useCentre cc) (useHessian cc) (nth_pt t 2)) as [l2| | |] eqn:P2; cbn [bind] in E; try discriminate.
  rewrite (Q _ _ (@Hn 0%nat ltac:(lia)) L0 P0), (Q _ _ (@Hn 1%nat ltac:(lia)) L1 P1), (Q _ _ (@Hn 2%nat ltac:(lia)) L2 P2) in E.
  cbn in E. injection E as <-. reflexivity.
Qed.
Lemma dpos_is i' q r : index_of i' act = Some q -> (r < 9)%nat -> dpos r q = pulls e i' t r.
Proof.
  intros Iq L. pose proof (@dpos_close st e d i' cc t a b c act dpos hpos qs F Hp (plain_smooth d (useCentre cc) Hn) H1 H2 q r Iq L) as K.
  rewrite (errors_plain st d i' r Hn), (speeds_plain d i' r Hn) in K.
  pose proof (Rabs_pos (dpos r q - pulls e i' t r)). assert (Z : Rabs (dpos r q - pulls e i' t r) = 0) by lra.
  destruct (Req_dec (dpos r q - pulls e i' t r) 0) as [Q|Q]; [lra|]. apply Rabs_no_R0 in Q. contradiction.
Qed.
Lemma pulls_zero i' q : index_of i' (dvMap cc) = Some q -> ~ In i' act -> forall r, (r < 9)%nat -> pulls e i' t r = 0.
Proof.
  intros Iq N r L. rewrite <- (speeds_plain d i' r Hn).
  apply (@all_silent st e d i' cc t a b c act dpos hpos qs q F Hp (plain_smooth d (useCentre cc) Hn) Iq N r L).
Qed.
Lemma sum9_0 (f : nat -> R) : (forall r, (r < 9)%nat -> f r = 0) -> sum_to 9 f = 0.
Proof. intros H. rewrite (@sum_to_ext 9 f (fun _ => 0 * 0)) by (intros; rewrite H by auto; ring). rewrite (sum_to_scale 9 (fun _ => 0) 0). ring. Qed.
Lemma hes_close J H keep eps lag : (forall x, Rabs (cut keep x - x) <= eps) ->
  Rabs (pair_total qs (fun u v => cut keep (chain2 J dpos H hpos u v * lag)) x y
    - sum_to 9 (fun r => sum_to 9 (fun s => pulls e i t r * H r s * pulls e j t s)) * lag) <= eps.
Proof.
  intros Hk. rewrite pair_total_is. pose proof (Hk 0) as E0. assert (0 <= eps) by (eapply Rle_trans; [apply Rabs_pos|exact E0]).
  pose proof (@act_nodup st e cc t a b c act dpos hpos qs F) as N.
  assert (Z0 : forall z, z = 0 -> Rabs (0 - z * lag) <= eps) by (intros z ->; rewrite Rmult_0_l, Rminus_0_r, Rabs_R0; auto).
  destruct (index_of j act) as [v|] eqn:Jv.
  - rewrite (@dsum_in cc act qs _ j v y (tf_pos F) N Jv Hj). destruct (index_of i act) as [u|] eqn:Iu.
    + rewrite (@dsum_in cc act qs _ i u x (tf_pos F) N Iu Hi).
      replace (sum_to 9 (fun r => sum_to 9 (fun s => pulls e i t r * H r s * pulls e j t s))) with (chain2 J dpos H hpos u v); [apply Hk|].
      unfold chain2. change sum9 with (sum_to 9). rewrite sum9_0 by (intros; rewrite hpos_zero; ring). rewrite Rplus_0_l.
      apply sum_to_ext. intros r L. apply sum_to_ext. intros s Ls. rewrite (dpos_is _ Iu L), (dpos_is _ Jv Ls). reflexivity.
    + assert (Ni : ~ In i act) by (intros K; apply index_of_in in K; destruct K; congruence).
      rewrite (@dsum_out cc act qs _ i x (tf_pos F) Ni Hi). apply Z0. apply sum9_0. intros r L. apply sum9_0. intros s Ls. rewrite (@pulls_zero i x Hi Ni r L). ring.
  - assert (Nj : ~ In j act) by (intros K; apply index_of_in in K; destruct K; congruence).
    rewrite (@dsum_out cc act qs _ j y (tf_pos F) Nj Hj). apply Z0. apply sum9_0. intros r L. apply sum9_0. intros s Ls. rewrite (@pulls_zero j y Hj Nj s Ls). ring.
Qed.
Lemma volume_rate2 : exists h, rate2 (fun d => tri_volume e d t) d i j h /\
  forall keep eps lag, (forall x, Rabs (cut keep x - x) <= eps) ->
   Rabs (pair_total qs (fun u v => cut keep (chain2 (vol_jac a b c) dpos (vol_hes a b c) hpos u v * lag)) x y - h * lag) <= eps.
Proof.
  eexists. split; [|intros; apply hes_close; auto].
  apply (@plain_rate2 e t Hn (fun k => @tri_known st e d cc t a b c act dpos hpos qs F Hp k) vol vol_slope); [intros; apply vol_differential|].
  intros r L. apply vol_hes_diff; auto. intros s Ls. apply (same_places _ Hp (tf_coords F)); auto.
Qed.
Lemma area_rate2 eps : 0 < eps -> exists h, rate2 (fun d => tri_area eps e d t) d i j h /\
  forall keep tol, (forall x, Rabs (cut keep x - x) <= tol) ->
   Rabs (pair_total qs (fun u v => cut keep (chain2 (are_jac eps a b c) dpos (are_hes eps a b c) hpos u v)) x y - h) <= tol.
Proof.
  intros P. eexists. split.
  - apply (@plain_rate2 e t Hn (fun k => @tri_known st e d cc t a b c act dpos hpos qs F Hp k) (area3 eps) (area_slope eps)).
    + intros z. apply area_differential. unfold gram3. pose proof (gram_nonneg (point z 0) (point z 1) (point z 2)). lra.
    + intros r L. apply are_hes_diff; auto. intros s Ls. apply (same_places _ Hp (tf_coords F)); auto.
  - intros keep tol K. pose proof (@hes_close (are_jac eps a b c) (are_hes eps a b c) keep tol 1 K) as Q. rewrite Rmult_1_r in Q.
    eapply Rle_trans; [|exact Q]. apply Req_le. do 2 f_equal. rewrite !pair_total_is. unfold dsum. apply total_ext. intros iq _.
    destruct (Nat.eqb _ _); auto. apply total_ext. intros jq _. destruct (Nat.eqb _ _); auto. rewrite Rmult_1_r. reflexivity.
Qed.
End TriHes.
