(** Proofs about the step of the optimisation. *)
From Coq Require Import Reals List ZArith Bool Lia Lra.
From Verif Require Import Base RsvsMath SpecRsvs Calc Sqp SpecSqp.
From Verif Require Import RsvsCentreProofs CalcCentre CalcPlaceProofs.
Import ListNotations.
Set Implicit Arguments.
Open Scope R_scope.

(** ** Doubles *)
Definition val (a : dbl) : R := match a with Num x => x | _ => 0 end.
Lemma reads_val n b v : reads1 n b v -> forall i, (i < n)%nat -> b i = Num (val (b i)) /\ val (b i) = v i.
Proof. intros H i Hi. rewrite (H i Hi). split; reflexivity. Qed.
Lemma sum_to_fold n f : sum_to n f = fold_right Rplus 0 (map f (seq 0 n)).
Proof. reflexivity. Qed.
Lemma ddot_reads n a b x y : reads1 n a x -> reads1 n b y -> ddot n a b = Num (sum_to n (fun i => x i * y i)).
Proof.
  intros Ha Hb. unfold ddot, sum_to.
  assert (G : forall l, (forall i, In i l -> (i < n)%nat) ->
    fold_right dadd (Num 0) (map (fun i => dmul (a i) (b i)) l) = Num (fold_right Rplus 0 (map (fun i => x i * y i) l))).
  { induction l as [|i l IH]; intros Hl; [reflexivity|]. cbn [map fold_right]. rewrite IH by (intros; apply Hl; right; auto).
    assert (Hi : (i < n)%nat) by (apply Hl; left; auto). rewrite (Ha i Hi), (Hb i Hi). reflexivity. }
  apply G. intros i Hi. apply in_seq in Hi. lia.
Qed.
Lemma solves_val n M s b v : solves n M s -> reads1 n b v ->
  reads1 n (s b) (fun i => val (s b i)) /\ forall i, (i < n)%nat -> apply n M (fun j => val (s b j)) i = v i.
Proof.
  intros Hs Hb. destruct (Hs b v Hb) as [x [Hx E]]. split.
  - intros i Hi. rewrite (Hx i Hi). reflexivity.
  - intros i Hi. rewrite <- (E i Hi). unfold apply. apply sum_to_ext. intros j Hj. rewrite (Hx j Hj). reflexivity.
Qed.

(** ** Resizing *)
Lemma dlt_num x y : dlt (Num x) (Num y) = true <-> x < y.
Proof. cbn. destruct (Rlt_dec x y); split; intros; try congruence; auto; lra. Qed.
Lemma resize_spec lim l : let '(r, large, nan) := resize lim l in
  r = map (fun a => if dlt a (dopp lim) then dopp lim else if dlt lim a then lim else if is_nan a then Num 0 else a) l /\
  large = existsb (fun a => dlt a (dopp lim) || dlt lim a) l /\
  nan = existsb (fun a => negb (dlt a (dopp lim) || dlt lim a) && is_nan a) l.
Proof.
  induction l as [|a l IH]; [repeat split|]. cbn [resize map existsb]. destruct (resize lim l) as [[r large] nan].
  destruct IH as [E1 [E2 E3]]. subst. destruct (dlt a (dopp lim)), (dlt lim a), (is_nan a); repeat split.
Qed.
Lemma resize_within lim l : (forall a, In a l -> exists x, a = Num x /\ within lim x) -> resize lim l = (l, false, false).
Proof.
  induction l as [|a l IH]; intros Hl; [reflexivity|]. cbn [resize]. rewrite IH by (intros; apply Hl; right; auto).
  destruct (Hl a (or_introl eq_refl)) as [x [-> Hx]]. destruct lim as [lm|[]|]; cbn in *; try contradiction.
  - destruct (Rlt_dec x (- lm)) as [L|_]; [unfold Rabs in Hx; destruct (Rcase_abs x); lra|].
    destruct (Rlt_dec lm x) as [L|_]; [unfold Rabs in Hx; destruct (Rcase_abs x); lra|reflexivity].
  - reflexivity.
Qed.
Lemma resize_length lim l : length (fst (fst (resize lim l))) = length l.
Proof. pose proof (resize_spec lim l) as H. destruct (resize lim l) as [[r la] na]. destruct H as [-> _]. apply map_length. Qed.

(** ** The reduced equations *)
Definition reduced (n m : nat) (H J : mat) (g r x y : vec) : Prop :=
  (forall i, (i < n)%nat -> apply n H x i + sum_to m (fun k => J k i * y k) = g i) /\
  (forall k, (k < m)%nat -> apply n J x k = r k).
Definition injective (n : nat) (M : mat) : Prop :=
  forall x, (forall i, (i < n)%nat -> apply n M x i = 0) -> forall i, (i < n)%nat -> x i = 0.
Lemma apply_ext n M x y i : (forall j, (j < n)%nat -> x j = y j) -> apply n M x i = apply n M y i.
Proof. intros H. unfold apply. apply sum_to_ext. intros j Hj. rewrite H; auto. Qed.
Lemma apply_plus n M x y i : apply n M (fun j => x j + y j) i = apply n M x i + apply n M y i.
Proof. unfold apply. rewrite <- sum_to_plus. apply sum_to_ext. intros; ring. Qed.
Lemma apply_scale n M x t i : apply n M (fun j => t * x j) i = t * apply n M x i.
Proof. unfold apply. rewrite <- sum_to_scale. apply sum_to_ext. intros; ring. Qed.
Lemma apply_opp n M x i : apply n M (fun j => - x j) i = - apply n M x i.
Proof. rewrite (@apply_ext n M (fun j => - x j) (fun j => -1 * x j)) by (intros; ring). rewrite apply_scale. ring. Qed.
Lemma apply_minus n M x y i : apply n M (fun j => x j - y j) i = apply n M x i - apply n M y i.
Proof. rewrite (@apply_ext n M (fun j => x j - y j) (fun j => x j + - y j)) by (intros; ring). rewrite apply_plus, apply_opp. ring. Qed.
Lemma apply_sum n m M (y : vec) (X : mat) i :
  apply n M (fun j => sum_to m (fun b => y b * X b j)) i = sum_to m (fun b => y b * apply n M (X b) i).
Proof.
  unfold apply. rewrite (@sum_to_ext n _ (fun j => sum_to m (fun b => y b * (M i j * X b j)))).
  2:{ intros j Hj. rewrite <- sum_to_scale. apply sum_to_ext. intros; ring. }
  rewrite sum_to_swap. apply sum_to_ext. intros b Hb. rewrite <- sum_to_scale. reflexivity.
Qed.
Lemma injective_eq n M x y : injective n M -> (forall i, (i < n)%nat -> apply n M x i = apply n M y i) -> forall i, (i < n)%nat -> x i = y i.
Proof.
  intros HI E i Hi. cut (x i - y i = 0); [lra|]. refine (HI (fun j => x j - y j) _ i Hi).
  intros k Hk. rewrite apply_minus, E; auto. ring.
Qed.
Lemma positive_injective n M : positive n M -> injective n M.
Proof.
  intros [_ HP] x H i Hi. destruct (Req_dec (x i) 0) as [|N]; auto. exfalso.
  assert (P : 0 < form n M x x) by (apply HP; exists i; auto).
  unfold form in P. rewrite (@sum_to_ext n _ (fun _ => 0 * 0)) in P by (intros j Hj; rewrite H; auto; ring).
  rewrite sum_to_scale in P. lra.
Qed.
Lemma suits_injective sv n M : suits sv n M -> injective n M.
Proof. destruct sv; cbn; intros H; try (exact (proj2 H)). apply positive_injective; auto. Qed.

(** The two-stage solution meets the reduced equations. *)
Section TwoStage.
Variables (n m : nat) (H J : mat) (X : mat) (G D y g r : vec).
Hypothesis HI : injective n H.
Hypothesis HX : forall b, (b < m)%nat -> forall i, (i < n)%nat -> apply n H (X b) i = J b i.
Hypothesis HG : forall i, (i < n)%nat -> apply n H G i = g i.
Hypothesis HD : forall i, (i < n)%nat -> apply n H D i = g i + sum_to m (fun k => J k i * y k).
Hypothesis HY : forall a, (a < m)%nat -> sum_to m (fun b => apply n J (X b) a * y b) = r a - apply n J G a.
Lemma two_stage : reduced n m H J (fun i => - g i) (fun k => - r k) (fun i => - D i) y.
Proof.
  split.
  - intros i Hi. rewrite apply_opp, HD by auto. ring.
  - intros a Ha. rewrite apply_opp. f_equal.
    assert (E : forall i, (i < n)%nat -> D i = G i + sum_to m (fun b => y b * X b i)).
    { apply (@injective_eq n H _ _ HI). intros i Hi. rewrite apply_plus, apply_sum, HD, HG by auto. f_equal.
      apply sum_to_ext. intros b Hb. rewrite HX by auto. ring. }
    rewrite (@apply_ext n J D (fun i => G i + sum_to m (fun b => y b * X b i)) a E).
    rewrite apply_plus, apply_sum.
    rewrite (@sum_to_ext m (fun b => y b * apply n J (X b) a) (fun b => apply n J (X b) a * y b)) by (intros; ring).
    rewrite HY by auto. ring.
Qed.
End TwoStage.

(** The system of the multipliers. *)
Section Schur.
Variables (n m : nat) (H J : mat) (X : mat).
Hypothesis HI : injective n H.
Hypothesis HX : forall b, (b < m)%nat -> forall i, (i < n)%nat -> apply n H (X b) i = J b i.
Definition schur : mat := fun a b => apply n J (X b) a.
Lemma schur_move y : forall i, (i < n)%nat -> apply n H (fun j => sum_to m (fun b => y b * X b j)) i = sum_to m (fun k => J k i * y k).
Proof. intros i Hi. rewrite apply_sum. apply sum_to_ext. intros b Hb. rewrite HX by auto. ring. Qed.
Lemma schur_apply y a : apply m schur y a = apply n J (fun j => sum_to m (fun b => y b * X b j)) a.
Proof. rewrite apply_sum. unfold apply at 1, schur. apply sum_to_ext. intros; ring. Qed.
Lemma schur_regular :
  (forall g r, exists x y, reduced n m H J g r x y) ->
  (forall x y, reduced n m H J (fun _ => 0) (fun _ => 0) x y -> (forall i, (i < n)%nat -> x i = 0) /\ forall k, (k < m)%nat -> y k = 0) ->
  regular m schur.
Proof.
  intros E U. split.
  - intros v. destruct (E (fun _ => 0) (fun k => - v k)) as [x [y [E1 E2]]]. exists y. intros a Ha. rewrite schur_apply.
    rewrite <- (Ropp_involutive (v a)), <- (E2 a Ha), <- apply_opp. apply apply_ext.
    apply (@injective_eq n H _ _ HI). intros i Hi. rewrite schur_move, apply_opp by auto. specialize (E1 i Hi). cbn beta in E1. lra.
  - intros y Hy k Hk. set (x := fun j => - sum_to m (fun b => y b * X b j)).
    refine (proj2 (U x y _) k Hk). split.
    + intros i Hi. unfold x. rewrite apply_opp, schur_move by auto. ring.
    + intros a Ha. unfold x. rewrite apply_opp, <- schur_apply, Hy by auto. ring.
Qed.
Lemma form_sym x y : symmetric n H -> form n H x y = form n H y x.
Proof.
  intros HS. unfold form, apply.
  rewrite (@sum_to_ext n _ (fun i => sum_to n (fun j => x i * (H i j * y j)))) by (intros; rewrite <- sum_to_scale; reflexivity).
  rewrite sum_to_swap. apply sum_to_ext. intros j Hj. rewrite <- sum_to_scale. apply sum_to_ext. intros i Hi. rewrite (HS i j) by auto. ring.
Qed.
Lemma schur_form x y : form m schur x y = form n H (fun j => sum_to m (fun b => x b * X b j)) (fun j => sum_to m (fun b => y b * X b j)) \/ ~ symmetric n H.
Proof.
  destruct (Classical_Prop.classic (symmetric n H)) as [HS|]; [left|right; auto].
  rewrite (form_sym _ _ HS). unfold form.
  rewrite (@sum_to_ext m _ (fun a => sum_to n (fun i => x a * (J a i * sum_to m (fun b => y b * X b i)))))
    by (intros a Ha; rewrite schur_apply; unfold apply; rewrite <- sum_to_scale; reflexivity).
  rewrite sum_to_swap. apply sum_to_ext. intros i Hi. rewrite schur_move by auto. rewrite <- sum_to_scale.
  apply sum_to_ext. intros; ring.
Qed.
Lemma schur_positive : positive n H ->
  (forall y, (forall i, (i < n)%nat -> sum_to m (fun k => J k i * y k) = 0) -> forall k, (k < m)%nat -> y k = 0) ->
  positive m schur.
Proof.
  intros [HS HP] HR. split.
  - intros a b Ha Hb.
    assert (E : forall a b, (a < m)%nat -> (b < m)%nat -> schur a b = form n H (X a) (X b)).
    { intros a' b' Ha' Hb'. rewrite (form_sym _ _ HS). unfold schur, form. apply sum_to_ext. intros i Hi. rewrite HX by auto. ring. }
    rewrite !E by auto. apply form_sym; auto.
  - intros y [k [Hk N]]. destruct (schur_form y y) as [->|]; [|contradiction]. apply HP.
    destruct (Classical_Prop.classic (exists i, (i < n)%nat /\ sum_to m (fun b => y b * X b i) <> 0)) as [|Z]; auto.
    exfalso. apply N. refine (HR y _ k Hk). intros i Hi. rewrite <- schur_move by auto.
    rewrite (@apply_ext n H _ (fun _ => 0 * 0)).
    2:{ intros j Hj. destruct (Req_dec (sum_to m (fun b => y b * X b j)) 0) as [->|N']; [ring|]. exfalso. apply Z. exists j. auto. }
    rewrite (apply_scale n H (fun _ => 0) 0 i). ring.
Qed.
End Schur.

(** One step over the reals, for a solver [sol] of the Hessian and multipliers [lag0]. *)
Lemma finish_exact sol fb lim n m H J g r only delta lag0 y :
  injective n H -> solves n H sol -> reads1 m lag0 y -> (forall k, (k < m)%nat -> within lim (y k)) ->
  (forall a, (a < m)%nat -> sum_to m (fun b => apply n J (fun i => val (sol (fun j => Num (J b j)) i)) a * y b)
      = r a - apply n J (fun i => val (sol (nums g) i)) a) ->
  exists x, let s := finish_step sol fb lim m (numm J) (nums g) (nums r) only delta lag0 in
    reads1 n (s_delta s) x /\ s_lag s = map (fun k => Num (y k)) (seq 0 m) /\ s_large s = false /\ s_nan s = false /\
    reduced n m H J (fun i => - g i) (fun k => - r k) x y.
Proof.
  intros HI Hsol Hlag Hw HY.
  assert (El : map lag0 (seq 0 m) = map (fun k => Num (y k)) (seq 0 m)).
  { apply map_ext_in. intros k Hk. apply in_seq in Hk. apply Hlag. lia. }
  unfold finish_step. rewrite El, resize_within.
  2:{ intros a Ha. apply in_map_iff in Ha. destruct Ha as [k [<- Hk]]. exists (y k). split; auto. apply Hw. apply in_seq in Hk. lia. }
  rewrite andb_false_r. cbn [s_delta s_lag s_large s_nan].
  set (b := fun j => dadd (nums g j) (ddot m (fun k => numm J k j) (fun k => nth k (map (fun k0 => Num (y k0)) (seq 0 m)) (Num 0)))).
  assert (Hb : reads1 n b (fun j => g j + sum_to m (fun k => J k j * y k))).
  { intros j Hj. unfold b. rewrite (@ddot_reads m _ _ (fun k => J k j) y); [reflexivity|intros k Hk; reflexivity|].
    intros k Hk. rewrite (nth_indep _ _ (Num (y 0%nat))) by (rewrite map_length, seq_length; auto).
    rewrite (map_nth (fun k0 => Num (y k0))), seq_nth by auto. reflexivity. }
  destruct (solves_val Hsol Hb) as [R1 E1].
  assert (Hg : reads1 n (nums g) g) by (intros i Hi; reflexivity).
  destruct (solves_val Hsol Hg) as [R2 E2].
  exists (fun i => - val (sol b i)). repeat split.
  - intros i Hi. rewrite (R1 i Hi). reflexivity.
  - apply (@two_stage n m H J (fun b i => val (sol (fun j => Num (J b j)) i)) (fun i => val (sol (nums g) i)) (fun i => val (sol b i)) y g r); auto.
    intros b' Hb' i Hi. assert (Hr : reads1 n (fun j => Num (J b' j)) (J b')) by (intros j Hj; reflexivity).
    destruct (solves_val Hsol Hr) as [_ E3]. apply E3; auto.
  - apply (@two_stage n m H J (fun b i => val (sol (fun j => Num (J b j)) i)) (fun i => val (sol (nums g) i)) (fun i => val (sol b i)) y g r); auto.
    intros b' Hb' i Hi. assert (Hr : reads1 n (fun j => Num (J b' j)) (J b')) by (intros j Hj; reflexivity).
    destruct (solves_val Hsol Hr) as [_ E3]. apply E3; auto.
Qed.
(** The system of the multipliers as it is read. *)
Lemma lag_system sol n m H J g r : solves n H sol ->
  let X := fun b i => val (sol (fun j => Num (J b j)) i) in
  (forall b, (b < m)%nat -> forall i, (i < n)%nat -> apply n H (X b) i = J b i) /\
  reads2 m m (lag_matrix sol n (numm J)) (schur n J X) /\
  reads1 m (lag_rhs sol n (numm J) (nums g) (nums r)) (fun a => r a - apply n J (fun i => val (sol (nums g) i)) a).
Proof.
  intros Hs X.
  assert (HX : forall b, reads1 n (sol (fun j => Num (J b j))) (X b) /\ forall i, (i < n)%nat -> apply n H (X b) i = J b i).
  { intros b. apply solves_val with (v := J b); auto. intros j Hj; reflexivity. }
  repeat split.
  - intros b Hb. apply HX.
  - intros a b Ha Hb. unfold lag_matrix. rewrite (@ddot_reads n _ _ (J a) (X b)); [reflexivity|intros j Hj; reflexivity|apply HX].
  - intros a Ha. unfold lag_rhs. assert (Hg : reads1 n (nums g) g) by (intros i Hi; reflexivity).
    destruct (solves_val Hs Hg) as [R2 _].
    rewrite (@ddot_reads n _ _ (J a) (fun i => val (sol (nums g) i))); [reflexivity|intros j Hj; reflexivity|exact R2].
Qed.
