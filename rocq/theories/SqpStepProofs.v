(** From positions among the active variables and constraints to the problem itself. *)
From Coq Require Import Reals List ZArith Bool Lia Lra.
From Verif Require Import Base RsvsMath SpecRsvs Calc Sqp SpecSqp.
From Verif Require Import RsvsCentreProofs CalcCentre CalcPlaceProofs SqpProofs.
From Verif Require Mesh.
Import ListNotations.
Set Implicit Arguments.
Open Scope R_scope.

(** ** Positions *)
Lemma sum_list (l : list nat) (g : nat -> R) : sum_to (length l) (fun i => g (nth i l 0%nat)) = fold_right Rplus 0 (map g l).
Proof. induction l as [|a l IH]; [reflexivity|]. cbn [length map fold_right]. rewrite sum_to_shift. cbn [nth]. rewrite IH. reflexivity. Qed.
Lemma sum_chosen n f g : sum_on n f g = sum_to (length (chosen_flags n f)) (fun i => g (nth i (chosen_flags n f) 0%nat)).
Proof.
  rewrite sum_list. unfold sum_on, sum_to, chosen_flags. generalize (seq 0 n). induction l as [|a l IH]; [reflexivity|].
  cbn [map fold_right filter]. rewrite IH. destruct (f a); cbn [map fold_right]; ring.
Qed.
Lemma chosen_nodup n f : NoDup (chosen_flags n f).
Proof. apply NoDup_filter, seq_NoDup. Qed.
Lemma chosen_in n f q : In q (chosen_flags n f) <-> is_active n f q.
Proof. unfold chosen_flags, is_active. rewrite filter_In, in_seq. intuition lia. Qed.
Lemma chosen_at n f i : (i < length (chosen_flags n f))%nat -> is_active n f (nth i (chosen_flags n f) 0%nat).
Proof. intros H. apply chosen_in, nth_In; auto. Qed.
Lemma pos_of_nth l : NoDup l -> forall i, (i < length l)%nat -> pos_of (nth i l 0%nat) l = Some i.
Proof.
  induction 1 as [|a l Ha Hl IH]; intros i Hi; [inversion Hi|]. cbn [pos_of nth]. destruct i as [|i]; [rewrite Nat.eqb_refl; reflexivity|].
  cbn in Hi. destruct (Nat.eqb_spec a (nth i l 0%nat)) as [E|_]; [exfalso; apply Ha; rewrite E; apply nth_In; lia|].
  rewrite IH by lia. reflexivity.
Qed.
Lemma pos_of_Some l q i : pos_of q l = Some i -> (i < length l)%nat /\ nth i l 0%nat = q.
Proof.
  revert i. induction l as [|a l IH]; intros i; cbn; [discriminate|]. destruct (Nat.eqb_spec a q) as [->|_].
  - intros [= <-]. split; [lia|reflexivity].
  - destruct (pos_of q l) as [j|]; [|discriminate]. intros [= <-]. destruct (IH j eq_refl). split; [lia|auto].
Qed.
Lemma pos_of_None l q : pos_of q l = None <-> ~ In q l.
Proof.
  induction l as [|a l IH]; cbn; [intuition|]. destruct (Nat.eqb_spec a q) as [->|N]; [split; [discriminate|intros H; exfalso; auto]|].
  destruct (pos_of q l) as [j|]; split; intros H; try discriminate.
  - exfalso. assert (E : ~ In q l) by intuition. apply IH in E. discriminate.
  - intros [|I]; [auto|]. apply IH in I; auto.
  - reflexivity.
Qed.
Lemma active_pos n f q : is_active n f q -> exists i, pos_of q (chosen_flags n f) = Some i /\ (i < length (chosen_flags n f))%nat /\ nth i (chosen_flags n f) 0%nat = q.
Proof.
  intros H. apply chosen_in in H. destruct (pos_of q (chosen_flags n f)) as [i|] eqn:E.
  - exists i. destruct (pos_of_Some _ _ E). auto.
  - apply pos_of_None in E. contradiction.
Qed.
Definition lift (l : list nat) (x : vec) : vec := fun q => match pos_of q l with Some i => x i | None => 0 end.
Lemma lift_nth l x i : NoDup l -> (i < length l)%nat -> lift l x (nth i l 0%nat) = x i.
Proof. intros H Hi. unfold lift. rewrite pos_of_nth; auto. Qed.

(** ** The equations *)
Section Problem.
Variable c : calc.
Notation n := (length (act_dv c)).
Notation m := (length (act_constr c)).
Notation qd := (fun i => nth i (act_dv c) 0%nat).
Notation qc := (fun k => nth k (act_constr c) 0%nat).
Lemma equations_reduced g r delta lam : equations c g r delta lam <->
  reduced n m (act_hes c) (act_jac c) (fun i => g (qd i)) (fun k => r (qc k)) (fun i => delta (qd i)) (fun k => lam (qc k)).
Proof.
  unfold equations, reduced, apply. split; intros [E1 E2]; split.
  - intros i Hi. specialize (E1 (qd i) (chosen_at _ _ Hi)). rewrite !sum_chosen in E1. exact E1.
  - intros k Hk. specialize (E2 (qc k) (chosen_at _ _ Hk)). rewrite !sum_chosen in E2. exact E2.
  - intros q Hq. destruct (active_pos Hq) as [i [_ [Hi Ei]]]. specialize (E1 i Hi). cbn beta in E1. rewrite !sum_chosen, <- Ei. exact E1.
  - intros q Hq. destruct (active_pos Hq) as [i [_ [Hi Ei]]]. specialize (E2 i Hi). cbn beta in E2. rewrite !sum_chosen, <- Ei. exact E2.
Qed.
Lemma reduced_ext g g' r r' x x' y y' : (forall i, (i < n)%nat -> g i = g' i) -> (forall k, (k < m)%nat -> r k = r' k) ->
  (forall i, (i < n)%nat -> x i = x' i) -> (forall k, (k < m)%nat -> y k = y' k) ->
  reduced n m (act_hes c) (act_jac c) g r x y -> reduced n m (act_hes c) (act_jac c) g' r' x' y'.
Proof.
  intros Hg Hr Hx Hy [E1 E2]. split.
  - intros i Hi. rewrite <- Hg, <- E1 by auto. f_equal; [symmetry; apply apply_ext; auto|].
    apply sum_to_ext. intros k Hk. rewrite Hy; auto.
  - intros k Hk. rewrite <- Hr, <- E2 by auto. symmetry. apply apply_ext; auto.
Qed.
Lemma lifted g r x y : reduced n m (act_hes c) (act_jac c) (fun i => g (qd i)) (fun k => r (qc k)) x y ->
  equations c g r (lift (act_dv c) x) (lift (act_constr c) y).
Proof.
  intros H. apply equations_reduced. revert H. apply reduced_ext; auto.
  - intros i Hi. symmetry. apply lift_nth; auto. apply chosen_nodup.
  - intros k Hk. symmetry. apply lift_nth; auto. apply chosen_nodup.
Qed.
Lemma well_posed_reduced : well_posed c ->
  (forall g r, exists x y, reduced n m (act_hes c) (act_jac c) g r x y) /\
  (forall x y, reduced n m (act_hes c) (act_jac c) (fun _ => 0) (fun _ => 0) x y ->
     (forall i, (i < n)%nat -> x i = 0) /\ forall k, (k < m)%nat -> y k = 0).
Proof.
  intros [E U]. split.
  - intros g r. destruct (E (lift (act_dv c) g) (lift (act_constr c) r)) as [delta [lam H]]. apply equations_reduced in H.
    exists (fun i => delta (qd i)), (fun k => lam (qc k)). revert H. apply reduced_ext; auto; intros; apply lift_nth; auto; apply chosen_nodup.
  - intros x y H. destruct (U (lift (act_dv c) x) (lift (act_constr c) y)) as [U1 U2].
    { apply lifted. exact H. }
    split; intros i Hi.
    + rewrite <- (@lift_nth (act_dv c) x i) by (auto; apply chosen_nodup). apply U1. apply chosen_at; auto.
    + rewrite <- (@lift_nth (act_constr c) y i) by (auto; apply chosen_nodup). apply U2. apply chosen_at; auto.
Qed.
Lemma curved_regular : curved c -> regular n (act_hes c).
Proof.
  intros [E U]. split.
  - intros v. destruct (E (lift (act_dv c) v)) as [delta H]. exists (fun i => delta (qd i)). intros i Hi.
    specialize (H (qd i) (chosen_at _ _ Hi)). rewrite sum_chosen in H. unfold apply. etransitivity; [exact H|]. apply lift_nth; auto; apply chosen_nodup.
  - intros x H i Hi. rewrite <- (@lift_nth (act_dv c) x i) by (auto; apply chosen_nodup). apply U; [|apply chosen_at; auto].
    intros q Hq. destruct (active_pos Hq) as [j [_ [Hj Ej]]]. rewrite sum_chosen, <- Ej. rewrite <- (H j Hj) at 1. unfold apply, act_hes, hessian.
    apply sum_to_ext. intros k Hk. f_equal. apply lift_nth; auto; apply chosen_nodup.
Qed.
Lemma bend_form x : bend c x = form n (act_hes c) (fun i => x (qd i)) (fun i => x (qd i)).
Proof. unfold bend, form, apply. rewrite sum_chosen. apply sum_to_ext. intros i Hi. rewrite sum_chosen. reflexivity. Qed.
Lemma convex_positive : convex c -> positive n (act_hes c) /\
  forall y, (forall i, (i < n)%nat -> sum_to m (fun k => act_jac c k i * y k) = 0) -> forall k, (k < m)%nat -> y k = 0.
Proof.
  intros [HS [HP HR]]. split; [split|].
  - intros i j _ _. apply HS.
  - intros x [i [Hi N]]. specialize (HP (lift (act_dv c) x)). rewrite bend_form in HP.
    assert (E : form n (act_hes c) x x = form n (act_hes c) (fun i => lift (act_dv c) x (qd i)) (fun i => lift (act_dv c) x (qd i))).
    { unfold form. apply sum_to_ext. intros j Hj. rewrite lift_nth by (auto; apply chosen_nodup). f_equal. apply apply_ext.
      intros k Hk. rewrite lift_nth by (auto; apply chosen_nodup). reflexivity. }
    rewrite E. apply HP. exists (qd i). split; [apply chosen_at; auto|]. rewrite lift_nth by (auto; apply chosen_nodup). auto.
  - intros y H k Hk. rewrite <- (@lift_nth (act_constr c) y k) by (auto; apply chosen_nodup). apply HR; [|apply chosen_at; auto].
    intros q Hq. destruct (active_pos Hq) as [j [_ [Hj Ej]]]. rewrite sum_chosen, <- Ej. rewrite <- (H j Hj). unfold act_jac.
    apply sum_to_ext. intros a Ha. f_equal. apply lift_nth; auto; apply chosen_nodup.
Qed.

(** The residuals. *)
Lemma at_nth (A : Type) (l : list A) k d : (k < length l)%nat -> at_ l (Z.of_nat k) = Ok (nth k l d).
Proof.
  intros H. unfold at_. destruct (Z.ltb_spec (Z.of_nat k) 0); [lia|]. rewrite Nat2Z.id, (nth_error_nth' l d H). reflexivity.
Qed.
Lemma omap_ok (A B : Type) (f : A -> outcome B) (g : A -> B) l : (forall a, In a l -> f a = Ok (g a)) -> Mesh.omap_list f l = Ok (map g l).
Proof. induction l as [|a l IH]; intros H; [reflexivity|]. cbn. rewrite H by (left; auto). cbn. rewrite IH by (intros; apply H; right; auto). reflexivity. Qed.
Lemma residual_ok : has_targets c -> act_residual c = Ok (map (fun k => constr c k - target c k) (act_constr c)).
Proof.
  intros H. apply omap_ok. intros k Hk. apply chosen_in in Hk. destruct Hk as [Hk _].
  rewrite (@at_nth _ (constrTarg c) k 0) by (unfold has_targets in H; lia). reflexivity.
Qed.
Definition resid : vec := fun k => nth k (map (fun k => constr c k - target c k) (act_constr c)) 0.
Lemma resid_is k : (k < m)%nat -> resid k = constr c (qc k) - target c (qc k).
Proof.
  intros H. unfold resid. rewrite (nth_indep _ 0 ((fun k => constr c k - target c k) 0%nat)) by (rewrite map_length; auto).
  rewrite (map_nth (fun k => constr c k - target c k)). reflexivity.
Qed.

(** ** The step *)
Section Dense.
Variables (solve : solver -> nat -> dmat -> dvec -> dvec) (fit : nat -> nat -> dmat -> dvec -> dvec) (sv : solver) (lim : dbl).
Hypothesis HN : exact solve sv n.
Hypothesis HM : exact solve sv m.
Hypothesis HS : suitable c sv.
Hypothesis HW : forall delta lam, equations c (fun q => - dObj c q) (fun k => target c k - constr c k) delta lam ->
  forall k, is_active (nConstr c) (constrAct c) k -> within lim (lam k).
Lemma suitable_suits : suits sv n (act_hes c).
Proof using HS. clear - HS. destruct sv; cbn in *; try (apply curved_regular; tauto). apply convex_positive; auto. Qed.
Lemma from_two_stage sol (fallback : dvec -> dvec) only delta0 lag0 : solves n (act_hes c) sol ->
  (let X := fun b i => val (sol (fun j => Num (act_jac c b j)) i) in
   exists y, reads1 m lag0 y /\ forall a, (a < m)%nat -> apply m (schur n (act_jac c) X) y a = resid a - apply n (act_jac c) (fun i => val (sol (nums (act_grad c)) i)) a) ->
  exists x y, let s := finish_step sol fallback lim m (numm (act_jac c)) (nums (act_grad c)) (nums resid) only delta0 lag0 in
    reads1 n (s_delta s) x /\ s_lag s = map (fun k => Num (y k)) (seq 0 m) /\ s_large s = false /\ s_nan s = false /\
    equations c (fun q => - dObj c q) (fun k => target c k - constr c k) (lift (act_dv c) x) (lift (act_constr c) y).
Proof.
  intros Hsol [y [Hy E]].
  assert (HI : injective n (act_hes c)) by (apply (suits_injective sv), suitable_suits).
  set (X := fun b i => val (sol (fun j => Num (act_jac c b j)) i)) in *.
  assert (HX : forall b, (b < m)%nat -> forall i, (i < n)%nat -> apply n (act_hes c) (X b) i = act_jac c b i).
  { intros b Hb. apply (@lag_system sol n m (act_hes c) (act_jac c) (act_grad c) resid Hsol); auto. }
  (* the solution without limits *)
  assert (HE : equations c (fun q => - dObj c q) (fun k => target c k - constr c k)
                 (lift (act_dv c) (fun i => - val (sol (fun j => Num (act_grad c j + sum_to m (fun k => act_jac c k j * y k))) i)))
                 (lift (act_constr c) y)).
  { apply lifted.
    assert (Hb : reads1 n (fun j => Num (act_grad c j + sum_to m (fun k => act_jac c k j * y k))) (fun j => act_grad c j + sum_to m (fun k => act_jac c k j * y k)))
      by (intros j Hj; reflexivity).
    destruct (solves_val Hsol Hb) as [_ E1].
    assert (Hg : reads1 n (nums (act_grad c)) (act_grad c)) by (intros j Hj; reflexivity).
    destruct (solves_val Hsol Hg) as [_ E2].
    pose proof (@two_stage n m (act_hes c) (act_jac c) X _ _ y (act_grad c) resid HI HX E2 E1 E) as T.
    revert T. apply reduced_ext; auto. intros k Hk. rewrite resid_is by auto. ring. }
  destruct (@finish_exact sol fallback lim n m (act_hes c) (act_jac c) (act_grad c) resid only delta0 lag0 y HI Hsol Hy) as [x Hx].
  - intros k Hk. rewrite <- (@lift_nth (act_constr c) y k) by (auto; apply chosen_nodup). apply (HW HE). apply chosen_at; auto.
  - intros a Ha. rewrite <- (E a Ha). unfold apply at 2, schur, X. reflexivity.
  - exists x, y. destruct Hx as [A1 [A2 [A3 [A4 A5]]]]. repeat (split; [assumption|]). apply lifted.
    revert A5. apply reduced_ext; auto. intros k Hk. rewrite resid_is by auto. ring.
Qed.
Lemma dense_step only delta0 : exists x y,
  let s := sqp_step solve fit sv lim n m (numm (act_hes c)) (numm (act_jac c)) (nums (act_grad c)) (nums resid) only delta0 in
    reads1 n (s_delta s) x /\ s_lag s = map (fun k => Num (y k)) (seq 0 m) /\ s_large s = false /\ s_nan s = false /\
    equations c (fun q => - dObj c q) (fun k => target c k - constr c k) (lift (act_dv c) x) (lift (act_constr c) y).
Proof.
  assert (Hsol : solves n (act_hes c) (solve sv n (numm (act_hes c)))).
  { apply HN; [intros i j Hi Hj; reflexivity|apply suitable_suits]. }
  apply from_two_stage; auto. intros X.
  destruct (@lag_system _ n m (act_hes c) (act_jac c) (act_grad c) resid Hsol) as [HX [R2 R1]].
  fold X in HX, R2.
  assert (HI : injective n (act_hes c)) by (apply (suits_injective sv), suitable_suits).
  assert (HSm : suits sv m (schur n (act_jac c) X)).
  { pose proof HS as HS'. destruct sv; cbn in HS' |- *.
    all: try (destruct (well_posed_reduced (proj2 HS')); eapply schur_regular; eauto; fail).
    destruct (convex_positive HS'). eapply schur_positive; eauto. }
  destruct (HM R2 HSm R1) as [y [Hy E]]. exists y. auto.
Qed.
End Dense.
End Problem.
