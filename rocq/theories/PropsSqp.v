(** C83 to C86: the limit on the multipliers, the step, and its sensitivities. *)
From Coq Require Import Reals List ZArith Bool Lia Lra.
From Verif Require Import Base RsvsMath SpecRsvs Calc Sqp SpecSqp.
From Verif Require Import RsvsCentreProofs CalcCentre CalcPlaceProofs SqpProofs SqpStepProofs SqpExample.
Import ListNotations.
Set Implicit Arguments.
Open Scope R_scope.

(** ** C83 *)
Lemma limited_num l x : 0 <= l -> Num (limited l (Num x)) = (if dlt (Num x) (dopp (Num l)) then dopp (Num l) else if dlt (Num l) (Num x) then Num l else Num x).
Proof.
  intros Hl. cbn. destruct (Rlt_dec x (- l)).
  - rewrite Rmin_left by lra. rewrite Rmax_left by lra. reflexivity.
  - destruct (Rlt_dec l x).
    + rewrite Rmin_right by lra. rewrite Rmax_right by lra. reflexivity.
    + rewrite Rmin_left by lra. rewrite Rmax_right by lra. reflexivity.
Qed.
Theorem C83_limited l ls : 0 <= l -> let '(r, large, nan) := resize (Num l) ls in
  r = map (fun a => Num (limited l a)) ls /\
  (large = true <-> exists a, In a ls /\ (a = Inf true \/ a = Inf false \/ exists x, a = Num x /\ l < Rabs x)) /\
  (nan = true <-> In NaN ls).
Proof.
  intros Hl. pose proof (resize_spec (Num l) ls) as H. destruct (resize (Num l) ls) as [[r large] nan]. destruct H as [-> [-> ->]].
  split; [|split].
  - apply map_ext. intros [x|[]|]; [|reflexivity|reflexivity|reflexivity]. rewrite limited_num by auto. reflexivity.
  - rewrite existsb_exists. split; intros [a [Ha H]]; exists a; split; auto.
    + destruct a as [x|[]|]; auto; cbn in H; [|discriminate]. right. right. exists x. split; auto.
      destruct (Rlt_dec x (- l)); [unfold Rabs; destruct (Rcase_abs x); lra|]. destruct (Rlt_dec l x); [|discriminate].
      unfold Rabs; destruct (Rcase_abs x); lra.
    + destruct H as [->|[->|[x [-> H]]]]; cbn; auto.
      destruct (Rlt_dec x (- l)); [reflexivity|]. destruct (Rlt_dec l x); [reflexivity|]. unfold Rabs in H; destruct (Rcase_abs x); lra.
  - rewrite existsb_exists. split.
    + intros [a [Ha H]]. apply andb_true_iff in H. destruct H as [_ H]. destruct a; try discriminate. auto.
    + intros H. exists NaN. split; auto.
Qed.
Print Assumptions C83_limited.
Example C83_limited_ex : In NaN [Num 3; NaN; Inf true] /\ 0 <= 1. Proof. cbn; split; [auto|lra]. Qed.
Theorem C83_unlimited ls : let '(r, large, nan) := resize (Inf false) ls in
  r = map (fun a => match a with NaN => Num 0 | _ => a end) ls /\ large = false /\ (nan = true <-> In NaN ls).
Proof.
  pose proof (resize_spec (Inf false) ls) as H. destruct (resize (Inf false) ls) as [[r large] nan]. destruct H as [-> [-> ->]]. split; [|split].
  - apply map_ext. intros [x|[]|]; reflexivity.
  - induction ls as [|a ls IH]; [reflexivity|]. cbn [existsb]. rewrite IH. destruct a as [x|[]|]; reflexivity.
  - rewrite existsb_exists. split.
    + intros [a [Ha H]]. apply andb_true_iff in H. destruct H as [_ H]. destruct a; try discriminate. auto.
    + intros H. exists NaN. split; auto.
Qed.
Print Assumptions C83_unlimited.
(** With a limit below zero the result is outside the limit, and its sign is turned. *)
Theorem C83_negative_refuted : exists l ls r large nan, resize (Num l) ls = (r, large, nan) /\ r = [Num (- l)] /\ ls = [Num l] /\ l < 0.
Proof.
  exists (-1), [Num (-1)], [Num (- -1)], true, false. repeat split; [|lra]. cbn.
  destruct (Rlt_dec (-1) (- -1)); [reflexivity|lra].
Qed.
Print Assumptions C83_negative_refuted.

(** ** C84 *)
Definition some_active (c : calc) : Prop := exists q, is_active (nDv c) (dvAct c) q.
Lemma some_active_cons c : some_active c -> exists q l, act_dv c = q :: l.
Proof. intros [q H]. apply chosen_in in H. unfold act_dv. destruct (chosen_flags (nDv c) (dvAct c)); [destruct H|eauto]. Qed.
Lemma sens_keeps A B (l : list A) (l' : list B) (b : bool) (v v' w : solved) : v_delta w = v_delta v -> v_lag w = v_lag v ->
  (if b then match l, l' with _ :: _, _ :: _ => Ok w | _, _ => Ok v end else Ok v) = Ok v' -> v_delta v' = v_delta v /\ v_lag v' = v_lag v.
Proof. intros H1 H2. destruct b, l, l'; intros [= <-]; auto. Qed.
Lemma write_back_exact c s old x y : reads1 (length (act_dv c)) (s_delta s) x -> s_lag s = map (fun k => Num (y k)) (seq 0 (length (act_constr c))) ->
  s_large s = false -> exists v, write_back c s old = Ok v /\
  (forall q, is_active (nDv c) (dvAct c) q -> v_delta v q = Num (lift (act_dv c) x q)) /\
  (forall k, is_active (nConstr c) (constrAct c) k -> v_lag v k = Num (lift (act_constr c) y k)).
Proof.
  intros Hx Hy Hl. unfold write_back. rewrite Hl. eexists. split; [reflexivity|]. cbn [v_delta v_lag]. split.
  - intros q Hq. destruct (active_pos Hq) as [i [Hp [Hi _]]]. unfold lift, act_dv in *. rewrite Hp. apply Hx; auto.
  - intros k Hk. destruct (active_pos Hk) as [i [Hp [Hi _]]]. unfold lift, act_constr in *. rewrite Hp, Hy.
    rewrite (nth_indep _ _ (Num (y 0%nat))) by (rewrite map_length, seq_length; auto).
    rewrite (map_nth (fun k0 => Num (y k0))), seq_nth by auto. reflexivity.
Qed.
Lemma reduce_is method : fst (reduce_method method) = Z.rem method 10.
Proof. unfold reduce_method. destruct (Z.eqb_spec (Z.rem method 10) method); cbn; auto. Qed.
Lemma solver_named method : match solver_of method with Some sv => sv | None => ColPivHouseholder end = named method.
Proof. unfold solver_of, named. destruct (Z.eqb_spec method 1), (Z.eqb_spec method 2), (Z.eqb_spec method 3), (Z.eqb_spec method 4); auto; subst; discriminate. Qed.

Section Step.
Variables (solve : solver -> nat -> dmat -> dvec -> dvec) (fit qr : nat -> nat -> dmat -> dvec -> dvec) (fac : nat -> dmat -> option (dvec -> dvec)).
Variables (c : calc) (lim : dbl).
Hypothesis HT : has_targets c.
Hypothesis HA : some_active c.
(** The step that meets the equations has multipliers within the limit. *)
Definition multipliers_fit : Prop := forall delta lam, equations c (fun q => - dObj c q) (fun k => target c k - constr c k) delta lam ->
  forall k, is_active (nConstr c) (constrAct c) k -> within lim (lam k).
(** What is handed back meets the equations. *)
Definition meets (v : solved) : Prop := exists delta lam,
  (forall q, is_active (nDv c) (dvAct c) q -> v_delta v q = Num (delta q)) /\
  (forall k, is_active (nConstr c) (constrAct c) k -> v_lag v k = Num (lam k)) /\
  equations c (fun q => - dObj c q) (fun k => target c k - constr c k) delta lam.
Lemma from_step s sensCalc old method :
  (exists x y, reads1 (length (act_dv c)) (s_delta s) x /\ s_lag s = map (fun k => Num (y k)) (seq 0 (length (act_constr c))) /\ s_large s = false /\ s_nan s = false /\
    equations c (fun q => - dObj c q) (fun k => target c k - constr c k) (lift (act_dv c) x) (lift (act_constr c) y)) ->
  compute_step solve fit fac qr c lim method (map (fun k => constr c k - target c k) (act_constr c)) old = write_back c s old ->
  exists v, check_and_compute solve fit fac qr c lim method sensCalc old = Ok v /\ meets v.
Proof.
  intros [x [y [A1 [A2 [A3 [A4 A5]]]]]] E. unfold check_and_compute. rewrite residual_ok by auto. cbn [bind].
  destruct (some_active_cons HA) as [q0 [l0 E0]]. rewrite E0. rewrite E.
  destruct (@write_back_exact c s old x y A1 A2 A3) as [v [-> [V1 V2]]]. cbn [bind].
  assert (M : forall w, v_delta w = v_delta v -> v_lag w = v_lag v -> meets w).
  { intros w W1 W2. exists (lift (act_dv c) x), (lift (act_constr c) y). rewrite W1, W2. auto. }
  destruct sensCalc; [destruct (act_constr c)|]; eexists; (split; [reflexivity|apply M; reflexivity]).
Qed.
Theorem C84_step method sensCalc old : full_math c = true ->
  exact solve (named (Z.rem method 10)) (n_act (nDv c) (dvAct c)) -> exact solve (named (Z.rem method 10)) (n_act (nConstr c) (constrAct c)) ->
  suitable c (named (Z.rem method 10)) -> multipliers_fit ->
  exists v, check_and_compute solve fit fac qr c lim method sensCalc old = Ok v /\ meets v.
Proof.
  intros HF HN HM HS HW.
  assert (D : forall only delta0, _) by exact (@dense_step c solve fit (named (Z.rem method 10)) lim HN HM HS HW).
  pose proof (reduce_is method) as R. pose proof (solver_named (Z.rem method 10)) as SN.
  destruct (reduce_method method) as [mt only] eqn:Er. cbn in R. subst mt.
  destruct (solver_of (Z.rem method 10)) as [sv|] eqn:Es.
  - eapply from_step; [exact (D only (fun _ => Num 0))|].
    unfold compute_step. rewrite HF, Er. cbn [rounds]. rewrite Es. rewrite <- SN.
    destruct (D only (fun _ => Num 0)) as [x [y [_ [_ [A3 [A4 _]]]]]]. rewrite <- SN in A3, A4. unfold resid in A3, A4.
    rewrite A3, A4. reflexivity.
  - eapply from_step; [exact (D true (fun _ => Num 0))|].
    unfold compute_step. rewrite HF, Er. cbn [rounds]. rewrite Es. rewrite <- SN. reflexivity.
Qed.
Theorem C84_sparse method sensCalc old : full_math c = false ->
  exact_sparse fac (n_act (nDv c) (dvAct c)) -> exact_sparse fac (n_act (nConstr c) (constrAct c)) ->
  curved c -> well_posed c -> multipliers_fit ->
  exists v, check_and_compute solve fit fac qr c lim method sensCalc old = Ok v /\ meets v.
Proof.
  intros HF HN HM HC HP HW.
  destruct (HN (numm (act_hes c)) (act_hes c)) as [sol [Ef Hsol]]; [intros i j _ _; reflexivity|apply curved_regular; auto|].
  destruct (@lag_system _ _ (length (act_constr c)) (act_hes c) (act_jac c) (act_grad c) (resid c) Hsol) as [HX [R2 R1]].
  destruct (well_posed_reduced HP) as [P1 P2].
  destruct (HM _ _ R2) as [sol2 [Ef2 Hsol2]].
  { eapply schur_regular; eauto. exact (proj2 (curved_regular HC)). }
  destruct (Hsol2 _ _ R1) as [y [Hy E]].
  eapply from_step.
  - eapply (@from_two_stage c ColPivHouseholder lim (conj HC HP) HW sol); eauto.
  - unfold compute_step. rewrite HF. unfold sqp_step_sparse. unfold n_act in Ef, Ef2.
    unfold act_dv, act_constr, chosen_flags in *. rewrite Ef, Ef2. cbn [bind]. unfold resid. reflexivity.
Qed.
End Step.
Print Assumptions C84_step.
Print Assumptions C84_sparse.

(** Among all moves that meet the constraints to first order, the step has the least model. *)
Lemma sum_on_ext n f g h : (forall i, is_active n f i -> g i = h i) -> sum_on n f g = sum_on n f h.
Proof. intros H. unfold sum_on. apply sum_to_ext. intros i Hi. destruct (f i) eqn:E; auto. apply H. split; auto. Qed.
Lemma sum_on_plus n f g h : sum_on n f (fun i => g i + h i) = sum_on n f g + sum_on n f h.
Proof. unfold sum_on. rewrite <- sum_to_plus. apply sum_to_ext. intros i Hi. destruct (f i); ring. Qed.
Lemma sum_on_scale n f g t : sum_on n f (fun i => t * g i) = t * sum_on n f g.
Proof. unfold sum_on. rewrite <- sum_to_scale. apply sum_to_ext. intros i Hi. destruct (f i); ring. Qed.
Lemma sum_on_swap n f m h (g : nat -> nat -> R) : sum_on n f (fun i => sum_on m h (g i)) = sum_on m h (fun j => sum_on n f (fun i => g i j)).
Proof.
  unfold sum_on. rewrite (@sum_to_ext n _ (fun i => sum_to m (fun j => if f i then (if h j then g i j else 0) else 0))).
  2:{ intros i Hi. destruct (f i); auto. rewrite (@sum_to_ext m (fun _ => 0) (fun _ => 0 * 0)) by (intros; ring). rewrite sum_to_scale. ring. }
  rewrite sum_to_swap. apply sum_to_ext. intros j Hj. destruct (h j).
  - apply sum_to_ext. auto.
  - rewrite (@sum_to_ext n _ (fun _ => 0 * 0)) by (intros i Hi; destruct (f i); ring). rewrite sum_to_scale. ring.
Qed.
Theorem C84_minimal c delta lam x : equations c (fun q => - dObj c q) (fun k => target c k - constr c k) delta lam ->
  symmetric_hessian c -> (forall w, 0 <= bend c w) ->
  (forall k, is_active (nConstr c) (constrAct c) k -> sum_on (nDv c) (dvAct c) (fun p => dConstr c k p * x p) = target c k - constr c k) ->
  model_change c delta <= model_change c x.
Proof.
  intros [E1 E2] HS HB HX. set (w := fun q => x q - delta q). specialize (HB w).
  set (B := fun u v => sum_on (nDv c) (dvAct c) (fun q => u q * sum_on (nDv c) (dvAct c) (fun p => hessian c q p * v p))).
  assert (Bs : forall u v, B u v = B v u).
  { intros u v. unfold B. transitivity (sum_on (nDv c) (dvAct c) (fun q => sum_on (nDv c) (dvAct c) (fun p => u q * (hessian c q p * v p)))).
    { apply sum_on_ext. intros. symmetry. apply sum_on_scale. }
    rewrite sum_on_swap. apply sum_on_ext. intros p Hp. rewrite <- sum_on_scale. apply sum_on_ext. intros q Hq. rewrite (HS q p). ring. }
  assert (Bl : forall u v v', B u (fun i => v i + v' i) = B u v + B u v').
  { intros u v v'. unfold B. rewrite <- sum_on_plus. apply sum_on_ext. intros q Hq. rewrite <- Rmult_plus_distr_l, <- sum_on_plus.
    f_equal. apply sum_on_ext. intros; ring. }
  assert (Ex : forall i, x i = delta i + w i) by (intros; unfold w; ring).
  assert (EB : bend c x = B delta delta + 2 * B w delta + B w w).
  { change (bend c x) with (B x x). transitivity (B (fun i => delta i + w i) (fun i => delta i + w i)).
    { unfold B. apply sum_on_ext. intros q _. rewrite (Ex q). f_equal. apply sum_on_ext. intros p _. rewrite (Ex p). ring. }
    rewrite Bl, (Bs (fun i => delta i + w i) delta), (Bs (fun i => delta i + w i) w), !Bl, (Bs delta w). ring. }
  assert (EG : sum_on (nDv c) (dvAct c) (fun q => dObj c q * x q) = sum_on (nDv c) (dvAct c) (fun q => dObj c q * delta q) + sum_on (nDv c) (dvAct c) (fun q => dObj c q * w q)).
  { rewrite <- sum_on_plus. apply sum_on_ext. intros q _. rewrite (Ex q). ring. }
  assert (EW : B w delta = - sum_on (nDv c) (dvAct c) (fun q => dObj c q * w q)).
  { unfold B. transitivity (sum_on (nDv c) (dvAct c) (fun q => -1 * (dObj c q * w q) + -1 * (w q * sum_on (nConstr c) (constrAct c) (fun k => dConstr c k q * lam k)))).
    { apply sum_on_ext. intros q Hq. specialize (E1 q Hq). cbn beta in E1.
      replace (sum_on (nDv c) (dvAct c) (fun p => hessian c q p * delta p)) with (- dObj c q - sum_on (nConstr c) (constrAct c) (fun k => dConstr c k q * lam k)) by lra. ring. }
    rewrite sum_on_plus, !sum_on_scale.
    assert (Z : sum_on (nDv c) (dvAct c) (fun q => w q * sum_on (nConstr c) (constrAct c) (fun k => dConstr c k q * lam k)) = 0).
    { transitivity (sum_on (nDv c) (dvAct c) (fun q => sum_on (nConstr c) (constrAct c) (fun k => w q * (dConstr c k q * lam k)))).
      { apply sum_on_ext. intros. symmetry. apply sum_on_scale. }
      rewrite sum_on_swap. transitivity (sum_on (nConstr c) (constrAct c) (fun k => 0 * 0)).
      { apply sum_on_ext. intros k Hk. transitivity (lam k * sum_on (nDv c) (dvAct c) (fun p => dConstr c k p * x p + -1 * (dConstr c k p * delta p))).
        { rewrite <- sum_on_scale. apply sum_on_ext. intros p _. unfold w. ring. }
        rewrite sum_on_plus, sum_on_scale, HX, E2 by auto. ring. }
      rewrite sum_on_scale. ring. }
    rewrite Z. ring. }
  unfold model_change. change (bend c delta) with (B delta delta). rewrite EB, EG, EW. change (bend c w) with (B w w) in HB. lra.
Qed.
Print Assumptions C84_minimal.

(** A problem that meets the hypotheses, whatever the method. *)
Lemma ex_targets cut : has_targets (ex_c cut). Proof. unfold has_targets; cbn; lia. Qed.
Lemma ex_some cut : some_active (ex_c cut). Proof. exists 0%nat. apply ex_active. lia. Qed.
Lemma ex_multipliers cut : multipliers_fit (ex_c cut) (Num 3).
Proof.
  intros delta lam E k [Hk Ak]. apply ex_equations in E. cbn in Hk, Ak, E. destruct k as [|k]; [|discriminate]. unfold target in E. cbn in E.
  cbn [within]. apply Rabs_le. lra.
Qed.
Example C84_step_ex method : exists v, check_and_compute ex_solve ex_fit ex_fac ex_fit (ex_c 5) (Num 3) method false (0%nat, 0%nat, fun _ _ => NaN) = Ok v /\
  v_delta v 0%nat = Num 1 /\ v_delta v 1%nat = Num 1 /\ v_lag v 0%nat = Num (-3).
Proof.
  destruct (ex_sizes 5) as [S1 S2].
  destruct (@C84_step ex_solve ex_fit ex_fit ex_fac (ex_c 5) (Num 3) (ex_targets 5) (ex_some 5) method false (0%nat, 0%nat, fun _ _ => NaN)) as [v [E [delta [lam [D [L M]]]]]].
  - reflexivity.
  - rewrite S1. apply ex_exact; auto.
  - rewrite S2. apply ex_exact; auto.
  - apply ex_suitable.
  - apply ex_multipliers.
  - exists v. split; [exact E|]. apply ex_equations in M. unfold target in M. cbn in M.
    rewrite (D 0%nat), (D 1%nat), (L 0%nat) by (try (split; [cbn; lia|reflexivity])). repeat split; f_equal; lra.
Qed.
Example C84_sparse_ex method : exists v, check_and_compute ex_solve ex_fit ex_fac ex_fit (ex_c 2) (Num 3) method false (0%nat, 0%nat, fun _ _ => NaN) = Ok v /\
  v_delta v 0%nat = Num 1 /\ v_delta v 1%nat = Num 1 /\ v_lag v 0%nat = Num (-3).
Proof.
  destruct (ex_sizes 2) as [S1 S2].
  destruct (@C84_sparse ex_solve ex_fit ex_fit ex_fac (ex_c 2) (Num 3) (ex_targets 2) (ex_some 2) method false (0%nat, 0%nat, fun _ _ => NaN)) as [v [E [delta [lam [D [L M]]]]]].
  - reflexivity.
  - rewrite S1. apply ex_exact_sparse; auto.
  - rewrite S2. apply ex_exact_sparse; auto.
  - apply ex_curved.
  - apply ex_well_posed.
  - apply ex_multipliers.
  - exists v. split; [exact E|]. apply ex_equations in M. unfold target in M. cbn in M.
    rewrite (D 0%nat), (D 1%nat), (L 0%nat) by (try (split; [cbn; lia|reflexivity])). repeat split; f_equal; lra.
Qed.
Example C84_minimal_ex : exists delta lam, equations (ex_c 5) (fun q => - dObj (ex_c 5) q) (fun k => target (ex_c 5) k - constr (ex_c 5) k) delta lam /\
  symmetric_hessian (ex_c 5) /\ (forall w, 0 <= bend (ex_c 5) w).
Proof.
  exists (fun _ => 1), (fun _ => -3). split; [apply ex_equations; unfold target; cbn; lra|]. split; [apply ex_symmetric|].
  intros w. rewrite ex_bend. pose proof (Rle_0_sqr (w 0%nat)) as S0. pose proof (Rle_0_sqr (w 1%nat)) as S1. unfold Rsqr in *. lra.
Qed.
(** When a multiplier is cut back to the limit the step misses the targets although it
    could meet them: the same problem with a limit of 1. *)
Theorem C84_limit_refuted : exists solve fit fac c lim v, (forall sv n, (n = 1 \/ n = 2)%nat -> exact solve sv n) /\ has_targets c /\ some_active c /\
  full_math c = true /\ (forall sv, suitable c sv) /\ check_and_compute solve fit fac fit c lim 1 false (0%nat, 0%nat, fun _ _ => NaN) = Ok v /\
  exists k, is_active (nConstr c) (constrAct c) k /\ forall delta, (forall q, is_active (nDv c) (dvAct c) q -> v_delta v q = Num (delta q)) ->
  sum_on (nDv c) (dvAct c) (fun p => dConstr c k p * delta p) <> target c k - constr c k.
Proof.
  exists ex_solve, ex_fit, ex_fac, (ex_c 5), (Num 1).
  assert (E : exists v, check_and_compute ex_solve ex_fit ex_fac ex_fit (ex_c 5) (Num 1) 1 false (0%nat, 0%nat, fun _ _ => NaN) = Ok v /\
    v_delta v 0%nat = Num 0 /\ v_delta v 1%nat = Num (/ 2)).
  { unfold check_and_compute. rewrite residual_ok by apply ex_targets. cbn [bind].
    change (act_dv (ex_c 5)) with [0; 1]%nat at 1. cbn iota. unfold compute_step. change (full_math (ex_c 5)) with true. cbn iota.
    change (reduce_method 1) with (1%Z, false). cbn iota. cbn [rounds]. change (solver_of 1) with (Some Householder). cbn iota.
    unfold sqp_step. set (sol := ex_solve Householder (length (act_dv (ex_c 5))) (numm (act_hes (ex_c 5)))).
    assert (F : exists s, finish_step sol (ex_fit (length (act_constr (ex_c 5))) (length (act_dv (ex_c 5))) (numm (act_jac (ex_c 5)))) (Num 1) (length (act_constr (ex_c 5)))
      (numm (act_jac (ex_c 5))) (nums (act_grad (ex_c 5))) (nums (fun k => nth k (map (fun k0 => constr (ex_c 5) k0 - target (ex_c 5) k0) (act_constr (ex_c 5))) 0)) false (fun _ => Num 0)
      (ex_solve Householder (length (act_constr (ex_c 5))) (lag_matrix sol (length (act_dv (ex_c 5))) (numm (act_jac (ex_c 5))))
         (lag_rhs sol (length (act_dv (ex_c 5))) (numm (act_jac (ex_c 5))) (nums (act_grad (ex_c 5))) (nums (fun k => nth k (map (fun k0 => constr (ex_c 5) k0 - target (ex_c 5) k0) (act_constr (ex_c 5))) 0)))) = s /\
      s_large s = false /\ s_nan s = false /\ s_delta s 0%nat = Num 0 /\ s_delta s 1%nat = Num (/ 2)).
    { unfold finish_step. change (seq 0 (length (act_constr (ex_c 5)))) with [0%nat]. cbn [map].
      match goal with |- context [resize (Num 1) [?a]] => assert (Ea : a = Num (-3)) end.
      { unfold ex_solve at 1, lag_matrix, lag_rhs, sol, ex_solve, nums, numm, act_hes, act_jac, act_grad, ddot, target. cbn. f_equal. field. }
      rewrite Ea. cbn [resize dlt dopp]. destruct (Rlt_dec (-3) (- (1))) as [_|N]; [|lra]. cbn [andb negb].
      eexists. split; [reflexivity|]. cbn [s_large s_nan s_delta]. repeat split;
        unfold sol, ex_solve, nums, numm, act_hes, act_jac, act_grad, ddot; cbn; f_equal; field. }
    destruct F as [s [-> [F1 [F2 [F3 F4]]]]]. rewrite F1, F2. cbn [orb andb bind]. unfold write_back. rewrite F1.
    eexists. split; [reflexivity|]. split; [exact F3|exact F4]. }
  destruct E as [v [E [E0 E1]]]. exists v. split; [intros; apply ex_exact; auto|]. split; [apply ex_targets|]. split; [apply ex_some|]. split; [reflexivity|].
  split; [apply ex_suitable|]. split; [exact E|]. exists 0%nat. split; [split; [cbn; lia|reflexivity]|].
  intros delta D. pose proof (D 0%nat ltac:(apply ex_active; lia)) as D0. pose proof (D 1%nat ltac:(apply ex_active; lia)) as D1.
  rewrite E0 in D0. rewrite E1 in D1. injection D0 as D0. injection D1 as D1. unfold sum_on, sum_to, target. cbn. lra.
Qed.
Print Assumptions C84_limit_refuted.
