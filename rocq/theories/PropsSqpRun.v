(** C85 and C86: every run of the solver, and the sensitivities. *)
From Coq Require Import Reals List ZArith Bool Lia Lra.
From Verif Require Import Base RsvsMath SpecRsvs Calc Sqp SpecSqp.
From Verif Require Import RsvsCentreProofs CalcCentre CalcPlaceProofs SqpProofs SqpStepProofs SqpExample PropsSqp.
Import ListNotations.
Set Implicit Arguments.
Open Scope R_scope.

(** ** C85 *)
Lemma finish_facts sol fb lim m J g r only delta lag0 : let s := finish_step sol fb lim m J g r only delta lag0 in
  s_large s = false /\ s_lag s = fst (fst (resize lim (map lag0 (seq 0 m)))).
Proof.
  unfold finish_step. destruct (resize lim (map lag0 (seq 0 m))) as [[lag large] nan].
  destruct (negb only && nan); [|destruct nan]; split; reflexivity.
Qed.
Lemma rounds_ok solve fit fuel method only lim n m H J g r delta : (2 <= fuel)%nat ->
  exists s, rounds solve fit fuel method only lim n m H J g r delta = Ok s /\ s_large s = false /\
    exists lag0, s_lag s = fst (fst (resize lim (map lag0 (seq 0 m)))).
Proof.
  intros Hf. destruct fuel as [|[|f]]; [lia|lia|].
  assert (F : forall sv o d, s_large (sqp_step solve fit sv lim n m H J g r o d) = false /\
    exists lag0, s_lag (sqp_step solve fit sv lim n m H J g r o d) = fst (fst (resize lim (map lag0 (seq 0 m))))).
  { intros sv o d. split; [apply finish_facts|]. eexists. apply finish_facts. }
  cbn [rounds]. destruct (solver_of method) as [sv|].
  - destruct (orb _ _ && negb only) eqn:E.
    + change (solver_of 0) with (@None solver). cbn iota. eexists. split; [reflexivity|apply F].
    + eexists. split; [reflexivity|apply F].
  - eexists. split; [reflexivity|apply F].
Qed.
(** A double that is a multiplier within the limit. *)
Definition sound (lim : dbl) (a : dbl) : Prop :=
  a <> NaN /\ forall l, lim = Num l -> 0 <= l -> exists x, a = Num x /\ Rabs x <= l.
Lemma resize_sound lim l k : sound lim (nth k (fst (fst (resize lim l))) (Num 0)).
Proof.
  pose proof (resize_spec lim l) as H. destruct (resize lim l) as [[r la] na]. destruct H as [-> _]. cbn [fst].
  set (f := fun a => if dlt a (dopp lim) then dopp lim else if dlt lim a then lim else if is_nan a then Num 0 else a).
  destruct (Nat.lt_ge_cases k (length l)) as [Hk|Hk].
  - rewrite (nth_indep _ _ (f (Num 0))) by (rewrite map_length; auto). rewrite map_nth. generalize (nth k l (Num 0)). intros a. unfold f. split.
    + destruct a as [x|[]|], lim as [y|[]|]; cbn; try discriminate; repeat destruct (Rlt_dec _ _); discriminate.
    + intros y -> Hy. destruct a as [x|[]|]; cbn.
      * destruct (Rlt_dec x (- y)); [eexists; split; [reflexivity|rewrite Rabs_Ropp, Rabs_right; lra]|].
        destruct (Rlt_dec y x); [eexists; split; [reflexivity|rewrite Rabs_right; lra]|].
        eexists; split; [reflexivity|apply Rabs_le; lra].
      * eexists; split; [reflexivity|rewrite Rabs_Ropp, Rabs_right; lra].
      * eexists; split; [reflexivity|rewrite Rabs_right; lra].
      * eexists; split; [reflexivity|rewrite Rabs_R0; lra].
  - rewrite nth_overflow by (rewrite map_length; auto). split; [discriminate|]. intros y _ Hy. exists 0. rewrite Rabs_R0. auto.
Qed.

Section Run.
Variables (solve : solver -> nat -> dmat -> dvec -> dvec) (fit qr : nat -> nat -> dmat -> dvec -> dvec) (fac : nat -> dmat -> option (dvec -> dvec)).
Variables (c : calc) (lim : dbl) (method : Z) (sensCalc : bool) (old : nat * nat * dmat).
(** With full mathematics a step is always found, whatever the solvers give. *)
Theorem C85_defined : full_math c = true -> has_targets c -> exists v, check_and_compute solve fit fac qr c lim method sensCalc old = Ok v.
Proof.
  intros HF HT. unfold check_and_compute. rewrite residual_ok by auto. cbn [bind].
  assert (E : exists v, match act_dv c with [] => Ok (mkSolved (fun _ => Num 0) (nums (lagMult c)) old)
     | _ :: _ => compute_step solve fit fac qr c lim method (map (fun k => constr c k - target c k) (act_constr c)) old end = Ok v).
  { destruct (act_dv c) eqn:Ed; [eexists; reflexivity|]. unfold compute_step. rewrite HF, Ed. destruct (reduce_method method) as [mt only].
    edestruct (@rounds_ok solve fit 3 mt only) as [s [-> [Hl _]]]; [lia|]. cbn [bind]. unfold write_back. rewrite Hl. eexists; reflexivity. }
  destruct E as [v ->]. cbn [bind]. destruct sensCalc; [|eexists; reflexivity]. destruct (act_dv c), (act_constr c); eexists; reflexivity.
Qed.
(** What a run changes: the moves of active variables, and the multipliers, which are
    numbers or infinite, within the limit, and 0 for constraints that are not active. *)
Theorem C85_frame v : check_and_compute solve fit fac qr c lim method sensCalc old = Ok v ->
  (some_active c ->
     (forall q, ~ is_active (nDv c) (dvAct c) q -> v_delta v q = Num (deltaDV c q)) /\
     (forall k, ~ is_active (nConstr c) (constrAct c) k -> v_lag v k = Num 0) /\
     (forall k, v_lag v k <> NaN) /\
     (forall l, lim = Num l -> 0 <= l -> forall k, exists x, v_lag v k = Num x /\ Rabs x <= l)) /\
  (~ some_active c -> (forall q, v_delta v q = Num 0) /\ (forall k, v_lag v k = Num (lagMult c k)) /\ v_sens v = old).
Proof.
  unfold check_and_compute. destruct (act_residual c) as [res| | |]; cbn [bind]; try discriminate. intros E. split.
  - intros HA. destruct (some_active_cons HA) as [q0 [l0 E0]].
    assert (K : forall s, s_large s = false -> (exists lag0, s_lag s = fst (fst (resize lim (map lag0 (seq 0 (length (act_constr c))))))) -> forall w, write_back c s old = Ok w ->
      (forall q, ~ is_active (nDv c) (dvAct c) q -> v_delta w q = Num (deltaDV c q)) /\
      (forall k, ~ is_active (nConstr c) (constrAct c) k -> v_lag w k = Num 0) /\ (forall k, sound lim (v_lag w k))).
    { intros s Hl [lag0 Hs] w. unfold write_back. rewrite Hl. intros [= <-]. cbn [v_delta v_lag]. repeat apply conj.
      - intros q Hq. destruct (pos_of q (act_dv c)) as [i|] eqn:Ep; auto. exfalso. apply Hq, chosen_in. destruct (pos_of_Some _ _ Ep) as [Hi <-]. apply nth_In; auto.
      - intros q Hq. destruct (pos_of q (act_constr c)) as [i|] eqn:Ep; auto. exfalso. apply Hq, chosen_in. destruct (pos_of_Some _ _ Ep) as [Hi <-]. apply nth_In; auto.
      - intros k. destruct (pos_of k (act_constr c)) as [i|]; [rewrite Hs; apply resize_sound|].
        split; [discriminate|]. intros l _ Hy. exists 0. rewrite Rabs_R0. auto. }
    assert (W : exists w, v_delta v = v_delta w /\ v_lag v = v_lag w /\ (forall q, ~ is_active (nDv c) (dvAct c) q -> v_delta w q = Num (deltaDV c q)) /\
      (forall k, ~ is_active (nConstr c) (constrAct c) k -> v_lag w k = Num 0) /\ (forall k, sound lim (v_lag w k))).
    { destruct (compute_step solve fit fac qr c lim method res old) as [w| | |] eqn:Ew; rewrite E0 in E; cbn [bind] in E; try discriminate.
      exists w. destruct (@sens_keeps _ _ (act_dv c) (act_constr c) sensCalc w v (mkSolved (v_delta w) (v_lag w) (compute_sens solve fac c method (v_lag w)))) as [S1 S2]; auto.
      { rewrite E0. exact E. }
      split; [exact S1|split; [exact S2|]]. unfold compute_step in Ew. destruct (full_math c).
      - destruct (reduce_method method) as [mt only].
        match type of Ew with context [rounds ?a ?b 3 ?d ?e ?f ?g ?h ?i ?j ?k ?l ?m] => destruct (@rounds_ok a b 3 d e f g h i j k l m) as [s [Es [Hl Hs]]]; [lia|]; rewrite Es in Ew end.
        exact (K s Hl Hs w Ew).
      - unfold sqp_step_sparse in Ew. destruct (fac _ _) as [sol|]; [|discriminate]. destruct (fac _ _) as [sol2|]; [|discriminate]. cbn [bind] in Ew.
        eapply K; [| |exact Ew]; [apply finish_facts|eexists; apply finish_facts]. }
    destruct W as [w [S1 [S2 [K1 [K2 K3]]]]]. rewrite S1, S2. split; [exact K1|]. split; [exact K2|]. split.
    + intros k. apply K3.
    + intros l -> Hl k. destruct (K3 k) as [_ H]. apply H; auto.
  - intros HA. destruct (act_dv c) as [|q l] eqn:Ed.
    + cbn [bind] in E. destruct sensCalc; injection E as <-; auto.
    + exfalso. apply HA. exists q. apply chosen_in. unfold act_dv in Ed. rewrite Ed. left; auto.
Qed.

(** The multipliers a decomposition gives before they are resized. *)
Definition multiplier (sv : solver) : dvec :=
  let n := length (act_dv c) in let m := length (act_constr c) in let sol := solve sv n (numm (act_hes c)) in
  solve sv m (lag_matrix sol n (numm (act_jac c))) (lag_rhs sol n (numm (act_jac c)) (nums (act_grad c)) (nums (resid c))).
Definition fails (sv : solver) : Prop := exists k, (k < n_act (nConstr c) (constrAct c))%nat /\ multiplier sv k = NaN.
Lemma fails_nan sv : fails sv -> snd (resize lim (map (multiplier sv) (seq 0 (length (act_constr c))))) = true.
Proof.
  intros [k [Hk E]]. pose proof (resize_spec lim (map (multiplier sv) (seq 0 (length (act_constr c))))) as H.
  destruct (resize lim _) as [[r la] na]. destruct H as [_ [_ ->]]. cbn [snd]. apply existsb_exists. exists NaN. split.
  - rewrite <- E. apply List.in_map, in_seq. unfold n_act, act_constr, chosen_flags in *. lia.
  - destruct lim; reflexivity.
Qed.
Lemma fails_step sv only delta : fails sv ->
  sqp_step solve fit sv lim (length (act_dv c)) (length (act_constr c)) (numm (act_hes c)) (numm (act_jac c)) (nums (act_grad c)) (nums (resid c)) only delta =
  mkStep (fst (fst (resize lim (map (multiplier sv) (seq 0 (length (act_constr c)))))))
    (if only then fun i => dopp (fit (length (act_constr c)) (length (act_dv c)) (numm (act_jac c)) (nums (resid c)) i) else delta) false true.
Proof.
  intros H. pose proof (fails_nan H) as N. unfold sqp_step, finish_step.
  change (solve sv (length (act_constr c)) _ _) with (multiplier sv).
  destruct (resize lim (map (multiplier sv) (seq 0 (length (act_constr c))))) as [[lag la] na]. cbn [snd] in N. subst na.
  destruct only; reflexivity.
Qed.
(** When the decomposition asked for gives no multipliers the run is that of method 0. *)
Theorem C85_fallback : full_math c = true -> Z.rem method 10 = method -> fails (named method) ->
  check_and_compute solve fit fac qr c lim method false old = check_and_compute solve fit fac qr c lim 0 false old.
Proof.
  intros HF HR HN. unfold check_and_compute. destruct (act_residual c) as [res| | |] eqn:Er; cbn [bind]; auto.
  destruct (act_dv c) eqn:Ed; [reflexivity|]. f_equal. unfold compute_step. rewrite HF, Ed. rewrite <- Ed.
  unfold reduce_method. rewrite HR, Z.eqb_refl. change (Z.rem 0 10 =? 0)%Z with true. cbn iota.
  pose proof (solver_named method) as SN. cbn [rounds]. change (solver_of 0) with (@None solver). cbn iota.
  destruct (solver_of method) as [sv|] eqn:Es; [|reflexivity]. subst sv.
  assert (Rr : nums (fun k => nth k res 0) = nums (resid c)).
  { assert (HTr : res = map (fun k => constr c k - target c k) (act_constr c)); [|rewrite HTr; reflexivity].
    clear - Er. unfold act_residual in Er. revert res Er. induction (act_constr c) as [|k l IH]; cbn; intros res Er; [injection Er as <-; reflexivity|].
    unfold at_ in Er at 1. destruct (Z.of_nat k <? 0)%Z; cbn in Er; [discriminate|]. rewrite Nat2Z.id in Er.
    destruct (nth_error (constrTarg c) k) as [t|] eqn:En; cbn in Er; [|discriminate].
    destruct (Mesh.omap_list _ l) as [r| | |] eqn:Eo; cbn in Er; try discriminate. injection Er as <-. rewrite (IH r eq_refl).
    unfold target. rewrite (nth_error_nth _ _ _ En). reflexivity. }
  rewrite Rr, (fails_step false (fun _ => Num 0) HN). reflexivity.
Qed.
(** If that gives none either, or if the method asks for it (a multiple of ten added), the
    step brings the constraints as near to their targets as it can to first order. *)
Theorem C85_constraint_only : full_math c = true -> has_targets c -> some_active c ->
  exact_fit fit (n_act (nConstr c) (constrAct c)) (n_act (nDv c) (dvAct c)) ->
  fails (named (Z.rem method 10)) -> (Z.rem method 10 = method -> fails ColPivHouseholder) ->
  exists v delta, check_and_compute solve fit fac qr c lim method sensCalc old = Ok v /\
    (forall q, is_active (nDv c) (dvAct c) q -> v_delta v q = Num (delta q)) /\ forall x, remaining c delta <= remaining c x.
Proof.
  intros HF HT HA HX HN H0. set (n := length (act_dv c)). set (m := length (act_constr c)).
  destruct (HX (numm (act_jac c)) (act_jac c) (nums (resid c)) (resid c)) as [x [Hx Hmin]]; [intros i j _ _; reflexivity|intros i _; reflexivity|].
  set (s := fun lag => mkStep lag (fun i => dopp (fit m n (numm (act_jac c)) (nums (resid c)) i)) false true).
  assert (E : exists lag, compute_step solve fit fac qr c lim method (map (fun k => constr c k - target c k) (act_constr c)) old = write_back c (s lag) old).
  { unfold compute_step. rewrite HF. unfold reduce_method. fold (resid c). pose proof (solver_named (Z.rem method 10)) as SN.
    destruct (Z.eqb_spec (Z.rem method 10) method) as [R|R].
    - rewrite R in SN. cbn [rounds]. change (solver_of 0) with (@None solver). cbn iota. rewrite R in HN.
      destruct (solver_of method) as [sv|] eqn:Es.
      + subst sv. rewrite (fails_step false (fun _ => Num 0) HN). cbn [s_large s_nan s_delta orb negb andb bind]. rewrite (fails_step true _ (H0 R)). eexists; reflexivity.
      + rewrite (fails_step true (fun _ => Num 0) (H0 R)). eexists; reflexivity.
    - cbn [rounds]. destruct (solver_of (Z.rem method 10)) as [sv|] eqn:Es.
      + subst sv. rewrite (fails_step true (fun _ => Num 0) HN). eexists; reflexivity.
      + rewrite SN. rewrite (fails_step true (fun _ => Num 0) HN). eexists; reflexivity. }
  destruct E as [lag E]. unfold check_and_compute. rewrite residual_ok by auto. cbn [bind]. destruct (some_active_cons HA) as [q0 [l0 E0]]. rewrite E0, E.
  unfold write_back. cbn [s s_large s_lag s_delta bind].
  set (delta := lift (act_dv c) (fun i => - x i)).
  assert (D : forall q, is_active (nDv c) (dvAct c) q -> (fun q => match pos_of q (act_dv c) with Some i => dopp (fit m n (numm (act_jac c)) (nums (resid c)) i) | None => Num (deltaDV c q) end) q = Num (delta q)).
  { intros q Hq. destruct (active_pos Hq) as [i [Hp [Hi _]]]. unfold delta, lift, act_dv in *. rewrite Hp.
    pose proof (Hx i Hi) as Hxi. unfold m, n. unfold n_act in Hxi. unfold act_constr, act_dv, chosen_flags. rewrite Hxi. reflexivity. }
  assert (Rm : forall d, remaining c d = misfit m n (act_jac c) (fun i => - d (nth i (act_dv c) 0%nat)) (resid c)).
  { intros d. unfold remaining, misfit. rewrite sum_chosen. apply sum_to_ext. intros k Hk. rewrite apply_opp, resid_is by auto.
    rewrite sum_chosen. change (sum_to _ _) with (apply n (act_jac c) (fun i => d (nth i (act_dv c) 0%nat)) k). unfold act_constr. ring. }
  assert (M : forall y, remaining c delta <= remaining c y).
  { intros y. rewrite !Rm. unfold delta.
    assert (Ex : misfit m n (act_jac c) (fun i => - lift (act_dv c) (fun j => - x j) (nth i (act_dv c) 0%nat)) (resid c) = misfit m n (act_jac c) x (resid c)).
    { unfold misfit. apply sum_to_ext. intros k Hk. rewrite (@apply_ext n (act_jac c) _ x k); [reflexivity|]. intros j Hj. rewrite lift_nth by (auto; apply chosen_nodup). ring. }
    rewrite Ex. apply Hmin. }
  destruct sensCalc; [destruct (act_constr c) eqn:Ec|]; eexists; exists delta; (split; [reflexivity|]); (split; [exact D|exact M]).
Qed.
(** With sparse mathematics a decomposition that fails leads to undefined behaviour. *)
Theorem C85_sparse_refuted : full_math c = false -> has_targets c -> some_active c ->
  fac (n_act (nDv c) (dvAct c)) (numm (act_hes c)) = None ->
  check_and_compute solve fit fac qr c lim method sensCalc old = UB.
Proof.
  intros HF HT HA HN. unfold check_and_compute. rewrite residual_ok by auto. cbn [bind]. destruct (some_active_cons HA) as [q0 [l0 E0]]. rewrite E0.
  unfold compute_step. rewrite HF. unfold sqp_step_sparse. unfold n_act in HN. unfold act_dv, chosen_flags in *. rewrite HN. reflexivity.
Qed.
End Run.
Print Assumptions C85_defined.
Print Assumptions C85_frame.
Print Assumptions C85_fallback.
Print Assumptions C85_constraint_only.
Print Assumptions C85_sparse_refuted.
Example C85_frame_ex : ~ is_active (nDv (ex_c 5)) (dvAct (ex_c 5)) 2 /\ ~ is_active (nConstr (ex_c 5)) (constrAct (ex_c 5)) 1 /\ some_active (ex_c 5).
Proof. split; [rewrite ex_active; lia|]. split; [intros [_ H]; discriminate|apply ex_some]. Qed.
Definition nan_solve (_ : solver) (_ : nat) (_ : dmat) (_ : dvec) : dvec := fun _ => NaN.
Example C85_fails_ex sv : fails nan_solve (ex_c 5) sv. Proof. exists 0%nat. split; [cbn; lia|reflexivity]. Qed.
(** The least-squares fit of x + y = b is exact with half of b for each. *)
Definition half_fit (_ _ : nat) (_ : dmat) (b : dvec) : dvec := fun _ => Num (val (b 0%nat) / 2).
Example C85_fit_ex : forall v x, reads1 1 v x -> exists z, reads1 2 (half_fit 1 2 (numm (act_jac (ex_c 5))) v) z /\ forall y, misfit 1 2 (act_jac (ex_c 5)) z x <= misfit 1 2 (act_jac (ex_c 5)) y x.
Proof.
  intros v x H. exists (fun _ => x 0%nat / 2). split; [intros i _; unfold half_fit; rewrite (H 0%nat) by lia; reflexivity|].
  intros y. unfold misfit. rewrite !sum1. unfold apply. rewrite !sum2. cbn.
  pose proof (Rle_0_sqr (1 * y 0%nat + 1 * y 1%nat - x 0%nat)) as S0. unfold Rsqr in S0.
  replace ((1 * (x 0%nat / 2) + 1 * (x 0%nat / 2) - x 0%nat) * (1 * (x 0%nat / 2) + 1 * (x 0%nat / 2) - x 0%nat)) with 0 by field. exact S0.
Qed.
Example C85_sparse_ex : check_and_compute ex_solve ex_fit (fun _ _ => None) ex_fit (ex_c 2) (Num 3) 1 false (0%nat, 0%nat, fun _ _ => NaN) = UB.
Proof. apply C85_sparse_refuted; [reflexivity|apply ex_targets|apply ex_some|reflexivity]. Qed.
