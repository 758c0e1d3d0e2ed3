(** C86 and C87: the sensitivities, and what is handed to the user. *)
From Coq Require Import Reals List ZArith Bool Lia Lra.
From Verif Require Import Base RsvsMath SpecRsvs Calc Sqp SpecSqp.
From Verif Require Import RsvsCentreProofs CalcCentre CalcPlaceProofs SqpProofs SqpStepProofs SqpExample PropsSqp.
From Verif Require Geom Mesh.
Import ListNotations.
Set Implicit Arguments.
Open Scope R_scope.

(** ** C86 *)
Lemma sum_to_join n m f : sum_to (n + m) f = sum_to n f + sum_to m (fun k => f (n + k)%nat).
Proof.
  induction m as [|m IH].
  - rewrite Nat.add_0_r. unfold sum_to at 3. cbn. ring.
  - rewrite Nat.add_succ_r, !sum_to_S, IH. ring.
Qed.
Lemma sens_top n m H J z i : (i < n)%nat -> apply (n + m) (sens_matrix n H J) z i = apply n H z i + sum_to m (fun k => J k i * z (n + k)%nat).
Proof.
  intros Hi. unfold apply. rewrite sum_to_join. f_equal; apply sum_to_ext; intros j Hj; unfold sens_matrix.
  - rewrite (proj2 (Nat.ltb_lt i n) Hi), (proj2 (Nat.ltb_lt j n) Hj). reflexivity.
  - rewrite (proj2 (Nat.ltb_lt i n) Hi), (proj2 (Nat.ltb_ge (n + j) n)) by lia. replace (n + j - n)%nat with j by lia. reflexivity.
Qed.
Lemma sens_bottom n m H J z k : apply (n + m) (sens_matrix n H J) z (n + k)%nat = apply n J z k.
Proof.
  unfold apply. rewrite sum_to_join.
  rewrite (@sum_to_ext m _ (fun _ => 0 * 0)).
  2:{ intros j Hj. unfold sens_matrix. rewrite !(proj2 (Nat.ltb_ge _ n)) by lia. ring. }
  rewrite sum_to_scale, Rmult_0_l, Rplus_0_r. apply sum_to_ext. intros j Hj. unfold sens_matrix.
  rewrite (proj2 (Nat.ltb_ge (n + k) n)), (proj2 (Nat.ltb_lt j n)) by lia. replace (n + k - n)%nat with k by lia. reflexivity.
Qed.
Lemma sens_reduced n m H J g r z : (forall i, (i < n + m)%nat -> apply (n + m) (sens_matrix n H J) z i = if Nat.ltb i n then g i else r (i - n)%nat) <->
  reduced n m H J g r z (fun k => z (n + k)%nat).
Proof.
  split.
  - intros E. split.
    + intros i Hi. specialize (E i ltac:(lia)). rewrite sens_top, (proj2 (Nat.ltb_lt i n) Hi) in E by auto. exact E.
    + intros k Hk. specialize (E (n + k)%nat ltac:(lia)). rewrite sens_bottom, (proj2 (Nat.ltb_ge (n + k) n)) in E by lia.
      replace (n + k - n)%nat with k in E by lia. exact E.
  - intros [E1 E2] i Hi. destruct (Nat.ltb_spec i n) as [L|L].
    + rewrite sens_top by auto. apply E1; auto.
    + replace i with (n + (i - n))%nat at 1 by lia. rewrite sens_bottom. apply E2. lia.
Qed.
Lemma sens_regular c : well_posed c ->
  regular (length (act_dv c) + length (act_constr c)) (sens_matrix (length (act_dv c)) (act_hes c) (act_jac c)).
Proof.
  intros HP. destruct (well_posed_reduced HP) as [E U]. set (n := length (act_dv c)) in *. set (m := length (act_constr c)) in *. split.
  - intros v. destruct (E v (fun k => v (n + k)%nat)) as [x [y R]]. exists (fun i => if Nat.ltb i n then x i else y (i - n)%nat).
    assert (R' : reduced n m (act_hes c) (act_jac c) v (fun k => v (n + k)%nat) (fun i => if Nat.ltb i n then x i else y (i - n)%nat)
                   (fun k => (fun i => if Nat.ltb i n then x i else y (i - n)%nat) (n + k)%nat)).
    { revert R. apply reduced_ext; auto.
      - intros i Hi. rewrite (proj2 (Nat.ltb_lt i n)) by auto. reflexivity.
      - intros k Hk. rewrite (proj2 (Nat.ltb_ge (n + k) n)) by lia. f_equal. lia. }
    pose proof (proj2 (@sens_reduced n m (act_hes c) (act_jac c) v (fun k => v (n + k)%nat) (fun i => if Nat.ltb i n then x i else y (i - n)%nat)) R') as R2.
    intros i Hi. rewrite R2 by auto. destruct (Nat.ltb_spec i n); auto. f_equal. lia.
  - intros z Hz i Hi. destruct (U z (fun k => z (n + k)%nat)) as [U1 U2].
    { apply (proj1 (@sens_reduced n m (act_hes c) (act_jac c) (fun _ => 0) (fun _ => 0) z)). intros j Hj. rewrite Hz by auto. destruct (Nat.ltb j n); reflexivity. }
    destruct (Nat.lt_ge_cases i n) as [L|L]; [apply U1; auto|]. replace i with (n + (i - n))%nat by lia. apply U2. lia.
Qed.
Definition unit_at (k : nat) (x : R) : vec := fun j => if Nat.eqb j k then x else 0.
(** A column of the sensitivities. *)
Lemma sens_column c lag lam k i0 res : solves (length (act_dv c) + length (act_constr c)) (sens_matrix (length (act_dv c)) (act_hes c) (act_jac c)) res ->
  pos_of k (act_constr c) = Some i0 -> lag k = Num (lam k) ->
  exists x y, (forall i, (i < length (act_dv c))%nat -> dopp (res (sens_rhs c (length (act_dv c)) lag i0) i) = Num (x i)) /\
    equations c (fun _ => 0) (unit_at k (- lam k)) (lift (act_dv c) x) (lift (act_constr c) y).
Proof.
  set (n := length (act_dv c)). set (m := length (act_constr c)). intros Hs Hp Hl. destruct (pos_of_Some _ _ Hp) as [Hi0 En].
  assert (Hb : reads1 (n + m) (sens_rhs c n lag i0) (fun i => if Nat.eqb i (n + i0) then lam k else 0)).
  { intros i Hi. unfold sens_rhs. destruct (Nat.eqb i (n + i0)); [rewrite En; exact Hl|reflexivity]. }
  destruct (Hs _ _ Hb) as [z [Hz E]]. exists (fun i => - z i), (fun a => - z (n + a)%nat). split.
  - intros i Hi. rewrite (Hz i) by lia. reflexivity.
  - apply lifted.
    assert (R : reduced n m (act_hes c) (act_jac c) (fun _ => 0) (fun a => if Nat.eqb a i0 then lam k else 0) z (fun a => z (n + a)%nat)).
    { apply (proj1 (@sens_reduced n m (act_hes c) (act_jac c) (fun _ => 0) (fun a => if Nat.eqb a i0 then lam k else 0) z)). intros i Hi. rewrite E by auto. destruct (Nat.ltb_spec i n).
      - destruct (Nat.eqb_spec i (n + i0)); [lia|reflexivity].
      - destruct (Nat.eqb_spec i (n + i0)), (Nat.eqb_spec (i - n) i0); auto; lia. }
    destruct R as [R1 R2]. split.
    + intros i Hi. rewrite apply_opp. specialize (R1 i Hi). cbn beta in R1.
      rewrite (@sum_to_ext (length (act_constr c)) _ (fun a => -1 * (act_jac c a i * z (n + a)%nat))) by (intros; ring). rewrite sum_to_scale. fold n m. lra.
    + intros a Ha. rewrite apply_opp, R2 by auto. unfold unit_at.
      destruct (Nat.eqb_spec a i0) as [->|N].
      * rewrite En, Nat.eqb_refl. reflexivity.
      * destruct (Nat.eqb_spec (nth a (act_constr c) 0%nat) k) as [Ek|_]; [|ring]. exfalso. apply N.
        pose proof (@pos_of_nth (act_constr c) (chosen_nodup _ _) a Ha) as P. rewrite Ek, Hp in P. injection P as P. auto.
Qed.

Section Sens.
Variables (solve : solver -> nat -> dmat -> dvec -> dvec) (fit qr : nat -> nat -> dmat -> dvec -> dvec) (fac : nat -> dmat -> option (dvec -> dvec)).
Variables (c : calc) (lim : dbl) (method : Z) (old : nat * nat * dmat) (v : solved) (lam : vec).
Hypothesis HR : check_and_compute solve fit fac qr c lim method true old = Ok v.
Hypothesis HA : some_active c.
Hypothesis HK : exists k, is_active (nConstr c) (constrAct c) k.
(** The multipliers that came out are numbers. *)
Hypothesis HL : forall k, is_active (nConstr c) (constrAct c) k -> v_lag v k = Num (lam k).
Hypothesis HP : well_posed c.
(** The decomposition used works on the system of the sensitivities. *)
Definition sens_solver : Prop :=
  let size := (n_act (nDv c) (dvAct c) + n_act (nConstr c) (constrAct c))%nat in
  if full_math c then named method <> Cholesky /\ exact solve (named method) size else exact_sparse fac size.
Hypothesis HS : sens_solver.
Lemma sens_is : v_sens v = compute_sens solve fac c method (v_lag v).
Proof using HR HA HK.
  clear - HR HA HK. revert HR. unfold check_and_compute. destruct (act_residual c) as [res| | |]; cbn [bind]; try discriminate.
  destruct (some_active_cons HA) as [q0 [l0 E0]]. rewrite E0. destruct (compute_step _ _ _ _ _ _ _ _ _) as [w| | |]; cbn [bind]; try discriminate.
  destruct HK as [k Hk]. apply chosen_in in Hk. unfold act_constr. destruct (chosen_flags (nConstr c) (constrAct c)); [destruct Hk|].
  intros [= <-]. reflexivity.
Qed.
(** Column k solves the equations of a step with the multiplier of k, negated, on the right
    of constraint k and zero elsewhere; the rows and columns that are not active are 0. *)
Theorem C86_sensitivities : exists s, v_sens v = (nDv c, nConstr c, s) /\
  (forall q k, ~ is_active (nDv c) (dvAct c) q \/ ~ is_active (nConstr c) (constrAct c) k -> s q k = Num 0) /\
  forall k, is_active (nConstr c) (constrAct c) k -> exists x mu,
    (forall q, is_active (nDv c) (dvAct c) q -> s q k = Num (x q)) /\ equations c (fun _ => 0) (unit_at k (- lam k)) x mu.
Proof.
  rewrite sens_is. unfold compute_sens. eexists. split; [reflexivity|]. split.
  - intros q k [N|N].
    + destruct (pos_of q (act_dv c)) as [i|] eqn:E; auto. exfalso. apply N, chosen_in. destruct (pos_of_Some _ _ E) as [Hi <-]. apply nth_In; auto.
    + destruct (pos_of q (act_dv c)); auto. destruct (pos_of k (act_constr c)) as [i|] eqn:E; auto. exfalso. apply N, chosen_in.
      destruct (pos_of_Some _ _ E) as [Hi <-]. apply nth_In; auto.
  - intros k Hk. destruct (active_pos Hk) as [i0 [Hp _]]. fold (act_constr c) in Hp. rewrite Hp.
    pose proof (sens_regular HP) as Hreg. pose proof HS as Hs. unfold sens_solver in Hs. destruct (full_math c).
    + destruct Hs as [NC HE]. rewrite solver_named.
      destruct (@sens_column c (v_lag v) lam k i0 (solve (named method) (length (act_dv c) + length (act_constr c)) (numm (sens_matrix (length (act_dv c)) (act_hes c) (act_jac c))))) as [x [y [X Y]]]; auto.
      { apply HE; [intros i j _ _; reflexivity|]. destruct (named method); try contradiction; exact Hreg. }
      exists (lift (act_dv c) x), (lift (act_constr c) y). split; auto. intros q Hq. destruct (active_pos Hq) as [i [Hpq [Hi _]]].
      fold (act_dv c) in Hpq, Hi. unfold lift. rewrite Hpq. apply X; auto.
    + destruct (Hs (numm (sens_matrix (length (act_dv c)) (act_hes c) (act_jac c))) _ (fun i j _ _ => eq_refl) Hreg) as [sol [Ef Hsol]].
      unfold n_act in Ef. unfold act_dv, act_constr, chosen_flags in *. rewrite Ef.
      destruct (@sens_column c (v_lag v) lam k i0 sol Hsol) as [x [y [X Y]]]; auto.
      exists (lift (act_dv c) x), (lift (act_constr c) y). split; auto. intros q Hq. destruct (active_pos Hq) as [i [Hpq [Hi _]]].
      unfold lift, act_dv, chosen_flags in *. rewrite Hpq. apply X; auto.
Qed.
(** So it is the change of the step when the target of k moves by t, divided by t and times
    the multiplier of k, negated. *)
Theorem C86_change k t g r delta mu delta' mu' q : is_active (nConstr c) (constrAct c) k -> is_active (nDv c) (dvAct c) q ->
  equations c g r delta mu -> equations c g (fun j => r j + unit_at k t j) delta' mu' ->
  exists x, snd (v_sens v) q k = Num x /\ x * t = - lam k * (delta' q - delta q).
Proof.
  intros Hk Hq [E1 E2] [F1 F2]. destruct C86_sensitivities as [s [Es [_ Hs]]]. destruct (Hs k Hk) as [x [y [X [Y1 Y2]]]].
  exists (x q). rewrite Es. split; [apply X; auto|].
  cut (x q * t - - lam k * (delta' q - delta q) = 0); [lra|].
  destruct HP as [_ U]. refine (proj1 (U (fun p => x p * t - - lam k * (delta' p - delta p)) (fun a => y a * t - - lam k * (mu' a - mu a)) _) q Hq). split.
  - intros p Hp. specialize (E1 p Hp). specialize (F1 p Hp). specialize (Y1 p Hp). cbn beta in *.
    rewrite (@sum_on_ext _ _ _ (fun a => t * (hessian c p a * x a) + (lam k * (hessian c p a * delta' a) + - lam k * (hessian c p a * delta a)))) by (intros; ring).
    rewrite (@sum_on_ext (nConstr c) _ _ (fun a => t * (dConstr c a p * y a) + (lam k * (dConstr c a p * mu' a) + - lam k * (dConstr c a p * mu a)))) by (intros; ring).
    rewrite !sum_on_plus, !sum_on_scale.
    replace (sum_on (nDv c) (dvAct c) (fun a => hessian c p a * x a)) with (- sum_on (nConstr c) (constrAct c) (fun a => dConstr c a p * y a)) by lra.
    replace (sum_on (nDv c) (dvAct c) (fun a => hessian c p a * delta' a)) with (g p - sum_on (nConstr c) (constrAct c) (fun a => dConstr c a p * mu' a)) by lra.
    replace (sum_on (nDv c) (dvAct c) (fun a => hessian c p a * delta a)) with (g p - sum_on (nConstr c) (constrAct c) (fun a => dConstr c a p * mu a)) by lra.
    ring.
  - intros j Hj. specialize (E2 j Hj). specialize (F2 j Hj). specialize (Y2 j Hj). cbn beta in *.
    rewrite (@sum_on_ext _ _ _ (fun a => t * (dConstr c j a * x a) + (lam k * (dConstr c j a * delta' a) + - lam k * (dConstr c j a * delta a)))) by (intros; ring).
    rewrite !sum_on_plus, !sum_on_scale, E2, F2, Y2. unfold unit_at. destruct (Nat.eqb j k); ring.
Qed.
End Sens.
Print Assumptions C86_sensitivities.
Print Assumptions C86_change.
(** The matrix of the sensitivities is never positive definite, so the Cholesky
    decomposition of method 3 is not made for it. *)
Theorem C86_cholesky_refuted n m H J : (0 < m)%nat -> ~ suits Cholesky (n + m) (sens_matrix n H J).
Proof.
  intros Hm [_ HP]. specialize (HP (unit_at n 1)).
  assert (F : form (n + m) (sens_matrix n H J) (unit_at n 1) (unit_at n 1) = 0).
  { unfold form. rewrite (@sum_to_ext (n + m) _ (fun i => if Nat.eqb i n then 0 else 0)).
    - rewrite (@sum_to_ext (n + m) _ (fun _ => 0 * 0)) by (intros i _; destruct (Nat.eqb i n); ring). rewrite sum_to_scale. ring.
    - intros i Hi. unfold unit_at at 1. destruct (Nat.eqb_spec i n) as [->|]; [|ring].
      pose proof (sens_bottom n m H J (unit_at n 1) 0) as B. rewrite Nat.add_0_r in B. rewrite B. unfold apply.
      rewrite (@sum_to_ext n _ (fun _ => 0 * 0)); [rewrite sum_to_scale; ring|]. intros j Hj. unfold unit_at. destruct (Nat.eqb_spec j n); [lia|ring]. }
  rewrite F in HP. apply (Rlt_irrefl 0), HP. exists n. split; [lia|]. unfold unit_at. rewrite Nat.eqb_refl. lra.
Qed.
Print Assumptions C86_cholesky_refuted.

(** One variable, one constraint: the step is 3, its multiplier -3. *)
Lemma ex1_run : exists v, check_and_compute ex_solve ex_fit ex_fac ex_fit (ex_1 5) (Inf false) 1 true (0%nat, 0%nat, fun _ _ => NaN) = Ok v /\
  v_delta v 0%nat = Num 3 /\ v_lag v 0%nat = Num (-3).
Proof.
  assert (A : is_active (nDv (ex_1 5)) (dvAct (ex_1 5)) 0) by (apply ex1_active; auto).
  destruct (@C84_step ex_solve ex_fit ex_fit ex_fac (ex_1 5) (Inf false) ltac:(unfold has_targets; cbn; lia) (ex_intro _ 0%nat A) 1 true (0%nat, 0%nat, fun _ _ => NaN)) as [v [E [delta [lam [D [L M]]]]]].
  - reflexivity.
  - apply ex_exact; auto.
  - apply ex_exact; auto.
  - split; [apply ex1_curved|apply ex1_well_posed].
  - intros d l _ k _. exact I.
  - exists v. split; [exact E|]. apply ex1_equations in M. unfold target in M. cbn in M. rewrite (D 0%nat A), (L 0%nat A). split; f_equal; lra.
Qed.
Lemma ex1_sens : exists v, check_and_compute ex_solve ex_fit ex_fac ex_fit (ex_1 5) (Inf false) 1 true (0%nat, 0%nat, fun _ _ => NaN) = Ok v /\
  snd (v_sens v) 0%nat 0%nat = Num (3 / 2).
Proof.
  assert (A : is_active (nDv (ex_1 5)) (dvAct (ex_1 5)) 0) by (apply ex1_active; auto).
  destruct ex1_run as [v [E [_ L]]]. exists v. split; [exact E|].
  destruct (@C86_change ex_solve ex_fit ex_fit ex_fac (ex_1 5) (Inf false) 1 (0%nat, 0%nat, fun _ _ => NaN) v (fun _ => -3) E (ex_intro _ 0%nat A) (ex_intro _ 0%nat A)
    ltac:(intros k Hk; apply ex1_active in Hk; subst; exact L) (ex1_well_posed 5) ltac:(split; [discriminate|apply ex_exact; auto])
    0%nat 1 (fun _ => 0) (fun _ => 0) (fun _ => 0) (fun _ => 0) (fun _ => 1 / 2) (fun _ => - (1 / 2)) 0%nat A A) as [x [Hx Ex]].
  - apply ex1_equations. lra.
  - apply ex1_equations. unfold unit_at. cbn. lra.
  - rewrite Hx. f_equal. lra.
Qed.
(** The sensitivity to a target is not the change of the step per unit of the target. *)
Theorem C86_unit_refuted : exists solve fit fac c lim v, (forall sv n, (n = 1 \/ n = 2)%nat -> exact solve sv n) /\ full_math c = true /\ well_posed c /\ curved c /\
  check_and_compute solve fit fac fit c lim 1 true (0%nat, 0%nat, fun _ _ => NaN) = Ok v /\
  exists q k, is_active (nDv c) (dvAct c) q /\ is_active (nConstr c) (constrAct c) k /\
  forall x, snd (v_sens v) q k = Num x -> forall g r delta mu delta' mu', equations c g r delta mu -> equations c g (fun j => r j + unit_at k 1 j) delta' mu' ->
    x <> delta' q - delta q.
Proof.
  destruct ex1_sens as [v [E S1]]. exists ex_solve, ex_fit, ex_fac, (ex_1 5), (Inf false), v.
  split; [intros; apply ex_exact; auto|]. split; [reflexivity|]. split; [apply ex1_well_posed|]. split; [apply ex1_curved|]. split; [exact E|].
  exists 0%nat, 0%nat. split; [apply ex1_active; auto|]. split; [apply ex1_active; auto|].
  intros x Hx g r delta mu delta' mu' E1 E2. rewrite S1 in Hx. injection Hx as <-. apply ex1_equations in E1, E2. unfold unit_at in E2. cbn in E2. lra.
Qed.
Print Assumptions C86_unit_refuted.

(** ** C87 *)
(** What the user reads for a snaxel that is variable [q], or is no variable. *)
Definition shown (c : calc) (x : snaxel) (f : nat -> dbl) : dbl :=
  match index_of (x_index x) (dvMap c) with Some q => scale (f q) | None => Num 0 end.
Lemma scale_zero : scale (Num 0) = Num 0.
Proof.
  cbn. f_equal. unfold Geom.signed_log_scale, Geom.rsign. destruct (Rlt_dec 0 0) as [H|_]; [lra|]. destruct (Req_EM_T 0 0); [reflexivity|congruence].
Qed.
Lemma to_sens_ok c l value f : (forall q, (exists x, In x l /\ index_of (x_index x) (dvMap c) = Some q) -> value q = Ok (f q)) ->
  to_sens c l value = Ok (map (fun x => shown c x f) l).
Proof.
  intros H. apply omap_ok. intros x Hx. unfold shown. destruct (index_of (x_index x) (dvMap c)) as [q|] eqn:E; [rewrite (H q) by eauto; reflexivity|].
  rewrite scale_zero. reflexivity.
Qed.
Lemma to_sens_UB c l value x q : In x l -> index_of (x_index x) (dvMap c) = Some q -> (forall q, value q = UB) -> to_sens c l value = UB.
Proof.
  intros Hx Hq HU. induction l as [|y l IH]; [destruct Hx|]. unfold to_sens in *. cbn [Mesh.omap_list]. destruct (index_of (x_index y) (dvMap c)) as [q'|] eqn:E.
  - rewrite HU. reflexivity.
  - cbn [bind]. destruct Hx as [->|Hx]; [congruence|]. rewrite IH by auto. reflexivity.
Qed.
(** ReturnGradient gives one number per snaxel, 0 if it is no variable, in the range
    -6 <= num < nConstr, and throws outside it. *)
Theorem C87_gradient c v l num :
  (((num < -6)%Z \/ (Z.of_nat (nConstr c) <= num)%Z) -> return_gradient c v l num = Throw) /\
  ((-6 <= num < Z.of_nat (nConstr c))%Z -> exists r, return_gradient c v l num = Ok r /\ length r = length l /\
     forall p x, nth_error l p = Some x ->
       (index_of (x_index x) (dvMap c) = None -> nth_error r p = Some (Num 0)) /\
       (forall q, index_of (x_index x) (dvMap c) = Some q ->
          (num = (-6)%Z -> nth_error r p = Some (scale (Num (dObj c q)))) /\
          (num = (-4)%Z -> nth_error r p = Some (scale (Num (HObj c q q)))) /\
          (num = (-3)%Z -> nth_error r p = Some (scale (Num (HConstr c q q)))) /\
          (num = (-2)%Z -> nth_error r p = Some (scale (Num (hessian c q q)))) /\
          (num = (-1)%Z -> nth_error r p = Some (if full_math c then scale (v_delta v q) else Num 0)) /\
          (forall k, num = Z.of_nat k -> nth_error r p = Some (scale (Num (dConstr c k q)))) /\
          (num = (-5)%Z -> forall lam, (forall k, (k < nConstr c)%nat -> v_lag v k = Num (lam k)) ->
             nth_error r p = Some (scale (Num (dObj c q + sum_to (nConstr c) (fun k => lam k * dConstr c k q))))))).
Proof.
  split.
  - intros H. unfold return_gradient. destruct (Z.leb_spec (Z.of_nat (nConstr c)) num); [reflexivity|]. destruct (Z.ltb_spec num (-6)); [reflexivity|lia].
  - intros H. unfold return_gradient. destruct (Z.leb_spec (Z.of_nat (nConstr c)) num); [lia|]. destruct (Z.ltb_spec num (-6)); [lia|]. cbn [orb].
    assert (N : forall f, exists r, to_sens c l (fun q => Ok (f q)) = Ok r /\ length r = length l /\ forall p x, nth_error l p = Some x -> nth_error r p = Some (shown c x f)).
    { intros f. exists (map (fun x => shown c x f) l). split; [apply to_sens_ok; auto|]. split; [apply map_length|]. intros p x Hx. rewrite nth_error_map, Hx. reflexivity. }
    destruct (Z.eqb_spec num (-6)) as [->|N6]; [|destruct (Z.eqb_spec num (-5)) as [->|N5]; [|destruct (Z.eqb_spec num (-4)) as [->|N4]; [|destruct (Z.eqb_spec num (-3)) as [->|N3]; [|
      destruct (Z.eqb_spec num (-2)) as [->|N2]; [|destruct (Z.eqb_spec num (-1)) as [->|N1]]]]]].
    6:{ destruct (full_math c) eqn:F.
      - destruct (N (v_delta v)) as [r [E [L P]]]. exists r. split; [exact E|]. split; [exact L|]. intros p x Hx. rewrite (P p x Hx). unfold shown.
        split; [intros ->; reflexivity|]. intros q ->. repeat split; intros; try lia; auto.
      - eexists. split; [reflexivity|]. split; [apply map_length|]. intros p x Hx. rewrite nth_error_map, Hx. split; [reflexivity|]. intros q _.
        repeat split; intros; try lia; auto. }
    all: match goal with |- exists r, to_sens _ _ (fun q => Ok (@?f q)) = _ /\ _ => destruct (N f) as [r [E [L P]]] end;
      exists r; (split; [exact E|]); (split; [exact L|]); intros p x Hx; rewrite (P p x Hx); unfold shown;
      (split; [intros ->; reflexivity|]); intros q ->; repeat split; intros; try lia; auto.
    + do 2 f_equal. rewrite (@ddot_reads (nConstr c) (v_lag v) _ lam (fun k => dConstr c k q)); [reflexivity|intros k Hk; auto|intros k _; reflexivity].
    + do 3 f_equal. unfold hessian. ring.
    + subst. rewrite Nat2Z.id. reflexivity.
Qed.
Print Assumptions C87_gradient.
(** ReturnSensitivities, after the sensitivities were computed. *)
Theorem C87_sensitivities c v l num s : v_sens v = (nDv c, nConstr c, s) -> length (dvMap c) = nDv c ->
  ((Z.of_nat (nConstr c) <= num)%Z -> return_sensitivities c v l num = Throw) /\
  (forall k, num = Z.of_nat k -> (k < nConstr c)%nat ->
     return_sensitivities c v l num = Ok (map (fun x => match index_of (x_index x) (dvMap c) with Some q => scale (s q k) | None => Num 0 end) l)).
Proof.
  intros Hs Hd. unfold return_sensitivities. split.
  - intros H. destruct (Z.leb_spec (Z.of_nat (nConstr c)) num); [reflexivity|lia].
  - intros k -> Hk. destruct (Z.leb_spec (Z.of_nat (nConstr c)) (Z.of_nat k)); [lia|].
    apply (@to_sens_ok c l _ (fun q => s q k)). intros q [x [_ E]]. unfold entry. rewrite Hs.
    assert (Hq : (q < nDv c)%nat).
    { rewrite <- Hd. clear - E. revert q E. induction (dvMap c) as [|a m IH]; cbn; intros q E; [discriminate|]. destruct (Z.eqb a (x_index x)); [injection E as <-; lia|].
      destruct (index_of (x_index x) m) as [j|]; [|discriminate]. injection E as <-. specialize (IH j eq_refl). lia. }
    rewrite (proj2 (Nat.ltb_lt _ _) Hq), (proj2 (Z.leb_le _ _)) by lia. rewrite (proj2 (Z.ltb_lt _ _)) by lia. cbn [andb]. rewrite Nat2Z.id. reflexivity.
Qed.
Print Assumptions C87_sensitivities.
(** A negative number is not rejected; and before the sensitivities were first computed
    (sensCalc not set, or no active constraint) nothing can be read. *)
Theorem C87_negative_refuted c v l x q num : In x l -> index_of (x_index x) (dvMap c) = Some q -> (num < 0)%Z -> return_sensitivities c v l num = UB.
Proof.
  intros Hx Hq Hn. unfold return_sensitivities. destruct (Z.leb_spec (Z.of_nat (nConstr c)) num); [lia|].
  apply (@to_sens_UB c l _ x q Hx Hq). intros q'. unfold entry. destruct (v_sens v) as [[r k] s]. destruct (Z.leb_spec 0 num); [lia|]. rewrite andb_false_r. reflexivity.
Qed.
Print Assumptions C87_negative_refuted.
Theorem C87_absent_refuted solve fit fac qr c lim method sensCalc any v l x q num :
  check_and_compute solve fit fac qr c lim method sensCalc (0%nat, 0%nat, any) = Ok v ->
  (sensCalc = false \/ ~ (some_active c /\ exists k, is_active (nConstr c) (constrAct c) k)) ->
  In x l -> index_of (x_index x) (dvMap c) = Some q -> (num < Z.of_nat (nConstr c))%Z -> return_sensitivities c v l num = UB.
Proof.
  intros E HN Hx Hq Hn.
  assert (O : v_sens v = (0%nat, 0%nat, any)).
  { revert E. unfold check_and_compute. destruct (act_residual c) as [res| | |]; cbn [bind]; try discriminate.
    assert (W : forall w, (match act_dv c with [] => Ok (mkSolved (fun _ => Num 0) (nums (lagMult c)) (0%nat, 0%nat, any)) | _ :: _ => compute_step solve fit fac qr c lim method res (0%nat, 0%nat, any) end) = Ok w -> v_sens w = (0%nat, 0%nat, any)).
    { intros w. destruct (act_dv c); [intros [= <-]; reflexivity|]. unfold compute_step.
      match goal with |- bind ?e _ = _ -> _ => destruct e as [s| | |] end; cbn [bind]; try discriminate. unfold write_back. destruct (s_large s); [destruct (Nat.ltb _ _); [discriminate|]|]; intros [= <-]; reflexivity. }
    match goal with |- bind ?e _ = _ -> _ => destruct e as [w| | |] eqn:Ew end; cbn [bind]; try discriminate. specialize (W w eq_refl).
    destruct sensCalc; [|intros [= <-]; exact W]. destruct HN as [HN|HN]; [discriminate|].
    destruct (act_dv c) as [|q0 l0] eqn:Ed; [intros [= <-]; exact W|]. destruct (act_constr c) as [|k0 m0] eqn:Ec; [intros [= <-]; exact W|]. exfalso. apply HN. split.
    - exists q0. apply chosen_in. unfold act_dv in Ed. rewrite Ed. left; auto.
    - exists k0. apply chosen_in. unfold act_constr in Ec. rewrite Ec. left; auto. }
  unfold return_sensitivities. destruct (Z.leb_spec (Z.of_nat (nConstr c)) num); [lia|].
  apply (@to_sens_UB c l _ x q Hx Hq). intros q'. unfold entry. rewrite O. destruct (Nat.ltb_spec q' 0); [lia|]. reflexivity.
Qed.
Print Assumptions C87_absent_refuted.
Example C87_ex : index_of (x_index (mkSnaxel 6 1 2 false 0)) (dvMap (ex_c 5)) = Some 1%nat /\ length (dvMap (ex_c 5)) = nDv (ex_c 5) /\
  exists v, check_and_compute ex_solve ex_fit ex_fac ex_fit (ex_c 5) (Num 3) 1 false (0%nat, 0%nat, fun _ _ => NaN) = Ok v.
Proof. split; [reflexivity|]. split; [reflexivity|]. destruct (C84_step_ex 1) as [v [E _]]. eauto. Qed.
Example C87_computed_ex : exists v s, check_and_compute ex_solve ex_fit ex_fac ex_fit (ex_1 5) (Inf false) 1 true (0%nat, 0%nat, fun _ _ => NaN) = Ok v /\
  v_sens v = (nDv (ex_1 5), nConstr (ex_1 5), s) /\ s 0%nat 0%nat = Num (3 / 2).
Proof.
  destruct ex1_sens as [v [E S1]]. exists v, (snd (v_sens v)). split; [exact E|]. split; [|exact S1].
  assert (A : is_active (nDv (ex_1 5)) (dvAct (ex_1 5)) 0) by (apply ex1_active; auto).
  rewrite (@sens_is ex_solve ex_fit ex_fit ex_fac (ex_1 5) (Inf false) 1 _ v E (ex_intro _ 0%nat A) (ex_intro _ 0%nat A)). reflexivity.
Qed.
