(** Theorems about the centroid of an outline and its derivatives (C75-C77). *)
From Coq Require Import Reals List Lia Lra.
From Coquelicot Require Import Coquelicot.
From Verif Require Import Base RsvsMath SpecRsvs SpecCentre RsvsCentreJac RsvsCentreProofs RsvsCentreHes.
Set Implicit Arguments.
Open Scope R_scope.

(** *** C75: value and Jacobian *)
Lemma calc_centre s c c' : centroid_calc s c = Ok c' ->
  c_pts c' = c_pts c /\ c_fun c' = fst (centroid_value (c_pts c)) /\ c_deriv c' = c_deriv c /\
  (c_deriv c = false -> c_jac c' = c_jac c /\ c_hes c' = c_hes c) /\
  (c_deriv c = true -> let len := snd (centroid_value (c_pts c)) in let cen := snd (edge_sums (c_pts c)) in
     exists ws, centroid_jac s (c_pts c) len cen = Ok ws /\ c_jac c' = put_all ws (c_jac c) /\
       c_hes c' = put_all (hes_self s (c_pts c) len cen ++ hes_connected s (c_pts c) len cen ++ hes_apart s (c_pts c) len cen) (c_hes c)).
Proof.
  unfold centroid_calc. destruct (c_pts c) as [|p0 r] eqn:Ep; [discriminate|]. rewrite <- Ep. clear Ep p0 r.
  destruct (centroid_value (c_pts c)) as [v len]. cbn [fst snd]. destruct (c_deriv c); cbn [negb].
  - destruct (centroid_jac s (c_pts c) len (snd (edge_sums (c_pts c)))) as [ws| | |] eqn:E; cbn [bind]; try discriminate.
    intros H. injection H as <-. cbn [c_pts c_fun c_deriv c_jac c_hes]. repeat split; auto; try discriminate. intros _. exists ws. auto.
  - intros H. injection H as <-. cbn. repeat split; auto. discriminate.
Qed.

Lemma value_is p : / 1000000000000000 <= outline (length p) (pt p) ->
  (forall k, fst (centroid_value p) k = wire_centre (length p) (pt p) k) /\ snd (centroid_value p) = outline (length p) (pt p).
Proof.
  intros H. unfold centroid_value. destruct (edge_sums_is p) as [A B]. destruct (edge_sums p) as [len cen]. cbn [fst snd] in *.
  destruct (Rlt_dec len (/ 1000000000000000)) as [K|K]; [rewrite A in K; lra|]. cbn [fst snd]. rewrite A. split; auto.
  intros k. rewrite B. reflexivity.
Qed.

(** The value is the centre of mass of the outline, weighted by length. *)
Theorem C75_value s c c' k : centroid_calc s c = Ok c' -> / 1000000000000000 <= outline (length (c_pts c)) (pt (c_pts c)) ->
  c_fun c' k = wire_centre (length (c_pts c)) (pt (c_pts c)) k.
Proof. intros H L. destruct (calc_centre _ _ H) as (_ & F & _). rewrite F. apply value_is; auto. Qed.
Print Assumptions C75_value.

(** For an outline shorter than 1e-15 it is the first corner. *)
Theorem C75_tiny s c c' : centroid_calc s c = Ok c' -> outline (length (c_pts c)) (pt (c_pts c)) < / 1000000000000000 ->
  c_fun c' = pt (c_pts c) 0.
Proof.
  intros H L. destruct (calc_centre _ _ H) as (_ & F & _). rewrite F. unfold centroid_value.
  destruct (edge_sums_is (c_pts c)) as [A B]. destruct (edge_sums (c_pts c)) as [len cen]. cbn [fst] in A.
  destruct (Rlt_dec len (/ 1000000000000000)) as [K|K]; [reflexivity|]. rewrite A in K. lra.
Qed.
Print Assumptions C75_tiny.

(** The Jacobian is that of the value up to an error proportional to the epsilons. *)
Theorem C75_jacobian s c c' k v m D : centroid_calc s c = Ok c' -> c_deriv c = true ->
  let n := length (c_pts c) in let p := pt (c_pts c) in
  / 1000000000000000 <= outline n p -> 0 <= centre_a s -> 0 <= centre2_a s ->
  (k < 3)%nat -> (v < n)%nat -> (m < 3)%nat -> 0 < side n p (prev n v) -> 0 < side n p v ->
  centre_slope n p k v m D ->
  Rabs (c_jac c' k (v + m * n)%nat - D) <= slope_error n p (centre_a s + centre2_a s) (centre2_a s) k v m.
Proof.
  intros H Hd n p L E1 E2 Hk Hv Hm Ha Hb HD. destruct (calc_centre _ _ H) as (_ & _ & _ & _ & J).
  destruct (J Hd) as (ws & Ew & -> & _). clear J.
  assert (N4 : (4 <= n)%nat).
  { unfold centroid_jac in Ew. fold n in Ew. destruct (Nat.ltb_spec n 4); [discriminate|auto]. }
  destruct (value_is (c_pts c) L) as [_ EL]. fold n p in EL.
  unfold n. rewrite (@jac_entry _ _ _ _ _ (c_jac c) k v m Ew Hk Hv Hm). fold n. rewrite EL. change (pt (c_pts c)) with p.
  assert (ES : snd (edge_sums (c_pts c)) k = weighted n k p) by apply (proj2 (edge_sums_is (c_pts c))).
  unfold jac_eps. destruct (Nat.ltb n 7); cbn [fst snd].
  - apply slope_close; auto; lia || lra.
  - eapply Rle_trans; [apply slope_close; auto; lia || lra|].
    assert (HL : 0 < outline n p) by (eapply Rlt_le_trans; [|exact L]; apply Rinv_0_lt_compat; lra).
    unfold slope_error. apply Rmult_le_compat_r; [apply Rlt_le, Rinv_0_lt_compat; auto|].
    set (a := side n p (prev n v)) in *. set (b := side n p v) in *.
    assert (Q : forall x y, 0 < y -> 0 <= x -> 0 <= x / y) by (intros x y Hy Hx; apply Rmult_le_pos; [auto|apply Rlt_le, Rinv_0_lt_compat; auto]).
    apply Rplus_le_compat; [apply Rplus_le_compat|].
    + destruct (Nat.eqb k m); [|lra].
      pose proof (Q (centre2_a s) (4 * a) ltac:(lra) E2). pose proof (Q (centre2_a s) (4 * b) ltac:(lra) E2). unfold Rdiv in *. lra.
    + apply Rmult_le_compat_l; [apply Rabs_pos|]. apply Rmult_le_compat_r; [|lra].
      apply Rlt_le, Rinv_0_lt_compat. pose proof (Rmult_lt_0_compat _ _ Ha Ha). lra.
    + apply Rmult_le_compat_l; [apply Rabs_pos|]. apply Rmult_le_compat_r; [|lra].
      apply Rlt_le, Rinv_0_lt_compat. pose proof (Rmult_lt_0_compat _ _ Hb Hb). lra.
Qed.
Print Assumptions C75_jacobian.

(** Such a slope exists. *)
Theorem C75_differentiable n c k v m : (3 <= n)%nat -> (v < n)%nat -> (m < 3)%nat ->
  0 < side n c (prev n v) -> 0 < side n c v -> exists D, centre_slope n c k v m D.
Proof. intros. eexists. apply centre_slope_is; auto. Qed.
Print Assumptions C75_differentiable.

(** Calc is refused for fewer than four corners, and only then. *)
Theorem C75_defined s c : c_deriv c = true ->
  ((exists c', centroid_calc s c = Ok c') <-> (4 <= length (c_pts c))%nat) /\
  ((1 <= length (c_pts c) <= 3)%nat -> centroid_calc s c = Throw).
Proof.
  intros Hd. unfold centroid_calc. destruct (c_pts c) as [|p0 r] eqn:Ep.
  - split; [split; [intros [? H]; discriminate|cbn; lia]|cbn; lia].
  - rewrite <- Ep. destruct (centroid_value (c_pts c)) as [v len]. rewrite Hd. cbn [negb].
    unfold centroid_jac. destruct (Nat.ltb_spec (length (c_pts c)) 4) as [L|L].
    + cbn [bind]. split; [split; [intros [? H]; discriminate|lia]|auto].
    + split; [|lia]. split; [auto|]. intros _.
      destruct (length (c_pts c)) as [|[|[|[|[|[|[|n]]]]]]]; cbn [bind]; eexists; reflexivity.
Qed.
Print Assumptions C75_defined.

(** *** Wrong after finite differences *)
(** CalcFD switches the derivatives off for good: after new points of the same
    number, Calc leaves the Jacobian of the old points. *)
Theorem C75_stale_refuted s c c1 p c2 : centroid_calc_fd s c = Ok c1 ->
  length p = length (c_pts c1) -> centroid_calc s (centroid_assign p c1) = Ok c2 ->
  c_jac c2 = c_jac c1 /\ c_hes c2 = c_hes c1.
Proof.
  unfold centroid_calc_fd. destruct (centroid_calc s c) as [c0| | |]; cbn [bind]; try discriminate.
  intros H. injection H as <-. cbn [c_pts]. intros L H. unfold centroid_assign in H. cbn [c_pts c_fun c_jac c_hes c_deriv] in H.
  rewrite L, Nat.eqb_refl in H. destruct (calc_centre _ _ H) as (_ & _ & _ & F & _). apply F. reflexivity.
Qed.
Print Assumptions C75_stale_refuted.

Definition p3 (a b c : R) : vec := fun k => match k with 0%nat => a | 1%nat => b | _ => c end.
Definition square : list vec := [p3 0 0 0; p3 1 0 0; p3 1 1 0; p3 0 1 0].
Lemma dist_unit a b c a' b' c' : (a - a') * (a - a') + (b - b') * (b - b') + (c - c') * (c - c') = 1 -> dist (p3 a b c) (p3 a' b' c') = 1.
Proof. intros H. unfold dist, vdot, vsub, p3. rewrite H. apply sqrt_1. Qed.
Lemma square_sides i : (i < 4)%nat -> side 4 (pt square) i = 1.
Proof.
  intros H. unfold side, pt, next. 
  destruct i as [|[|[|[|i]]]]; [| | | |lia]; cbn [nth square Nat.eqb]; apply dist_unit; ring.
Qed.
Lemma square_outline : outline 4 (pt square) = 4.
Proof. unfold outline, sum_to. cbn [seq map fold_right]. rewrite !square_sides by lia. ring. Qed.
Example C75_used : exists c, centroid_calc statics0 (centroid_new square) = Ok c /\ c_fun c 0%nat = 1 / 2 /\
  (/ 1000000000000000 <= outline 4 (pt square)) /\ 0 < side 4 (pt square) (prev 4 2) /\ 0 < side 4 (pt square) 2.
Proof.
  assert (L : / 1000000000000000 <= outline 4 (pt square)).
  { rewrite square_outline. apply Rle_trans with (/ 1); [apply Rinv_le_contravar; lra|lra]. }
  destruct (proj1 (@C75_defined statics0 (centroid_new square) eq_refl)) as [_ A]. destruct (A ltac:(cbn; lia)) as [c E].
  exists c. split; auto. split; [|split; auto; rewrite !square_sides; cbn; try lia; split; lra].
  rewrite (@C75_value _ _ _ 0 E L). unfold wire_centre. cbn [centroid_new c_pts].
  change (length square) with 4%nat. rewrite square_outline. unfold sum_to. cbn [seq map fold_right]. rewrite !square_sides by lia.
  unfold middle, pt, next. cbn [nth square Nat.eqb p3]. field.
Qed.

(** The value left by CalcFD is that of the polygon with its last corner moved. *)
Theorem C75_fd_value_refuted : exists s c c1, centroid_calc_fd s c = Ok c1 /\ c_pts c1 = square /\
  c_fun c1 2%nat <> wire_centre 4 (pt square) 2.
Proof.
  destruct C75_used as (c & E & _ & _). exists statics0, (centroid_new square). unfold centroid_calc_fd. rewrite E. cbn [bind].
  eexists. split; [reflexivity|]. destruct (calc_centre _ _ E) as (Ep & _). cbn [c_pts c_fun]. rewrite Ep. split; [reflexivity|].
  change (c_pts (centroid_new square)) with square. change (length square) with 4%nat. cbn [Nat.sub].
  assert (Hh : 0 < fd_step) by (unfold fd_step; apply Rinv_0_lt_compat; lra).
  set (q := shift_point square 3 2 fd_step).
  assert (S0 : side 4 (pt q) 0 = 1) by (unfold side, pt, next, q; cbn [nth square shift_point Nat.eqb]; apply dist_unit; ring).
  assert (S1 : side 4 (pt q) 1 = 1) by (unfold side, pt, next, q; cbn [nth square shift_point Nat.eqb]; apply dist_unit; ring).
  assert (P2 : 0 <= side 4 (pt q) 2) by apply sqrt_pos. 
  assert (P3 : 1 <= side 4 (pt q) 3).
  { unfold side, pt, next, q. cbn [nth square shift_point Nat.eqb]. unfold dist. rewrite <- sqrt_1 at 1. apply sqrt_le_1_alt.
    unfold vdot, vsub, p3. cbn [Nat.eqb]. pose proof (Rle_0_sqr (0 + fd_step - 0)). unfold Rsqr in *. lra. }
  assert (LQ : outline 4 (pt q) = side 4 (pt q) 0 + (side 4 (pt q) 1 + (side 4 (pt q) 2 + (side 4 (pt q) 3 + 0)))) by reflexivity.
  assert (L : / 1000000000000000 <= outline (length q) (pt q)).
  { change (length q) with 4%nat. rewrite LQ. apply Rle_trans with (/ 1); [apply Rinv_le_contravar; lra|lra]. }
  rewrite (proj1 (@value_is q L) 2%nat). change (length q) with 4%nat.
  assert (Z : wire_centre 4 (pt square) 2 = 0).
  { unfold wire_centre. rewrite square_outline. unfold sum_to. cbn [seq map fold_right]. rewrite !square_sides by lia.
    unfold middle, pt, next. cbn [nth square Nat.eqb p3]. field. }
  rewrite Z. assert (0 < wire_centre 4 (pt q) 2); [|lra].
  unfold wire_centre. apply Rdiv_lt_0_compat; [|rewrite LQ; lra].
  unfold sum_to. cbn [seq map fold_right].
  assert (M0 : middle 4 (pt q) 0 2 = 0) by (unfold middle, pt, next, q; cbn [nth square shift_point Nat.eqb p3]; field).
  assert (M1 : middle 4 (pt q) 1 2 = 0) by (unfold middle, pt, next, q; cbn [nth square shift_point Nat.eqb p3]; field).
  assert (M2 : middle 4 (pt q) 2 2 = fd_step / 2) by (unfold middle, pt, next, q; cbn [nth square shift_point Nat.eqb p3]; field).
  assert (M3 : middle 4 (pt q) 3 2 = fd_step / 2) by (unfold middle, pt, next, q; cbn [nth square shift_point Nat.eqb p3]; field).
  rewrite M0, M1, M2, M3. 
  assert (0 <= side 4 (pt q) 2 * (fd_step / 2)) by (apply Rmult_le_pos; lra).
  assert (0 < side 4 (pt q) 3 * (fd_step / 2)) by (apply Rmult_lt_0_compat; lra). lra.
Qed.
Print Assumptions C75_fd_value_refuted.

(** *** C77: SetEnvironmentEpsilon *)
(** The call has no effect on the centroid's value, Jacobian or Hessian. *)
Theorem C77_centroid_ignored e s c : centroid_calc (set_environment e s) c = centroid_calc s c.
Proof. reflexivity. Qed.
Print Assumptions C77_centroid_ignored.

(** So what was asked for is not what is used: with epsilons of zero the first
    column of the square would have another value. *)
Theorem C77_refuted : exists e c c1 c2 k i,
  centroid_calc (set_environment e statics0) c = Ok c1 /\
  centroid_calc (mkStatics (e_surf e) (e_centre e) (e_centre2 e) (e_centre e) (e_centre2 e)) c = Ok c2 /\
  c_jac c1 k i <> c_jac c2 k i.
Proof.
  set (z := mkStatics 0 0 0 0 0).
  destruct (proj1 (@C75_defined statics0 (centroid_new square) eq_refl)) as [_ A]. destruct (A ltac:(cbn; lia)) as [c1 E1].
  destruct (proj1 (@C75_defined z (centroid_new square) eq_refl)) as [_ B]. destruct (B ltac:(cbn; lia)) as [c2 E2].
  exists (mkEps 0 0 0), (centroid_new square), c1, c2, 0%nat, (0 + 1 * 4)%nat.
  split; [exact E1|]. split; [exact E2|].
  assert (G : forall s c', centroid_calc s (centroid_new square) = Ok c' ->
    c_jac c' 0%nat (0 + 1 * 4)%nat = 1 / 8 * / sqrt (1 + (centre_a s + centre2_a s))).
  { intros s c' E. destruct (calc_centre _ _ E) as (_ & _ & _ & _ & J). destruct (J eq_refl) as (ws & Ew & -> & _).
    change (c_pts (centroid_new square)) with square in *.
    rewrite (@jac_entry s square _ _ ws _ 0 0 1 Ew ltac:(lia) ltac:(cbn; lia) ltac:(lia)).
    change (length square) with 4%nat. 
    assert (L : / 1000000000000000 <= outline (length square) (pt square)).
    { change (length square) with 4%nat. rewrite square_outline. apply Rle_trans with (/ 1); [apply Rinv_le_contravar; lra|lra]. }
    rewrite (proj2 (@value_is square L)). change (length square) with 4%nat. rewrite square_outline.
    unfold slope_with. rewrite (proj2 (edge_sums_is square) 0%nat). change (length square) with 4%nat.
    unfold jac_eps. cbn [Nat.ltb Nat.leb fst snd Nat.eqb]. unfold weighted, sum_to. cbn [seq map fold_right]. rewrite !square_sides by lia.
    unfold middle, prev, next. cbn [Nat.eqb Nat.sub]. unfold pt. cbn [nth square]. unfold vdot, vsub, p3.
    set (d := centre_a s + centre2_a s). clearbody d.
    repeat match goal with |- context [sqrt ?X] => lazymatch X with 1 + d => fail | _ => replace X with (1 + d) by ring end end.
    generalize (/ sqrt (1 + d)). intros r. field. }
  rewrite (G _ _ E1), (G _ _ E2). cbn [centre_a centre2_a z statics0].
  replace (1 + (0 + 0)) with 1 by ring. rewrite sqrt_1.
  set (d := / 10000000000 + / 10000000000). assert (Hd : 0 < d) by (unfold d; pose proof (Rinv_0_lt_compat 10000000000 ltac:(lra)); lra).
  assert (Q : 1 < sqrt (1 + d)) by (rewrite <- sqrt_1 at 1; apply sqrt_lt_1; lra).
  assert (/ sqrt (1 + d) < / 1) by (apply Rinv_lt_contravar; lra). lra.
Qed.
Print Assumptions C77_refuted.

(** *** C76: the Hessian *)
Definition cross_clear (c : centroid) : Prop := let n := length (c_pts c) in
  forall v m v2 m2, (v < n)%nat -> (v2 < n)%nat -> v <> v2 -> (m < 3)%nat -> (m2 < 3)%nat ->
    c_hes c (v + m * n)%nat (v2 + m2 * n + 1 * 3 * n)%nat = 0.

Lemma calc_keeps_cross s c c' : cross_clear c -> centroid_calc s c = Ok c' -> cross_clear c'.
Proof.
  intros K E v m v2 m2. destruct (calc_centre _ _ E) as (Ep & _ & _ & F & T). rewrite Ep. intros Hv Hv2 Ne Hm Hm2.
  destruct (c_deriv c).
  - destruct (T eq_refl) as (ws & _ & _ & ->). apply cross_zero; auto.
  - rewrite (proj2 (F eq_refl)). apply K; auto.
Qed.

(** In every history all mixed second derivatives of the second coordinate of the
    centre, with respect to coordinates of two corners, are zero. *)
Theorem C76_cross_terms s0 p ops s c : centre_run (s0, centroid_new p) ops = Ok (s, c) ->
  let n := length (c_pts c) in
  forall v m v2 m2, (v < n)%nat -> (v2 < n)%nat -> v <> v2 -> (m < 3)%nat -> (m2 < 3)%nat ->
    c_hes c (v + m * n)%nat (v2 + m2 * n + 1 * 3 * n)%nat = 0.
Proof.
  assert (G : forall ops s0 c0, cross_clear c0 -> centre_run (s0, c0) ops = Ok (s, c) -> cross_clear c).
  { clear. induction ops as [|o r IH]; intros s0 c0 K H; cbn [centre_run] in H; [injection H as <- <-; auto|].
    destruct (centre_step (s0, c0) o) as [[s1 c1]| | |] eqn:E; cbn [bind] in H; try discriminate.
    apply IH in H; auto. destruct o as [q| | |e]; cbn [centre_step] in E.
    - injection E as <- <-. unfold centroid_assign. destruct (Nat.eqb_spec (length q) (length (c_pts c0))) as [L|L].
      + intros v m v2 m2. cbn [c_pts c_hes]. rewrite L. apply K.
      + intros v m v2 m2 _ _ _ _ _. reflexivity.
    - destruct (centroid_calc s0 c0) as [c'| | |] eqn:C; cbn [bind] in E; try discriminate. injection E as <- <-.
      eapply calc_keeps_cross; eauto.
    - destruct (centroid_calc_fd s0 c0) as [c'| | |] eqn:C; cbn [bind] in E; try discriminate. injection E as <- <-.
      unfold centroid_calc_fd in C. destruct (centroid_calc s0 c0) as [cf| | |] eqn:C1; cbn [bind] in C; try discriminate. injection C as <-.
      exact (calc_keeps_cross _ K C1).
    - injection E as <- <-. auto. }
  intros H. refine (G _ _ _ _ H). intros v m v2 m2 _ _ _ _ _. reflexivity.
Qed.
Print Assumptions C76_cross_terms.

Lemma square_curvature : centre_curvature 4 (pt square) 1 0 0 2 1 (1 / 32).
Proof.
  set (W := fun t => 0 + (sqrt ((1 - 1) * (1 - 1) + (0 - t) * (0 - t) + (0 - 0) * (0 - 0)) * (t / 2)
      + (sqrt ((1 - 0) * (1 - 0) + (t - 1) * (t - 1) + (0 - 0) * (0 - 0)) * ((t + 1) / 2) + 1 / 2))).
  set (L := fun t => 1 + (sqrt ((1 - 1) * (1 - 1) + (0 - t) * (0 - t) + (0 - 0) * (0 - 0))
      + (sqrt ((1 - 0) * (1 - 0) + (t - 1) * (t - 1) + (0 - 0) * (0 - 0)) + 1))).
  exists (fun t => W t / (L t * L t)), 1. split; [lra|]. split.
  - intros t _. set (q := move (pt square) 2 1 t).
    assert (S0 : side 4 q 0 = 1).
    { unfold side, next, q, move, dist, vdot, vsub, pt. cbn [nth square Nat.eqb andb p3]. match goal with |- sqrt ?X = 1 => replace X with 1 by ring end. apply sqrt_1. }
    assert (S3 : side 4 q 3 = 1).
    { unfold side, next, q, move, dist, vdot, vsub, pt. cbn [nth square Nat.eqb andb p3]. match goal with |- sqrt ?X = 1 => replace X with 1 by ring end. apply sqrt_1. }
    pose proof (@centre_slope_is 4 q 0 0 ltac:(lia) ltac:(lia) ltac:(lia) ltac:(cbn [prev Nat.sub]; lra) ltac:(lra) 1) as K.
    cbn [prev next Nat.eqb Nat.sub] in K. rewrite S0, S3 in K.
    assert (EL : outline 4 q = L t).
    { unfold outline, sum_to. cbn [seq map fold_right]. rewrite S0, S3. unfold side, next, q, move, dist, vdot, vsub, pt, L.
      cbn [nth square Nat.eqb andb p3]. ring. }
    assert (EW : weighted 4 1 q = W t).
    { unfold weighted, sum_to. cbn [seq map fold_right]. rewrite S0, S3. unfold side, middle, next, q, move, dist, vdot, vsub, pt, W.
      cbn [nth square Nat.eqb andb p3]. field. }
    rewrite EL, EW in K. unfold centre_slope in *.
    assert (PL : 0 < L t) by (unfold L; match goal with |- 0 < 1 + (sqrt ?A + (sqrt ?B + 1)) => pose proof (sqrt_pos A); pose proof (sqrt_pos B) end; lra).
    match type of K with derivable_pt_lim _ _ ?d => replace d with (W t / (L t * L t)) in K; [exact K|] end.
    unfold middle, next, q, move, pt. cbn [nth square Nat.eqb andb p3]. field. lra.
  - apply is_derive_Reals. change (pt square 2 1%nat) with 1. unfold W, L.
    assert (R1 : sqrt 1 = 1) by apply sqrt_1.
    auto_derive.
    + repeat match goal with |- context [sqrt ?X] => lazymatch X with 1 => fail | _ => replace X with 1 by ring end end. rewrite ?R1.
      repeat split; lra.
    + repeat match goal with |- context [sqrt ?X] => lazymatch X with 1 => fail | _ => replace X with 1 by ring end end. rewrite ?R1. field.
Qed.

(** They should not be: for the unit square one of them is 1/32. *)
Theorem C76_refuted : exists c, centroid_calc statics0 (centroid_new square) = Ok c /\
  exists v m v2 m2 h, (v < 4)%nat /\ (m < 3)%nat /\ (v2 < 4)%nat /\ (m2 < 3)%nat /\
    centre_curvature 4 (pt square) 1 v m v2 m2 h /\ h <> c_hes c (v + m * 4)%nat (v2 + m2 * 4 + 1 * 3 * 4)%nat.
Proof.
  destruct C75_used as (c & E & _). exists c. split; auto. exists 0%nat, 0%nat, 2%nat, 1%nat, (1 / 32).
  repeat (split; [lia|]). split; [exact square_curvature|].
  assert (R : centre_run (statics0, centroid_new square) [CCalc] = Ok (statics0, c)) by (cbn [centre_run centre_step]; rewrite E; reflexivity).
  pose proof (C76_cross_terms _ _ _ R) as Z. destruct (calc_centre _ _ E) as (Ep & _). rewrite Ep in Z. cbn [length centroid_new c_pts square] in Z.
  rewrite (Z 0%nat 0%nat 2%nat 1%nat) by lia. lra.
Qed.
Print Assumptions C76_refuted.
