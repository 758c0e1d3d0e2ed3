(** Theorems about the values and derivatives used by the optimiser (C71-C74). *)
From Coq Require Import Reals List Lia Lra Permutation.
From Coquelicot Require Import Coquelicot.
From Verif Require Import Base RsvsMath SpecRsvs RsvsProofs RsvsAreaProofs RsvsObjProofs.
Set Implicit Arguments.
Open Scope R_scope.

Ltac points3 ps L := destruct ps as [|p0 [|p1 [|p2 [|? ?]]]]; cbn [length npoints] in L; try discriminate L.
Ltac gives N := split; [symmetry; apply (N 0%nat); cbn; lia|split; symmetry; [apply (N 1%nat)|apply (N 2%nat)]; cbn; lia].

(** *** C71: volumes *)
(** After any history that ends with Calc: the value is the signed volume of the
    tetrahedron over the three points last given, the Jacobian its gradient and
    the Hessian its matrix of second derivatives. *)
Theorem C71_volume s0 ops s f : run KVolume (s0, func0 KVolume) (ops ++ [Calc]) = Ok (s, f) ->
  exists p0 p1 p2, let x := flat [p0; p1; p2] in let vol := fun x => signed_volume (point x 0) (point x 1) (point x 2) in
  (latest 0 ops = Some p0 /\ latest 1 ops = Some p1 /\ latest 2 ops = Some p2) /\
  f_pts f = [Some p0; Some p1; Some p2] /\ f_fun f = signed_volume p0 p1 p2 /\
  (forall i, (i < 9)%nat -> partial_at vol x i (f_jac f 0%nat i)) /\
  (forall i j, (i < 9)%nat -> (j < 9)%nat -> second_at vol x i j (f_hes f i j)).
Proof.
  intros H. destruct (@run_calc _ _ _ _ _ H) as (f1 & ps & v & j & h & H1 & L & N & _ & Ev & ->).
  points3 ps L. cbn [evaluate] in Ev. injection Ev as <- <- <-. exists p0, p1, p2. cbv zeta. cbn [f_pts f_fun f_jac f_hes map].
  split; [gives N|]. split; auto. split; [apply volume_value|].
  pose proof (@volume_jac (flat [p0; p1; p2])) as J. pose proof (@volume_hes (flat [p0; p1; p2])) as K.
  split; [intros i Hi; apply J; auto|intros i k Hi Hk; apply K; auto].
  revert H1. apply run_hes; [intros a b; reflexivity|].
  intros s1 ps v j h m Ev Hm. destruct ps as [|q0 [|q1 [|q2 [|? ?]]]]; try discriminate Ev. cbn [evaluate] in Ev. injection Ev as <- <- <-.
  apply volume_hes_keep; auto.
Qed.
Print Assumptions C71_volume.

(** Calc is defined once the three points are given. *)
Theorem C71_defined s0 ops s f : run KVolume (s0, func0 KVolume) ops = Ok (s, f) ->
  (forall i, (i < 3)%nat -> latest i ops <> None) -> exists s' f', run KVolume (s0, func0 KVolume) (ops ++ [Calc]) = Ok (s', f').
Proof. intros H A. eapply run_calc_defined; eauto. Qed.
Print Assumptions C71_defined.

(** The finite differences of CalcFD give the same Jacobian, whatever the step:
    the volume is affine in every coordinate. *)
Theorem C71_finite_difference s0 ops s f : run KVolume (s0, func0 KVolume) (ops ++ [CalcFD]) = Ok (s, f) ->
  exists s' f', run KVolume (s0, func0 KVolume) (ops ++ [Calc]) = Ok (s', f') /\
  f_pts f = f_pts f' /\ f_fun f = f_fun f' /\ (forall i, (i < 9)%nat -> f_jac f 0%nat i = f_jac f' 0%nat i) /\
  (forall i j, f_hes f i j = f_hes f' i j).
Proof.
  rewrite !run_app. intros H. destruct (run KVolume (s0, func0 KVolume) ops) as [[s1 f1]| | |] eqn:E1; cbn [bind] in H; try discriminate.
  cbn [run step] in H. destruct (calc_fd s1 f1) as [f'| | |] eqn:C; cbn [bind] in H; try discriminate. injection H as <- <-.
  destruct (@calc_fd_inv _ _ _ C) as (f2 & ps & ws & C1 & Ep & Ew & ->).
  exists s1, f2. cbn [bind run step]. rewrite C1. split; auto. cbn [f_pts f_fun f_jac f_hes]. split; auto. split; auto. split; auto.
  destruct (@calc_inv _ _ _ _ C1) as (qs & v & j & h & Ep' & Ev & ->). cbn [f_pts f_fun f_jac] in *.
  assert (qs = ps) as ->.
  { clear - Ep. revert ps Ep. induction qs as [|q r IH]; intros [|p ps] E; cbn in E; try discriminate; auto.
    injection E as -> E. f_equal. auto. }
  destruct ps as [|p0 [|p1 [|p2 [|? ?]]]]; try discriminate Ev. cbn [evaluate] in Ev. injection Ev as <- <- <-.
  cbv -[Volume_f fd_step Rplus Rminus Rdiv] in Ew. injection Ew as <-. intros i Hi.
  assert (Hf : fd_step <> 0) by (unfold fd_step; apply Rinv_neq_0_compat; lra). generalize dependent fd_step. intros st Hf.
  unfold Volume_df, Volume_f. each i ltac:(lit; intros; field; auto).
Qed.
Print Assumptions C71_finite_difference.

(** The sum over a closed surface does not depend on the origin. *)
Theorem C71_closed_surface (P : Type) (pos : P -> vec) (l : list (P * P * P)) t : closed_surface l ->
  fold_right Rplus 0 (map (fun f => let '(a, b, c) := f in Volume_f (translate t (pos a)) (translate t (pos b)) (translate t (pos c))) l)
  = fold_right Rplus 0 (map (fun f => let '(a, b, c) := f in Volume_f (pos a) (pos b) (pos c)) l).
Proof.
  intros C. pose proof (closed_translate pos t C) as E.
  etransitivity; [|etransitivity; [exact E|]]; f_equal; apply map_ext; intros [[a b] c]; rewrite volume_value; reflexivity.
Qed.
Print Assumptions C71_closed_surface.

(** The four faces of a tetrahedron are closed; their sum is its volume. *)
Definition tetrahedron (a b c d : nat) : list (nat * nat * nat) := [(a, b, c); (a, c, d); (a, d, b); (b, d, c)].
Theorem C71_tetrahedron (pos : nat -> vec) a b c d :
  fold_right Rplus 0 (map (fun f => let '(a, b, c) := f in Volume_f (pos a) (pos b) (pos c)) (tetrahedron a b c d))
  = det (vsub (pos b) (pos a)) (vsub (pos c) (pos a)) (vsub (pos d) (pos a)) / 6.
Proof.
  cbn [tetrahedron map fold_right]. rewrite !volume_value. unfold signed_volume, det, vsub. field.
Qed.
Print Assumptions C71_tetrahedron.

Definition v3 (a b c : R) : vec := fun k => match k with 0%nat => a | 1%nat => b | _ => c end.
Example C71_used : exists s f, run KVolume (statics0, func0 KVolume)
    ([AssignOne 2 (v3 0 0 1); Assign [v3 1 0 0; v3 0 1 0; v3 0 0 2]; CalcFD; AssignOne 2 (v3 0 0 1)] ++ [Calc]) = Ok (s, f)
  /\ f_fun f = - (1 / 6).
Proof. eexists. eexists. split; [reflexivity|]. cbn [f_fun]. unfold Volume_f, v3. cbv zeta. field. Qed.
Example C71_tetrahedron_closed : closed_surface (tetrahedron 0 1 2 3).
Proof.
  unfold closed_surface. cbn. apply NoDup_Permutation.
  - repeat constructor; cbn; intuition discriminate.
  - repeat constructor; cbn; intuition discriminate.
  - intros e. cbn. intuition.
Qed.

(** *** C72: areas *)
(** After any history that ends with Calc: the value is the area of the triangle;
    Jacobian and Hessian are those of the area with its square shifted by the
    epsilon last set. *)
Theorem C72_area s0 ops s f : run KArea (s0, func0 KArea) (ops ++ [Calc]) = Ok (s, f) ->
  let eps := surf_eps s0 ops in
  exists p0 p1 p2, let x := flat [p0; p1; p2] in let area := fun x => shifted_area eps (point x 0) (point x 1) (point x 2) in
  (latest 0 ops = Some p0 /\ latest 1 ops = Some p1 /\ latest 2 ops = Some p2) /\
  f_pts f = [Some p0; Some p1; Some p2] /\ f_fun f = triangle_area p0 p1 p2 /\
  (0 < gram p0 p1 p2 + eps ->
     (forall i, (i < 9)%nat -> partial_at area x i (f_jac f 0%nat i)) /\
     (forall i j, (i < 9)%nat -> (j < 9)%nat -> second_at area x i j (f_hes f i j))).
Proof.
  intros H. destruct (@run_calc _ _ _ _ _ H) as (f1 & ps & v & j & h & H1 & L & N & Se & Ev & ->).
  points3 ps L. cbn [evaluate] in Ev. rewrite Se in Ev. injection Ev as <- <- <-. exists p0, p1, p2. cbv zeta. cbn [f_pts f_fun f_jac f_hes map].
  split; [gives N|]. split; auto. split.
  { rewrite area_value. unfold shifted_area, triangle_area. rewrite Rplus_0_r. reflexivity. }
  intros G. assert (G' : 0 < gram3 (surf_eps s0 ops) (flat [p0; p1; p2])) by exact G.
  split; [intros i Hi; apply (@area_jac _ (flat [p0; p1; p2])); auto|intros i k Hi Hk; apply (@area_hes _ (flat [p0; p1; p2])); auto].
Qed.
Print Assumptions C72_area.

(** With a positive epsilon there is no condition: even for three points on a line. *)
Theorem C72_always p0 p1 p2 eps : 0 < eps -> 0 < gram p0 p1 p2 + eps.
Proof. intros H. pose proof (gram_nonneg p0 p1 p2). lra. Qed.
Print Assumptions C72_always.

Lemma area_scaled p0 p1 p2 e J i : 0 < gram p0 p1 p2 -> 0 < e -> (i < 9)%nat ->
  put_all (Area_df p0 p1 p2 e) J 0%nat i * sqrt (gram p0 p1 p2 + e) = put_all (Area_df p0 p1 p2 0) J 0%nat i * sqrt (gram p0 p1 p2 + 0).
Proof.
  intros G He Hi.
  assert (G1 : 0 < gram p0 p1 p2 + e) by lra. assert (G0 : 0 < gram p0 p1 p2 + 0) by lra.
  pose proof (sqrt_lt_R0 _ G1) as S1. pose proof (sqrt_lt_R0 _ G0) as S0. revert S1 S0. clear G G1 G0.
  unfold Area_df.
  each i ltac:(lit; match goal with |- 0 < sqrt ?A -> 0 < sqrt ?B -> _ => intros S1 S0;
     repeat match goal with |- context [sqrt ?C] => first [constr_eq C A; fail 1 | constr_eq C B; fail 1 |
       replace (sqrt C) with (sqrt A) by (f_equal; ring) | replace (sqrt C) with (sqrt B) by (f_equal; ring)] end;
     generalize dependent (sqrt A); generalize dependent (sqrt B) end; intros; field; split; lra).
Qed.

Lemma root_ratio S e : 0 < S -> 0 < e -> Rabs (sqrt S / sqrt (S + e) - 1) <= e / (2 * S).
Proof.
  intros HS He. set (u := sqrt S). set (w := sqrt (S + e)).
  assert (Hu : 0 < u) by (apply sqrt_lt_R0; auto). assert (Hw : 0 < w) by (apply sqrt_lt_R0; lra).
  assert (Eu : u * u = S) by (apply sqrt_sqrt; lra). assert (Ew : w * w = S + e) by (apply sqrt_sqrt; lra).
  assert (L : u < w) by (apply sqrt_lt_1; lra).
  assert (E : u / w - 1 = - ((w - u) / w)) by (field; lra). rewrite E, Rabs_Ropp, Rabs_pos_eq.
  2:{ apply Rlt_le, Rdiv_lt_0_compat; lra. }
  assert (D : (w - u) * (w + u) = e) by nra.
  apply Rmult_le_reg_r with (w * (2 * S)); [nra|].
  replace ((w - u) / w * (w * (2 * S))) with ((w - u) * (2 * S)) by (field; lra).
  replace (e / (2 * S) * (w * (2 * S))) with (e * w) by (field; lra).
  rewrite <- D, <- Eu. assert (0 < w - u) by lra.
  replace ((w - u) * (w + u) * w) with ((w - u) * ((w + u) * w)) by ring.
  apply Rmult_le_compat_l; [lra|]. nra.
Qed.

Lemma partial_ext f g x i d : (forall y, f y = g y) -> partial_at f x i d -> partial_at g x i d.
Proof. unfold partial_at. intros E H. apply is_derive_Reals. apply is_derive_Reals in H. revert H. apply is_derive_ext. intros t. apply E. Qed.

(** How far the Jacobian is from the gradient of the area itself: a relative
    error of eps / (8 area^2) at most. *)
Theorem C72_close s0 ops s f p0 p1 p2 i D : run KArea (s0, func0 KArea) (ops ++ [Calc]) = Ok (s, f) ->
  latest 0 ops = Some p0 -> latest 1 ops = Some p1 -> latest 2 ops = Some p2 ->
  0 < triangle_area p0 p1 p2 -> 0 < surf_eps s0 ops -> (i < 9)%nat ->
  partial_at (fun x => triangle_area (point x 0) (point x 1) (point x 2)) (flat [p0; p1; p2]) i D ->
  Rabs (f_jac f 0%nat i - D) <= Rabs D * (surf_eps s0 ops / (8 * (triangle_area p0 p1 p2 * triangle_area p0 p1 p2))).
Proof.
  intros H A0 A1 A2 P He Hi HD. destruct (@run_calc _ _ _ _ _ H) as (f1 & ps & v & j & h & H1 & L & N & Se & Ev & ->).
  destruct ps as [|q0 [|q1 [|q2 [|? ?]]]]; cbn [length npoints] in L; try discriminate L. cbn [evaluate] in Ev. rewrite Se in Ev. injection Ev as <- <- <-.
  pose proof (N 0%nat ltac:(cbn; lia)) as N0. pose proof (N 1%nat ltac:(cbn; lia)) as N1. pose proof (N 2%nat ltac:(cbn; lia)) as N2.
  cbn [nth_error] in *. rewrite A0 in N0. rewrite A1 in N1. rewrite A2 in N2. injection N0 as ->. injection N1 as ->. injection N2 as ->.
  cbn [f_jac]. clear H H1 N Se. generalize dependent (surf_eps s0 ops). intros e He.
  assert (G : 0 < gram p0 p1 p2).
  { unfold triangle_area in P. destruct (Rlt_le_dec 0 (gram p0 p1 p2)); auto. rewrite sqrt_neg_0 in P; lra. }
  assert (ED : D = put_all (Area_df p0 p1 p2 0) (f_jac f1) 0%nat i).
  { eapply uniqueness_limite; [exact HD|].
    assert (G0 : 0 < gram3 0 (flat [p0; p1; p2])) by (change (0 < gram p0 p1 p2 + 0); lra).
    pose proof (@area_jac 0 (flat [p0; p1; p2]) (f_jac f1) i G0 Hi) as K.
    apply (@partial_ext _ (fun x => triangle_area (point x 0) (point x 1) (point x 2))) in K; [exact K|]. intros y. unfold area3, shifted_area, triangle_area. rewrite Rplus_0_r. reflexivity. }
  pose proof (@area_scaled p0 p1 p2 e (f_jac f1) i G He Hi) as Sc. rewrite <- ED in Sc.
  set (J := put_all (Area_df p0 p1 p2 e) (f_jac f1) 0%nat i) in *. rewrite Rplus_0_r in Sc.
  assert (Hw : 0 < sqrt (gram p0 p1 p2 + e)) by (apply sqrt_lt_R0; lra).
  assert (EJ : J - D = D * (sqrt (gram p0 p1 p2) / sqrt (gram p0 p1 p2 + e) - 1)).
  { replace J with (D * sqrt (gram p0 p1 p2) / sqrt (gram p0 p1 p2 + e)) by (rewrite <- Sc; field; lra). field; lra. }
  rewrite EJ, Rabs_mult. apply Rmult_le_compat_l; [apply Rabs_pos|].
  replace (8 * (triangle_area p0 p1 p2 * triangle_area p0 p1 p2)) with (2 * gram p0 p1 p2).
  { apply root_ratio; auto. }
  unfold triangle_area. replace (sqrt (gram p0 p1 p2) / 2 * (sqrt (gram p0 p1 p2) / 2)) with (sqrt (gram p0 p1 p2) * sqrt (gram p0 p1 p2) / 4) by field.
  rewrite sqrt_sqrt by lra. field.
Qed.
Print Assumptions C72_close.

(** Three points on a line: the Jacobian is zero, although the area has no derivative there. *)
Theorem C72_degenerate s0 ops s f p0 p1 p2 i : run KArea (s0, func0 KArea) (ops ++ [Calc]) = Ok (s, f) ->
  latest 0 ops = Some p0 -> latest 1 ops = Some p1 -> latest 2 ops = Some p2 ->
  triangle_area p0 p1 p2 = 0 -> 0 < surf_eps s0 ops -> (i < 9)%nat -> f_jac f 0%nat i = 0.
Proof.
  intros H A0 A1 A2 P He Hi. destruct (C72_area _ _ H) as (q0 & q1 & q2 & (B0 & B1 & B2) & _ & _ & K).
  rewrite A0 in B0. rewrite A1 in B1. rewrite A2 in B2. injection B0 as <-. injection B1 as <-. injection B2 as <-.
  destruct (K (C72_always p0 p1 p2 He)) as [J _]. specialize (J i Hi). set (e := surf_eps s0 ops) in *. clearbody e. clear K.
  set (x := flat [p0; p1; p2]) in *. set (F := fun t => shifted_area e (point (set_at x i t) 0) (point (set_at x i t) 1) (point (set_at x i t) 2)).
  change (derivable_pt_lim F (x i) (f_jac f 0%nat i)) in J.
  assert (G : gram p0 p1 p2 = 0).
  { unfold triangle_area in P. pose proof (gram_nonneg p0 p1 p2). destruct (Req_dec (gram p0 p1 p2) 0); auto.
    assert (0 < sqrt (gram p0 p1 p2)) by (apply sqrt_lt_R0; lra). lra. }
  assert (E : F (x i) = sqrt e / 2).
  { unfold F, shifted_area. replace (gram _ _ _) with 0; [rewrite Rplus_0_l; reflexivity|]. rewrite <- G.
    change (gram p0 p1 p2) with (gram (point x 0) (point x 1) (point x 2)). unfold gram, vdot, vsub, point.
    assert (Q : forall k, x k = set_at x i (x i) k) by (intros k; unfold set_at; destruct (Nat.eqb_spec k i); subst; auto).
    rewrite !(Q (_ + _)%nat). reflexivity. }
  assert (M : forall t, F (x i) <= F t).
  { intros t. rewrite E. unfold F, shifted_area. apply Rmult_le_compat_r; [lra|]. apply sqrt_le_1_alt.
    pose proof (gram_nonneg (point (set_at x i t) 0) (point (set_at x i t) 1) (point (set_at x i t) 2)). lra. }
  pose proof (@deriv_minimum F (x i - 1) (x i + 1) (x i) (exist _ _ J) ltac:(lra) ltac:(lra) (fun t _ _ => M t)) as Z. exact Z.
Qed.
Print Assumptions C72_degenerate.

(** With the epsilon every program starts with, the Jacobian is not the gradient of the value. *)
Theorem C72_gradient_refuted : exists ops s f p0 p1 p2 i, run KArea (statics0, func0 KArea) (ops ++ [Calc]) = Ok (s, f) /\
  f_pts f = [Some p0; Some p1; Some p2] /\ 0 < triangle_area p0 p1 p2 /\ (i < 9)%nat /\
  ~ partial_at (fun x => triangle_area (point x 0) (point x 1) (point x 2)) (flat [p0; p1; p2]) i (f_jac f 0%nat i).
Proof.
  exists [Assign [v3 0 0 0; v3 1 0 0; v3 0 1 0]]. eexists. eexists. exists (v3 0 0 0), (v3 1 0 0), (v3 0 1 0), 3%nat.
  split; [reflexivity|]. split; [reflexivity|]. 
  assert (G : gram (v3 0 0 0) (v3 1 0 0) (v3 0 1 0) = 1) by (unfold gram, vdot, vsub, v3; ring).
  split; [unfold triangle_area; rewrite G, sqrt_1; lra|]. split; [lia|]. intros K.
  set (p0 := v3 0 0 0) in *. set (p1 := v3 1 0 0) in *. set (p2 := v3 0 1 0) in *. set (e := surf_m statics0) in *.
  assert (He : 0 < e) by (unfold e, statics0; cbn [surf_m]; apply Rinv_0_lt_compat; lra).
  pose proof (@area_scaled p0 p1 p2 e zero_mat 3%nat ltac:(lra) He ltac:(lia)) as Sc.
  assert (ED : put_all (Area_df p0 p1 p2 e) zero_mat 0%nat 3%nat = put_all (Area_df p0 p1 p2 0) zero_mat 0%nat 3%nat).
  { eapply uniqueness_limite; [exact K|].
    assert (G0 : 0 < gram3 0 (flat [p0; p1; p2])) by (change (0 < gram p0 p1 p2 + 0); lra).
    pose proof (@area_jac 0 (flat [p0; p1; p2]) zero_mat 3%nat G0 ltac:(lia)) as Q.
    apply (@partial_ext _ (fun x => triangle_area (point x 0) (point x 1) (point x 2))) in Q; [exact Q|]. intros y. unfold area3, shifted_area, triangle_area. rewrite Rplus_0_r. reflexivity. }
  rewrite ED, G, Rplus_0_r, sqrt_1 in Sc.
  assert (V : put_all (Area_df p0 p1 p2 0) zero_mat 0%nat 3%nat = 1 / 2).
  { unfold Area_df, p0, p1, p2, v3. lit. match goal with |- context [sqrt ?A] => replace A with 1 by ring end. rewrite sqrt_1. field. }
  rewrite V in Sc. assert (1 < sqrt (1 + e)) by (rewrite <- sqrt_1 at 1; apply sqrt_lt_1; lra). lra.
Qed.
Print Assumptions C72_gradient_refuted.

(** *** C73: lengths *)
Theorem C73_length s0 ops s f : run KLength (s0, func0 KLength) (ops ++ [Calc]) = Ok (s, f) ->
  exists p0 p1, let x := flat [p0; p1] in let len := fun x => dist (point x 0) (point x 1) in
  latest 0 ops = Some p0 /\ latest 1 ops = Some p1 /\
  f_pts f = [Some p0; Some p1] /\ f_fun f = dist p0 p1 /\
  (0 < dist p0 p1 ->
     (forall i, (i < 6)%nat -> partial_at len x i (f_jac f 0%nat i)) /\
     (forall i j, (i < 6)%nat -> (j < 6)%nat -> second_at len x i j (f_hes f i j))).
Proof.
  intros H. destruct (@run_calc _ _ _ _ _ H) as (f1 & ps & v & j & h & H1 & L & N & _ & Ev & ->).
  destruct ps as [|p0 [|p1 [|? ?]]]; cbn [length npoints] in L; try discriminate L.
  cbn [evaluate] in Ev. injection Ev as <- <- <-. exists p0, p1. cbv zeta. cbn [f_pts f_fun f_jac f_hes map].
  split; [symmetry; apply (N 0%nat); cbn; lia|]. split; [symmetry; apply (N 1%nat); cbn; lia|]. split; auto. split; [apply length_value|].
  intros P. assert (G : 0 < sq2 (flat [p0; p1])).
  { change (0 < vdot (vsub p0 p1) (vsub p0 p1)). unfold dist in P. destruct (Rlt_le_dec 0 (vdot (vsub p0 p1) (vsub p0 p1))); auto. rewrite sqrt_neg_0 in P; lra. }
  split; [intros i Hi; apply (@length_jac (flat [p0; p1])); auto|intros i k Hi Hk; apply (@length_hes (flat [p0; p1])); auto].
Qed.
Print Assumptions C73_length.

Example C73_used : exists s f, run KLength (statics0, func0 KLength)
    ([AssignOne 1 (v3 0 0 1); Assign [v3 1 0 0; v3 1 4 3]] ++ [Calc]) = Ok (s, f) /\ f_fun f = 5 /\ 0 < dist (v3 1 0 0) (v3 1 4 3).
Proof.
  assert (E : dist (v3 1 0 0) (v3 1 4 3) = 5).
  { unfold dist, vdot, vsub, v3. replace (_ + _ + _) with (5 * 5) by ring. apply sqrt_square. lra. }
  eexists. eexists. split; [reflexivity|]. split; [exact E|]. rewrite E. lra.
Qed.

(** *** C74: volumes over points that slide along edges *)
Theorem C74_volume s0 ops s f : run KVolume2 (s0, func0 KVolume2) (ops ++ [Calc]) = Ok (s, f) ->
  exists d g0 g1 g2 h0 h1 h2,
  let vol := fun x => signed_volume (along g0 h0 (x 0%nat)) (along g1 h1 (x 1%nat)) (along g2 h2 (x 2%nat)) in
  (forall i, (i < 7)%nat -> latest i ops = nth_error [d; g0; g1; g2; h0; h1; h2] i) /\
  f_pts f = map Some [d; g0; g1; g2; h0; h1; h2] /\ f_fun f = vol d /\
  (forall i, (i < 3)%nat -> partial_at vol d i (f_jac f 0%nat i)) /\
  (forall i j, (i < 3)%nat -> (j < 3)%nat -> second_at vol d i j (f_hes f i j)).
Proof.
  intros H. destruct (@run_calc _ _ _ _ _ H) as (f1 & ps & v & j & h & H1 & L & N & _ & Ev & ->).
  destruct ps as [|d [|g0 [|g1 [|g2 [|h0 [|h1 [|h2 [|? ?]]]]]]]]; cbn [length npoints] in L; try discriminate L.
  cbn [evaluate] in Ev. injection Ev as <- <- <-. exists d, g0, g1, g2, h0, h1, h2. cbv zeta. cbn [f_pts f_fun f_jac f_hes map].
  split; [intros i Hi; symmetry; apply N; auto|]. split; auto. split; [apply volume2_value|].
  split; [intros i Hi; apply volume2_jac; auto|intros i k Hi Hk; apply volume2_hes; auto].
  revert H1. apply run_hes; [split; reflexivity|].
  intros s1 ps v j h m Ev Hm. destruct ps as [|q0 [|q1 [|q2 [|q3 [|q4 [|q5 [|q6 [|? ?]]]]]]]]; try discriminate Ev. cbn [evaluate] in Ev. injection Ev as <- <- <-.
  apply volume2_hes_keep; auto.
Qed.
Print Assumptions C74_volume.

Example C74_used : exists s f, run KVolume2 (statics0, func0 KVolume2)
    ([Assign [v3 1 1 1; v3 0 0 0; v3 0 0 0; v3 0 0 0; v3 1 0 0; v3 0 1 0; v3 0 0 1]; Calc; AssignOne 0 (v3 (1 / 2) 1 1)] ++ [Calc]) = Ok (s, f)
  /\ f_fun f = - (1 / 12).
Proof. eexists. eexists. split; [reflexivity|]. cbn [f_fun]. unfold Volume2_f, v3. cbv zeta. field. Qed.
Example C72_used : exists s f, run KArea (statics0, func0 KArea)
    ([Assign [v3 1 1 1; v3 2 1 1; v3 1 3 1]; SetEpsilons (mkEps (1 / 2) 0 0)] ++ [Calc]) = Ok (s, f)
  /\ f_fun f = 1 /\ surf_eps statics0 [Assign [v3 1 1 1; v3 2 1 1; v3 1 3 1]; SetEpsilons (mkEps (1 / 2) 0 0)] = 1 / 2.
Proof.
  eexists. eexists. split; [reflexivity|]. split; [|reflexivity]. cbn [f_fun]. rewrite area_value. unfold shifted_area, gram, vdot, vsub, v3.
  match goal with |- sqrt ?A / 2 = 1 => replace A with (2 * 2) by ring end. rewrite sqrt_square; lra.
Qed.
