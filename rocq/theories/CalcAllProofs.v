(** The optimisation problem put together from all the triangles. *)
From Coq Require Import Reals List Lia Lra ZArith Sorted.
From Coquelicot Require Import Coquelicot.
From Verif Require Import Base RsvsMath SpecRsvs SpecCentre Calc SpecCalc RsvsProofs RsvsAreaProofs RsvsCentreProofs CalcProofs CalcTriProofs CalcChain CalcCentre CalcPlaceProofs CalcRateProofs CalcSumProofs CalcHesProofs.
Import ListNotations.
Set Implicit Arguments.
Open Scope R_scope.

(** *** Rates *)
Lemma rate_plus f g d i x y : rate f d i x -> rate g d i y -> rate (fun d => f d + g d) d i (x + y).
Proof. unfold rate. intros. apply (derivable_pt_lim_plus (fun t => f (slide d i t)) (fun t => g (slide d i t))); auto. Qed.
Lemma rate_scale f d i x a : rate f d i x -> rate (fun d => a * f d) d i (a * x).
Proof. unfold rate. intros. apply (derivable_pt_lim_scal (fun t => f (slide d i t))); auto. Qed.
Lemma rate_const (a : R) d i : rate (fun _ => a) d i 0.
Proof. apply derivable_pt_lim_const. Qed.
Lemma rate_ext f g d i x : (forall d, f d = g d) -> rate f d i x -> rate g d i x.
Proof. unfold rate. intros E H. apply is_derive_Reals. apply is_derive_Reals in H. eapply is_derive_ext; [|exact H]. intros; apply E. Qed.
Lemma rate2_plus f g d i j x y : rate2 f d i j x -> rate2 g d i j y -> rate2 (fun d => f d + g d) d i j (x + y).
Proof.
  intros (u & U1 & U2) (v & V1 & V2). exists (fun t => u t + v t). split; [intros; apply rate_plus; auto|].
  apply (derivable_pt_lim_plus u v); auto.
Qed.
Lemma rate2_scale f d i j x a : rate2 f d i j x -> rate2 (fun d => a * f d) d i j (a * x).
Proof. intros (u & U1 & U2). exists (fun t => a * u t). split; [intros; apply rate_scale; auto|]. apply (derivable_pt_lim_scal u); auto. Qed.
Lemma rate2_const (a : R) d i j : rate2 (fun _ => a) d i j 0.
Proof. exists (fun _ => 0). split; [intros; apply rate_const|]. apply derivable_pt_lim_const. Qed.
Lemma rate2_ext f g d i j x : (forall d, f d = g d) -> rate2 f d i j x -> rate2 g d i j x.
Proof. intros E (u & U1 & U2). exists u. split; auto. intros t. eapply rate_ext; eauto. Qed.
Lemma rate2_sum n (f : nat -> (Z -> R) -> R) (x : nat -> R) d i j : (forall k, (k < n)%nat -> rate2 (f k) d i j (x k)) ->
  rate2 (fun d => sum_to n (fun k => f k d)) d i j (sum_to n x).
Proof.
  induction n; intros H; [exact (rate2_const 0 d i j)|]. rewrite sum_to_S.
  eapply rate2_ext; [intros d'; symmetry; apply (sum_to_S n)|]. cbv beta. apply rate2_plus; [apply IHn; intros; apply H; lia|apply H; lia].
Qed.

Lemma slack_cut c x : Rabs (cut (keeps c) x - x) <= slack c.
Proof.
  unfold cut, keeps, slack. destruct (full_math c); [rewrite Rminus_eq_0, Rabs_R0; lra|]. unfold is_zero, dbl_epsilon.
  destruct (Rlt_dec (Rabs x) _) as [L|L]; cbn [negb]; [rewrite Rminus_0_l, Rabs_Ropp; lra|rewrite Rminus_eq_0, Rabs_R0; lra].
Qed.
Lemma slack_pos c : 0 <= slack c.
Proof. unfold slack, dbl_epsilon. destruct (full_math c); lra. Qed.
Lemma frame_slack c c' : frame c c' -> slack c' = slack c.
Proof. intros F. unfold slack. rewrite (frame_full F). reflexivity. Qed.
Lemma total_cons A (f : A -> R) a l : total f (a :: l) = f a + total f l. Proof. reflexivity. Qed.

(** *** One loop *)
Section Loop.
Variables (st : statics) (e : tri_env) (d : Z -> R) (fd o dv : bool).
Hypotheses (Hp : placed e d) (H1 : 0 <= centre_a st) (H2 : 0 <= centre2_a st).
Notation loop := (calc_triangles (calc_triangle st e fd o true dv)).

Lemma loop_frame l c c' : loop l c = Ok c' -> frame c c'.
Proof.
  revert c. induction l as [|t l IH]; cbn [calc_triangles]; intros c H; [injection H as <-; apply frame_refl|].
  destruct (calc_triangle st e fd o true dv t c) as [c1| | |] eqn:E; cbn [bind] in H; try discriminate.
  destruct (@calc_triangle_inv st e fd o true dv t c c1 E) as (a & b & dd & act & dpos & hpos & qs & _ & F & _).
  eapply frame_trans; eauto.
Qed.
Lemma loop_values l c c' : loop l c = Ok c' ->
  (forall k, constr c' k = constr c k + total (fun t => weight (constrMap c) t k * tri_volume e d t) l) /\
  obj c' = obj c + (if o then total (tri_area 0 e d) l else 0).
Proof.
  revert c. induction l as [|t l IH]; cbn [calc_triangles]; intros c H; [injection H as <-; unfold total; cbn; split; [intros; ring|destruct o; ring]|].
  destruct (calc_triangle st e fd o true dv t c) as [c1| | |] eqn:E; cbn [bind] in H; try discriminate.
  destruct (@calc_triangle_inv st e fd o true dv t c c1 E) as (a & b & dd & act & dpos & hpos & qs & T & F & C & _ & _ & O & _).
  destruct (@tri_value st e d c t a b dd act dpos hpos qs T Hp) as [V A]. destruct (IH _ H) as [C' O'].
  assert (Em : constrMap c1 = constrMap c) by apply F. split.
  - intros k. rewrite C', C, total_cons, V, Em. ring.
  - rewrite O', O, A. destruct o; rewrite ?total_cons; ring.
Qed.
Lemma loop_gradient l c c' i q k : loop l c = Ok c' -> dv = true -> (forall t, In t l -> smooth_tri e d (useCentre c) t) -> index_of i (dvMap c) = Some q ->
  exists x, rate (fun d => total (fun t => weight (constrMap c) t k * tri_volume e d t) l) d i x /\
  Rabs (dConstr c' k q - dConstr c k q - x) <= total (fun t => Rabs (weight (constrMap c) t k) * (volume_error st e d i t + slack c)) l.
Proof.
  intros H Hdv. revert c H. induction l as [|t l IH]; cbn [calc_triangles]; intros c H Hs Hi.
  - injection H as <-. exists 0. split; [exact (rate_const 0 d i)|]. rewrite Rminus_eq_0, Rminus_0_r, Rabs_R0. unfold total; cbn; lra.
  - destruct (calc_triangle st e fd o true dv t c) as [c1| | |] eqn:E; cbn [bind] in H; try discriminate.
    destruct (@calc_triangle_inv st e fd o true dv t c c1 E) as (a & b & dd & act & dpos & hpos & qs & T & F & _ & D & _).
    assert (Em : constrMap c1 = constrMap c) by apply F. assert (Ed : dvMap c1 = dvMap c) by apply F. assert (Eu : useCentre c1 = useCentre c) by apply F.
    destruct (IH _ H) as (x2 & R2 & B2); [intros; rewrite Eu; apply Hs; right; auto|rewrite Ed; auto|].
    rewrite (frame_slack F), Em in B2. rewrite Em in R2.
    destruct (@volume_rate st e d c t a b dd act dpos hpos qs T Hp i q (Hs _ (or_introl eq_refl)) H1 H2 Hi) as (x1 & R1 & B1).
    exists (weight (constrMap c) t k * x1 + x2). split.
    + eapply rate_ext; [intros d'; symmetry; apply total_cons|]. cbv beta. apply rate_plus; auto. apply rate_scale. auto.
    + rewrite total_cons. pose proof (D k q) as Dk. rewrite Hdv in Dk. cbn [andb] in Dk.
      specialize (B1 (keeps c) (slack c) (slack_cut c)). set (Y := dsum _ _ _) in *. set (w := weight (constrMap c) t k) in *.
      replace (dConstr c' k q - dConstr c k q - (w * x1 + x2)) with ((dConstr c' k q - dConstr c1 k q - x2) + w * (Y - x1)) by (rewrite Dk; ring).
      eapply Rle_trans; [apply Rabs_triang|]. rewrite Rplus_comm. apply Rplus_le_compat; auto. rewrite Rabs_mult. apply Rmult_le_compat_l; auto. apply Rabs_pos.
Qed.
Lemma loop_area_gradient l c c' i q : loop l c = Ok c' -> dv = true -> o = true -> 0 < surf_m st -> (forall t, In t l -> smooth_tri e d (useCentre c) t) -> index_of i (dvMap c) = Some q ->
  exists x, rate (fun d => total (tri_area (surf_m st) e d) l) d i x /\ Rabs (dObj c' q - dObj c q - x) <= total (area_error st e d i) l.
Proof.
  intros H Hdv Ho He. revert c H. induction l as [|t l IH]; cbn [calc_triangles]; intros c H Hs Hi.
  - injection H as <-. exists 0. split; [exact (rate_const 0 d i)|]. rewrite Rminus_eq_0, Rminus_0_r, Rabs_R0. unfold total; cbn; lra.
  - destruct (calc_triangle st e fd o true dv t c) as [c1| | |] eqn:E; cbn [bind] in H; try discriminate.
    destruct (@calc_triangle_inv st e fd o true dv t c c1 E) as (a & b & dd & act & dpos & hpos & qs & T & F & _ & _ & _ & _ & D & _).
    assert (Ed : dvMap c1 = dvMap c) by apply F. assert (Eu : useCentre c1 = useCentre c) by apply F.
    destruct (IH _ H) as (x2 & R2 & B2); [intros; rewrite Eu; apply Hs; right; auto|rewrite Ed; auto|].
    destruct (@area_rate st e d c t a b dd act dpos hpos qs T Hp i q (Hs _ (or_introl eq_refl)) H1 H2 Hi (surf_m st) He) as (x1 & R1 & B1).
    exists (x1 + x2). split.
    + eapply rate_ext; [intros d'; symmetry; apply total_cons|]. cbv beta. apply rate_plus; auto.
    + rewrite total_cons. pose proof (D q) as Dk. rewrite Hdv, Ho in Dk. cbn [andb] in Dk. set (Y := dsum _ _ _) in *.
      replace (dObj c' q - dObj c q - (x1 + x2)) with ((dObj c' q - dObj c1 q - x2) + (Y - x1)) by (rewrite Dk; ring).
      eapply Rle_trans; [apply Rabs_triang|]. rewrite Rplus_comm. apply Rplus_le_compat; auto.
Qed.
Lemma loop_hessian l c c' i j x y : loop l c = Ok c' -> dv = true -> (forall t, In t l -> no_centre e t) -> index_of i (dvMap c) = Some x -> index_of j (dvMap c) = Some y ->
  exists h, rate2 (fun d => sum_to (nConstr c) (fun k => lagMult c k * total (fun t => weight (constrMap c) t k * tri_volume e d t) l)) d i j h /\
  Rabs (HConstr c' x y - HConstr c x y - h) <= total (fun t => sum_to (nConstr c) (fun k => Rabs (weight (constrMap c) t k)) * slack c) l.
Proof.
  intros H Hdv. revert c H. induction l as [|t l IH]; cbn [calc_triangles]; intros c H Hs Hi Hj.
  - injection H as <-. exists 0. split.
    + apply rate2_ext with (f := fun _ => 0); [|apply rate2_const]. intros d'. symmetry.
      rewrite (@sum_to_ext (nConstr c) _ (fun _ => 0 * 0)) by (intros; unfold total; cbn; ring). rewrite (sum_to_scale (nConstr c) (fun _ => 0) 0). ring.
    + rewrite Rminus_eq_0, Rminus_0_r, Rabs_R0. unfold total; cbn; lra.
  - destruct (calc_triangle st e fd o true dv t c) as [c1| | |] eqn:E; cbn [bind] in H; try discriminate.
    destruct (@calc_triangle_inv st e fd o true dv t c c1 E) as (a & b & dd & act & dpos & hpos & qs & T & F & _ & _ & D & _).
    assert (Em : constrMap c1 = constrMap c) by apply F. assert (Ed : dvMap c1 = dvMap c) by apply F.
    assert (En : nConstr c1 = nConstr c) by apply F. assert (El : lagMult c1 = lagMult c) by apply F.
    destruct (IH _ H) as (x2 & R2 & B2); [intros; apply Hs; right; auto|rewrite Ed; auto|rewrite Ed; auto|].
    rewrite (frame_slack F), Em, En in B2. rewrite Em, En, El in R2.
    destruct (@volume_rate2 st e d c t a b dd act dpos hpos qs i j x y T Hp (Hs _ (or_introl eq_refl)) H1 H2 Hi Hj) as (h & R1 & B1).
    exists (sum_to (nConstr c) (fun k => lagMult c k * (weight (constrMap c) t k * h)) + x2). split.
    + apply rate2_ext with (f := fun d => sum_to (nConstr c) (fun k => lagMult c k * (weight (constrMap c) t k * tri_volume e d t))
         + sum_to (nConstr c) (fun k => lagMult c k * total (fun t => weight (constrMap c) t k * tri_volume e d t) l)).
      * intros d'. rewrite <- sum_to_plus. apply sum_to_ext. intros k Lk. rewrite total_cons. ring.
      * apply rate2_plus; auto.
        apply (@rate2_sum (nConstr c) (fun k d => lagMult c k * (weight (constrMap c) t k * tri_volume e d t)) (fun k => lagMult c k * (weight (constrMap c) t k * h))).
        intros k Lk. apply rate2_scale, rate2_scale. auto.
    + rewrite total_cons. pose proof (D x y) as Dk. rewrite Hdv in Dk. cbn [andb] in Dk. set (Y := sum_to (nConstr c) _) in Dk.
      replace (HConstr c' x y - HConstr c x y - (sum_to (nConstr c) (fun k => lagMult c k * (weight (constrMap c) t k * h)) + x2))
        with ((HConstr c' x y - HConstr c1 x y - x2) + (Y - sum_to (nConstr c) (fun k => lagMult c k * (weight (constrMap c) t k * h)))) by (rewrite Dk; ring).
      eapply Rle_trans; [apply Rabs_triang|]. rewrite Rplus_comm. apply Rplus_le_compat; auto.
      unfold Y. rewrite sum_to_minus. eapply Rle_trans; [apply sum_to_abs|].
      rewrite (Rmult_comm _ (slack c)), <- sum_to_scale. apply sum_to_le. intros k Lk.
      specialize (B1 (keeps c) (slack c) (lagMult c k) (slack_cut c)).
      match goal with |- Rabs (?w * ?p - ?l * (?w * h)) <= _ => replace (w * p - l * (w * h)) with (w * (p - h * l)) by ring end.
      rewrite Rabs_mult, (Rmult_comm (slack c)). apply Rmult_le_compat_l; auto. apply Rabs_pos.
Qed.
Definition obj_slack (c : Calc.calc) : R := if fd then 0 else slack c.
Lemma obj_slack_cut c z : Rabs (cut (keeps_obj fd c) z - z) <= obj_slack c.
Proof.
  unfold obj_slack, keeps_obj. destruct fd; [rewrite Bool.orb_true_r; unfold cut; rewrite Rminus_eq_0, Rabs_R0; lra|].
  rewrite Bool.orb_false_r. apply slack_cut.
Qed.
Lemma loop_area_hessian l c c' i j x y : loop l c = Ok c' -> dv = true -> o = true -> 0 < surf_m st -> (forall t, In t l -> no_centre e t) -> index_of i (dvMap c) = Some x -> index_of j (dvMap c) = Some y ->
  exists h, rate2 (fun d => total (tri_area (surf_m st) e d) l) d i j h /\
  Rabs (HObj c' x y - HObj c x y - h) <= total (fun _ => slack c) l.
Proof.
  intros H Hdv Ho He. revert c H. induction l as [|t l IH]; cbn [calc_triangles]; intros c H Hs Hi Hj.
  - injection H as <-. exists 0. split; [exact (rate2_const 0 d i j)|]. rewrite Rminus_eq_0, Rminus_0_r, Rabs_R0. unfold total; cbn; lra.
  - destruct (calc_triangle st e fd o true dv t c) as [c1| | |] eqn:E; cbn [bind] in H; try discriminate.
    destruct (@calc_triangle_inv st e fd o true dv t c c1 E) as (a & b & dd & act & dpos & hpos & qs & T & F & _ & _ & _ & _ & _ & D & _).
    assert (Ed : dvMap c1 = dvMap c) by apply F.
    destruct (IH _ H) as (x2 & R2 & B2); [intros; apply Hs; right; auto|rewrite Ed; auto|rewrite Ed; auto|]. rewrite (frame_slack F) in B2.
    destruct (@area_rate2 st e d c t a b dd act dpos hpos qs i j x y T Hp (Hs _ (or_introl eq_refl)) H1 H2 Hi Hj (surf_m st) He) as (h & R1 & B1).
    exists (h + x2). split.
    + eapply rate2_ext; [intros d'; symmetry; apply total_cons|]. cbv beta. apply rate2_plus; auto.
    + rewrite total_cons. pose proof (D x y) as Dk. rewrite Hdv, Ho in Dk. cbn [andb] in Dk. specialize (B1 (keeps_obj fd c) (obj_slack c) (obj_slack_cut c)).
      set (Y := pair_total _ _ _ _) in *.
      replace (HObj c' x y - HObj c x y - (h + x2)) with ((HObj c' x y - HObj c1 x y - x2) + (Y - h)) by (rewrite Dk; ring).
      eapply Rle_trans; [apply Rabs_triang|]. rewrite Rplus_comm. apply Rplus_le_compat; auto. eapply Rle_trans; [exact B1|].
      unfold obj_slack. destruct fd; [apply slack_pos|lra].
Qed.
(** What a loop without derivatives, or without objective, leaves. *)
Lemma loop_keeps l c c' : loop l c = Ok c' ->
  (dv = false -> (forall k q, dConstr c' k q = dConstr c k q) /\ (forall x y, HConstr c' x y = HConstr c x y)) /\
  (dv = false \/ o = false -> (forall q, dObj c' q = dObj c q) /\ (forall x y, HObj c' x y = HObj c x y)).
Proof.
  revert c. induction l as [|t l IH]; cbn [calc_triangles]; intros c H; [injection H as <-; auto|].
  destruct (calc_triangle st e fd o true dv t c) as [c1| | |] eqn:E; cbn [bind] in H; try discriminate.
  destruct (@calc_triangle_inv st e fd o true dv t c c1 E) as (a & b & dd & act & dpos & hpos & qs & _ & _ & _ & D1 & D2 & _ & D3 & D4 & _).
  destruct (IH _ H) as [A B]. split.
  - intros Hd. destruct (A Hd) as [A1 A2]. rewrite Hd in *. cbn [andb] in *. split; intros; [rewrite A1, D1|rewrite A2, D2]; ring.
  - intros Hd. destruct (B Hd) as [B1 B2]. assert (Ef : (o && dv)%bool = false) by (destruct Hd as [-> | ->]; [apply Bool.andb_false_r|reflexivity]).
    rewrite Ef in *. split; intros; [rewrite B1, D3|rewrite B2, D4]; ring.
Qed.
Lemma loop_known l c c' t : loop l c = Ok c' -> In t l -> forall j, (j < 3)%nat -> known (nth_pt t j).
Proof.
  revert c. induction l as [|t' l IH]; cbn [calc_triangles]; intros c H Ht; [destruct Ht|].
  destruct (calc_triangle st e fd o true dv t' c) as [c1| | |] eqn:E; cbn [bind] in H; try discriminate.
  destruct (@calc_triangle_inv st e fd o true dv t' c c1 E) as (a & b & dd & act & dpos & hpos & qs & T & _).
  destruct Ht as [<-|Ht]; [|eauto]. intros j Lj. eapply tri_known; eauto.
Qed.
End Loop.

(** A triangle of the mesh does not move. *)
Lemma fixed_rate st e d fd o dv l c c' (w : triangle -> R) i : placed e d ->
  calc_triangles (calc_triangle st e fd o true dv) l c = Ok c' -> (forall t, In t l -> fixed e t) ->
  rate (fun d => total (fun t => w t * tri_volume e d t) l) d i 0 /\ (forall j, rate2 (fun d => total (fun t => w t * tri_volume e d t) l) d i j 0).
Proof.
  intros Hp H Hf. pose proof (@loop_known st e d fd o dv Hp l c c') as K.
  assert (Q : forall d1 d2, total (fun t => w t * tri_volume e d1 t) l = total (fun t => w t * tri_volume e d2 t) l).
  { intros d1 d2. apply total_ext. intros t Ht. f_equal. destruct (Hf _ Ht) as [P N].
    assert (X : forall j, (j < 3)%nat -> place e d1 (nth_pt t j) = place e d2 (nth_pt t j)).
    { intros j Lj. pose proof (K _ H Ht _ Lj) as Kn. unfold place. unfold nth_pt in *.
      destruct (Z.eqb_spec (fst (nth j (tri_pts t) (t_mesh, 0%Z))) t_tri) as [Tt|Tt].
      - destruct (nth_in_or_default j (tri_pts t) (t_mesh, 0%Z)) as [I|I]; [|rewrite I in Tt; discriminate]. rewrite (P _ I Tt). reflexivity.
      - unfold corner_at. destruct (nth_in_or_default j (tri_pts t) (t_mesh, 0%Z)) as [I|I]; [|rewrite I; reflexivity].
        pose proof (N _ I). destruct Kn as [Kn|[Kn|Kn]]; [|contradiction|contradiction]. rewrite Kn. reflexivity. }
    unfold tri_volume. rewrite !X by lia. reflexivity. }
  split.
  - eapply rate_ext; [intros d'; apply (Q d d')|]. apply rate_const.
  - intros j. eapply rate2_ext; [intros d'; apply (Q d d')|]. apply rate2_const.
Qed.

(** *** The whole calculation *)
Lemma active_static_is e l : active_static e = Ok l -> l = map (static_tri e) (acttri e).
Proof.
  unfold active_static. generalize (acttri e) as a. intros a. revert l. induction a as [|i a IH]; cbn [concat_all]; intros l H; [injection H as <-; auto|].
  destruct (lookup i (map (fun t => (tri_index t, t)) (stattri e))) as [t| | |] eqn:E; cbn [bind] in H; try discriminate.
  match type of H with bind ?o _ = _ => destruct o as [r| | |] eqn:Er; cbn [bind] in H; try discriminate end. injection H as <-.
  cbn [map app]. f_equal; auto. unfold static_tri. clear - E. induction (stattri e) as [|s r IH]; cbn in *; [discriminate|].
  destruct (Z.eqb (tri_index s) i); auto. injection E as ->. auto.
Qed.
Lemma calc_all_inv st e method c c' : calc_all st e method c = Ok c' -> (method =? 2)%Z = false -> let fd := (method =? 1)%Z in
  exists c1 c2, calc_triangles (calc_triangle st e fd true true true) (dynatri e) c = Ok c1 /\
  calc_triangles (calc_triangle st e fd false true true) (intertri e) c1 = Ok c2 /\
  calc_triangles (calc_triangle st e fd false true false) (map (static_tri e) (acttri e)) c2 = Ok c'.
Proof.
  intros H M fd. unfold calc_all in H. rewrite M in H. unfold fd. destruct (method =? 1)%Z;
  (match type of H with bind ?o _ = _ => destruct o as [c1| | |] eqn:E1; cbn [bind] in H; try discriminate end;
   match type of H with bind ?o _ = _ => destruct o as [c2| | |] eqn:E2; cbn [bind] in H; try discriminate end;
   destruct (active_static e) as [l| | |] eqn:El; cbn [bind] in H; try discriminate;
   rewrite (active_static_is _ El) in H; eauto 6).
Qed.
(** The state the loops start from. *)
Lemma prep_inv e conn m targ n c c0 : prep e conn m targ n c = Ok c0 -> exists l, pick_dvs e conn = Ok l /\ dvMap c0 = sort_unique l /\ nDv c0 = length (dvMap c0) /\
  constrMap c0 = m /\ nConstr c0 = n /\ useCentre c0 = useCentre c /\ useHessian c0 = useHessian c /\ constrTarg c0 = targ /\ obj c0 = 0 /\
  (forall k, constr c0 k = 0) /\ (forall q, dObj c0 q = 0) /\ (forall k q, dConstr c0 k q = 0) /\ (forall x y, HConstr c0 x y = 0) /\ (forall x y, HObj c0 x y = 0) /\
  (forall q, dvAct c0 q = false) /\ (forall q, constrAct c0 q = false) /\ (forall q, deltaDV c0 q = 0).
Proof.
  unfold prep. intros H. destruct (pick_dvs e conn) as [l| | |]; cbn [bind] in H; try discriminate. injection H as <-. exists l. cbn. repeat split.
Qed.
