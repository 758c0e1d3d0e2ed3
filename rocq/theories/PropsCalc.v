(** Theorems about the optimisation problem assembled from the triangles (C78-C82). *)
From Coq Require Import Reals List Lia Lra ZArith Sorted.
From Coquelicot Require Import Coquelicot.
From Verif Require Import Base RsvsMath SpecRsvs SpecCentre Calc SpecCalc RsvsCentreProofs CalcProofs CalcTriProofs CalcChain CalcCentre CalcPlaceProofs CalcRateProofs CalcSumProofs CalcHesProofs CalcAllProofs CalcActProofs CalcDefProofs.
Import ListNotations.
Set Implicit Arguments.
Open Scope R_scope.

(** *** C78: the variables *)
Lemma free_neighbour_is e edges b : has_free_neighbour e edges = Ok b -> b = true <-> exists u v, In (u, v) edges /\ (is_free e u \/ is_free e v).
Proof.
  unfold has_free_neighbour. induction edges as [|[u v] r IH]; intros H.
  - injection H as <-. split; [discriminate|intros (? & ? & [] & _)].
  - destruct (lookup_snax u (snaxs e)) as [x| | |] eqn:Ex; cbn [bind] in H; try discriminate.
    destruct (lookup_snax v (snaxs e)) as [y| | |] eqn:Ey; cbn [bind] in H; try discriminate.
    assert (Fx : snax_of e u = x) by (unfold snax_of; rewrite (lookup_snax_Ok _ _ Ex); auto).
    assert (Fy : snax_of e v = y) by (unfold snax_of; rewrite (lookup_snax_Ok _ _ Ey); auto).
    destruct (x_freeze x && x_freeze y)%bool eqn:B.
    + apply andb_prop in B. destruct B as [Bx By]. rewrite (IH H). split.
      * intros (p & q & I & F). exists p, q. split; [right; auto|auto].
      * intros (p & q & [I|I] & F); [|exists p, q; auto]. injection I as <- <-. unfold is_free in F. rewrite Fx, Fy in F. destruct F; congruence.
    + injection H as <-. split; auto. intros _. exists u, v. split; [left; auto|]. unfold is_free. rewrite Fx, Fy.
      apply Bool.andb_false_iff in B. auto.
Qed.
Lemma nth_combine_seq A (l : list A) ix : In ix (combine (seq 0 (length l)) l) <-> nth_error l (fst ix) = Some (snd ix).
Proof.
  assert (Q : forall b, In ix (combine (seq b (length l)) l) <-> (b <= fst ix)%nat /\ nth_error l (fst ix - b) = Some (snd ix)).
  { induction l as [|a r IH]; intros b; cbn [length seq combine].
    - split; [intros []|]. intros [_ K]. destruct (fst ix - b)%nat; discriminate.
    - split.
      + intros [<-|K]; cbn [fst snd]; [rewrite Nat.sub_diag; auto|]. apply IH in K. destruct K as [L K]. split; [lia|].
        replace (fst ix - b)%nat with (S (fst ix - S b)) by lia. auto.
      + intros [L K]. destruct (Nat.eq_dec (fst ix) b) as [Eb|N].
        * rewrite Eb, Nat.sub_diag in K. injection K as ->. left. destruct ix; cbn in *; congruence.
        * right. apply IH. split; [lia|]. replace (fst ix - b)%nat with (S (fst ix - S b)) in K by lia. auto. }
  rewrite Q, Nat.sub_0_r. split; [tauto|intros; split; [lia|auto]].
Qed.
(** The variables are the free snaxels and those next to a free one; each has one
    position, in increasing order of the indices. *)
Theorem C78_variables e conn m targ n c c' : prep e conn m targ n c = Ok c' ->
  (forall i, In i (dvMap c') <-> wanted e conn i) /\ StronglySorted Z.lt (dvMap c') /\ nDv c' = length (dvMap c').
Proof.
  intros H. destruct (@prep_inv _ _ _ _ _ _ _ H) as (l & Hl & Ed & En & _). rewrite En, Ed. clear H En Ed c'. split; [|split; auto].
  - intros i. rewrite sort_unique_in. unfold pick_dvs in Hl. destruct (concat_all_Ok _ _ Hl) as [I J]. rewrite I. unfold wanted. split.
    + intros ([p x] & r & Ip & Er & Ir). cbn [fst snd] in Er. apply nth_combine_seq in Ip. cbn [fst snd] in Ip. exists p, x. split; auto.
      destruct (x_freeze x) eqn:Fx; cbn [negb] in Er.
      * destruct (at_ conn (Z.of_nat p)) as [edges| | |] eqn:Ea; cbn [bind] in Er; try discriminate.
        destruct (has_free_neighbour e edges) as [b| | |] eqn:Eb; cbn [bind] in Er; try discriminate. injection Er as <-.
        destruct b; [|destruct Ir]. destruct Ir as [<-|[]]. split; auto. right. apply (free_neighbour_is e) in Eb. destruct (proj1 Eb eq_refl) as (u & v & Iu & F).
        exists edges, u, v. split; auto. unfold at_ in Ea. destruct (Z.of_nat p <? 0)%Z; [discriminate|]. rewrite Nat2Z.id in Ea. destruct (nth_error conn p); [injection Ea as <-; auto|discriminate].
      * injection Er as <-. destruct Ir as [<-|[]]. auto.
    + intros (p & x & Ip & <- & F). assert (Ip' : In (p, x) (combine (seq 0 (length (snaxs e))) (snaxs e))) by (apply nth_combine_seq; auto).
      destruct (J _ Ip') as (r & Er). exists (p, x), r. split; auto. split; auto. cbn [fst snd] in Er. destruct (x_freeze x) eqn:Fx; cbn [negb] in Er.
      * destruct F as [F|(edges & u & v & Ec & Iu & F)]; [discriminate|]. unfold at_ in Er. destruct (Z.ltb_spec (Z.of_nat p) 0); [lia|]. rewrite Nat2Z.id, Ec in Er. cbn [bind] in Er.
        destruct (has_free_neighbour e edges) as [b| | |] eqn:Eb; cbn [bind] in Er; try discriminate. injection Er as <-.
        apply (free_neighbour_is e) in Eb. rewrite (proj2 Eb); [left; auto|eauto].
      * injection Er as <-. left. auto.
  - pose proof (sort_unique_inc l) as K. induction K; constructor; auto. apply Forall_forall. auto.
Qed.
Print Assumptions C78_variables.

(** Nothing is left of an earlier calculation but the multipliers, and those only when
    there are as many constraints as before. *)
Theorem C78_fresh e conn m targ n c c' : prep e conn m targ n c = Ok c' ->
  nConstr c' = n /\ nLag c' = n /\ constrMap c' = m /\ constrTarg c' = targ /\ useCentre c' = useCentre c /\ useHessian c' = useHessian c /\ cutoff c' = cutoff c /\
  obj c' = 0 /\ (forall k, constr c' k = 0) /\ (forall q, dObj c' q = 0) /\ (forall k q, dConstr c' k q = 0) /\
  (forall x y, HConstr c' x y = 0) /\ (forall x y, HObj c' x y = 0) /\ (forall q, deltaDV c' q = 0) /\
  (forall q, dvAct c' q = false) /\ (forall k, constrAct c' k = false) /\
  (n = nLag c -> forall k, lagMult c' k = lagMult c k) /\ (n <> nLag c -> forall k, lagMult c' k = 0).
Proof.
  intros H. destruct (@prep_inv _ _ _ _ _ _ _ H) as (l & _ & _ & _ & Em & En & Eu & Eh & Et & E0 & E1 & E2 & E3 & E4 & E5 & E6 & E7 & E8).
  unfold prep in H. destruct (pick_dvs e conn) as [l'| | |]; cbn [bind] in H; try discriminate. injection H as <-.
  repeat (split; [first [assumption | reflexivity]|]). cbn [build_arrays lagMult nLag build_dv_map build_constr_map].
  destruct (Nat.eqb_spec n (nLag c)); split; intros; try contradiction; reflexivity.
Qed.
Print Assumptions C78_fresh.

(** Each snaxel gets its own step, and one without a position gets none. *)
Theorem C78_velocities c l p x : NoDup (dvMap c) -> nth_error l p = Some x ->
  exists y, nth_error (return_velocities c l) p = Some y /\
  x_index y = x_index x /\ x_from y = x_from x /\ x_to y = x_to x /\ x_freeze y = x_freeze x /\
  (forall q, nth_error (dvMap c) q = Some (x_index x) -> x_v y = deltaDV c q) /\
  (~ In (x_index x) (dvMap c) -> x_v y = 0).
Proof.
  intros N H. unfold return_velocities. eexists. split; [apply map_nth_error; exact H|]. cbn. repeat split.
  - intros q Hq. rewrite (index_of_complete _ N Hq). auto.
  - intros K. destruct (index_of (x_index x) (dvMap c)) eqn:E; auto. exfalso. apply K. apply index_of_in. eauto.
Qed.
Print Assumptions C78_velocities.

(** *** C79: the volumes *)
Section Whole.
Variables (st : statics) (e : tri_env) (conn : list (list (Z * Z))) (m : list (Z * Z)) (targ : list R) (n : nat) (method : Z) (c c' : Calc.calc) (d : Z -> R).
Hypotheses (H : calculate_triangulation st e conn m targ n method c = Ok c') (Hm : method <> 2%Z) (Hp : placed e d).

Lemma whole_inv : let fd := (method =? 1)%Z in exists c0 c1 c2, prep e conn m targ n c = Ok c0 /\
  calc_triangles (calc_triangle st e fd true true true) (dynatri e) c0 = Ok c1 /\
  calc_triangles (calc_triangle st e fd false true true) (intertri e) c1 = Ok c2 /\
  calc_triangles (calc_triangle st e fd false true false) (map (static_tri e) (acttri e)) c2 = Ok c' /\
  frame c0 c1 /\ frame c1 c2 /\ frame c2 c' /\ constrMap c0 = m /\ useCentre c0 = useCentre c /\ dvMap c0 = dvMap c' /\
  nConstr c0 = n /\ lagMult c0 = lagMult c' /\ slack c0 = slack c'.
Proof.
  intros fd. unfold calculate_triangulation in H. destruct (prep e conn m targ n c) as [c0| | |] eqn:E0; cbn [bind] in H; try discriminate.
  destruct (@calc_all_inv _ _ _ _ _ H) as (c1 & c2 & E1 & E2 & E3); [apply Z.eqb_neq; auto|].
  destruct (@prep_inv _ _ _ _ _ _ _ E0) as (l & _ & _ & _ & Em & En & Eu & _).
  pose proof (@loop_frame _ _ _ _ _ _ _ _ E1) as F1. pose proof (@loop_frame _ _ _ _ _ _ _ _ E2) as F2. pose proof (@loop_frame _ _ _ _ _ _ _ _ E3) as F3.
  exists c0, c1, c2. do 4 (split; [first [assumption|reflexivity]|]). split; auto. split; auto. split; auto. split; auto. split; auto.
  pose proof (frame_trans (frame_trans F1 F2) F3) as F. split; [symmetry; apply F|]. split; auto. split; [symmetry; apply F|]. symmetry. apply (frame_slack F).
Qed.

(** Each constraint is the sum of the signed volumes under the triangles of the snake and
    of the mesh surfaces it cuts, with their weights; the objective is the area of the snake. *)
Theorem C79_values : (forall k, constr c' k = cell_volume e m k d) /\ obj c' = snake_area 0 e d.
Proof.
  destruct whole_inv as (c0 & c1 & c2 & P & E1 & E2 & E3 & F1 & F2 & F3 & Em & _).
  destruct (@prep_inv _ _ _ _ _ _ _ P) as (l & _ & _ & _ & _ & _ & _ & _ & _ & O0 & C0 & _).
  destruct (@loop_values st e d _ _ _ Hp _ _ _ E1) as [V1 O1], (@loop_values st e d _ _ _ Hp _ _ _ E2) as [V2 O2], (@loop_values st e d _ _ _ Hp _ _ _ E3) as [V3 O3].
  assert (Em1 : constrMap c1 = m) by (transitivity (constrMap c0); [apply F1|auto]). assert (Em2 : constrMap c2 = m) by (transitivity (constrMap c1); [apply F2|auto]).
  split.
  - intros k. rewrite V3, V2, V1, C0, Em, Em1, Em2. unfold cell_volume, all_tris. rewrite !total_app. ring.
  - rewrite O3, O2, O1, O0. unfold snake_area. ring.
Qed.

Hypotheses (H1 : 0 <= centre_a st) (H2 : 0 <= centre2_a st).

(** The gradient of each constraint, with its error. *)
Theorem C79_gradient k i q : (forall t, In t (dynatri e ++ intertri e) -> smooth_tri e d (useCentre c) t) ->
  (forall j, In j (acttri e) -> fixed e (static_tri e j)) -> nth_error (dvMap c') q = Some i ->
  exists x, rate (cell_volume e m k) d i x /\
  Rabs (dConstr c' k q - x) <= total (fun t => Rabs (weight m t k) * (volume_error st e d i t + slack c')) (dynatri e ++ intertri e).
Proof.
  intros Hs Hf Hq. destruct whole_inv as (c0 & c1 & c2 & P & E1 & E2 & E3 & F1 & F2 & F3 & Em & Eu & Ed & _ & _ & Es).
  destruct (@prep_inv _ _ _ _ _ _ _ P) as (l & _ & Edl & _ & _ & _ & _ & _ & _ & _ & _ & _ & D0 & _).
  assert (Em1 : constrMap c1 = m) by (transitivity (constrMap c0); [apply F1|auto]).
  assert (Iq : index_of i (dvMap c0) = Some q) by (apply index_of_complete; [rewrite Edl; apply sort_unique_nodup|rewrite Ed; auto]).
  destruct (@loop_gradient st e d _ _ _ Hp H1 H2 _ _ _ i q k E1 eq_refl) as (x1 & R1 & B1); [intros; rewrite Eu; apply Hs, in_or_app; auto|auto|].
  destruct (@loop_gradient st e d _ _ _ Hp H1 H2 _ _ _ i q k E2 eq_refl) as (x2 & R2 & B2).
  { intros t Ht. replace (useCentre c1) with (useCentre c) by (rewrite <- Eu; symmetry; apply F1). apply Hs, in_or_app; auto. }
  { replace (dvMap c1) with (dvMap c0) by (symmetry; apply F1). auto. }
  destruct (@loop_keeps st e _ _ _ _ _ _ E3) as [[D3 _] _]; auto.
  destruct (@fixed_rate st e d _ _ _ _ _ _ (fun t => weight m t k) i Hp E3) as [R3 _].
  { intros t Ht. apply in_map_iff in Ht. destruct Ht as (j & <- & Hj). auto. }
  rewrite Em, Es in *. rewrite Em1, (frame_slack F1), Es in *.
  exists (x1 + (x2 + 0)). split.
  - apply rate_ext with (f := fun d => total (fun t => weight m t k * tri_volume e d t) (dynatri e)
       + (total (fun t => weight m t k * tri_volume e d t) (intertri e) + total (fun t => weight m t k * tri_volume e d t) (map (static_tri e) (acttri e)))).
    + intros d'. unfold cell_volume, all_tris. rewrite !total_app. reflexivity.
    + apply rate_plus; auto. apply rate_plus; auto.
  - rewrite total_app. replace (dConstr c' k q - (x1 + (x2 + 0))) with ((dConstr c1 k q - dConstr c0 k q - x1) + (dConstr c2 k q - dConstr c1 k q - x2)) by (rewrite D3, D0; ring).
    eapply Rle_trans; [apply Rabs_triang|]. apply Rplus_le_compat; auto.
Qed.

(** *** C80: the gradient of the objective, which is that of the shifted area *)
Theorem C80_gradient i q : 0 < surf_m st -> (forall t, In t (dynatri e) -> smooth_tri e d (useCentre c) t) -> nth_error (dvMap c') q = Some i ->
  exists x, rate (snake_area (surf_m st) e) d i x /\ Rabs (dObj c' q - x) <= total (area_error st e d i) (dynatri e).
Proof.
  intros He Hs Hq. destruct whole_inv as (c0 & c1 & c2 & P & E1 & E2 & E3 & F1 & F2 & F3 & Em & Eu & Ed & _).
  destruct (@prep_inv _ _ _ _ _ _ _ P) as (l & _ & Edl & _ & _ & _ & _ & _ & _ & _ & _ & D0 & _).
  assert (Iq : index_of i (dvMap c0) = Some q) by (apply index_of_complete; [rewrite Edl; apply sort_unique_nodup|rewrite Ed; auto]).
  destruct (@loop_area_gradient st e d _ _ _ Hp H1 H2 _ _ _ i q E1 eq_refl eq_refl He) as (x1 & R1 & B1); [intros; rewrite Eu; auto|auto|].
  destruct (@loop_keeps st e _ _ _ _ _ _ E2) as [_ D2]. destruct (D2 (or_intror eq_refl)) as [D2' _].
  destruct (@loop_keeps st e _ _ _ _ _ _ E3) as [_ D3]. destruct (D3 (or_intror eq_refl)) as [D3' _].
  exists x1. split; [exact R1|]. rewrite D3', D2'. rewrite D0 in B1. rewrite Rminus_0_r in B1. exact B1.
Qed.

(** *** C81: the Hessians, when no surface that moves has an added centre *)
Theorem C81_constraints_partial i j x y : (forall t, In t (dynatri e ++ intertri e) -> plain e t) ->
  (forall j, In j (acttri e) -> fixed e (static_tri e j)) -> nth_error (dvMap c') x = Some i -> nth_error (dvMap c') y = Some j ->
  exists h, rate2 (weighted_volumes e m n (lagMult c')) d i j h /\
  Rabs (HConstr c' x y - h) <= total (fun t => sum_to n (fun k => Rabs (weight m t k)) * slack c') (dynatri e ++ intertri e).
Proof.
  intros Hs Hf Hx Hy. destruct whole_inv as (c0 & c1 & c2 & P & E1 & E2 & E3 & F1 & F2 & F3 & Em & Eu & Ed & En & El & Es).
  destruct (@prep_inv _ _ _ _ _ _ _ P) as (l & _ & Edl & _ & _ & _ & _ & _ & _ & _ & _ & _ & _ & D0 & _).
  assert (Em1 : constrMap c1 = m) by (transitivity (constrMap c0); [apply F1|auto]).
  assert (En1 : nConstr c1 = n) by (transitivity (nConstr c0); [apply F1|auto]).
  assert (El1 : lagMult c1 = lagMult c') by (transitivity (lagMult c0); [apply F1|auto]).
  assert (N : NoDup (dvMap c0)) by (rewrite Edl; apply sort_unique_nodup).
  assert (Ix : index_of i (dvMap c0) = Some x) by (apply index_of_complete; [auto|rewrite Ed; auto]).
  assert (Iy : index_of j (dvMap c0) = Some y) by (apply index_of_complete; [auto|rewrite Ed; auto]).
  assert (NC : forall t, In t (dynatri e ++ intertri e) -> no_centre e t).
  { intros t Ht k Lk. unfold is_centre, nth_pt. destruct (nth_in_or_default k (tri_pts t) (t_mesh, 0%Z)) as [I|I]; [|rewrite I; reflexivity].
    destruct (Z.eqb_spec (fst (nth k (tri_pts t) (t_mesh, 0%Z))) t_tri) as [T|T]; auto. rewrite (Hs _ Ht _ I T). reflexivity. }
  destruct (@loop_hessian st e d _ _ _ Hp H1 H2 _ _ _ i j x y E1 eq_refl) as (h1 & R1 & B1); [intros; apply NC, in_or_app; auto|auto|auto|].
  destruct (@loop_hessian st e d _ _ _ Hp H1 H2 _ _ _ i j x y E2 eq_refl) as (h2 & R2 & B2).
  { intros t Ht. apply NC, in_or_app; auto. }
  { replace (dvMap c1) with (dvMap c0) by (symmetry; apply F1). auto. }
  { replace (dvMap c1) with (dvMap c0) by (symmetry; apply F1). auto. }
  destruct (@loop_keeps st e _ _ _ _ _ _ E3) as [[_ D3] _]; auto.
  rewrite Em, En, Es, El in *. rewrite Em1, En1, El1, (frame_slack F1), Es in *.
  exists (h1 + (h2 + sum_to n (fun k => lagMult c' k * 0))). split.
  - apply rate2_ext with (f := fun d => sum_to n (fun k => lagMult c' k * total (fun t => weight m t k * tri_volume e d t) (dynatri e))
       + (sum_to n (fun k => lagMult c' k * total (fun t => weight m t k * tri_volume e d t) (intertri e))
       + sum_to n (fun k => lagMult c' k * total (fun t => weight m t k * tri_volume e d t) (map (static_tri e) (acttri e))))).
    + intros d'. unfold weighted_volumes, cell_volume, all_tris. rewrite <- !sum_to_plus. apply sum_to_ext. intros k Lk. rewrite !total_app. ring.
    + apply rate2_plus; auto. apply rate2_plus; auto.
      apply (@rate2_sum n (fun k d => lagMult c' k * total (fun t => weight m t k * tri_volume e d t) (map (static_tri e) (acttri e))) (fun k => lagMult c' k * 0)).
      intros k Lk. apply rate2_scale. apply (@fixed_rate st e d _ _ _ _ _ _ (fun t => weight m t k) i Hp E3).
      intros t Ht. apply in_map_iff in Ht. destruct Ht as (j' & <- & Hj). auto.
  - rewrite total_app. assert (Z0 : sum_to n (fun k => lagMult c' k * 0) = 0).
    { rewrite (@sum_to_ext n _ (fun k => 0 * lagMult c' k)) by (intros; ring). rewrite sum_to_scale. ring. }
    rewrite Z0. replace (HConstr c' x y - (h1 + (h2 + 0))) with ((HConstr c1 x y - HConstr c0 x y - h1) + (HConstr c2 x y - HConstr c1 x y - h2)) by (rewrite D3, D0; ring).
    eapply Rle_trans; [apply Rabs_triang|]. apply Rplus_le_compat; auto.
Qed.
Theorem C81_objective_partial i j x y : 0 < surf_m st -> (forall t, In t (dynatri e) -> plain e t) ->
  nth_error (dvMap c') x = Some i -> nth_error (dvMap c') y = Some j ->
  exists h, rate2 (snake_area (surf_m st) e) d i j h /\ Rabs (HObj c' x y - h) <= total (fun _ => slack c') (dynatri e).
Proof.
  intros He Hs Hx Hy. destruct whole_inv as (c0 & c1 & c2 & P & E1 & E2 & E3 & F1 & F2 & F3 & Em & Eu & Ed & En & El & Es).
  destruct (@prep_inv _ _ _ _ _ _ _ P) as (l & _ & Edl & _ & _ & _ & _ & _ & _ & _ & _ & _ & _ & _ & D0 & _).
  assert (N : NoDup (dvMap c0)) by (rewrite Edl; apply sort_unique_nodup).
  assert (Ix : index_of i (dvMap c0) = Some x) by (apply index_of_complete; [auto|rewrite Ed; auto]).
  assert (Iy : index_of j (dvMap c0) = Some y) by (apply index_of_complete; [auto|rewrite Ed; auto]).
  assert (NC : forall t, In t (dynatri e) -> no_centre e t).
  { intros t Ht k Lk. unfold is_centre, nth_pt. destruct (nth_in_or_default k (tri_pts t) (t_mesh, 0%Z)) as [I|I]; [|rewrite I; reflexivity].
    destruct (Z.eqb_spec (fst (nth k (tri_pts t) (t_mesh, 0%Z))) t_tri) as [T|T]; auto. rewrite (Hs _ Ht _ I T). reflexivity. }
  destruct (@loop_area_hessian st e d _ _ _ Hp H1 H2 _ _ _ i j x y E1 eq_refl eq_refl He) as (h1 & R1 & B1); auto.
  destruct (@loop_keeps st e _ _ _ _ _ _ E2) as [_ D2]. destruct (D2 (or_intror eq_refl)) as [_ D2'].
  destruct (@loop_keeps st e _ _ _ _ _ _ E3) as [_ D3]. destruct (D3 (or_intror eq_refl)) as [_ D3'].
  exists h1. split; [exact R1|]. rewrite D3', D2'. rewrite D0, Es in B1. rewrite Rminus_0_r in B1. exact B1.
Qed.
End Whole.
Print Assumptions C79_values.
Print Assumptions C79_gradient.
Print Assumptions C80_gradient.
Print Assumptions C81_constraints_partial.
Print Assumptions C81_objective_partial.

(** Without moving centres, and with dense matrices, the gradients and Hessians are exact. *)
Lemma plain_no_error st e d i t : plain e t -> volume_error st e d i t = 0 /\ area_error st e d i t = 0.
Proof.
  intros Hs. assert (NC : no_centre e t).
  { intros k Lk. unfold is_centre, nth_pt. destruct (nth_in_or_default k (tri_pts t) (t_mesh, 0%Z)) as [I|I]; [|rewrite I; reflexivity].
    destruct (Z.eqb_spec (fst (nth k (tri_pts t) (t_mesh, 0%Z))) t_tri) as [T|T]; auto. rewrite (Hs _ I T). reflexivity. }
  unfold volume_error, area_error, place_error. rewrite !NC by lia. rewrite !sum3. split; ring.
Qed.
Theorem C79_exact st e conn m targ n method c c' d k i q : calculate_triangulation st e conn m targ n method c = Ok c' -> method <> 2%Z -> placed e d ->
  0 <= centre_a st -> 0 <= centre2_a st -> (forall t, In t (dynatri e ++ intertri e) -> plain e t) ->
  (forall j, In j (acttri e) -> fixed e (static_tri e j)) -> full_math c' = true -> nth_error (dvMap c') q = Some i ->
  rate (cell_volume e m k) d i (dConstr c' k q) /\ (0 < surf_m st -> rate (snake_area (surf_m st) e) d i (dObj c' q)).
Proof.
  intros H Hm Hp H1 H2 Hs Hf Hd Hq.
  assert (S : forall t, In t (dynatri e ++ intertri e) -> smooth_tri e d (useCentre c) t).
  { intros t Ht. apply plain_smooth. intros k' Lk. unfold is_centre, nth_pt. destruct (nth_in_or_default k' (tri_pts t) (t_mesh, 0%Z)) as [I|I]; [|rewrite I; reflexivity].
    destruct (Z.eqb_spec (fst (nth k' (tri_pts t) (t_mesh, 0%Z))) t_tri) as [T|T]; auto. rewrite (Hs _ Ht _ I T). reflexivity. }
  assert (Q : forall a b, Rabs (a - b) <= 0 -> a = b).
  { intros a b K. pose proof (Rabs_pos (a - b)). destruct (Req_dec (a - b) 0) as [E|E]; [lra|]. apply Rabs_no_R0 in E. lra. }
  split.
  - destruct (@C79_gradient st e conn m targ n method c c' d H Hm Hp H1 H2 k i q S Hf Hq) as (x & R & B).
    rewrite total_zero in B; [rewrite (Q _ _ B); auto|]. intros t Ht. unfold slack. rewrite Hd, (proj1 (plain_no_error st d i (Hs _ Ht))). ring.
  - intros He. destruct (@C80_gradient st e conn m targ n method c c' d H Hm Hp H1 H2 i q He) as (x & R & B); [intros; apply S, in_or_app; auto|auto|].
    rewrite total_zero in B; [rewrite (Q _ _ B); auto|]. intros t Ht. apply plain_no_error. apply Hs, in_or_app; auto.
Qed.
Print Assumptions C79_exact.

(** *** C82: the methods, and what takes part *)
(** The two methods give the same numbers. *)
Theorem C82_methods st e conn m targ n m1 m2 c c1 c2 : m1 <> 1%Z -> m1 <> 2%Z -> m2 = 1%Z ->
  calculate_triangulation st e conn m targ n m1 c = Ok c1 -> calculate_triangulation st e conn m targ n m2 c = Ok c2 ->
  dvMap c1 = dvMap c2 /\ obj c1 = obj c2 /\ (forall k, constr c1 k = constr c2 k) /\ (forall q, dObj c1 q = dObj c2 q) /\
  (forall k q, dConstr c1 k q = dConstr c2 k q) /\ (forall x y, HConstr c1 x y = HConstr c2 x y) /\
  (full_math c1 = true -> forall x y, HObj c1 x y = HObj c2 x y) /\
  (forall q, dvAct c1 q = dvAct c2 q) /\ (forall k, constrAct c1 k = constrAct c2 k).
Proof.
  intros N1 N2 -> E1 E2.
  destruct (@whole_inv _ _ _ _ _ _ _ _ _ E1 N2) as (a0 & a1 & a2 & P & L1 & L2 & L3 & F1 & F2 & F3 & _).
  destruct (@whole_inv _ _ _ _ _ _ _ _ _ E2) as (b0 & b1 & b2 & P' & L1' & L2' & L3' & _); [lia|].
  rewrite P in P'. injection P' as <-. apply Z.eqb_neq in N1. rewrite N1 in *. change (1 =? 1)%Z with true in *.
  destruct (loop_same2 _ _ _ _ _ L1 L1' (same_refl _ a0)) as [S1 Q1]. rewrite <- Q1 in S1.
  destruct (loop_same2 _ _ _ _ _ L2 L2' S1) as [S2 Q2]. rewrite <- Q2 in S2.
  destruct (loop_same2 _ _ _ _ _ L3 L3' S2) as [S3 Q3]. rewrite <- Q3 in S3.
  destruct S3 as (Fr & K). split; [symmetry; apply Fr|]. exact K.
Qed.
Print Assumptions C82_methods.
(** Method 2 is undefined as soon as there is a triangle. *)
Theorem C82_direct_refuted st e conn m targ n c c' : calculate_triangulation st e conn m targ n 2 c = Ok c' -> all_tris e = [].
Proof.
  unfold calculate_triangulation. intros H. destruct (prep e conn m targ n c) as [c0| | |]; cbn [bind] in H; try discriminate.
  unfold calc_all in H. change (2 =? 1)%Z with false in H. change (2 =? 2)%Z with true in H. cbv iota in H.
  assert (Q : forall o k d l x x', calc_triangles (calc_triangle_direct st e o k d) l x = Ok x' -> l = []).
  { intros o k d [|t l] x x'; auto. cbn [calc_triangles]. unfold calc_triangle_direct. destruct (tri_coords e t); cbn [bind]; try discriminate.
    destruct (tri_dvs _ _ _ _); cbn [bind]; try discriminate. destruct (tri_jac _ _ _ _ _); cbn [bind]; discriminate. }
  destruct (calc_triangles (calc_triangle_direct st e true true true) (dynatri e) c0) as [c1| | |] eqn:E1; cbn [bind] in H; try discriminate.
  destruct (calc_triangles (calc_triangle_direct st e false true true) (intertri e) c1) as [c2| | |] eqn:E2; cbn [bind] in H; try discriminate.
  destruct (active_static e) as [l| | |] eqn:El; cbn [bind] in H; try discriminate. apply Q in E1, E2, H. unfold all_tris. rewrite E1, E2, <- (active_static_is _ El), H. reflexivity.
Qed.
Print Assumptions C82_direct_refuted.
(** A variable takes part when a triangle depends on it, and a constraint when a triangle
    of one of its cells depends on a variable. *)
Theorem C82_active st e conn m targ n method c c' : calculate_triangulation st e conn m targ n method c = Ok c' -> method <> 2%Z ->
  (forall q, dvAct c' q = true <-> exists t i, In t (all_tris e) /\ tri_depends e (useCentre c) t i /\ nth_error (dvMap c') q = Some i) /\
  (forall k, constrAct c' k = true <->
     exists t i z, In t (all_tris e) /\ tri_depends e (useCentre c) t i /\ In i (dvMap c') /\ In z (celltarg t) /\ In (z, Z.of_nat k) m).
Proof.
  intros H Hm. destruct (@whole_inv _ _ _ _ _ _ _ _ _ H Hm) as (c0 & c1 & c2 & P & E1 & E2 & E3 & F1 & F2 & F3 & Em & Eu & Ed & _).
  destruct (@prep_inv _ _ _ _ _ _ _ P) as (l & _ & Edl & _ & _ & _ & _ & _ & _ & _ & _ & _ & _ & _ & _ & A0 & B0 & _).
  assert (N : NoDup (dvMap c0)) by (rewrite Edl; apply sort_unique_nodup).
  assert (G1 : dvMap c1 = dvMap c0 /\ useCentre c1 = useCentre c0 /\ constrMap c1 = constrMap c0) by (repeat split; apply F1).
  assert (G2 : dvMap c2 = dvMap c1 /\ useCentre c2 = useCentre c1 /\ constrMap c2 = constrMap c1) by (repeat split; apply F2).
  destruct G1 as (G1 & G1' & G1''), G2 as (G2 & G2' & G2'').
  destruct (loop_marks _ _ _ _ _ _ _ E1 N) as [A1 B1]. destruct (loop_marks _ _ _ _ _ _ _ E2) as [A2 B2]; [rewrite G1; auto|].
  destruct (loop_marks _ _ _ _ _ _ _ E3) as [A3 B3]; [rewrite G2, G1; auto|].
  rewrite G2, G2', G2'', G1, G1', G1'', Em, Eu, Ed in *. unfold all_tris. split.
  - intros q. rewrite A3, A2, A1, A0. split.
    + intros [[[K|K]|K]|K]; [discriminate| | |]; destruct K as (t & i & I & K); exists t, i; rewrite !in_app_iff; auto.
    + intros (t & i & I & K). rewrite !in_app_iff in I. destruct I as [I|[I|I]]; [left; left|left|]; right; exists t, i; auto.
  - intros k. rewrite B3, B2, B1, B0. split.
    + intros [[[K|K]|K]|K]; [discriminate| | |]; destruct K as (t & i & z & I & K); exists t, i, z; rewrite !in_app_iff; auto.
    + intros (t & i & z & I & K). rewrite !in_app_iff in I. destruct I as [I|[I|I]]; [left; left|left|]; right; exists t, i, z; auto.
Qed.
Print Assumptions C82_active.

(** The calculation is defined when everything it names exists. *)
Theorem C82_defined st e conn m targ n method c : good_env e conn m n -> method <> 2%Z ->
  exists c', calculate_triangulation st e conn m targ n method c = Ok c'.
Proof.
  intros G Hm. destruct (pick_def G) as [l El]. unfold calculate_triangulation. destruct (prep e conn m targ n c) as [c0| | |] eqn:P.
  2-4: unfold prep in P; rewrite El in P; discriminate.
  destruct (@prep_inv _ _ _ _ _ _ _ P) as (l' & _ & _ & En & Em & Ec & _). cbn [bind]. unfold calc_all. apply Z.eqb_neq in Hm. rewrite Hm.
  destruct G as (Hx & _ & _ & Ha & Ht). unfold all_tris in Ht.
  replace (if (method =? 1)%Z then calc_triangle st e true else calc_triangle st e false) with (calc_triangle st e (method =? 1)%Z) by (destruct (method =? 1)%Z; auto).
  destruct (@loop_def st e Hx (method =? 1)%Z true true m n (dynatri e)) with (c := c0) as [c1 E1]; auto; [intros; apply Ht, in_or_app; auto|].
  rewrite E1. cbn [bind]. pose proof (@loop_frame _ _ _ _ _ _ _ _ E1) as F1.
  assert (G1 : constrMap c1 = m /\ nConstr c1 = n /\ nDv c1 = length (dvMap c1)) by (unfold frame in F1; intuition congruence).
  destruct (@loop_def st e Hx (method =? 1)%Z false true m n (intertri e)) with (c := c1) as [c2 E2]; try tauto; [intros; apply Ht, in_or_app; right; apply in_or_app; auto|].
  rewrite E2. cbn [bind]. pose proof (@loop_frame _ _ _ _ _ _ _ _ E2) as F2.
  assert (G2 : constrMap c2 = m /\ nConstr c2 = n /\ nDv c2 = length (dvMap c2)) by (unfold frame in F2; intuition congruence).
  destruct (active_def _ Ha) as [la El2]. rewrite El2. cbn [bind]. rewrite (active_static_is _ El2).
  apply (@loop_def st e Hx (method =? 1)%Z false false m n); try tauto. intros; apply Ht, in_or_app; right; apply in_or_app; auto.
Qed.
Print Assumptions C82_defined.

(** *** An instance *)
(** Four snaxels half way up four vertical edges of length 2; the first and the last are
    free, and the second is next to the first. *)
Definition at3 (x y z : R) : vec := fun k => match k with 0%nat => x | 1%nat => y | _ => z end.
Definition ex_env : tri_env := {|
  dynatri := [mkTri 1 [(t_snake, 1%Z); (t_snake, 2%Z); (t_tri, 1%Z)] [10%Z] [1]];
  intertri := [mkTri 2 [(t_mesh, 1%Z); (t_snake, 1%Z); (t_snake, 2%Z)] [10%Z] [-1]];
  stattri := [mkTri 3 [(t_mesh, 1%Z); (t_mesh, 2%Z); (t_mesh, 3%Z)] [10%Z] [1]];
  acttri := [3%Z];
  trivert := [(1%Z, mkTp (at3 (1 / 2) (1 / 2) 1) 1 t_snake)]; trisurf := [];
  mesh_verts := [(1%Z, at3 0 0 0); (2%Z, at3 1 0 0); (3%Z, at3 1 1 0); (4%Z, at3 0 1 0);
                 (5%Z, at3 0 0 2); (6%Z, at3 1 0 2); (7%Z, at3 1 1 2); (8%Z, at3 0 1 2)];
  snake_verts := [(1%Z, at3 0 0 1); (2%Z, at3 1 0 1); (3%Z, at3 1 1 1); (4%Z, at3 0 1 1)];
  snaxs := [mkSnaxel 1 1 5 false 0; mkSnaxel 2 2 6 true 0; mkSnaxel 3 3 7 true 0; mkSnaxel 4 4 8 false 0];
  snake_surfs := [(1%Z, [1; 2; 3; 4]%Z)] |}.
Definition ex_conn : list (list (Z * Z)) := [[(1, 2)]; [(1, 2)]; [(2, 3)]; [(4, 1)]]%Z.
Definition ex_calc (dense : Z) : Calc.calc := {|
  nDv := 0; nConstr := 0; falseaccess := 0; cutoff := dense; useCentre := true; useHessian := false;
  obj := 5; constr := fun _ => 0; dObj := fun _ => 0; dConstr := zero_mat; HConstr := zero_mat; HObj := zero_mat;
  lagMult := fun _ => 1; nLag := 1; constrTarg := []; deltaDV := fun _ => 0; dvAct := fun _ => true; constrAct := fun _ => false; dvMap := [7%Z]; constrMap := [] |}.
Definition ex_map : list (Z * Z) := [(10, 0)]%Z.
Lemma ex_good : good_env ex_env ex_conn ex_map 1.
Proof.
  assert (G : forall i, In i [1; 2; 3; 4]%Z -> good_corner ex_env (t_snake, i)).
  { intros i I. right. split; [reflexivity|split; exact I]. }
  unfold good_env. split; [|split; [reflexivity|split; [|split]]].
  - intros x Ix. cbn in Ix. unfold has. cbn. intuition (subst; cbn; tauto).
  - intros l a b Il Iab. unfold is_snaxel. cbn in *. intuition (subst; cbn in *; intuition (match goal with K : (_, _) = (_, _) |- _ => injection K as <- <- end; tauto)).
  - intros i [<-|[]]. left. reflexivity.
  - assert (C : forall z k, In (z, k) ex_map -> k = (-1)%Z \/ (0 <= k < Z.of_nat 1)%Z).
    { intros z k [K|[]]. injection K as <- <-. right. lia. }
    intros t [<-|[<-|[<-|[]]]]; (split; [reflexivity|split; [|split; [reflexivity|intros z k _; apply C]]]); intros p Ip.
    + destruct Ip as [<-|[<-|[<-|[]]]]; [left; apply G; cbn; tauto|left; apply G; cbn; tauto|].
      right. split; auto. split; [left; reflexivity|]. cbv zeta. split; [discriminate|]. split; [intros _; split; [left; reflexivity|cbn; lia]|].
      intros _ q Iq. change (corners_of ex_env _) with (map (fun i => (t_snake, i)) [1; 2; 3; 4]%Z) in Iq. apply in_map_iff in Iq. destruct Iq as (i & <- & Ii). auto.
    + destruct Ip as [<-|[<-|[<-|[]]]]; [left; left; split; [reflexivity|left; reflexivity]|left; apply G; cbn; tauto|left; apply G; cbn; tauto].
    + destruct Ip as [<-|[<-|[<-|[]]]]; left; left; (split; [reflexivity|cbn; tauto]).
Qed.
Example C82_used method : method <> 2%Z -> exists c', calculate_triangulation statics0 ex_env ex_conn ex_map [1] 1 method (ex_calc 100) = Ok c' /\ dvMap c' = [1; 2; 4]%Z.
Proof.
  intros Hm. destruct (@C82_defined statics0 ex_env ex_conn ex_map [1] 1 method (ex_calc 100) ex_good Hm) as [c' H].
  exists c'. split; auto. destruct (@whole_inv _ _ _ _ _ _ _ _ _ H Hm) as (c0 & c1 & c2 & P & _ & _ & _ & _ & _ & _ & _ & _ & <- & _).
  injection P as <-. reflexivity.
Qed.
Definition ex_half : Z -> R := fun _ => 1 / 2.
Lemma ex_side d j : (forall i, d i = 1 / 2) -> (j < 4)%nat -> side 4 (polygon ex_env d [(t_snake, 1%Z); (t_snake, 2%Z); (t_snake, 3%Z); (t_snake, 4%Z)]) j = 1.
Proof.
  intros Hd L. rewrite <- sqrt_1. unfold side, SpecRsvs.dist, vdot, vsub.
  destruct j as [|[|[|[|]]]]; [| | | |lia]; (f_equal; unfold polygon, corner_at; cbn; unfold along, start_of, end_of, mesh_at, assoc, snax_of; cbn; rewrite !Hd; field).
Qed.
Lemma ex_outline : outline 4 (polygon ex_env ex_half [(t_snake, 1%Z); (t_snake, 2%Z); (t_snake, 3%Z); (t_snake, 4%Z)]) = 4.
Proof. unfold outline, sum_to. cbn [seq map fold_right]. rewrite !ex_side by (auto; lia). ring. Qed.
Lemma ex_placed : placed ex_env ex_half.
Proof.
  split.
  - intros i v I k Lk. unfold along, start_of, end_of, mesh_at, assoc, snax_of, ex_half. cbn in I.
    destruct I as [I|[I|[I|[I|[]]]]]; injection I as <- <-; destruct k as [|[|[|]]]; try lia; cbn; field.
  - intros i tp [I|[]] k Lk. injection I as <- <-. unfold place. cbn [fst snd]. change (Z.eqb t_tri t_tri) with true. cbv zeta iota.
    change (tripoint_of ex_env 1) with (mkTp (at3 (1 / 2) (1 / 2) 1) 1 t_snake). unfold moving. cbn [tp_ptype]. change (orb _ _) with true. cbv iota.
    change (corners_of ex_env _) with [(t_snake, 1%Z); (t_snake, 2%Z); (t_snake, 3%Z); (t_snake, 4%Z)]. cbn [length]. unfold wire_centre. rewrite ex_outline.
    unfold sum_to. cbn [seq map fold_right]. rewrite !ex_side by (auto; lia). unfold middle, polygon, corner_at. cbn -[Rplus Rmult]. unfold along, start_of, end_of, mesh_at, assoc, snax_of, ex_half.
    destruct k as [|[|[|]]]; try lia; cbn; field.
Qed.
Lemma ex_smooth t : In t (dynatri ex_env ++ intertri ex_env) -> smooth_tri ex_env ex_half true t.
Proof.
  intros I j Lj. split; auto. unfold shaped. destruct I as [<-|[<-|[]]]; destruct j as [|[|[|]]]; try lia; try discriminate.
  intros _. cbv zeta. change (corners_of ex_env _) with [(t_snake, 1%Z); (t_snake, 2%Z); (t_snake, 3%Z); (t_snake, 4%Z)]. cbn [length]. split; [lia|]. split.
  - intros q Iq. right. cbn in Iq. intuition (subst; reflexivity).
  - rewrite ex_outline. split; [|intros v Lv; rewrite ex_side by (auto; lia); lra].
    apply Rle_trans with 1; [|lra]. rewrite <- Rinv_1. apply Rinv_le_contravar; lra.
Qed.
Lemma ex_fixed i : In i (acttri ex_env) -> fixed ex_env (static_tri ex_env i).
Proof. intros [<-|[]]. split; intros p [<-|[<-|[<-|[]]]]; discriminate. Qed.
(** All the conditions of C79 and C80 hold together, with a centre that moves. *)
Example C79_used : exists c', calculate_triangulation statics0 ex_env ex_conn ex_map [1] 1 0 (ex_calc 100) = Ok c' /\
  constr c' 0%nat = cell_volume ex_env ex_map 0 ex_half /\ obj c' = snake_area 0 ex_env ex_half /\
  (exists x, rate (cell_volume ex_env ex_map 0) ex_half 4 x /\
   Rabs (dConstr c' 0%nat 2%nat - x) <= total (fun t => Rabs (weight ex_map t 0) * (volume_error statics0 ex_env ex_half 4 t + slack c')) (dynatri ex_env ++ intertri ex_env)) /\
  (exists x, rate (snake_area (surf_m statics0) ex_env) ex_half 4 x /\ Rabs (dObj c' 2%nat - x) <= total (area_error statics0 ex_env ex_half 4) (dynatri ex_env)) /\
  dvAct c' 2%nat = true /\ constrAct c' 0%nat = true.
Proof.
  destruct (@C82_used 0) as (c' & H & Ed); [lia|]. exists c'. split; auto.
  assert (P : 0 < / 10000000000) by (apply Rinv_0_lt_compat; lra).
  destruct (@C79_values _ _ _ _ _ _ _ _ _ ex_half H) as [V O]; [lia|apply ex_placed|]. split; auto. split; auto. split; [|split; [|split]].
  - apply (@C79_gradient _ _ _ _ _ _ _ _ _ _ H); [lia|apply ex_placed|cbn; lra|cbn; lra|apply ex_smooth|apply ex_fixed|rewrite Ed; reflexivity].
  - apply (@C80_gradient _ _ _ _ _ _ _ _ _ _ H); [lia|apply ex_placed|cbn; lra|cbn; lra|cbn; lra| |rewrite Ed; reflexivity].
    intros t It. apply ex_smooth, in_or_app. auto.
  - apply (@C82_active _ _ _ _ _ _ _ _ _ H); [lia|]. exists (mkTri 1 [(t_snake, 1%Z); (t_snake, 2%Z); (t_tri, 1%Z)] [10%Z] [1]), 4%Z.
    split; [left; reflexivity|]. split; [|rewrite Ed; reflexivity]. exists 2%nat. split; [lia|]. right. split; [reflexivity|]. split; [reflexivity|]. cbn. tauto.
  - apply (@C82_active _ _ _ _ _ _ _ _ _ H); [lia|]. exists (mkTri 1 [(t_snake, 1%Z); (t_snake, 2%Z); (t_tri, 1%Z)] [10%Z] [1]), 1%Z, 10%Z.
    split; [left; reflexivity|]. split; [exists 0%nat; split; [lia|left; reflexivity]|]. rewrite Ed. cbn. tauto.
Qed.
(** Those of C81: triangles between snaxels only. *)
Definition ex_flat : tri_env := {|
  dynatri := [mkTri 1 [(t_snake, 1%Z); (t_snake, 2%Z); (t_snake, 3%Z)] [10%Z] [1]];
  intertri := intertri ex_env; stattri := stattri ex_env; acttri := acttri ex_env; trivert := []; trisurf := [];
  mesh_verts := mesh_verts ex_env; snake_verts := snake_verts ex_env; snaxs := snaxs ex_env; snake_surfs := [] |}.
Example C81_used : exists c', calculate_triangulation statics0 ex_flat ex_conn ex_map [1] 1 0 (ex_calc 100) = Ok c' /\ dvMap c' = [1; 2; 4]%Z /\
  rate2 (weighted_volumes ex_flat ex_map 1 (lagMult c')) ex_half 1 2 (HConstr c' 0%nat 1%nat) /\
  rate2 (snake_area (surf_m statics0) ex_flat) ex_half 1 2 (HObj c' 0%nat 1%nat) /\ (forall k, lagMult c' k = 1).
Proof.
  assert (G : good_env ex_flat ex_conn ex_map 1).
  { destruct ex_good as (A & B & C & D & F). split; [exact A|]. split; [exact B|]. split; [exact C|]. split; [exact D|].
    intros t [<-|I]. 2: { destruct (F t (or_intror I)) as (F1 & F2 & F3). split; [auto|split; [|auto]]. intros p Ip. left.
      destruct I as [<-|[<-|[]]]; destruct Ip as [<-|[<-|[<-|[]]]]; try (left; split; [reflexivity|cbn; tauto]); right; (split; [reflexivity|split; cbn; tauto]). }
    split; [reflexivity|]. split; [|split; [reflexivity|]].
    - intros p [<-|[<-|[<-|[]]]]; left; right; (split; [reflexivity|split; cbn; tauto]).
    - intros z k _ [K|[]]. injection K as <- <-. right. lia. }
  destruct (@C82_defined statics0 ex_flat ex_conn ex_map [1] 1 0 (ex_calc 100) G) as [c' H]; [lia|]. exists c'. split; auto.
  assert (Hm : 0%Z <> 2%Z) by lia.
  destruct (@whole_inv _ _ _ _ _ _ _ _ _ H Hm) as (c0 & c1 & c2 & P & _ & _ & _ & _ & _ & _ & _ & _ & Ed & _ & El & Es).
  injection P as <-. assert (Ed' : dvMap c' = [1; 2; 4]%Z) by (rewrite <- Ed; reflexivity). split; auto.
  assert (Pl : placed ex_flat ex_half). { destruct ex_placed as [A _]. split; [exact A|intros i tp []]. }
  assert (S0 : slack c' = 0) by (rewrite <- Es; reflexivity).
  assert (Ps : 0 < / 10000000000) by (apply Rinv_0_lt_compat; lra).
  assert (Q : forall a b, Rabs (a - b) <= 0 -> a = b).
  { intros a b K. pose proof (Rabs_pos (a - b)). destruct (Req_dec (a - b) 0) as [E|E]; [lra|]. apply Rabs_no_R0 in E. lra. }
  assert (Np : forall t, In t (dynatri ex_flat ++ intertri ex_flat) -> plain ex_flat t).
  { intros t [<-|[<-|[]]] p [<-|[<-|[<-|[]]]]; discriminate. }
  split; [|split].
  - destruct (@C81_constraints_partial _ _ _ _ _ _ _ _ _ _ H Hm Pl) with (i := 1%Z) (j := 2%Z) (x := 0%nat) (y := 1%nat) as (h & R & B); [cbn; lra|cbn; lra|exact Np|intros i' [<-|[]]; split; intros p [<-|[<-|[<-|[]]]]; discriminate|rewrite Ed'; reflexivity|rewrite Ed'; reflexivity|].
    rewrite total_zero in B; [rewrite (Q _ _ B); exact R|]. intros t _. rewrite S0. ring.
  - destruct (@C81_objective_partial _ _ _ _ _ _ _ _ _ _ H Hm Pl) with (i := 1%Z) (j := 2%Z) (x := 0%nat) (y := 1%nat) as (h & R & B); [cbn; lra|cbn; lra|cbn; lra| |rewrite Ed'; reflexivity|rewrite Ed'; reflexivity|].
    { intros t It. apply Np, in_or_app. auto. }
    rewrite total_zero in B; [rewrite (Q _ _ B); exact R|]. intros t _. exact S0.
  - intros k. rewrite <- El. reflexivity.
Qed.
Example C78_used : exists c', prep ex_env ex_conn ex_map [1] 1 (ex_calc 100) = Ok c' /\ dvMap c' = [1; 2; 4]%Z /\ ~ wanted ex_env ex_conn 3.
Proof.
  eexists. split; [reflexivity|]. split; [reflexivity|]. intros K. apply (proj1 (@C78_variables ex_env ex_conn ex_map [1] 1%nat (ex_calc 100) _ eq_refl)) in K.
  cbn in K. intuition discriminate.
Qed.
