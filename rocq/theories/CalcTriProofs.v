(** Lemmas about the contribution of one triangle to the optimisation problem. *)
From Coq Require Import Reals List Lia Lra ZArith.
From Verif Require Import Base RsvsMath SpecRsvs SpecCentre Calc SpecCalc RsvsObjProofs RsvsProofs RsvsAreaProofs CalcProofs.
Set Implicit Arguments.
Open Scope R_scope.

Definition vol_jac (a b d : vec) (r : nat) : R := put_all (Volume_df a b d) zero_mat 0%nat r.
Definition vol_hes (a b d : vec) : mat := put_all (Volume_ddf a b d) zero_mat.
Definition are_jac (eps : R) (a b d : vec) (r : nat) : R := put_all (Area_df a b d eps) zero_mat 0%nat r.
Definition are_hes (eps : R) (a b d : vec) : mat := put_all (Area_ddf a b d eps) zero_mat.

Lemma three_Ok A (l r : list A) : three l = Ok r -> exists a b c, r = [a; b; c] /\ firstn 3 l = [a; b; c].
Proof. destruct l as [|a [|b [|c l]]]; cbn; try discriminate. intros H. injection H as <-. exists a, b, c. auto. Qed.
Lemma sum9_ext f g : (forall r, (r < 9)%nat -> f r = g r) -> sum9 f = sum9 g.
Proof. intros H. unfold sum9. f_equal. apply map_ext_in. intros r K. apply H. apply in_seq in K. lia. Qed.
Lemma chain1_ext v v' m j : (forall r, (r < 9)%nat -> v r = v' r) -> chain1 v m j = chain1 v' m j.
Proof. intros H. apply sum9_ext. intros. rewrite H; auto. Qed.
Lemma chain2_ext v v' m h p i j : (forall r, (r < 9)%nat -> v r = v' r) -> chain2 v m h p i j = chain2 v' m h p i j.
Proof. intros H. unfold chain2. f_equal. apply sum9_ext. intros. rewrite H; auto. Qed.

(** The volume with its derivatives, exact or by finite differences. *)
Lemma volume_either st (fd : bool) a b d f : (if fd then calc_fd st (mkFunc (map Some [a; b; d]) 0 zero_mat zero_mat)
    else RsvsMath.calc st KVolume (mkFunc (map Some [a; b; d]) 0 zero_mat zero_mat)) = Ok f ->
  f_fun f = signed_volume a b d /\ (forall r, (r < 9)%nat -> f_jac f 0%nat r = vol_jac a b d r) /\ f_hes f = vol_hes a b d.
Proof.
  destruct fd; intros H.
  - destruct (@calc_fd_inv _ _ _ H) as (f1 & ps & ws & C1 & Ep & Ew & ->). cbn [f_fun f_jac f_hes].
    destruct (@calc_inv _ _ _ _ C1) as (qs & v & j & h & Ep' & Ev & ->). cbn [f_pts f_fun f_jac f_hes] in *.
    assert (qs = [a; b; d]) as ->.
    { destruct qs as [|q0 [|q1 [|q2 [|? ?]]]]; try discriminate Ep'. cbn in Ep'. injection Ep' as -> -> ->. auto. }
    assert (ps = [a; b; d]) as ->.
    { destruct ps as [|q0 [|q1 [|q2 [|? ?]]]]; try discriminate Ep. cbn in Ep. injection Ep as -> -> ->. auto. }
    cbn [evaluate] in Ev. injection Ev as <- <- <-. split; [apply volume_value|]. split; auto.
    cbv -[Volume_f fd_step Rplus Rminus Rdiv] in Ew. injection Ew as <-. intros i Hi.
    assert (Hf : fd_step <> 0) by (unfold fd_step; apply Rinv_neq_0_compat; lra). generalize dependent fd_step. intros s Hf.
    unfold vol_jac, Volume_df, Volume_f. each i ltac:(lit; intros; field; auto).
  - destruct (@calc_inv _ _ _ _ H) as (qs & v & j & h & Ep' & Ev & ->). cbn [f_pts f_fun f_jac f_hes] in *.
    destruct qs as [|q0 [|q1 [|q2 [|? ?]]]]; try discriminate Ep'. cbn in Ep'. injection Ep' as -> -> ->.
    cbn [evaluate] in Ev. injection Ev as <- <- <-. split; [apply volume_value|]. split; auto.
Qed.
Lemma area_calc st a b d f : RsvsMath.calc st KArea (mkFunc (map Some [a; b; d]) 0 zero_mat zero_mat) = Ok f ->
  f_fun f = triangle_area a b d /\ f_jac f 0%nat = are_jac (surf_m st) a b d /\ f_hes f = are_hes (surf_m st) a b d.
Proof.
  intros H. destruct (@calc_inv _ _ _ _ H) as (qs & v & j & h & Ep' & Ev & ->). cbn [f_pts f_fun f_jac f_hes] in *.
  destruct qs as [|q0 [|q1 [|q2 [|? ?]]]]; try discriminate Ep'. cbn in Ep'. injection Ep' as -> -> ->.
  cbn [evaluate] in Ev. injection Ev as <- <- <-. split; [|split; reflexivity].
  rewrite area_value. unfold shifted_area, triangle_area. rewrite Rplus_0_r. reflexivity.
Qed.

(** What is known of a triangle that was calculated. *)
Record tri_facts (st : statics) (e : tri_env) (c : Calc.calc) (t : triangle) (a b d : vec) (act : list Z) (dpos : mat) (hpos : nat -> mat) (qs : list nat) : Prop := {
  tf_coords : tri_coords e t = Ok [a; b; d];
  tf_act : tri_dvs e (dvMap c) (useCentre c) t = Ok act;
  tf_jac : tri_jac st e act (useCentre c) t = Ok dpos;
  tf_hes : tri_hes st e act (useCentre c) (useHessian c) t = Ok hpos;
  tf_pos : dv_positions c act = Ok qs }.

Lemma coords_three e p r : three p = Ok r -> forall l, concat_all (point_coord e) r = Ok l -> (length l <= 3)%nat.
Proof.
  intros H. destruct (three_Ok _ H) as (x & y & z & -> & _). intros l E. cbn [concat_all] in E.
  assert (Q : forall q v, point_coord e q = Ok v -> (length v <= 1)%nat).
  { intros [t i] v. unfold point_coord. destruct (Z.eqb t t_mesh); [destruct (lookup i (mesh_verts e)); cbn; try discriminate; intros K; injection K as <-; cbn; lia|].
    destruct (Z.eqb t t_snake); [destruct (lookup i (snake_verts e)); cbn; try discriminate; intros K; injection K as <-; cbn; lia|].
    destruct (Z.eqb t t_tri); [destruct (lookup i (trivert e)); cbn; try discriminate; intros K; injection K as <-; cbn; lia|].
    intros K; injection K as <-; cbn; lia. }
  destruct (point_coord e x) as [v1| | |] eqn:E1; cbn [bind] in E; try discriminate.
  destruct (point_coord e y) as [v2| | |] eqn:E2; cbn [bind] in E; try discriminate.
  destruct (point_coord e z) as [v3| | |] eqn:E3; cbn [bind] in E; try discriminate. injection E as <-.
  rewrite !app_length. cbn [length]. pose proof (Q _ _ E1). pose proof (Q _ _ E2). pose proof (Q _ _ E3). lia.
Qed.

Definition dsum (qs : list nat) (f : nat -> R) (q : nat) : R :=
  total (fun iq => if Nat.eqb (snd iq) q then f (fst iq) else 0) (combine (seq 0 (length qs)) qs).
Definition keeps_obj (fd : bool) (c : Calc.calc) : R -> bool := if orb (full_math c) fd then (fun _ => true) else (fun x => negb (is_zero x)).

Lemma calc_triangle_inv st e fd isObj isConstr isDeriv t c c' : calc_triangle st e fd isObj isConstr isDeriv t c = Ok c' ->
  exists a b d act dpos hpos qs, tri_facts st e c t a b d act dpos hpos qs /\ frame c c' /\
  (forall k, constr c' k = constr c k + (if isConstr then weight (constrMap c) t k * signed_volume a b d else 0)) /\
  (forall k q, dConstr c' k q = dConstr c k q + (if andb isConstr isDeriv then weight (constrMap c) t k *
     dsum qs (fun i => cut (keeps c) (chain1 (vol_jac a b d) dpos i)) q else 0)) /\
  (forall x y, HConstr c' x y = HConstr c x y + (if andb isConstr isDeriv then sum_to (nConstr c) (fun k => weight (constrMap c) t k *
     pair_total qs (fun i j => cut (keeps c) (chain2 (vol_jac a b d) dpos (vol_hes a b d) hpos i j * lagMult c k)) x y) else 0)) /\
  obj c' = obj c + (if isObj then triangle_area a b d else 0) /\
  (forall q, dObj c' q = dObj c q + (if andb isObj isDeriv then dsum qs (chain1 (are_jac (surf_m st) a b d) dpos) q else 0)) /\
  (forall x y, HObj c' x y = HObj c x y + (if andb isObj isDeriv then
     pair_total qs (fun i j => cut (keeps_obj fd c) (chain2 (are_jac (surf_m st) a b d) dpos (are_hes (surf_m st) a b d) hpos i j)) x y else 0)) /\
  (forall q, dvAct c' q = orb (dvAct c q) (existsb (Nat.eqb q) qs)) /\
  (forall k, constrAct c' k = true <-> constrAct c k = true \/ (qs <> [] /\ exists z, In z (celltarg t) /\ In (z, Z.of_nat k) (constrMap c))).
Proof.
  unfold calc_triangle. intros H.
  destruct (tri_coords e t) as [p| | |] eqn:Ec; cbn [bind] in H; try discriminate.
  destruct (tri_dvs e (dvMap c) (useCentre c) t) as [act| | |] eqn:Ea; cbn [bind] in H; try discriminate.
  destruct (tri_jac st e act (useCentre c) t) as [dpos| | |] eqn:Ej; cbn [bind] in H; try discriminate.
  destruct (tri_hes st e act (useCentre c) (useHessian c) t) as [hpos| | |] eqn:Eh; cbn [bind] in H; try discriminate.
  destruct (three p) as [p3| | |] eqn:E3; cbn [bind] in H; try discriminate.
  destruct (dv_positions c act) as [qs| | |] eqn:Eq; cbn [bind] in H; try discriminate.
  destruct (three_Ok _ E3) as (a & b & d & -> & Ef).
  assert (p = [a; b; d]) as ->.
  { unfold tri_coords in Ec. destruct (three (tri_pts t)) as [r| | |] eqn:Er; cbn [bind] in Ec; try discriminate.
    pose proof (@coords_three e _ _ Er _ Ec) as L. destruct p as [|x [|y [|z [|? ?]]]]; cbn in Ef, L; try discriminate; try lia. auto. }
  exists a, b, d, act, dpos, hpos, qs. split; [constructor; auto|].
  match type of H with bind ?o _ = _ => destruct o as [c1| | |] eqn:E1; cbn [bind] in H; try discriminate end.
  match type of H with bind ?o _ = _ => destruct o as [c2| | |] eqn:E2; cbn [bind] in H; try discriminate end.
  (* the constraint *)
  assert (A : frame c c1 /\ same_obj c c1 /\
    (forall k, constr c1 k = constr c k + (if isConstr then weight (constrMap c) t k * signed_volume a b d else 0)) /\
    (forall k q, dConstr c1 k q = dConstr c k q + (if andb isConstr isDeriv then weight (constrMap c) t k *
       dsum qs (fun i => cut (keeps c) (chain1 (vol_jac a b d) dpos i)) q else 0)) /\
    (forall x y, HConstr c1 x y = HConstr c x y + (if andb isConstr isDeriv then sum_to (nConstr c) (fun k => weight (constrMap c) t k *
       pair_total qs (fun i j => cut (keeps c) (chain2 (vol_jac a b d) dpos (vol_hes a b d) hpos i j * lagMult c k)) x y) else 0))).
  { destruct isConstr.
    - match type of E1 with bind ?o _ = _ => destruct o as [f| | |] eqn:Efn; cbn [bind] in E1; try discriminate end.
      destruct (volume_either _ _ _ _ _ Efn) as (V & J & Hh).
      apply constr_cells_added in E1. destruct E1 as (F & O & C & D & Hs). rewrite V in C. split; auto. split; auto.
      split; [intros k; rewrite C, weight_is; reflexivity|]. cbn [andb]. split.
      + intros k q. rewrite D, weight_is. destruct isDeriv; [|reflexivity]. do 2 f_equal. unfold dsum. apply total_ext. intros iq _.
        destruct (Nat.eqb (snd iq) q); auto. f_equal. apply chain1_ext; auto.
      + intros x y. rewrite Hs. destruct isDeriv; [|reflexivity]. f_equal. unfold sum_to. f_equal. apply map_ext. intros k. rewrite weight_is. f_equal.
        unfold pair_total. apply total_ext. intros iq _. apply total_ext. intros jq _. destruct (_ && _)%bool; auto. f_equal. f_equal.
        rewrite Hh. apply chain2_ext; auto.
    - injection E1 as <-. split; [apply frame_refl|]. split; [repeat split|]. cbn [andb]. repeat split; intros; ring. }
  destruct A as (F1 & O1 & V1 & J1 & H1). destruct O1 as (O1 & O2 & O3 & O4 & O5).
  assert (B : frame c1 c2 /\ same_constr c1 c2 /\ dvAct c2 = dvAct c1 /\ constrAct c2 = constrAct c1 /\
    obj c2 = obj c1 + (if isObj then triangle_area a b d else 0) /\
    (forall q, dObj c2 q = dObj c1 q + (if andb isObj isDeriv then dsum qs (chain1 (are_jac (surf_m st) a b d) dpos) q else 0)) /\
    (forall x y, HObj c2 x y = HObj c1 x y + (if andb isObj isDeriv then
       pair_total qs (fun i j => cut (keeps_obj fd c) (chain2 (are_jac (surf_m st) a b d) dpos (are_hes (surf_m st) a b d) hpos i j)) x y else 0))).
  { destruct isObj.
    - destruct (RsvsMath.calc st KArea (mkFunc (map Some [a; b; d]) 0 zero_mat zero_mat)) as [f| | |] eqn:Efn; cbn [bind] in E2; try discriminate.
      destruct (@area_calc _ _ _ _ _ Efn) as (V & J & Hh). injection E2 as <-. rewrite V, J, Hh. cbn [andb]. split; [repeat split|]. split; [repeat split|].
      cbn [add_obj obj dObj HObj dvAct constrAct]. split; auto. split; auto. split; auto. split.
      + intros q. destruct isDeriv; [|ring]. rewrite scatter1_is, Rmult_1_l. f_equal.
      + intros x y. destruct isDeriv; [|ring]. rewrite scatter2_is, Rmult_1_l. f_equal. rewrite (frame_full F1), Bool.negb_involutive. reflexivity.
    - injection E2 as <-. split; [apply frame_refl|]. split; [repeat split|]. cbn [andb]. repeat split; intros; ring. }
  destruct B as (F2 & S2 & D2 & A2 & B1 & B2 & B3). destruct S2 as (S1 & S3 & S4).
  unfold mark_active in H.
  match type of H with (if ?x then _ else _) = _ => destruct x eqn:Em; [|discriminate] end.
  set (ks := match qs with [] => [] | _ => _ end) in *. injection H as <-.
  cbn [constr dConstr HConstr obj dObj HObj dvAct constrAct].
  assert (Ecm : constrMap c2 = constrMap c). { transitivity (constrMap c1); [apply F2|apply F1]. }
  assert (F3 : frame c c2) by (eapply frame_trans; eauto). split; [unfold frame in *; cbn; tauto|].
  split; [intros k; rewrite S1; apply V1|]. split; [intros k q; rewrite S3; apply J1|]. split; [intros x y; rewrite S4; apply H1|].
  split; [rewrite B1, O1; reflexivity|]. split; [intros q; rewrite B2, O2; reflexivity|]. split; [intros x y; rewrite B3, O3; reflexivity|]. split.
  - intros q. rewrite D2, O4. clear. generalize (dvAct c). induction qs as [|p r IH]; intros f; cbn; [rewrite Bool.orb_false_r; auto|].
    rewrite IH. unfold set_flag. destruct (Nat.eqb q p), (f q), (existsb (Nat.eqb q) r); reflexivity.
  - intros k. rewrite A2, O5. rewrite forallb_forall in Em.
    assert (Q : forall ks f, fold_left (fun f k => set_flag (Z.to_nat k) f) ks f k = true <-> f k = true \/ exists z, In z ks /\ Z.to_nat z = k).
    { clear. induction ks as [|z r IH]; intros f; cbn; [split; [auto|intros [H|(? & [] & _)]; auto]|]. rewrite IH. unfold set_flag.
      destruct (Nat.eqb_spec k (Z.to_nat z)) as [->|N]; cbn; split; intros [H|(y & Hy & E)]; eauto. destruct Hy as [<-|Hy]; [congruence|eauto]. }
    rewrite Q. clear Q. assert (K : (exists z, In z ks /\ Z.to_nat z = k) <-> (qs <> [] /\ exists z, In z (celltarg t) /\ In (z, Z.of_nat k) (constrMap c))).
    { unfold ks in Em |- *. rewrite Ecm in Em |- *. destruct qs as [|q0 qr]; [split; [intros (? & [] & _)|intros [N _]; contradiction]|]. split.
      - intros (z & Hz & <-). pose proof (Em _ Hz) as R. apply andb_prop in R. destruct R as [R _]. apply Z.leb_le in R.
        apply filter_In in Hz. destruct Hz as [Hz _]. apply in_flat_map in Hz. destruct Hz as (y & Hy & Hf). split; [discriminate|]. exists y. split; auto.
        unfold findall in Hf. apply in_map_iff in Hf. destruct Hf as ([u w] & <- & Hf). apply filter_In in Hf. destruct Hf as [Hf E]. cbn in E. apply Z.eqb_eq in E.
        cbn [snd] in *. rewrite Z2Nat.id; auto. subst. auto.
      - intros [_ (y & Hy & Hf)]. exists (Z.of_nat k). split; [|apply Nat2Z.id]. apply filter_In. split.
        + apply in_flat_map. exists y. split; auto. unfold findall. apply in_map_iff. exists (y, Z.of_nat k). split; auto. apply filter_In. cbn. rewrite Z.eqb_refl. auto.
        + apply Bool.negb_true_iff, Z.eqb_neq. lia. }
    rewrite K. tauto.
Qed.
