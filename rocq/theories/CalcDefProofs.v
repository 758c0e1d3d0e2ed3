(** The calculation is defined when the elements it names exist. *)
From Coq Require Import Reals List Lia Lra ZArith.
From Verif Require Import Base RsvsMath SpecRsvs SpecCentre Calc SpecCalc CalcProofs CalcTriProofs CalcAllProofs CalcActProofs.
Import ListNotations.
Set Implicit Arguments.
Open Scope R_scope.

Lemma lookup_has A (d : A) k l : has k l -> lookup k l = Ok (assoc d k l) /\ In (k, assoc d k l) l.
Proof.
  unfold has, assoc. induction l as [|[i x] r IH]; cbn; [intros []|]. destruct (Z.eqb_spec i k) as [->|N].
  - auto.
  - intros [E|I]; [congruence|]. destruct (IH I). auto.
Qed.
Lemma concat_all_def A B (f : A -> outcome (list B)) l : (forall a, In a l -> exists x, f a = Ok x) -> exists r, concat_all f l = Ok r.
Proof.
  induction l as [|a l IH]; cbn; intros H; [eauto|]. destruct (H a (or_introl eq_refl)) as [x ->]. cbn [bind].
  destruct IH as [r ->]; [intros; apply H; auto|]. cbn [bind]. eauto.
Qed.
Lemma concat_all_one A B (f : A -> outcome (list B)) l : (forall a, In a l -> exists x, f a = Ok [x]) -> exists r, concat_all f l = Ok r /\ length r = length l.
Proof.
  induction l as [|a l IH]; cbn; intros H; [eauto|]. destruct (H a (or_introl eq_refl)) as [x ->]. cbn [bind].
  destruct IH as (r & -> & L); [intros; apply H; auto|]. cbn [bind]. eexists. split; eauto. cbn. auto.
Qed.
Lemma centre_def st pts : (4 <= length pts)%nat -> exists c, centroid_calc st (centroid_new pts) = Ok c.
Proof.
  intros L. unfold centroid_calc, centroid_new. cbn [c_pts c_deriv negb]. destruct pts as [|p0 r] eqn:Ep; [cbn in L; lia|]. rewrite <- Ep in *.
  destruct (centroid_value pts) as [v len]. unfold centroid_jac. destruct (Nat.ltb_spec (length pts) 4) as [K|K]; [lia|].
  destruct (length pts) as [|[|[|[|[|[|[|n]]]]]]]; cbn [bind]; eexists; reflexivity.
Qed.

Section Def.
Variables (st : statics) (e : tri_env).
Hypothesis Hx : forall x, In x (snaxs e) -> has (x_from x) (mesh_verts e) /\ has (x_to x) (mesh_verts e).

Lemma snax_def i : is_snaxel e i -> exists x, lookup_snax i (snaxs e) = Ok x.
Proof.
  intros H. unfold lookup_snax. destruct (@lookup_has _ (mkSnaxel 0 0 0 false 0) i (map (fun x => (x_index x, x)) (snaxs e))) as [E _]; [|eauto].
  unfold has. rewrite map_map. exact H.
Qed.
Lemma dir_def i : is_snaxel e i -> exists g, snax_dir e i = Ok g.
Proof.
  intros H. unfold snax_dir, lookup_snax. destruct (@lookup_has _ (mkSnaxel 0 0 0 false 0) i (map (fun x => (x_index x, x)) (snaxs e))) as [E I].
  { unfold has. rewrite map_map. exact H. }
  rewrite E. cbn [bind]. apply in_map_iff in I. destruct I as (x & Ex & I). injection Ex as _ Ex. rewrite <- Ex. destruct (Hx _ I) as [A B].
  destruct (@lookup_has _ origin _ _ A) as [-> _]. destruct (@lookup_has _ origin _ _ B) as [-> _]. cbn [bind]. eauto.
Qed.
Lemma corner_def q : good_corner e q -> exists v, corner_coord e q = Ok [v] /\ point_coord e q = Ok [v].
Proof.
  destruct q as [t i]. unfold good_corner, corner_coord, point_coord. cbn [fst snd]. intros [[-> H]|(-> & H & _)].
  - change (Z.eqb t_mesh t_mesh) with true. cbv iota. destruct (@lookup_has _ origin _ _ H) as [-> _]. cbn. eauto.
  - change (Z.eqb t_snake t_mesh) with false. change (Z.eqb t_snake t_snake) with true. cbv iota. destruct (@lookup_has _ origin _ _ H) as [-> _]. cbn. eauto.
Qed.
Lemma point_def p : good_point e p -> exists v, point_coord e p = Ok [v].
Proof.
  intros [H|(Et & H & _)]; [destruct (corner_def H) as (v & _ & E); eauto|]. destruct p as [t i]. cbn [fst snd] in *. subst t. unfold point_coord.
  change (Z.eqb t_tri t_mesh) with false. change (Z.eqb t_tri t_snake) with false. change (Z.eqb t_tri t_tri) with true. cbv iota.
  destruct (@lookup_has _ (mkTp origin 0 0) _ _ H) as [-> _]. cbn. eauto.
Qed.
Lemma dvs_def dvs centre p : good_point e p -> exists l, point_dvs e dvs centre p = Ok l.
Proof.
  intros H. destruct p as [t i]. unfold point_dvs. destruct (andb (Z.eqb t t_snake) (in_map dvs i)); [eauto|].
  destruct (Z.eqb_spec t t_tri) as [->|N]; [|cbn; eauto]. destruct centre; cbn [andb]; [|eauto].
  destruct H as [[[K _]|[K _]]|(_ & H & A & B & _)]; try discriminate. cbn [fst snd] in *. destruct (@lookup_has _ (mkTp origin 0 0) _ _ H) as [-> _]. cbn [bind].
  change (assoc (mkTp origin 0 0) i (trivert e)) with (tripoint_of e i).
  destruct (Z.eqb_spec (tp_ptype (tripoint_of e i)) t_tri) as [T|T].
  - destruct (A T) as [A' _]. destruct (@lookup_has _ [] _ _ A') as [-> _]. cbn. eauto.
  - destruct (Z.eqb_spec (tp_ptype (tripoint_of e i)) t_snake) as [S|S]; [|eauto]. destruct (B S) as [B' _]. destruct (@lookup_has _ [] _ _ B') as [-> _]. cbn. eauto.
Qed.
Lemma jac_def act centre p : good_point e p -> exists l, point_jac st e act centre p = Ok l.
Proof.
  intros H. destruct p as [t i]. unfold point_jac. destruct (if Z.eqb t t_snake then index_of i act else None) as [q|] eqn:Eq.
  - destruct (Z.eqb_spec t t_snake) as [->|]; [|discriminate]. destruct H as [[[K _]|(_ & _ & K)]|[K _]]; try discriminate. cbn [snd] in K. destruct (@dir_def _ K) as [g ->]. cbn. eauto.
  - clear Eq. destruct (Z.eqb_spec t t_tri) as [->|N]; [|cbn; eauto]. destruct centre; cbn [andb]; [|eauto].
    destruct H as [[[K _]|[K _]]|(_ & H & A & B & C)]; try discriminate. cbn [fst snd] in *. destruct (@lookup_has _ (mkTp origin 0 0) _ _ H) as [-> _]. cbn [bind].
    change (assoc (mkTp origin 0 0) i (trivert e)) with (tripoint_of e i). set (tp := tripoint_of e i) in *. unfold moving, corners_of in *.
    destruct (Z.eqb_spec (tp_ptype tp) t_tri) as [T|T].
    + destruct (A eq_refl) as [A' L] || destruct (A T) as [A' L]. destruct (@lookup_has _ [] _ _ A') as [-> _]. cbn [bind]. set (s := assoc [] (tp_parent tp) (trisurf e)) in *.
      specialize (C eq_refl). destruct (@concat_all_one _ _ (corner_coord e) (if Nat.eqb (length s) 3 then s ++ firstn 1 s else s)) as (pts & -> & Lp).
      { intros a Ia. assert (In a s) as Ia'. { destruct (Nat.eqb (length s) 3); auto. apply in_app_iff in Ia. destruct Ia as [Ia|Ia]; auto. rewrite <- (firstn_skipn 1 s). apply in_or_app; auto. }
        destruct (corner_def (C _ Ia')) as (v & E & _). eauto. }
      cbn [bind]. destruct (centre_def st pts) as [c ->].
      { rewrite Lp. destruct (Nat.eqb_spec (length s) 3) as [E3|E3]; [|lia]. rewrite app_length. destruct s; cbn in *; lia. }
      cbn [bind]. apply concat_all_def. intros [j q] Ij. cbn [fst snd]. destruct (andb (Z.eqb (fst q) t_snake) (in_map act (snd q))) eqn:Ea; [|eauto].
      apply andb_prop in Ea. destruct Ea as [Es _]. apply Z.eqb_eq in Es. apply in_combine_r in Ij. destruct (C _ Ij) as [[K _]|(_ & _ & K)]; [rewrite Es in K; discriminate|].
      destruct (@dir_def _ K) as [g ->]. cbn. eauto.
    + destruct (Z.eqb_spec (tp_ptype tp) t_snake) as [S|S]; [|eauto]. destruct (B S) as [B' L]. destruct (@lookup_has _ [] _ _ B') as [-> _]. cbn [bind].
      set (s := assoc [] (tp_parent tp) (snake_surfs e)) in *. rewrite map_length in L. destruct (Nat.eqb_spec (length s) 3) as [E3|E3]; [lia|].
      assert (C' : forall j, In j s -> good_corner e (t_snake, j)).
      { intros j Ij. apply C; [reflexivity|]. apply in_map_iff. eauto. }
      destruct (@concat_all_one _ _ (fun i => corner_coord e (t_snake, i)) s) as (pts & -> & Lp).
      { intros a Ia. destruct (corner_def (C' _ Ia)) as (v & E & _). eauto. }
      cbn [bind]. destruct (centre_def st pts) as [c ->]; [lia|]. cbn [bind]. apply concat_all_def. intros [j q] Ij. cbn [fst snd]. apply in_combine_r in Ij.
      destruct (C' _ Ij) as [[K _]|(_ & _ & K)]; [discriminate|]. cbn [snd] in K. destruct (@dir_def _ K) as [g ->]. cbn. eauto.
Qed.
Lemma hes_def act centre hes p : good_point e p -> exists l, point_hes st e act centre hes p = Ok l.
Proof.
  intros H. destruct p as [t i]. unfold point_hes. destruct (Z.eqb_spec t t_tri) as [->|N]; [|cbn; eauto]. destruct centre, hes; cbn [andb]; eauto.
  destruct H as [[[K _]|[K _]]|(_ & H & A & B & C)]; try discriminate. cbn [fst snd] in *. destruct (@lookup_has _ (mkTp origin 0 0) _ _ H) as [-> _]. cbn [bind].
  change (assoc (mkTp origin 0 0) i (trivert e)) with (tripoint_of e i). set (tp := tripoint_of e i) in *. unfold moving, corners_of in *.
  destruct (Z.eqb_spec (tp_ptype tp) t_snake) as [S|S]; [|eauto]. destruct (B S) as [B' L]. destruct (@lookup_has _ [] _ _ B') as [-> _]. cbn [bind].
  rewrite S in *. change (Z.eqb t_snake t_tri) with false in *. cbv iota in *.
  set (s := assoc [] (tp_parent tp) (snake_surfs e)) in *. rewrite map_length in L. destruct (Nat.eqb_spec (length s) 3) as [E3|E3]; [lia|].
  assert (C' : forall j, In j s -> good_corner e (t_snake, j)).
  { intros j Ij. apply C; [reflexivity|]. apply in_map_iff. eauto. }
  destruct (@concat_all_one _ _ (fun i => corner_coord e (t_snake, i)) s) as (pts & -> & Lp).
  { intros a Ia. destruct (corner_def (C' _ Ia)) as (v & E & _). eauto. }
  cbn [bind]. destruct (centre_def st pts) as [c ->]; [lia|]. cbn [bind].
  destruct (@concat_all_def _ _ (fun i => do g <- snax_dir e i ; Ok [g]) s) as (gs & ->).
  { intros a Ia. destruct (C' _ Ia) as [[K _]|(_ & _ & K)]; [discriminate|]. cbn [snd] in K. destruct (@dir_def _ K) as [g ->]. cbn. eauto. }
  cbn [bind]. eauto.
Qed.
Lemma positions_def c act : nDv c = length (dvMap c) -> (forall i, In i act -> In i (dvMap c)) -> exists qs, dv_positions c act = Ok qs.
Proof.
  intros L. induction act as [|i r IH]; cbn; intros H; [eauto|]. unfold dv_pos. destruct (proj2 (index_of_in i (dvMap c)) (H i (or_introl eq_refl))) as [q Eq].
  rewrite Eq. assert ((q < nDv c)%nat) as Lq by (rewrite L; apply nth_error_Some; rewrite (index_of_nth _ _ Eq); discriminate).
  apply Nat.ltb_lt in Lq. rewrite Lq. cbn [bind]. destruct IH as [qs ->]; [auto|]. cbn. eauto.
Qed.
Lemma cell_def qs val dp hp dv infl ic c : (fst ic < length infl)%nat ->
  (forall k, In (snd ic, k) (constrMap c) -> k = (-1)%Z \/ (0 <= k < Z.of_nat (nConstr c))%Z) -> exists c', constr_cell qs val dp hp dv infl ic c = Ok c'.
Proof.
  intros L H. unfold constr_cell. assert (Q : forall k, In k (findall (snd ic) (constrMap c)) -> k = (-1)%Z \/ (0 <= k < Z.of_nat (nConstr c))%Z).
  { intros k Ik. apply in_map_iff in Ik. destruct Ik as ([z k'] & <- & I). apply filter_In in I. destruct I as [I E]. cbn in E. apply Z.eqb_eq in E. apply H. rewrite <- E. auto. }
  clear H.
  assert (exists f, at_ infl (Z.of_nat (fst ic)) = Ok f) as [f ->].
    { unfold at_. destruct (Z.ltb_spec (Z.of_nat (fst ic)) 0); [lia|]. rewrite Nat2Z.id. destruct (nth_error infl (fst ic)) eqn:E; [eauto|]. apply nth_error_None in E. lia. }
  revert Q. generalize (findall (snd ic) (constrMap c)) as l. intros l. generalize (eq_refl (nConstr c)). generalize (nConstr c) at 1 3 as n. intros n En. revert c En.
  induction l as [|k l IH]; intros c En Q; [eauto|]. destruct (Z.eqb_spec k (-1)) as [->|N].
  - cbn [bind]. apply IH; auto. intros; apply Q; right; auto.
  - destruct (Q k (or_introl eq_refl)) as [K|K]; [contradiction|].
    destruct (Z.leb_spec 0 k); [|lia]. destruct (Z.ltb_spec k (Z.of_nat (nConstr c))); [|lia]. cbn [andb].
    cbn [bind]. apply IH; [destruct dv; cbn; auto|]. intros; apply Q; right; auto.
Qed.
Lemma cells_def qs val dp hp dv infl l : forall c, (forall ic, In ic l -> (fst ic < length infl)%nat /\
  forall k, In (snd ic, k) (constrMap c) -> k = (-1)%Z \/ (0 <= k < Z.of_nat (nConstr c))%Z) -> exists c', constr_cells qs val dp hp dv infl l c = Ok c'.
Proof.
  induction l as [|ic l IH]; cbn; intros c H; [eauto|]. destruct (H ic (or_introl eq_refl)) as [A B].
  destruct (@cell_def qs val dp hp dv infl ic c A B) as [c1 E]. rewrite E. cbn [bind]. apply IH.
  assert (F : frame c c1). { pose proof (constr_cells_added qs val dp hp dv infl [ic] c) as K. cbn [constr_cells] in K. rewrite E in K. cbn [bind] in K. apply (K _ eq_refl). }
  replace (constrMap c1) with (constrMap c) by (symmetry; apply F). replace (nConstr c1) with (nConstr c) by (symmetry; apply F). auto.
Qed.
Lemma tri_def fd o dv m n t c : good_tri e m n t -> constrMap c = m -> nConstr c = n -> nDv c = length (dvMap c) ->
  exists c', calc_triangle st e fd o true dv t c = Ok c'.
Proof.
  intros (L3 & Hp & Li & Hc) Em En Ed. unfold calc_triangle.
  assert (Q3 : three (tri_pts t) = Ok (tri_pts t)) by (destruct (tri_pts t) as [|? [|? [|? [|? ?]]]]; cbn in L3; try lia; reflexivity).
  unfold tri_coords. rewrite Q3. cbn [bind]. destruct (@concat_all_one _ _ (point_coord e) (tri_pts t)) as (pts & -> & Lp); [intros; apply point_def; auto|]. cbn [bind].
  destruct (tri_dvs e (dvMap c) (useCentre c) t) as [act| | |] eqn:Ea.
  2-4: exfalso; unfold tri_dvs in Ea; rewrite Q3 in Ea; cbn [bind] in Ea;
    destruct (@concat_all_def _ _ (point_dvs e (dvMap c) (useCentre c)) (tri_pts t)) as [r Er]; [intros; apply dvs_def; auto|rewrite Er in Ea; discriminate].
  cbn [bind]. unfold tri_jac, tri_hes. rewrite Q3. cbn [bind].
  match goal with |- context[concat_all ?f (combine (seq 0 3) (tri_pts t))] => destruct (@concat_all_def _ _ f (combine (seq 0 3) (tri_pts t))) as [ws ->] end.
  { intros [j p] Ij. apply in_combine_r in Ij. cbn [fst snd]. destruct (jac_def act (useCentre c) (Hp _ Ij)) as [l ->]. cbn. eauto. }
  cbn [bind].
  match goal with |- context[concat_all ?f (combine (seq 0 3) (tri_pts t))] => destruct (@concat_all_def _ _ f (combine (seq 0 3) (tri_pts t))) as [wh ->] end.
  { intros [j p] Ij. apply in_combine_r in Ij. cbn [fst snd]. destruct (hes_def act (useCentre c) (useHessian c) (Hp _ Ij)) as [l ->]. cbn. eauto. }
  cbn [bind]. rewrite L3 in Lp. destruct pts as [|a [|b [|d [|? ?]]]]; cbn in Lp; try lia. cbn [three bind].
  destruct (@positions_def c act Ed) as [qs Eq]; [intros i Ii; apply (tri_dvs_is _ _ _ _ _ Ea) in Ii; tauto|]. rewrite Eq. cbn [bind].
  set (f0 := mkFunc (map Some [a; b; d]) 0 zero_mat zero_mat).
  assert (exists f, (if fd then calc_fd st f0 else RsvsMath.calc st KVolume f0) = Ok f) as [f ->] by (destruct fd; eexists; reflexivity). cbn [bind].
  match goal with |- context[constr_cells ?a ?b ?cc ?d' ?e' ?ff ?g ?h] => destruct (@cells_def a b cc d' e' ff g h) as [c1 E1] end.
  { intros [i z] Ii. cbn [fst snd]. pose proof (in_combine_l _ _ _ _ Ii) as I1. pose proof (in_combine_r _ _ _ _ Ii) as I2. apply in_seq in I1. split; [lia|].
    rewrite Em, En. intros k Ik. eapply Hc; eauto. }
  rewrite E1. cbn [bind]. apply constr_cells_added in E1. destruct E1 as (F & _).
  assert (exists c2, (if o then do f <- RsvsMath.calc st KArea f0; Ok (add_obj (negb fd) c1 qs (f_fun f) (chain1 (f_jac f 0%nat) (sum_entries ws))
      (chain2 (f_jac f 0%nat) (sum_entries ws) (f_hes f) (fun k => sum_entries (map snd (filter (fun w => Nat.eqb (fst w) k) wh))))  dv) else Ok c1) = Ok c2 /\ constrMap c2 = constrMap c1 /\ nConstr c2 = nConstr c1) as (c2 & E2 & M2 & N2).
  { destruct o; [|eauto]. eexists. split; [reflexivity|]. split; reflexivity. }
  cbv zeta. rewrite E2. cbn [bind]. unfold mark_active. rewrite M2, N2.
  replace (constrMap c1) with (constrMap c) by (symmetry; apply F). replace (nConstr c1) with (nConstr c) by (symmetry; apply F). rewrite Em, En.
  match goal with |- context[if forallb ?g ?l then _ else _] => replace (forallb g l) with true; [eauto|] end.
  symmetry. apply forallb_forall. intros k Ik. destruct qs as [|q0 qr]; [destruct Ik|]. apply filter_In in Ik. destruct Ik as [Ik Nk]. apply in_flat_map in Ik. destruct Ik as (z & Iz & Ik).
  apply in_map_iff in Ik. destruct Ik as ([z' k'] & <- & I). apply filter_In in I. destruct I as [I Ez]. cbn [fst snd] in *. apply Z.eqb_eq in Ez. subst z'.
  destruct (Hc _ _ Iz I) as [->|K]; [discriminate|]. destruct (Z.leb_spec 0 k'); [|lia]. destruct (Z.ltb_spec k' (Z.of_nat n)); [|lia]. reflexivity.
Qed.
Lemma loop_def fd o dv m n l : (forall t, In t l -> good_tri e m n t) -> forall c, constrMap c = m -> nConstr c = n -> nDv c = length (dvMap c) ->
  exists c', calc_triangles (calc_triangle st e fd o true dv) l c = Ok c'.
Proof.
  induction l as [|t l IH]; cbn [calc_triangles]; intros H c Em En Ed; [eauto|].
  destruct (@tri_def fd o dv m n t c) as [c1 E]; auto; [apply H; left; auto|]. rewrite E. cbn [bind].
  destruct (calc_triangle_inv _ _ _ _ _ _ _ _ E) as (a & b & d & act & dpos & hpos & qs & _ & F & _).
  apply IH; [intros; apply H; right; auto| | |]; destruct F as (F1 & F2 & _ & _ & _ & _ & _ & _ & _ & F3 & F4); congruence.
Qed.
End Def.
Lemma pick_def e conn m n : good_env e conn m n -> exists l, pick_dvs e conn = Ok l.
Proof.
  intros (Hx & Lc & Hc & _). unfold pick_dvs. apply concat_all_def. intros [p x] I. cbn [fst snd]. destruct (negb (x_freeze x)); [eauto|].
  apply in_combine_l in I. apply in_seq in I. assert (exists l, nth_error conn p = Some l) as [l El]. { destruct (nth_error conn p) eqn:E; [eauto|]. apply nth_error_None in E. lia. }
  unfold at_. destruct (Z.ltb_spec (Z.of_nat p) 0); [lia|]. rewrite Nat2Z.id, El. cbn [bind].
  apply nth_error_In in El. specialize (Hc l). assert (Q : forall a b, In (a, b) l -> is_snaxel e a /\ is_snaxel e b) by auto. clear - Q.
  assert (exists b, has_free_neighbour e l = Ok b) as [b ->]; [|cbn; eauto].
  unfold has_free_neighbour. induction l as [|[a b] l IH]; [eauto|]. destruct (Q a b (or_introl eq_refl)) as [A B].
  destruct (@snax_def _ _ A) as [xa ->]. destruct (@snax_def _ _ B) as [xb ->]. cbn [bind]. destruct (andb _ _); [|eauto]. apply IH. intros; apply Q; right; auto.
Qed.
Lemma active_def e : (forall i, In i (acttri e) -> In i (map tri_index (stattri e))) -> exists l, active_static e = Ok l.
Proof.
  intros H. unfold active_static. apply concat_all_def. intros i Ii. destruct (@lookup_has _ (mkTri 0 [] [] []) i (map (fun t => (tri_index t, t)) (stattri e))) as [E _].
  { unfold has. rewrite map_map. cbn. auto. }
  rewrite E. cbn. eauto.
Qed.
