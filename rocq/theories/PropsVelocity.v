(** The velocities that the optimisation gives to the snaxels (C88). *)
From Coq Require Import Reals List Lia Lra ZArith Sorted.
From Coquelicot Require Import Coquelicot.
From Verif Require Import Base RsvsMath SpecRsvs SpecCentre Calc SpecCalc Sqp SpecSqp RsvsCentreProofs CalcProofs CalcTriProofs CalcChain CalcCentre CalcRateProofs CalcSumProofs CalcHesProofs CalcAllProofs PropsCalc.
From Verif Require Import SqpProofs SqpStepProofs SqpExample PropsSqp PropsSqpRun VelocityProofs.
Import ListNotations.
Set Implicit Arguments.
Open Scope R_scope.

Lemma no_centre_all e : (forall t, In t (dynatri e ++ intertri e) -> plain e t) -> (forall j, In j (acttri e) -> fixed e (static_tri e j)) ->
  forall t, In t (all_tris e) -> no_centre e t.
Proof.
  intros Hs Hf t I. assert (P : plain e t).
  { unfold all_tris in I. rewrite app_assoc in I. apply in_app_or in I. destruct I as [I|I]; [apply Hs; auto|]. apply in_map_iff in I. destruct I as (j & <- & Ij). apply (Hf j Ij). }
  intros j _. unfold is_centre, nth_pt. destruct (nth_in_or_default j (tri_pts t) (t_mesh, 0%Z)) as [In0|In0]; [|rewrite In0; reflexivity].
  destruct (Z.eqb_spec (fst (nth j (tri_pts t) (t_mesh, 0%Z))) t_tri) as [T|T]; auto. rewrite (P _ In0 T). reflexivity.
Qed.
Lemma after_prep st e conn m targ n deriv c c1 : calculate_triangulation st e conn m targ n deriv c = Ok c1 -> deriv <> 2%Z ->
  nDv c1 = length (dvMap c1) /\ NoDup (dvMap c1) /\ nConstr c1 = n /\ constrTarg c1 = targ /\ (forall q, deltaDV c1 q = 0) /\ (forall i, In i (dvMap c1) -> exists x, In x (snaxs e) /\ x_index x = i).
Proof.
  intros H Hm. destruct (@whole_inv _ _ _ _ _ _ _ _ _ H Hm) as (c0 & c2 & c3 & P & _ & _ & _ & F1 & F2 & F3 & _).
  pose proof (frame_trans (frame_trans F1 F2) F3) as (E1 & E2 & _ & _ & _ & _ & _ & E3 & E4 & E5 & _).
  destruct (@prep_inv _ _ _ _ _ _ _ P) as (l & _ & Ed & En & _ & Ec & _ & _ & Et & _ & _ & _ & _ & _ & _ & _ & _ & E0).
  rewrite E1, E2, E3, E4, E5. split; [exact En|]. split; [rewrite Ed; apply sort_unique_nodup|]. split; [exact Ec|]. split; [exact Et|]. split; [exact E0|].
  intros i I. apply (proj1 (@C78_variables _ _ _ _ _ _ _ P)) in I. destruct I as (p & x & Hx & Ex & _). exists x. split; auto. eapply nth_error_In; eauto.
Qed.

Section Velocities.
Variables (solve : solver -> nat -> dmat -> dvec -> dvec) (fit qr : nat -> nat -> dmat -> dvec -> dvec) (fac : nat -> dmat -> option (dvec -> dvec)).
Variables (st : statics) (e : tri_env) (conn : list (list (Z * Z))) (m : list (Z * Z)) (targ : list R) (n : nat) (deriv : Z) (c : calc).
Variables (lim : dbl) (method : Z) (sensCalc : bool) (old : nat * nat * dmat).
Variables (c1 : calc) (v : solved) (vs : list dbl) (d : Z -> R).
Hypothesis HR : calculate_velocities solve fit fac qr st e conn m targ n deriv c lim method sensCalc old = Ok (c1, v, vs).
Hypothesis Hm : deriv <> 2%Z.
Hypothesis Hp : placed e d.
Lemma velocities_inv : calculate_triangulation st e conn m targ n deriv c = Ok c1 /\
  check_and_compute solve fit fac qr c1 lim method sensCalc old = Ok v /\ vs = velocities c1 v (snaxs e).
Proof using HR.
  clear - HR. revert HR. unfold calculate_velocities. destruct (calculate_triangulation st e conn m targ n deriv c) as [c0| | |]; cbn [bind]; try discriminate.
  destruct (check_and_compute solve fit fac qr c0 lim method sensCalc old) as [v0| | |] eqn:Ec; cbn [bind]; try discriminate. intros E. injection E as E1 E2 E3. subst. repeat split; auto.
Qed.
(** When all snaxels move at the velocities they were given, the volume of every active
    constraint changes at the rate that brings it to its target in a unit of time. *)
Theorem C88_velocities : 0 <= centre_a st -> 0 <= centre2_a st -> (forall t, In t (dynatri e ++ intertri e) -> plain e t) ->
  (forall j, In j (acttri e) -> fixed e (static_tri e j)) -> full_math c1 = true -> (n <= length targ)%nat -> some_active c1 ->
  exact solve (named (Z.rem method 10)) (n_act (nDv c1) (dvAct c1)) -> exact solve (named (Z.rem method 10)) (n_act (nConstr c1) (constrAct c1)) ->
  suitable c1 (named (Z.rem method 10)) -> multipliers_fit c1 lim ->
  exists w : Z -> R, vs = map (fun x => Num (w (x_index x))) (snaxs e) /\
    (forall i, (forall x, In x (snaxs e) -> x_index x <> i) -> w i = 0) /\
    forall k, is_active (nConstr c1) (constrAct c1) k ->
      derivable_pt_lim (fun t => cell_volume e m k (fun i => d i + t * w i)) 0 (nth k targ 0 - cell_volume e m k d).
Proof using HR Hm Hp.
  intros H1 H2 Hs Hf HF HT HA HX1 HX2 HS HW. destruct velocities_inv as (Et & Ec & ->).
  destruct (@after_prep _ _ _ _ _ _ _ _ _ Et Hm) as (En & Nd & Ek & Eg & Ed & Ei).
  assert (HT' : has_targets c1) by (unfold has_targets; rewrite Ek, Eg; auto).
  destruct (@C84_step solve fit qr fac c1 lim HT' HA method sensCalc old HF HX1 HX2 HS HW) as (v' & Ev & delta & lam & D1 & _ & E1 & E2).
  rewrite Ec in Ev. injection Ev as <-.
  destruct (proj1 (@C85_frame solve fit qr fac c1 lim method sensCalc old v Ec) HA) as (D0 & _).
  set (dl := fun q => if dvAct c1 q then delta q else 0).
  assert (V : forall q, (q < nDv c1)%nat -> v_delta v q = Num (dl q)).
  { intros q L. unfold dl. destruct (dvAct c1 q) eqn:A; [apply D1; split; auto|]. rewrite D0, Ed; auto. intros [_ K]. congruence. }
  set (w := fun i => match index_of i (dvMap c1) with Some q => dl q | None => 0 end). exists w. split; [|split].
  - unfold velocities. apply map_ext. intros x. unfold w. destruct (index_of (x_index x) (dvMap c1)) as [q|] eqn:E; auto. apply V. rewrite En.
    apply nth_error_Some. rewrite (index_of_nth _ _ E). discriminate.
  - intros i H. unfold w. destruct (index_of i (dvMap c1)) as [q|] eqn:E; auto. exfalso. destruct (Ei i) as (x & Ix & Exi); [apply index_of_in; eauto|]. apply (H x Ix Exi).
  - intros k Hk. pose proof (no_centre_all Hs Hf) as N. apply is_derive_Reals.
    replace (nth k targ 0 - cell_volume e m k d) with (flow e m k d w).
    { apply cell_path; auto; [|intros; ring]. intros i. auto_derive; auto. ring. }
    destruct (@C79_values _ _ _ _ _ _ _ _ _ _ Et Hm Hp) as [Cv _]. rewrite <- Cv.
    assert (Tg : target c1 k = nth k targ 0) by (unfold target; rewrite Eg; auto). rewrite <- Tg, <- E2 by auto.
    rewrite (@flow_ext e m k d w (fun i => sum_to (nDv c1) (fun q => dl q * ind (nth q (dvMap c1) 0%Z) i))).
    + rewrite (@flow_linear e m k d _ dl (fun q => ind (nth q (dvMap c1) 0%Z))). apply sum_to_ext. intros q L. unfold dl. destruct (dvAct c1 q) eqn:A; [|ring].
      assert (Hq : nth_error (dvMap c1) q = Some (nth q (dvMap c1) 0%Z)) by (apply nth_error_nth'; lia).
      destruct (@C79_exact _ _ _ _ _ _ _ _ _ _ k _ _ Et Hm Hp H1 H2 Hs Hf HF Hq) as [Rk _]. rewrite <- (rate_flow N Rk). ring.
    + intros i. unfold w, ind. destruct (index_of i (dvMap c1)) as [q|] eqn:E.
      * pose proof (index_of_nth _ _ E) as E'. assert (L : (q < nDv c1)%nat) by (rewrite En; apply nth_error_Some; congruence).
        rewrite <- (@sum_to_one (nDv c1) q (dl q)) by auto. apply sum_to_ext. intros a La.
        destruct (Nat.eqb_spec a q) as [->|Na].
        -- rewrite (nth_error_nth _ _ _ E'), Z.eqb_refl. ring.
        -- destruct (Z.eqb_spec i (nth a (dvMap c1) 0%Z)) as [Ea|]; [|ring]. exfalso. apply Na. rewrite En in *. apply (NoDup_nth (dvMap c1) 0%Z); auto.
           rewrite <- Ea. symmetry. apply nth_error_nth; auto.
      * rewrite (@sum_to_ext _ _ (fun _ => 0 * 0)); [rewrite sum_to_scale; ring|]. intros a La. destruct (Z.eqb_spec i (nth a (dvMap c1) 0%Z)) as [Ea|]; [|ring].
        exfalso. assert (Ii : In i (dvMap c1)) by (rewrite Ea; apply nth_In; lia). apply index_of_in in Ii. destruct Ii as [q Q]. congruence.
Qed.
(** What is reported to the mesh: the volumes, and the logarithm of what is missing of the
    target, with -16 for nothing. *)
Theorem C88_report : fills c1 = map (fun k => cell_volume e m k d) (seq 0 n) /\
  ((n <= length targ)%nat -> exists r, Sqp.errors c1 = Ok r /\ length r = n /\ forall k, (k < n)%nat ->
     let x := Rabs (nth k targ 0 - cell_volume e m k d) in
     (/ 10 ^ 16 < x -> Rpower 10 (nth k r 0) = x) /\ (x <= / 10 ^ 16 -> nth k r 0 = -16)) /\
  (forall k, (length targ <= k < n)%nat -> Sqp.errors c1 = UB).
Proof using HR Hm Hp.
  destruct velocities_inv as (Et & _ & _). destruct (@after_prep _ _ _ _ _ _ _ _ _ Et Hm) as (_ & _ & Ek & Eg & _).
  destruct (@C79_values _ _ _ _ _ _ _ _ _ _ Et Hm Hp) as [Cv _]. split; [|split].
  - unfold fills. rewrite Ek. apply map_ext. exact Cv.
  - intros HT. set (f := fun k => let x := Rabs (nth k targ 0 - cell_volume e m k d) in if Rlt_dec (/ 10000000000000000) x then Geom.log10 x else -16).
    exists (map f (seq 0 n)). split; [|split; [rewrite map_length, seq_length; auto|]].
    + unfold Sqp.errors. rewrite Ek, Eg. apply omap_ok. intros k Hk. apply in_seq in Hk. unfold at_. destruct (Z.ltb_spec (Z.of_nat k) 0); [lia|]. rewrite Nat2Z.id.
      rewrite (nth_error_nth' targ 0) by lia. cbn [bind]. unfold f. rewrite Cv. reflexivity.
    + intros k L. rewrite (nth_indep (map f (seq 0 n)) 0 (f 0%nat)) by (rewrite map_length, seq_length; auto). rewrite map_nth, seq_nth by auto. cbn [Nat.add]. unfold f. cbv zeta.
      set (x := Rabs (nth k targ 0 - cell_volume e m k d)). replace (/ 10 ^ 16) with (/ 10000000000000000) by (f_equal; ring).
      destruct (Rlt_dec (/ 10000000000000000) x) as [K|K]; [split; [|lra]|split; [lra|auto]]. intros _.
      assert (0 < / 10000000000000000) by (apply Rinv_0_lt_compat; lra). unfold Geom.log10, Rpower.
      replace (ln x / ln 10 * ln 10) with (ln x); [apply exp_ln; lra|]. field. pose proof (ln_lt_2). assert (ln 1 < ln 10) by (apply ln_increasing; lra). rewrite ln_1 in *. lra.
  - intros k [L L']. unfold Sqp.errors. rewrite Ek, Eg.
    match goal with |- Mesh.omap_list ?h _ = _ => set (g := h) end.
    assert (G : forall a, (length targ <= a)%nat -> g a = UB).
    { intros a La. unfold g, at_. destruct (Z.ltb_spec (Z.of_nat a) 0); [lia|]. rewrite Nat2Z.id, (proj2 (nth_error_None targ a) La). reflexivity. }
    assert (G' : forall a, (exists y, g a = Ok y) \/ g a = UB).
    { intros a. destruct (le_lt_dec (length targ) a) as [La|La]; [auto|]. left. unfold g, at_. destruct (Z.ltb_spec (Z.of_nat a) 0); [lia|]. rewrite Nat2Z.id, (nth_error_nth' targ 0) by auto. eexists; reflexivity. }
    assert (Q : forall s, In k s -> Mesh.omap_list g s = UB).
    { induction s as [|a s IH]; [intros []|]. intros Ha. cbn [Mesh.omap_list]. destruct Ha as [->|Ha]; [rewrite G by auto; reflexivity|].
      destruct (G' a) as [[y ->]| ->]; cbn [bind]; [|reflexivity]. rewrite IH; auto. }
    apply Q, in_seq. lia.
Qed.
End Velocities.
Print Assumptions C88_velocities.
Print Assumptions C88_report.

(** One snaxel on the edge from the origin to (0,0,1), halfway; its triangle with two
    vertices of the mesh; one cell whose volume is to be 1. *)
Definition ex_one : tri_env := {|
  dynatri := [mkTri 1 [(t_snake, 1%Z); (t_mesh, 1%Z); (t_mesh, 2%Z)] [10%Z] [1]]; intertri := []; stattri := []; acttri := [];
  trivert := []; trisurf := [];
  mesh_verts := [(1%Z, at3 1 0 0); (2%Z, at3 0 1 0); (3%Z, at3 0 0 0); (4%Z, at3 0 0 1)];
  snake_verts := [(1%Z, at3 0 0 (1 / 2))]; snaxs := [mkSnaxel 1 3 4 false 0]; snake_surfs := [] |}.
Definition ex_start : Calc.calc := {|
  nDv := 0; nConstr := 0; falseaccess := 0; cutoff := 100; useCentre := true; useHessian := true;
  obj := 0; constr := fun _ => 0; dObj := fun _ => 0; dConstr := zero_mat; HConstr := zero_mat; HObj := zero_mat;
  lagMult := fun _ => 0; nLag := 1; constrTarg := []; deltaDV := fun _ => 0; dvAct := fun _ => false; constrAct := fun _ => false; dvMap := []; constrMap := [] |}.
Lemma ex_one_good : good_env ex_one [[]] ex_map 1.
Proof.
  split; [|split; [reflexivity|split; [|split]]].
  - intros x [<-|[]]. split; cbn; tauto.
  - intros l a b [<-|[]] [].
  - intros i [].
  - intros t [<-|[]]. split; [reflexivity|]. split; [|split; [reflexivity|]].
    + intros p [<-|[<-|[<-|[]]]]; left; [right; split; [reflexivity|split; cbn; tauto]|left; split; [reflexivity|cbn; tauto]|left; split; [reflexivity|cbn; tauto]].
    + intros z k _ [K|[]]. injection K as <- <-. right. lia.
Qed.
Lemma ex_one_placed : placed ex_one ex_half.
Proof.
  split; [|intros i tp []]. intros i v [E|[]]. injection E as <- <-. intros k L. unfold along, ex_half.
  destruct k as [|[|[|k]]]; [| | |lia]; cbn; lra.
Qed.
Lemma ex_one_volume d : cell_volume ex_one ex_map 0 d = - d 1%Z / 6.
Proof.
  unfold cell_volume, all_tris, total. cbn [map app fold_right dynatri intertri acttri ex_one].
  unfold weight, total. cbn -[tri_volume]. unfold tri_volume, signed_volume, det, place, corner_at, along. cbn. field.
Qed.
Lemma ex_one_area eps d : snake_area eps ex_one d = sqrt (1 + 2 * (d 1%Z * d 1%Z) + eps) / 2.
Proof.
  unfold snake_area, total. cbn [map fold_right dynatri ex_one]. unfold tri_area, shifted_area, gram, place, corner_at, along, vsub, vdot. cbn.
  rewrite Rplus_0_r. f_equal. f_equal. field.
Qed.

(** One variable and one constraint, both active, with slopes that are not zero. *)
Lemma one_by_one c : nDv c = 1%nat -> nConstr c = 1%nat -> dvAct c 0%nat = true -> constrAct c 0%nat = true ->
  hessian c 0%nat 0%nat <> 0 -> dConstr c 0%nat 0%nat <> 0 -> curved c /\ well_posed c.
Proof.
  intros E1 E2 A1 A2 H1 H2.
  assert (L1 : forall q, is_active (nDv c) (dvAct c) q <-> q = 0%nat) by (intros q; unfold is_active; rewrite E1; intuition (try lia); subst; auto).
  assert (L2 : forall q, is_active (nConstr c) (constrAct c) q <-> q = 0%nat) by (intros q; unfold is_active; rewrite E2; intuition (try lia); subst; auto).
  assert (S1 : forall g, sum_on (nDv c) (dvAct c) g = g 0%nat) by (intros g; unfold sum_on; rewrite E1, sum1, A1; auto).
  assert (S2 : forall g, sum_on (nConstr c) (constrAct c) g = g 0%nat) by (intros g; unfold sum_on; rewrite E2, sum1, A2; auto).
  unfold curved, well_posed, equations. split; split.
  - intros g. exists (fun _ => g 0%nat / hessian c 0%nat 0%nat). intros q Hq. apply L1 in Hq. subst q. rewrite S1. field; auto.
  - intros delta K q Hq. pose proof (K q Hq) as K0. apply L1 in Hq. subst q. rewrite S1 in K0. apply Rmult_integral in K0. tauto.
  - intros g r. set (x := r 0%nat / dConstr c 0%nat 0%nat). exists (fun _ => x), (fun _ => (g 0%nat - hessian c 0%nat 0%nat * x) / dConstr c 0%nat 0%nat). split.
    + intros q Hq. apply L1 in Hq. subst q. rewrite S1, S2. field; auto.
    + intros k Hk. apply L2 in Hk. subst k. rewrite S1. unfold x. field; auto.
  - intros delta lam [K1 K2].
    assert (D0 : delta 0%nat = 0). { specialize (K2 0%nat (proj2 (L2 0%nat) eq_refl)). rewrite S1 in K2. apply Rmult_integral in K2. tauto. }
    split; [intros q Hq; apply L1 in Hq; subst q; auto|]. intros k Hk. apply L2 in Hk. subst k.
    specialize (K1 0%nat (proj2 (L1 0%nat) eq_refl)). rewrite S1, S2, D0 in K1. assert (K : dConstr c 0%nat 0%nat * lam 0%nat = 0) by lra. apply Rmult_integral in K. tauto.
Qed.
Example C88_used : exists c1 v vs, calculate_velocities ex_solve ex_fit ex_fac ex_fit statics0 ex_one [[]] ex_map [1] 1 0 ex_start (Inf false) 0 false (0%nat, 0%nat, fun _ _ => NaN) = Ok (c1, v, vs) /\
  vs = [Num (- 13 / 2)].
Proof.
  destruct (@C82_defined statics0 ex_one [[]] ex_map [1] 1 0 ex_start ex_one_good) as [c1 H]; [lia|]. assert (Hm : 0%Z <> 2%Z) by lia.
  destruct (@whole_inv _ _ _ _ _ _ _ _ _ H Hm) as (c0 & c2 & c3 & P & _ & _ & _ & F1 & F2 & F3 & _ & _ & Ed & En & El & Es).
  injection P as <-. assert (Ed' : dvMap c1 = [1]%Z) by (rewrite <- Ed; reflexivity).
  pose proof (frame_full (frame_trans (frame_trans F1 F2) F3)) as Ff.
  destruct (@after_prep _ _ _ _ _ _ _ _ _ H Hm) as (E1 & _ & E2 & E3 & _). rewrite Ed' in E1. cbn [length] in E1.
  assert (S0 : slack c1 = 0) by (rewrite <- Es; reflexivity). assert (El' : forall k, lagMult c1 k = 0) by (intros k; rewrite <- El; reflexivity).
  assert (Ps : 0 < / 10000000000) by (apply Rinv_0_lt_compat; lra).
  assert (Q : forall a b, Rabs (a - b) <= 0 -> a = b).
  { intros a b K. pose proof (Rabs_pos (a - b)). destruct (Req_dec (a - b) 0) as [E|E]; [lra|]. apply Rabs_no_R0 in E. lra. }
  assert (Np : forall t, In t (dynatri ex_one ++ intertri ex_one) -> plain ex_one t).
  { intros t [<-|[]] p [<-|[<-|[<-|[]]]]; discriminate. }
  assert (Nf : forall j, In j (acttri ex_one) -> fixed ex_one (static_tri ex_one j)) by (intros j []).
  assert (Hq : nth_error (dvMap c1) 0 = Some 1%Z) by (rewrite Ed'; reflexivity).
  assert (HF : full_math c1 = true) by (rewrite Ff; reflexivity).
  assert (X1 : 0 <= centre_a statics0) by (cbn; lra). assert (X2 : 0 <= centre2_a statics0) by (cbn; lra). assert (X3 : 0 < surf_m statics0) by (cbn; lra).
  assert (J : dConstr c1 0%nat 0%nat = - / 6).
  { destruct (@C79_exact _ _ _ _ _ _ _ _ _ _ 0%nat _ _ H Hm ex_one_placed X1 X2 Np Nf HF Hq) as [Rv _].
    unfold rate in Rv. apply is_derive_Reals in Rv. rewrite <- (is_derive_unique _ _ _ Rv). apply is_derive_unique.
    apply (is_derive_ext (fun t => - t / 6)); [intros t; rewrite ex_one_volume; reflexivity|]. auto_derive; auto. field. }
  assert (Hc : HConstr c1 0%nat 0%nat = 0).
  { destruct (@C81_constraints_partial _ _ _ _ _ _ _ _ _ _ H Hm ex_one_placed X1 X2 _ _ _ _ Np Nf Hq Hq) as (h & (g & G1 & G2) & B).
    rewrite total_zero in B; [|intros t _; rewrite S0; ring]. rewrite (Q _ _ B). apply is_derive_Reals in G2. rewrite <- (is_derive_unique _ _ _ G2). apply is_derive_unique.
    apply (is_derive_ext (fun _ => 0)); [|apply (is_derive_const 0)]. intros t. specialize (G1 t). unfold rate in G1. apply is_derive_Reals in G1. rewrite <- (is_derive_unique _ _ _ G1).
    symmetry. apply is_derive_unique. apply (is_derive_ext (fun _ => 0)); [|apply (is_derive_const 0)]. intros u. unfold weighted_volumes. rewrite sum1, El', Rmult_0_l. reflexivity. }
  assert (Ho : 0 < HObj c1 0%nat 0%nat).
  { destruct (@C81_objective_partial _ _ _ _ _ _ _ _ _ _ H Hm ex_one_placed X1 X2 1%Z 1%Z 0%nat 0%nat X3) as (h & (g & G1 & G2) & B); [intros t It; apply Np, in_or_app; auto|auto|auto|].
    rewrite total_zero in B; [|intros t _; exact S0]. rewrite (Q _ _ B). apply is_derive_Reals in G2. rewrite <- (is_derive_unique _ _ _ G2).
    set (eps := surf_m statics0) in *.
    assert (Gt : forall t, g t = t / sqrt (1 + 2 * (t * t) + eps)).
    { intros t. specialize (G1 t). unfold rate in G1. apply is_derive_Reals in G1. rewrite <- (is_derive_unique _ _ _ G1). apply is_derive_unique.
      change (slide ex_half 1 t 1%Z) with t.
      apply (is_derive_ext (fun u => sqrt (1 + 2 * (u * u) + eps) / 2)); [intros u; rewrite ex_one_area; reflexivity|].
      assert (0 < 1 + 2 * (t * t) + eps) by (pose proof (Rle_0_sqr t) as K; unfold Rsqr in K; lra).
      auto_derive; [auto|]. field. intros K. apply sqrt_lt_R0 in H0. lra. }
    assert (K0 : 0 < 1 + 2 * (1 / 2 * (1 / 2)) + eps) by lra.
    assert (K : is_derive g (1 / 2) ((1 + eps) / ((1 + 2 * (1 / 2 * (1 / 2)) + eps) * sqrt (1 + 2 * (1 / 2 * (1 / 2)) + eps)))).
    { apply (is_derive_ext (fun t => t / sqrt (1 + 2 * (t * t) + eps))); [intros; auto|]. pose proof (sqrt_lt_R0 _ K0) as K1. pose proof (sqrt_sqrt _ (Rlt_le _ _ K0)) as K2.
      auto_derive; [split; [auto|split; [lra|auto]]|]. set (s := sqrt (1 + 2 * (1 / 2 * (1 / 2)) + eps)) in *. rewrite <- K2. replace eps with (s * s - 3 / 2) by lra. field. lra. }
    change (ex_half 1) with (1 / 2). rewrite (is_derive_unique _ _ _ K). apply Rdiv_lt_0_compat; [lra|]. apply Rmult_lt_0_compat; auto. apply sqrt_lt_R0; auto. }
  assert (Dp : tri_depends ex_one (useCentre ex_start) (mkTri 1 [(t_snake, 1%Z); (t_mesh, 1%Z); (t_mesh, 2%Z)] [10%Z] [1]) 1) by (exists 0%nat; split; [lia|left; reflexivity]).
  destruct (@C82_active _ _ _ _ _ _ _ _ _ H Hm) as [Ad Ac].
  assert (A1 : dvAct c1 0%nat = true) by (apply Ad; eexists _, 1%Z; split; [left; reflexivity|split; [exact Dp|exact Hq]]).
  assert (A2 : constrAct c1 0%nat = true).
  { apply Ac. eexists _, 1%Z, 10%Z. split; [left; reflexivity|]. split; [exact Dp|]. rewrite Ed'. cbn. tauto. }
  assert (N1 : n_act (nDv c1) (dvAct c1) = 1%nat) by (rewrite E1; unfold n_act; cbn; rewrite A1; reflexivity).
  assert (N2 : n_act (nConstr c1) (constrAct c1) = 1%nat) by (rewrite E2; unfold n_act; cbn; rewrite A2; reflexivity).
  assert (SA : some_active c1) by (exists 0%nat; split; [rewrite E1; lia|auto]).
  assert (HT : has_targets c1) by (unfold has_targets; rewrite E2, E3; cbn; lia).
  assert (SU : suitable c1 (named (Z.rem 0 10))) by (apply one_by_one; auto; [unfold hessian; lra|rewrite J; lra]).
  assert (MF : multipliers_fit c1 (Inf false)) by (intros ? ? _ k _; exact I).
  assert (T1 : exact ex_solve (named (Z.rem 0 10)) (n_act (nDv c1) (dvAct c1))) by (rewrite N1; apply ex_exact; auto).
  assert (T2 : exact ex_solve (named (Z.rem 0 10)) (n_act (nConstr c1) (constrAct c1))) by (rewrite N2; apply ex_exact; auto).
  destruct (@C84_step ex_solve ex_fit ex_fit ex_fac c1 (Inf false) HT SA 0 false (0%nat, 0%nat, fun _ _ => NaN) HF T1 T2 SU MF) as (v & Ev & _).
  assert (R0 : calculate_velocities ex_solve ex_fit ex_fac ex_fit statics0 ex_one [[]] ex_map [1] 1 0 ex_start (Inf false) 0 false (0%nat, 0%nat, fun _ _ => NaN) = Ok (c1, v, velocities c1 v (snaxs ex_one))).
  { unfold calculate_velocities. rewrite H. cbn [bind]. rewrite Ev. reflexivity. }
  exists c1, v, (velocities c1 v (snaxs ex_one)). split; [exact R0|].
  destruct (@C88_velocities _ _ _ _ _ _ _ _ _ _ _ _ _ _ _ _ _ _ _ _ R0 Hm ex_one_placed X1 X2 Np Nf HF ltac:(cbn; lia) SA T1 T2 SU MF) as (w & -> & _ & W).
  cbn. f_equal. f_equal. specialize (W 0%nat ltac:(split; [rewrite E2; lia|auto])). apply is_derive_Reals in W.
  assert (K : is_derive (fun t => cell_volume ex_one ex_map 0 (fun i => ex_half i + t * w i)) 0 (- w 1%Z / 6)).
  { apply (is_derive_ext (fun t => - (1 / 2 + t * w 1%Z) / 6)); [intros t; rewrite ex_one_volume; reflexivity|]. auto_derive; auto. field. }
  assert (U : - w 1%Z / 6 = nth 0 [1] 0 - cell_volume ex_one ex_map 0 ex_half) by (transitivity (Derive (fun t => cell_volume ex_one ex_map 0 (fun i => ex_half i + t * w i)) 0); [symmetry|]; apply is_derive_unique; assumption).
  rewrite ex_one_volume in U. cbn in U. unfold ex_half in U. lra.
Qed.
