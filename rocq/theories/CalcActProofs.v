(** The variables a triangle depends on, and the two methods of derivation. *)
From Coq Require Import Reals List Lia Lra ZArith.
From Verif Require Import Base RsvsMath SpecRsvs SpecCentre Calc SpecCalc CalcProofs CalcTriProofs CalcAllProofs.
Import ListNotations.
Set Implicit Arguments.
Open Scope R_scope.

Lemma point_dvs_is e dvs centre p l i : point_dvs e dvs centre p = Ok l -> In i l <-> In i dvs /\ depends e centre p i.
Proof.
  destruct p as [t j]. unfold point_dvs. intros H. destruct (Z.eqb_spec t t_snake) as [->|Nt]; cbn [andb] in H.
  - assert (D : depends e centre (t_snake, j) i <-> i = j).
    { unfold depends. split; [|intros ->; auto]. intros [K|(_ & K & _)]; [injection K as ->; auto|]. unfold is_centre in K. cbn in K. discriminate. }
    rewrite D. clear D. destruct (in_map dvs j) eqn:I; cbn in H; injection H as <-.
    + apply in_map_in in I. split; [intros [<-|[]]; auto|intros [_ ->]; left; auto].
    + split; [intros []|]. intros [K ->]. apply in_map_in in K. congruence.
  - assert (D : depends e centre (t, j) i <-> centre = true /\ is_centre e (t, j) = true /\ In (t_snake, i) (corners_of e (tripoint_of e j))).
    { unfold depends. split; [|auto]. intros [K|K]; [injection K as K; congruence|auto]. }
    rewrite D. clear D. destruct (Z.eqb_spec t t_tri) as [->|N]; cbn [andb] in H.
    2: { injection H as <-. split; [intros []|]. intros (_ & _ & K & _). unfold is_centre in K. cbn [fst] in K. apply Z.eqb_neq in N. rewrite N in K. discriminate. }
    destruct centre; cbn in H. 2: { injection H as <-. split; [intros []|intros (_ & K & _); discriminate]. }
    unfold is_centre. cbn [fst snd]. change (Z.eqb t_tri t_tri) with true. cbn [andb].
    destruct (lookup j (trivert e)) as [tp| | |] eqn:Et; cbn [bind] in H; try discriminate.
    assert (Etp : tripoint_of e j = tp) by apply (lookup_Ok _ _ (mkTp origin 0 0) Et). rewrite Etp. unfold moving, corners_of.
    destruct (Z.eqb_spec (tp_ptype tp) t_tri) as [Tt|Tt]; cbn [orb].
    + destruct (lookup (tp_parent tp) (trisurf e)) as [s| | |] eqn:Es; cbn [bind] in H; try discriminate. injection H as <-. rewrite (proj1 (lookup_Ok _ _ [] Es)).
      rewrite in_map_iff. split.
      * intros ([a b] & Eb & K). cbn in Eb. subst b. apply filter_In in K. destruct K as [K1 K2]. cbn [fst snd] in K2. apply andb_prop in K2. destruct K2 as [A B].
        apply Z.eqb_eq in A. subst a. apply in_map_in in B. auto.
      * intros (A & _ & _ & B). exists (t_snake, i). split; auto. apply filter_In. split; auto. cbn [fst snd]. change (Z.eqb t_snake t_snake) with true. apply in_map_in. auto.
    + destruct (Z.eqb_spec (tp_ptype tp) t_snake) as [Ts|Ts].
      * destruct (lookup (tp_parent tp) (snake_surfs e)) as [s| | |] eqn:Es; cbn [bind] in H; try discriminate. injection H as <-. rewrite (proj1 (lookup_Ok _ _ [] Es)).
        rewrite filter_In, in_map_in, in_map_iff. split.
        -- intros [A B]. split; auto. split; auto. split; auto. exists i. auto.
        -- intros (A & _ & _ & x & Ex & B). injection Ex as ->. auto.
      * injection H as <-. split; [intros []|]. intros (_ & _ & K & _). discriminate.
Qed.
Lemma tri_dvs_is e dvs centre t l i : tri_dvs e dvs centre t = Ok l -> In i l <-> In i dvs /\ tri_depends e centre t i.
Proof.
  unfold tri_dvs. intros H. destruct (three (tri_pts t)) as [p| | |] eqn:E3; cbn [bind] in H; try discriminate.
  destruct (three_Ok _ E3) as (a & b & c & -> & Ef). destruct (concat_all (point_dvs e dvs centre) [a; b; c]) as [r| | |] eqn:Er; cbn [bind] in H; try discriminate. injection H as <-.
  rewrite sort_unique_in. destruct (concat_all_Ok _ _ Er) as [I J]. rewrite I.
  assert (Ept : nth_pt t 0 = a /\ nth_pt t 1 = b /\ nth_pt t 2 = c).
  { unfold nth_pt. destruct (tri_pts t) as [|? [|? [|? ?]]]; cbn in Ef; try discriminate. injection Ef as -> -> ->. auto. }
  destruct Ept as (Pa & Pb & Pc). split.
  - intros (q & x & Iq & Ex & Ix). apply (point_dvs_is _ _ _ _ _ Ex) in Ix. destruct Ix as [A B]. split; auto. unfold tri_depends.
    destruct Iq as [<-|[<-|[<-|[]]]]; [exists 0%nat|exists 1%nat|exists 2%nat]; (split; [lia|congruence]).
  - intros (A & j & Lj & B). assert (In (nth_pt t j) [a; b; c]) as K.
    { destruct j as [|[|[|]]]; [rewrite Pa|rewrite Pb|rewrite Pc|lia]; cbn; auto. }
    destruct (J _ K) as (x & Ex). exists (nth_pt t j), x. split; auto. split; auto. apply (point_dvs_is _ _ _ _ _ Ex). auto.
Qed.
Lemma dv_positions_in c act qs : dv_positions c act = Ok qs -> forall q, In q qs <-> exists i, In i act /\ index_of i (dvMap c) = Some q.
Proof.
  revert qs. induction act as [|i act IH]; cbn [dv_positions]; intros qs H q.
  - injection H as <-. split; [intros []|intros (? & [] & _)].
  - destruct (dv_pos c i) as [x| | |] eqn:Ex; cbn [bind] in H; try discriminate. destruct (dv_positions c act) as [r| | |] eqn:Er; cbn [bind] in H; try discriminate. injection H as <-.
    assert (Eix : index_of i (dvMap c) = Some x).
    { unfold dv_pos in Ex. destruct (index_of i (dvMap c)); [|discriminate]. destruct (Nat.ltb _ _); [injection Ex as ->; auto|discriminate]. }
    cbn [In]. rewrite (IH _ eq_refl q). split.
    + intros [<-|(k & A & B)]; [exists i; auto|exists k; auto].
    + intros (k & [<-|A] & B); [left; congruence|right; eauto].
Qed.

(** *** What a loop marks *)
Section Loop.
Variables (st : statics) (e : tri_env) (fd o dv : bool).
Notation loop := (calc_triangles (calc_triangle st e fd o true dv)).
Lemma loop_marks l c c' : loop l c = Ok c' -> NoDup (dvMap c) ->
  (forall q, dvAct c' q = true <-> dvAct c q = true \/ exists t i, In t l /\ tri_depends e (useCentre c) t i /\ nth_error (dvMap c) q = Some i) /\
  (forall k, constrAct c' k = true <-> constrAct c k = true \/
     exists t i z, In t l /\ tri_depends e (useCentre c) t i /\ In i (dvMap c) /\ In z (celltarg t) /\ In (z, Z.of_nat k) (constrMap c)).
Proof.
  revert c. induction l as [|t l IH]; cbn [calc_triangles]; intros c H N.
  - injection H as <-. split; intros; (split; [auto|intros [K|K]; auto]); [destruct K as (? & ? & [] & _)|destruct K as (? & ? & ? & [] & _)].
  - destruct (calc_triangle st e fd o true dv t c) as [c1| | |] eqn:E; cbn [bind] in H; try discriminate.
    destruct (calc_triangle_inv _ _ _ _ _ _ _ _ E) as (a & b & d & act & dpos & hpos & qs & F & Fr & _ & _ & _ & _ & _ & _ & A & B).
    destruct F as [_ Fa _ _ Fp].
    assert (Ed : dvMap c1 = dvMap c) by apply Fr. assert (Em : constrMap c1 = constrMap c) by apply Fr. assert (Eu : useCentre c1 = useCentre c) by apply Fr.
    destruct (IH _ H) as [A' B']; [rewrite Ed; auto|]. rewrite Ed, Em, Eu in *.
    assert (Q : forall q, In q qs <-> exists i, tri_depends e (useCentre c) t i /\ nth_error (dvMap c) q = Some i).
    { intros q. rewrite (dv_positions_in _ _ Fp q). split.
      - intros (i & I & X). exists i. apply (tri_dvs_is _ _ _ _ _ Fa) in I. split; [tauto|apply index_of_nth; auto].
      - intros (i & D & X). exists i. split; [|apply index_of_complete; auto]. apply (tri_dvs_is _ _ _ _ _ Fa). split; auto. eapply nth_error_In; eauto. }
    split.
    + intros q. rewrite A', A, Bool.orb_true_iff, existsb_exists. split.
      * intros [[K|(x & Ix & Ex)]|(t' & i & It & K)]; auto.
        -- apply Nat.eqb_eq in Ex. subst x. apply Q in Ix. destruct Ix as (i & D & X). right. exists t, i. split; [left; auto|auto].
        -- right. exists t', i. split; [right; auto|auto].
      * intros [K|(t' & i & [<-|It] & D & X)]; auto.
        -- left. right. exists q. split; [apply Q; eauto|apply Nat.eqb_refl].
        -- right. eauto.
    + intros k. rewrite B', B. split.
      * intros [[K|(Nq & z & Iz & X)]|(t' & i & z & It & K)]; auto.
        -- right. destruct qs as [|q qs]; [congruence|]. destruct (proj1 (Q q) (or_introl eq_refl)) as (i & D & Xq). exists t, i, z. split; [left; auto|]. split; auto. split; auto. eapply nth_error_In; eauto.
        -- right. exists t', i, z. split; [right; auto|auto].
      * intros [K|(t' & i & z & [<-|It] & D & I & Iz & X)]; auto.
        -- left. right. split; [|eauto]. apply In_nth_error in I. destruct I as [q I]. intros ->. apply (Q q). eauto.
        -- right. exists t', i, z. auto.
Qed.
End Loop.

(** *** The two methods *)
(** Two states hold the same numbers; the Hessian of the objective only if [h]. *)
Definition same_numbers (h : Prop) (c c' : Calc.calc) : Prop :=
  frame c c' /\ obj c = obj c' /\ (forall k, constr c k = constr c' k) /\ (forall q, dObj c q = dObj c' q) /\
  (forall k q, dConstr c k q = dConstr c' k q) /\ (forall x y, HConstr c x y = HConstr c' x y) /\ (h -> forall x y, HObj c x y = HObj c' x y) /\
  (forall q, dvAct c q = dvAct c' q) /\ (forall k, constrAct c k = constrAct c' k).
Lemma same_refl h c : same_numbers h c c. Proof. repeat split. Qed.
Lemma keeps_frame c c' : frame c c' -> keeps c' = keeps c.
Proof. intros F. unfold keeps, full_math. destruct F as (-> & _ & -> & _). reflexivity. Qed.
Lemma bool_eq (a b : bool) (P Q : Prop) : (a = true <-> P) -> (b = true <-> Q) -> (P <-> Q) -> a = b.
Proof. intros A B K. destruct a, b; auto; exfalso; [|]; intuition congruence. Qed.
Lemma tri_same2 st e o dv t c1 c2 c1' c2' : calc_triangle st e false o true dv t c1 = Ok c1' -> calc_triangle st e true o true dv t c2 = Ok c2' ->
  same_numbers (full_math c1 = true) c1 c2 -> same_numbers (full_math c1 = true) c1' c2' /\ full_math c1' = full_math c1.
Proof.
  intros E1 E2 (Fr & So & Sc & Sd & Sdc & Sh & Sho & Sa & Sca).
  destruct (calc_triangle_inv _ _ _ _ _ _ _ _ E1) as (a & b & d & act & dpos & hpos & qs & F1 & Fr1 & C1 & D1 & H1 & O1 & DO1 & HO1 & A1 & B1).
  destruct (calc_triangle_inv _ _ _ _ _ _ _ _ E2) as (a2 & b2 & d2 & act2 & dpos2 & hpos2 & qs2 & F2 & Fr2 & C2 & D2 & H2 & O2 & DO2 & HO2 & A2 & B2).
  destruct F1 as [Xc Xa Xj Xh Xp], F2 as [Yc Ya Yj Yh Yp].
  assert (Em : constrMap c2 = constrMap c1) by apply Fr. assert (En : nConstr c2 = nConstr c1) by apply Fr. assert (El : lagMult c2 = lagMult c1) by apply Fr.
  replace (dvMap c2) with (dvMap c1) in Ya by (symmetry; apply Fr). replace (useCentre c2) with (useCentre c1) in * by (symmetry; apply Fr). replace (useHessian c2) with (useHessian c1) in * by (symmetry; apply Fr).
  rewrite Xc in Yc. injection Yc as <- <- <-. rewrite Xa in Ya. injection Ya as <-. rewrite Xj in Yj. injection Yj as <-. rewrite Xh in Yh. injection Yh as <-.
  assert (Ep : dv_positions c2 act = dv_positions c1 act).
  { assert (dvMap c2 = dvMap c1) as X1 by apply Fr. assert (nDv c2 = nDv c1) as X2 by apply Fr. clear - X1 X2. induction act as [|i r IH]; cbn; auto. rewrite IH. unfold dv_pos. rewrite X1, X2. auto. }
  rewrite Ep, Xp in Yp. injection Yp as <-. rewrite Em, En, El, (keeps_frame Fr) in *.
  assert (Ef : full_math c1' = full_math c1) by (unfold full_math; destruct Fr1 as (-> & _ & -> & _); auto).
  split; auto. unfold same_numbers. split; [unfold frame in *; intuition congruence|].
  split; [rewrite O1, O2, So; auto|]. split; [intros; rewrite C1, C2, Sc; auto|]. split; [intros; rewrite DO1, DO2, Sd; auto|]. split; [intros; rewrite D1, D2, Sdc; auto|].
  split; [intros; rewrite H1, H2, Sh; auto|]. split.
  { intros K x y. rewrite HO1, HO2, Sho by auto. unfold keeps_obj. rewrite K, Bool.orb_true_r. reflexivity. }
  split; [intros; rewrite A1, A2, Sa; auto|]. intros k. eapply bool_eq; [apply B1|apply B2|]. rewrite Sca. tauto.
Qed.
Lemma loop_same2 st e o dv l c1 c2 c1' c2' : calc_triangles (calc_triangle st e false o true dv) l c1 = Ok c1' -> calc_triangles (calc_triangle st e true o true dv) l c2 = Ok c2' ->
  same_numbers (full_math c1 = true) c1 c2 -> same_numbers (full_math c1 = true) c1' c2' /\ full_math c1' = full_math c1.
Proof.
  revert c1 c2. induction l as [|t l IH]; cbn [calc_triangles]; intros c1 c2 E1 E2 S; [injection E1 as <-; injection E2 as <-; auto|].
  destruct (calc_triangle st e false o true dv t c1) as [d1| | |] eqn:G1; cbn [bind] in E1; try discriminate.
  destruct (calc_triangle st e true o true dv t c2) as [d2| | |] eqn:G2; cbn [bind] in E2; try discriminate.
  destruct (tri_same2 _ _ _ _ _ G1 G2 S) as [S' Ef]. rewrite <- Ef in *. eapply IH; eauto.
Qed.
