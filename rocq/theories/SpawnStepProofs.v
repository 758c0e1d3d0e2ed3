(** Lemmas on the step of new snaxels. *)
From Verif Require Import Base Containers Mesh Flood Edit Num Snake StepLimit SpecMesh SpecSnake SpecStep
  ContainersProofs MeshProofs FloodProofs CropProofs EditProofs StepProofs.
Import Mesh.
Set Implicit Arguments.
Open Scope Z_scope.

Lemma qlt_iff a b : qlt a b = true <-> (a < b)%Q.
Proof.
  unfold qlt. destruct (Qle_bool b a) eqn:E; simpl; split; intro H; try discriminate; auto.
  - apply Qle_bool_iff in E. lra.
  - apply Qnot_le_lt. intro K. apply Qle_bool_iff in K. congruence.
Qed.
Lemma qlt_no a b : qlt a b = false <-> (b <= a)%Q.
Proof.
  unfold qlt. destruct (Qle_bool b a) eqn:E; simpl; split; intro H; try discriminate; auto.
  - apply Qle_bool_iff in E. auto.
  - apply Qle_bool_iff in H. congruence.
Qed.

Section S.
Variable m : mesh.
Variable len : list Q.
Hypothesis Wc : well_connected m.
Hypothesis Len : length len = length (edges m).
Hypothesis Pos : forall x, In x len -> (0 < x)%Q.

Lemma min_around_ok v e : VE m v e -> exists x, min_around m len v = Ok (Some x) /\ shortest_at m len v x.
Proof using All.
  intros Hv. assert (Hh : has_vert m v) by (destruct Hv as [a [H1 [H2 _]]]; exists a; auto).
  unfold min_around. destruct (@find_at _ ve_index (verts m) v Hh) as [a [Hat [Ha Ea]]].
  unfold isearch. rewrite Hat. cbn [bind].
  destruct (@for_each_pre Z (option Q) (fun e x => do l <- edge_len m len e ;
    Ok (Some (match x with None => l | Some y => if qlt l y then l else y end)))
    (fun d x => match x with None => d = [] | Some x =>
       (exists e, In e d /\ edge_length m len e x) /\ forall e y, In e d -> edge_length m len e y -> (x <= y)%Q end) (ve_edgeind a)) with (s := @None Q) as [x [R P]].
  - intros d b r s E Hd.
    assert (Vb : VE m v b) by (exists a; split; auto; split; auto; rewrite E; apply in_or_app; simpl; auto).
    assert (Hb : has_edge m b).
    { assert (Nb : b <> 0) by (intros ->; destruct Wc as [_ [_ [X _]]]; exact (X _ Vb)).
      assert (Ev : EV m b v) by (apply Wc; auto). destruct Ev as [c [H1 [H2 _]]]. exists c; auto. }
    destruct (@edge_len_ok m len Wc Len _ Hb) as [y [Ey Ly]]. rewrite Ey. cbn [bind]. eexists. split; [reflexivity|]. simpl.
    destruct s as [x|].
    + destruct Hd as [[e0 [He0 Hl0]] H4]. destruct (qlt y x) eqn:Eq.
      * apply qlt_iff in Eq. split; [exists b; split; auto; apply in_or_app; simpl; auto|].
        intros e' z K Hz. apply in_app_or in K. destruct K as [K|[<-|[]]].
        -- pose proof (H4 _ _ K Hz). lra.
        -- rewrite (@edge_length_fun m len Wc Len _ _ _ Hz Ly). lra.
      * apply qlt_no in Eq. split; [exists e0; split; auto; apply in_or_app; simpl; auto|].
        intros e' z K Hz. apply in_app_or in K. destruct K as [K|[<-|[]]].
        -- exact (H4 _ _ K Hz).
        -- rewrite (@edge_length_fun m len Wc Len _ _ _ Hz Ly). exact Eq.
    + subst d. split; [exists b; simpl; auto|]. intros e' z [<-|[]] Hz. rewrite (@edge_length_fun m len Wc Len _ _ _ Hz Ly). lra.
  - reflexivity.
  - assert (Hin : forall e, In e (ve_edgeind a) <-> VE m v e).
    { intro e'. split; [intro K; exists a; auto|]. intros [a' [H1 [H2 H3]]].
      rewrite (@NoDup_idx_inj _ ve_index (verts m) a a'); auto; [apply Wc|congruence]. }
    rewrite R. destruct x as [x|]; [|apply Hin in Hv; rewrite P in Hv; destruct Hv].
    exists x. split; auto. destruct P as [[e0 [P1 P2]] P3]. split.
    + exists e0. split; auto. apply Hin. auto.
    + intros e' y K. apply P3. apply Hin. auto.
Qed.

Variable rng : Z -> list Z.

(** One snaxel alone on its edge, at one of the ends. *)
Lemma step_alone (l : list qsnax) p (s : qsnax) step : nth_error l p = Some s -> rng (sx_edge s) = [Z.of_nat p] ->
  EV m (sx_edge s) (sx_from s) -> EV m (sx_edge s) (sx_to s) -> (@neps Qn <= step < 1 # 2)%Q ->
  (sx_d s == 0 \/ sx_d s == 1) ->
  exists d, take_spawn_step rng m len step (Z.of_nat p) l = Ok (upd l p (sx_set_d (N := Qn) d s)) /\
    exists x y, edge_length m len (sx_edge s) y /\
      shortest_at m len (if Qeq_bool (sx_d s) 0 then sx_from s else sx_to s) x /\
      (sx_d s == 0 -> d * y == step * x /\ 0 < d < 1 # 2)%Q /\ (sx_d s == 1 -> (1 - d) * y == step * x /\ 1 # 2 < d < 1)%Q.
Proof using All.
  intros Hp Hr Ef Et St Hd. unfold take_spawn_step.
  assert (Hat : at_ l (Z.of_nat p) = Ok s).
  { unfold at_. destruct (Z.ltb_spec (Z.of_nat p) 0); [lia|]. rewrite Nat2Z.id, Hp. reflexivity. }
  rewrite Hat. cbn [bind]. assert (E0 : (0 < @neps Qn)%Q) by reflexivity.
  assert (K1 : qlt (Qabs (step - 0)) (@neps Qn) = false).
  { apply qlt_no. rewrite Qabs_pos; lra. }
  rewrite K1.
  assert (K2 : (qlt step (- @neps Qn) || Qle_bool (1 # 2) step)%bool = false).
  { apply orb_false_iff. split; [apply qlt_no; lra|]. destruct (Qle_bool (1 # 2) step) eqn:E; auto. apply Qle_bool_iff in E. lra. }
  rewrite K2. clear K1 K2.
  assert (VEof : forall v, EV m (sx_edge s) v -> VE m v (sx_edge s)).
  { intros v H. apply Wc; auto. intros ->. destruct Wc as [_ [_ [_ [X _]]]]. exact (X _ H). }
  assert (He : has_edge m (sx_edge s)) by (destruct Ef as [a [H1 [H2 _]]]; exists a; auto).
  destruct (@edge_len_ok m len Wc Len _ He) as [y [Ey Ly]].
  assert (Py : (0 < y)%Q) by (destruct Ly as [? [? [_ [_ K]]]]; apply Pos; eapply nth_error_In; eauto).
  assert (Sz : forall v x, VE m v (sx_edge s) -> shortest_at m len v x -> (0 < x <= y)%Q).
  { intros v x Hv [[e0 [_ [? [? [_ [_ K]]]]]] Hm]. split; [apply Pos; eapply nth_error_In; eauto|]. apply (Hm (sx_edge s)); auto. }
  assert (Quot : forall x, (0 < x <= y)%Q -> (0 < step * x / y < 1 # 2)%Q).
  { intros x Hx. split.
    - apply Qlt_shift_div_l; auto. nra.
    - apply Qlt_shift_div_r; auto. nra. }
  destruct Hd as [Hd|Hd].
  - assert (B : qlt (1 # 2) (sx_d s) = false) by (apply qlt_no; rewrite Hd; discriminate). rewrite B.
    destruct (min_around_ok (VEof _ Ef)) as [x [Ex Sx]]. rewrite Ex. cbn [bind]. rewrite Ey. cbn [bind].
    specialize (Quot x (Sz _ _ (VEof _ Ef) Sx)).
    set (d := (sx_d s + step * x / y)%Q). assert (Ed : d == step * x / y) by (unfold d; rewrite Hd; ring).
    assert (R : (qlt d 0 || qlt 1 d)%bool = false) by (apply orb_false_iff; split; apply qlt_no; rewrite Ed; lra).
    rewrite R, Hr. exists d. rewrite Nat2Z.id. split; auto. exists x, y. split; auto.
    assert (Eb : Qeq_bool (sx_d s) 0 = true) by (apply Qeq_bool_iff; auto). rewrite Eb. split; auto. split.
    + intros _. split; [rewrite Ed; field; lra|rewrite !Ed; exact Quot].
    + intros K. rewrite Hd in K. discriminate.
  - assert (B : qlt (1 # 2) (sx_d s) = true) by (apply qlt_iff; rewrite Hd; reflexivity). rewrite B.
    destruct (min_around_ok (VEof _ Et)) as [x [Ex Sx]]. rewrite Ex. cbn [bind]. rewrite Ey. cbn [bind].
    specialize (Quot x (Sz _ _ (VEof _ Et) Sx)).
    set (d := (sx_d s + - step * x / y)%Q). assert (Ed : d == 1 - step * x / y) by (unfold d; rewrite Hd; field; lra).
    assert (R : (qlt d 0 || qlt 1 d)%bool = false) by (apply orb_false_iff; split; apply qlt_no; rewrite Ed; lra).
    rewrite R, Hr. exists d. rewrite Nat2Z.id. split; auto. exists x, y. split; auto.
    assert (Eb : Qeq_bool (sx_d s) 0 = false).
    { destruct (Qeq_bool (sx_d s) 0) eqn:E; auto. apply Qeq_bool_iff in E. rewrite Hd in E. discriminate. }
    rewrite Eb. split; auto. split.
    + intros K. rewrite Hd in K. discriminate.
    + intros _. split; [rewrite Ed; field; lra|rewrite !Ed; lra].
Qed.

Lemma steps_alone (l : list qsnax) step minIndex : legal_rng l rng -> (forall s, In s l -> length (siblings l s) = 1%nat) ->
  (forall s, In s l -> EV m (sx_edge s) (sx_from s) /\ EV m (sx_edge s) (sx_to s)) ->
  (forall s, In s l -> minIndex < sx_index s -> sx_d s == 0 \/ sx_d s == 1) -> (@neps Qn <= step < 1 # 2)%Q ->
  exists l', take_spawn_steps rng m len minIndex step l = Ok l' /\ Forall2 (stepped m len step minIndex) l l'.
Proof using All.
  intros Lg Al On New St.
  assert (Rng : forall p s, nth_error l p = Some s -> rng (sx_edge s) = [Z.of_nat p]).
  { intros p s Hp. destruct (Lg (sx_edge s)) as [Nd Hin].
    assert (I : In (Z.of_nat p) (rng (sx_edge s))) by (apply Hin; split; [lia|]; rewrite Nat2Z.id; eauto).
    assert (U : forall q, In q (rng (sx_edge s)) -> q = Z.of_nat p).
    { intros q Hq. apply Hin in Hq. destruct Hq as [H0 [t [Ht Et]]].
      specialize (Al s (nth_error_In _ _ Hp)). unfold siblings in Al.
      assert (G : forall (l : list qsnax) p q t, nth_error l p = Some s -> nth_error l q = Some t -> sx_edge t = sx_edge s ->
        length (filter (fun t => sx_edge t =? sx_edge s) l) = 1%nat -> p = q).
      { clear. induction l as [|a l IH]; intros [|p] [|q] t Hp Hq Et L; simpl in *; try discriminate; auto.
        - injection Hp as ->. rewrite Z.eqb_refl in L. simpl in L. apply nth_error_In in Hq.
          assert (In t (filter (fun t => sx_edge t =? sx_edge s) l)) by (apply filter_In; split; auto; apply Z.eqb_eq; auto).
          destruct (filter _ l); [destruct H|discriminate].
        - injection Hq as ->. rewrite (proj2 (Z.eqb_eq _ _) Et) in L. simpl in L. apply nth_error_In in Hp.
          assert (In s (filter (fun t => sx_edge t =? sx_edge s) l)) by (apply filter_In; split; auto; apply Z.eqb_eq; auto).
          destruct (filter _ l); [destruct H|discriminate].
        - f_equal. destruct (sx_edge a =? sx_edge s).
          + simpl in L. apply nth_error_In in Hp. assert (In s (filter (fun t => sx_edge t =? sx_edge s) l)) by (apply filter_In; split; auto; apply Z.eqb_eq; auto).
            destruct (filter _ l); [destruct H|discriminate].
          + eapply IH; eauto. }
      rewrite (G l p (Z.to_nat q) t Hp Ht Et Al). lia. }
    destruct (rng (sx_edge s)) as [|a [|b r]]; [destruct I| |].
    - rewrite (U a); simpl; auto.
    - inversion Nd as [|? ? N1 _]; subst. exfalso. apply N1. rewrite (U a), (U b); simpl; auto. }
  unfold take_spawn_steps.
  assert (G : forall r pre pre' i, l = pre ++ r -> length pre = i -> Forall2 (stepped m len step minIndex) pre pre' ->
    exists r', for_each (upto (length r) (Z.of_nat i)) (fun p l => do s <- at_ l p ; if minIndex <? sx_index s then take_spawn_step rng m len step p l else Ok l) (pre' ++ r)
      = Ok r' /\ Forall2 (stepped m len step minIndex) l r').
  { induction r as [|s r IH]; intros pre pre' i E Li F.
    - simpl. exists (pre' ++ []). split; auto. rewrite E, !app_nil_r. auto.
    - cbn [length upto for_each].
      assert (Lp : length pre' = i) by (rewrite <- Li; clear - F; induction F; simpl; auto).
      assert (Hs : nth_error (pre' ++ s :: r) i = Some s) by (rewrite nth_error_app2 by lia; rewrite Lp, Nat.sub_diag; reflexivity).
      assert (Hl : nth_error l i = Some s) by (rewrite E, nth_error_app2 by lia; rewrite Li, Nat.sub_diag; reflexivity).
      assert (Hin : In s l) by (eapply nth_error_In; eauto).
      assert (Hat : at_ (pre' ++ s :: r) (Z.of_nat i) = Ok s).
      { unfold at_. destruct (Z.ltb_spec (Z.of_nat i) 0); [lia|]. rewrite Nat2Z.id, Hs. reflexivity. }
      rewrite Hat. cbn [bind]. replace (Z.of_nat i + 1) with (Z.of_nat (S i)) by lia.
      assert (Next : forall s', stepped m len step minIndex s s' -> exists r', for_each (upto (length r) (Z.of_nat (S i)))
          (fun p l => do s <- at_ l p ; if minIndex <? sx_index s then take_spawn_step rng m len step p l else Ok l) (pre' ++ s' :: r) = Ok r' /\ Forall2 (stepped m len step minIndex) l r').
      { intros s' Hs'. specialize (IH (pre ++ [s]) (pre' ++ [s']) (S i)). rewrite <- !app_assoc in IH. simpl in IH. apply IH; auto.
        - rewrite app_length. simpl. lia.
        - apply Forall2_app; auto. }
      destruct (Z.ltb_spec minIndex (sx_index s)) as [G1|G1].
      + destruct (On s Hin) as [O1 O2].
        destruct (@step_alone (pre' ++ s :: r) i s step Hs (Rng i s Hl) O1 O2 St (New s Hin G1)) as [d [R X]].
        rewrite R. cbn [bind].
        assert (Up : upd (pre' ++ s :: r) i (sx_set_d (N := Qn) d s) = pre' ++ sx_set_d (N := Qn) d s :: r).
        { clear - Lp. revert i Lp. induction pre' as [|a pre' IH]; intros i Lp; simpl in Lp; subst i; simpl; auto. f_equal. apply IH. reflexivity. }
        rewrite Up. apply Next. split; [unfold same_but_d; simpl; auto 10|]. split; [lia|]. intros _. exact X.
      + cbn [bind]. apply Next. split; [unfold same_but_d; auto 10|]. split; auto. lia. }
  destruct (G l [] [] 0%nat eq_refl eq_refl (Forall2_nil _)) as [l' [R F]]. exists l'. split; auto.
Qed.
End S.
