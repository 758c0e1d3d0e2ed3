(** Proofs about edge ordering. *)
From Verif Require Import Base Containers ContainersProofs Mesh SpecMesh MeshProofs Order SpecOrder.
Set Implicit Arguments.
Open Scope Z_scope.

Lemma nat_at_Ok A (l : list A) p a : nat_at l p = Ok a <-> nth_error l p = Some a.
Proof.
  unfold nat_at. rewrite at_Ok, Nat2Z.id. split; [tauto|]. intros; split; auto. lia.
Qed.
Lemma nat_at_nth A (l : list A) p d : (p < length l)%nat -> nat_at l p = Ok (nth p l d).
Proof. intros H. apply nat_at_Ok. apply nth_error_nth'; auto. Qed.

Lemma NoDup_incl_cap (l : list nat) n : NoDup l -> (forall x, In x l -> (x < n)%nat) -> (length l <= n)%nat.
Proof.
  intros Hnd H. rewrite <- (seq_length n 0). apply NoDup_incl_length; auto.
  intros x Hx. apply in_seq. specialize (H x Hx). lia.
Qed.
Lemma NoDup_full (l : list nat) n : NoDup l -> (forall x, In x l -> (x < n)%nat) -> length l = n ->
  Permutation l (seq 0 n).
Proof.
  intros Hnd H Hl. apply NoDup_Permutation_bis; auto.
  - rewrite seq_length. lia.
  - intros x Hx. apply in_seq. specialize (H x Hx). lia.
Qed.

Lemma list_cons A (l : list A) : (0 < length l)%nat -> exists a r, l = a :: r.
Proof. destruct l as [|a r]; simpl; [lia|eauto]. Qed.

Section Ordering.
Variable e2v orig : list Z.
Variable rng : Z -> list nat.
Variable errout : bool.
Let n := length orig.
Hypothesis Hlen : length e2v = (2 * n)%nat.
Hypothesis Hnd : NoDup orig.
Hypothesis Hrng : is_table e2v rng.

Definition va p := nth (2 * p) e2v 0.
Definition vb p := nth (2 * p + 1) e2v 0.
Definition o p := nth p orig 0.
Definition tou p v := (p < n)%nat /\ (v = va p \/ v = vb p).
Definition other q u v := (u = va q /\ v = vb q) \/ (u = vb q /\ v = va q).

Lemma va_at p : (p < n)%nat -> nth_error e2v (2 * p) = Some (va p).
Proof. intros H. apply nth_error_nth'. lia. Qed.
Lemma vb_at p : (p < n)%nat -> nth_error e2v (2 * p + 1) = Some (vb p).
Proof. intros H. apply nth_error_nth'. lia. Qed.
Lemma o_at p : (p < n)%nat -> nth_error orig p = Some (o p).
Proof. intros H. apply nth_error_nth'. auto. Qed.
Lemma o_inj p q : (p < n)%nat -> (q < n)%nat -> o p = o q -> p = q.
Proof. intros Hp Hq E. apply (NoDup_nth orig 0); auto. Qed.

Lemma tou_pos p v : tou p v -> exists x, nth_error e2v x = Some v /\ (x / 2 = p)%nat.
Proof.
  intros [Hp [->| ->]].
  - exists (2 * p)%nat. split; [apply va_at; auto|]. rewrite Nat.mul_comm. apply Nat.div_mul. lia.
  - exists (2 * p + 1)%nat. split; [apply vb_at; auto|].
    rewrite Nat.mul_comm, Nat.add_comm, Nat.div_add by lia. reflexivity.
Qed.
Lemma pos_tou x v : nth_error e2v x = Some v -> tou (x / 2) v.
Proof.
  intros H. assert (Hx : (x < length e2v)%nat) by (apply nth_error_Some; congruence).
  split; [apply Nat.div_lt_upper_bound; lia|].
  assert (E := Nat.div_mod_eq x 2). assert (B := Nat.mod_upper_bound x 2).
  destruct (x mod 2)%nat as [|[|]] eqn:Em; [left|right|lia].
  - unfold va. replace (2 * (x / 2))%nat with x by lia. apply nth_error_nth with (d := 0) in H. auto.
  - unfold vb. replace (2 * (x / 2) + 1)%nat with x by lia. apply nth_error_nth with (d := 0) in H. auto.
Qed.
Lemma rng_In v x : In x (rng v) <-> nth_error e2v x = Some v.
Proof.
  rewrite (Permutation_in' eq_refl (Hrng v)), positions_spec. split.
  - intros [a [H E]]. apply Z.eqb_eq in E. congruence.
  - intros H. exists v. rewrite Z.eqb_refl. auto.
Qed.
Lemma rng_NoDup v : NoDup (rng v).
Proof. eapply Permutation_NoDup; [apply Permutation_sym; apply Hrng|]. apply positions_NoDup. Qed.

Lemma pair_at p : (p < n)%nat -> pair_of orig e2v (o p) (va p) (vb p).
Proof. intros H. exists p. split; [apply o_at; auto|]. split; [apply va_at; auto|apply vb_at; auto]. Qed.
Lemma pair_inv e a b : pair_of orig e2v e a b -> exists p, (p < n)%nat /\ e = o p /\ a = va p /\ b = vb p.
Proof.
  intros [p [H1 [H2 H3]]]. assert (Hp : (p < n)%nat) by (apply nth_error_Some; congruence).
  exists p. rewrite (o_at Hp) in H1. rewrite (va_at Hp) in H2. rewrite (vb_at Hp) in H3. repeat split; congruence.
Qed.
Lemma touches_tou e v : touches orig e2v e v <-> exists p, e = o p /\ tou p v.
Proof.
  split.
  - intros [a [b [H Hv]]]. apply pair_inv in H. destruct H as [p [Hp [-> [-> ->]]]]. exists p. split; auto. split; auto.
  - intros [p [-> [Hp Hv]]]. exists (va p), (vb p). split; auto. apply pair_at; auto.
Qed.

(** The trail of a walk that never restarted: positions with the vertex through
    which they were left, latest first. *)
Inductive trail : list (nat * Z) -> Prop :=
| trail_0 : (0 < n)%nat -> trail [(0%nat, va 0)]
| trail_S p u t q v : trail ((p, u) :: t) -> (q < n)%nat -> ~ In q (map fst ((p, u) :: t)) ->
    other q u v -> trail ((q, v) :: (p, u) :: t).

(** Positions visited, each linked to an earlier one. *)
Inductive grown : list nat -> Prop :=
| grown_0 : (0 < n)%nat -> grown [0%nat]
| grown_S path q : grown path -> ~ In q path -> (exists p v, In p path /\ tou p v /\ tou q v) -> grown (q :: path).

Lemma grown_NoDup path : grown path -> NoDup path.
Proof. induction 1; constructor; auto. constructor. Qed.
Lemma grown_lt path : grown path -> forall x, In x path -> (x < n)%nat.
Proof. induction 1 as [|path q H IH Hq [p [v [_ [_ [Hv _]]]]]]; intros x [<-|Hx]; auto. destruct Hx. Qed.
Lemma grown_pos path : grown path -> (0 < n)%nat.
Proof. induction 1; auto. Qed.
Lemma grown_reach path : grown path -> forall x, In x path -> reach (share orig e2v) (o 0) (o x).
Proof.
  induction 1 as [|path q H IH Hq [p [v [Hp [Tp Tq]]]]]; intros x [<-|Hx]; auto.
  - constructor.
  - destruct Hx.
  - eapply reach_step; [apply IH; eauto|]. exists v. split; apply touches_tou; eauto.
Qed.

Lemma trail_tou t : trail t -> forall p u, In (p, u) t -> tou p u.
Proof.
  induction 1 as [H0|p u t q v H IH Hq Hn Ho]; intros x w [E|Hx].
  - injection E as <- <-. split; auto.
  - destruct Hx.
  - injection E as <- <-. split; auto. unfold other in Ho. tauto.
  - apply IH; auto.
Qed.
Lemma trail_grown t : trail t -> grown (map fst t).
Proof.
  induction 1 as [H0|p u t q v H IH Hq Hn Ho]; [apply grown_0; auto|].
  change (grown (q :: map fst ((p, u) :: t))). apply grown_S; auto.
  exists p, u. split; [left; auto|]. split.
  - eapply trail_tou; eauto. left; auto.
  - split; auto. unfold other in Ho. tauto.
Qed.
Lemma trail_other t1 q v p u t2 : trail (t1 ++ (q, v) :: (p, u) :: t2) -> other q u v.
Proof.
  induction t1 as [|[a b] t1 IH]; intros H.
  - simpl in H. inversion H; auto.
  - apply IH. simpl in H. inversion H.
    + destruct t1; discriminate.
    + auto.
Qed.
Lemma trail_last t1 q v : trail (t1 ++ [(q, v)]) -> q = 0%nat /\ v = va 0.
Proof.
  induction t1 as [|[a b] t1 IH]; intros H; simpl in H.
  - inversion H; auto.
  - apply IH. inversion H; auto. destruct t1; discriminate.
Qed.

(** Chronological reading. *)
Fixpoint okfrom u (ts : list (nat * Z)) : Prop :=
  match ts with [] => True | (q, v) :: r => (q < n)%nat /\ other q u v /\ okfrom v r end.
Fixpoint exit_of u (ts : list (nat * Z)) : Z := match ts with [] => u | (_, v) :: r => exit_of v r end.
Fixpoint entries u (ts : list (nat * Z)) : list Z := match ts with [] => [] | (_, v) :: r => u :: entries v r end.

Lemma okfrom_app u l q v : okfrom u l -> (q < n)%nat -> other q (exit_of u l) v -> okfrom u (l ++ [(q, v)]).
Proof.
  revert u. induction l as [|[a b] l IH]; intros u H1 H2 H3; simpl in *; auto.
  destruct H1 as [A [B C]]. split; auto.
Qed.
Lemma exit_app u l q v : exit_of u (l ++ [(q, v)]) = v.
Proof. revert u. induction l as [|[a b] l IH]; intros u; simpl; auto. Qed.
Lemma trail_okfrom t : trail t -> okfrom (vb 0) (rev t).
Proof.
  induction 1 as [H0|p u t q v H IH Hq Hn Ho].
  - simpl. unfold other. auto.
  - change (rev ((q, v) :: (p, u) :: t)) with (rev ((p, u) :: t) ++ [(q, v)]).
    apply okfrom_app; auto. simpl. rewrite exit_app. auto.
Qed.
Lemma okfrom_joins : forall ts u i e a b, okfrom u ts ->
  nth_error (map o (map fst ts)) i = Some e -> nth_error (entries u ts) i = Some a ->
  nth_error (tl (entries u ts) ++ [exit_of u ts]) i = Some b -> joins orig e2v e a b.
Proof.
  induction ts as [|[q v] r IH]; intros u i e a b H He Ha Hb; [destruct i; discriminate|].
  simpl in H. destruct H as [Hq [Ho Hr]]. destruct i as [|i]; simpl in *.
  - injection He as <-. injection Ha as <-.
    assert (v = b). { destruct r as [|[q' v'] r]; simpl in Hb; congruence. } subst b.
    destruct Ho as [[-> ->]|[-> ->]]; [left|right]; apply pair_at; auto.
  - apply (IH v i e a b); auto. destruct r as [|[q' v'] r]; simpl in *; auto. destruct i; discriminate.
Qed.
Lemma entries_len u ts : length (entries u ts) = length ts.
Proof. revert u. induction ts as [|[q v] r IH]; intros u; simpl; auto. Qed.

Lemma chain_okfrom : forall ts u, okfrom u ts -> chained (share orig e2v) (map o (map fst ts)).
Proof.
  induction ts as [|[q v] r IH]; intros u H i e f He Hf; [destruct i; discriminate|].
  simpl in H. destruct H as [Hq [Ho Hr]]. destruct i as [|i].
  - destruct r as [|[q' v'] r]; [discriminate|]. simpl in *. injection He as <-. injection Hf as <-.
    destruct Hr as [Hq' [Ho' _]]. exists v. split; apply touches_tou.
    + exists q. split; auto. split; auto. unfold other in Ho. tauto.
    + exists q'. split; auto. split; auto. unfold other in Ho'. tauto.
  - apply (IH v Hr i); auto.
Qed.

(** The state of the loop. *)
Definition vis (path : list nat) (w : walk) : Prop :=
  grown path /\ length (w_done w) = n /\
  (forall p, (p < n)%nat -> nth_error (w_done w) p = Some (if in_dec Nat.eq_dec p path then true else false)) /\
  length (w_list w) = n /\ firstn (length path) (w_list w) = map o (rev path) /\
  (exists p, In p path /\ tou p (w_vert w)) /\ (exists p, In p path /\ w_edge w = o p).
Definition strong (t : list (nat * Z)) (w : walk) : Prop :=
  vis (map fst t) w /\ trail t /\ w_ends w = false /\
  exists p u r, t = (p, u) :: r /\ w_vert w = u /\ w_edge w = o p.

Lemma firstn_upd A (l : list A) k a : (k < length l)%nat -> firstn (S k) (upd l k a) = firstn k l ++ [a].
Proof.
  revert k. induction l as [|x l IH]; intros [|k] H; simpl in *; try lia; auto. f_equal.
  rewrite IH by lia. reflexivity.
Qed.

(** One pick. *)
Lemma pick_step path ii w range t :
  vis path w -> length path = ii -> (ii < n)%nat -> (forall x, In x range -> nth_error e2v x = Some (w_vert w)) ->
  order_pick e2v orig ii w range = Ok t ->
  (exists q v, t = Next (mkWalk v (o q) (upd (w_done w) q true) (upd (w_list w) ii (o q)) (w_ends w)) /\
     ~ In q path /\ tou q (w_vert w) /\ other q (w_vert w) v) \/
  (w_ends w = true /\ t = Stop (- Z.of_nat ii) (w_list w)) \/
  (w_ends w = false /\ t = Stop truncated (firstn ii (w_list w))).
Proof.
  intros [HG [HD1 [HD2 [HL1 [HL2 _]]]]] Hii Hlt Hr Hrun. unfold order_pick in Hrun.
  destruct range as [|x r]; [discriminate|].
  assert (Tx : tou (x / 2) (w_vert w)) by (apply pos_tou; apply Hr; left; auto).
  rewrite (proj2 (nat_at_Ok _ _ _) (o_at (proj1 Tx))) in Hrun. cbn [bind] in Hrun.
  set (its := if o (x / 2) =? w_edge w then match r with y :: _ => Ok y | [] => UB end else Ok x) in *.
  destruct its as [it| | |] eqn:Eits; try discriminate. cbn [bind] in Hrun.
  assert (Hit : In it (x :: r)).
  { unfold its in Eits. destruct (o (x / 2) =? w_edge w); [|injection Eits as <-; left; auto].
    destruct r as [|y r]; [discriminate|]. injection Eits as <-. right; left; auto. }
  set (q := (it / 2)%nat) in *.
  assert (Tq : tou q (w_vert w)) by (apply pos_tou; apply Hr; auto).
  rewrite (proj2 (nat_at_Ok _ _ _) (HD2 q (proj1 Tq))) in Hrun. cbn [bind] in Hrun.
  destruct (in_dec Nat.eq_dec q path) as [Hin|Hin]; cbn [negb] in Hrun.
  - right. destruct (w_ends w); injection Hrun as <-; auto.
  - left. rewrite (proj2 (nat_at_Ok _ _ _) (o_at (proj1 Tq))) in Hrun. cbn [bind] in Hrun.
    replace (q * 2)%nat with (2 * q)%nat in Hrun by lia.
    rewrite (proj2 (nat_at_Ok _ _ _) (va_at (proj1 Tq))) in Hrun. cbn [bind] in Hrun.
    destruct (Z.eqb_spec (va q) (w_vert w)) as [E|E].
    + rewrite (proj2 (nat_at_Ok _ _ _) (vb_at (proj1 Tq))) in Hrun. cbn [bind] in Hrun.
      injection Hrun as <-. exists q, (vb q). split; auto. split; auto. split; auto. left; auto.
    + rewrite Nat.add_0_r in Hrun.
      rewrite (proj2 (nat_at_Ok _ _ _) (va_at (proj1 Tq))) in Hrun. cbn [bind] in Hrun.
      injection Hrun as <-. exists q, (va q). split; auto. split; auto. split; auto. right.
      split; auto. destruct Tq as [_ [Tq|Tq]]; congruence.
Qed.

Lemma vis_next path w q v ends ii : vis path w -> length path = ii -> (ii < n)%nat -> ~ In q path ->
  (exists p x, In p path /\ tou p x /\ tou q x) -> tou q v ->
  vis (q :: path) (mkWalk v (o q) (upd (w_done w) q true) (upd (w_list w) ii (o q)) ends).
Proof.
  intros [HG [HD1 [HD2 [HL1 [HL2 _]]]]] Hii Hlt Hq Hlink Hv. unfold vis. cbn [w_done w_list w_vert w_edge].
  split; [apply grown_S; auto|]. split; [rewrite upd_length; auto|]. split.
  { intros p Hp. rewrite nth_error_upd. destruct (Nat.eqb_spec q p) as [->|Hne].
    - destruct (Nat.ltb_spec p (length (w_done w))); [|lia]. destruct (in_dec Nat.eq_dec p (p :: path)) as [|Hx]; auto.
      exfalso; apply Hx; left; auto.
    - rewrite HD2 by auto. destruct (in_dec Nat.eq_dec p path) as [H|H], (in_dec Nat.eq_dec p (q :: path)) as [H'|H']; auto.
      + exfalso; apply H'; right; auto.
      + destruct H'; [congruence|contradiction]. }
  split; [rewrite upd_length; auto|]. split.
  { simpl length. rewrite Hii, firstn_upd by lia. rewrite <- Hii, HL2. simpl. rewrite map_app. reflexivity. }
  split; [exists q; split; [left; auto|auto]|exists q; split; [left; auto|auto]].
Qed.

Lemma other_tou q u v : (q < n)%nat -> other q u v -> tou q u /\ tou q v.
Proof. intros Hq Ho. unfold tou, other in *. tauto. Qed.

(** What the result says, whatever the input. *)
Definition order_ok (c : Z) (l : list Z) : Prop :=
  (c = ordered /\ Permutation l orig /\ (errout = true -> chained (share orig e2v) l) /\
     (forall e, In e l -> reach (share orig e2v) (o 0) e)) \/
  (c = truncated /\ (0 < length l < n)%nat /\ NoDup l /\ incl l orig /\ chained (share orig e2v) l) \/
  (errout = false /\ exists k, c = - Z.of_nat k /\ (0 < k < n)%nat /\ length l = n /\
     NoDup (firstn k l) /\ incl (firstn k l) orig /\ (forall e, In e (firstn k l) -> reach (share orig e2v) (o 0) e)).

Lemma map_o_NoDup path : grown path -> NoDup (map o (rev path)).
Proof.
  intros H. rewrite map_rev. apply NoDup_rev. assert (Hl := grown_lt H). assert (HN := grown_NoDup H).
  clear H. induction path as [|x path IH]; simpl; constructor.
  - intros Hin. apply in_map_iff in Hin. destruct Hin as [y [E Hy]]. apply o_inj in E.
    + subst. inversion HN; auto.
    + apply Hl; right; auto.
    + apply Hl; left; auto.
  - apply IH; [intros; apply Hl; right; auto|inversion HN; auto].
Qed.
Lemma map_o_incl path : grown path -> incl (map o (rev path)) orig.
Proof.
  intros H e He. rewrite map_rev in He. apply in_rev in He. apply in_map_iff in He. destruct He as [x [<- Hx]].
  apply nth_In. apply (grown_lt H); auto.
Qed.
Lemma map_o_full path : grown path -> length path = n -> Permutation (map o (rev path)) orig.
Proof.
  intros H Hl. apply NoDup_Permutation_bis; [apply map_o_NoDup; auto| |apply map_o_incl; auto].
  rewrite map_length, rev_length. fold n. lia.
Qed.
Lemma map_o_reach path : grown path -> forall e, In e (map o (rev path)) -> reach (share orig e2v) (o 0) e.
Proof.
  intros H e He. rewrite map_rev in He. apply in_rev in He. apply in_map_iff in He. destruct He as [x [<- Hx]].
  apply (grown_reach H); auto.
Qed.

Lemma loop_sound k : forall ii w c l path,
  vis path w -> length path = ii -> (ii + k = n)%nat ->
  (w_ends w = true -> errout = false) ->
  (w_ends w = false -> exists t, path = map fst t /\ strong t w) ->
  order_loop e2v orig rng errout k ii w = Ok (c, l) -> order_ok c l.
Proof.
  induction k as [|k IH]; intros ii w c l path HV Hii Hk He Hs Hrun.
  - simpl in Hrun. injection Hrun as <- <-. left. split; auto.
    assert (HV' := HV). destruct HV as [HG [_ [_ [HL1 [HL2 _]]]]].
    assert (E : w_list w = map o (rev path)).
    { rewrite <- HL2, firstn_all2; auto. lia. }
    rewrite E. split; [apply map_o_full; auto; lia|]. split; [|apply map_o_reach; auto].
    intros Herr. destruct (w_ends w) eqn:Ew; [rewrite He in Herr by auto; discriminate|].
    destruct (Hs eq_refl) as [t [-> [_ [Ht _]]]]. rewrite <- map_rev. eapply chain_okfrom. apply trail_okfrom. auto.
  - cbn [order_loop] in Hrun. destruct (order_turn e2v orig rng errout ii w) as [t| | |] eqn:Et; try discriminate.
    cbn [bind] in Hrun. unfold order_turn in Et.
    assert (HV' := HV). destruct HV' as [HG [HD1 [HD2 [HL1 [HL2 [HT HE]]]]]].
    assert (Hopen : errout = false -> order_ok (- Z.of_nat ii) (w_list w)).
    { intros Herr. right; right. split; auto. exists ii. rewrite <- Hii, HL2. rewrite Hii.
      split; auto. split; [destruct path; simpl in *; [inversion HG|lia]|]. split; auto.
      split; [apply map_o_NoDup; auto|]. split; [apply map_o_incl; auto|apply map_o_reach; auto]. }
    destruct (length (rng (w_vert w)) =? 1)%nat.
    + destruct errout eqn:Eerr; [discriminate|]. destruct (w_ends w) eqn:Ew.
      { injection Et as <-. injection Hrun as <- <-. apply Hopen; auto. }
      assert (H0n := grown_pos HG).
      change (nat_at e2v 1) with (nat_at e2v (2 * 0 + 1)) in Et.
      rewrite (proj2 (nat_at_Ok _ _ _) (vb_at H0n)) in Et. cbn [bind] in Et.
      rewrite (@nat_at_nth _ (w_list w) 0 0) in Et by lia. cbn [bind] in Et.
      assert (H0 : In 0%nat path).
      { destruct (Hs eq_refl) as [tt [-> [_ [Ht _]]]]. clear - Ht. induction Ht; [left; auto|right; auto]. }
      set (w' := mkWalk (vb 0) (nth 0 (w_list w) 0) (w_done w) (w_list w) true) in *.
      assert (HV2 : vis path w').
      { unfold vis, w'. cbn [w_done w_list w_vert w_edge]. do 5 (split; [assumption|]). split.
        - exists 0%nat. split; auto. split; auto.
        - exists 0%nat. split; auto.
          destruct path as [|p0 pr] eqn:Ep; [destruct H0|]. rewrite <- Ep in *.
          assert (Hfirst : nth_error (map o (rev path)) 0 = Some (o 0)).
          { destruct (Hs eq_refl) as [tt [Ept [_ [Ht _]]]]. rewrite Ept, <- map_rev.
            clear - Ht. induction Ht as [|p u t q v H IH]; [reflexivity|].
            change (rev ((q, v) :: (p, u) :: t)) with (rev ((p, u) :: t) ++ [(q, v)]).
            rewrite !map_app, nth_error_app1; auto. apply nth_error_Some. congruence. }
          rewrite <- HL2 in Hfirst. destruct (w_list w) as [|z zs]; [simpl in HL1; lia|].
          destruct (length path); simpl in Hfirst; [discriminate|]. simpl. congruence. }
      destruct (@pick_step path ii w' (rng (vb 0)) t HV2 Hii ltac:(lia)) as [[q [v [-> [Hq [Tq Ho]]]]]|[[_ ->]|[C _]]].
      * intros x Hx. apply rng_In; auto.
      * exact Et.
      * cbn [w_vert w_done w_list w_ends w'] in *.
        refine (IH (S ii) _ c l (q :: path) _ _ _ _ _ Hrun); cbn [w_ends].
        -- apply (@vis_next path w q v true ii); auto; try lia.
           ++ exists 0%nat, (vb 0). split; auto. split; auto. split; auto.
           ++ apply (other_tou (proj1 Tq) Ho).
        -- simpl. lia.
        -- lia.
        -- auto.
        -- discriminate.
      * cbn [w_list w'] in Hrun. injection Hrun as <- <-. apply Hopen; auto.
      * discriminate C.
    + destruct (@pick_step path ii w (rng (w_vert w)) t HV Hii ltac:(lia)) as [[q [v [-> [Hq [Tq Ho]]]]]|[[Ew ->]|[Ew ->]]].
      * intros x Hx. apply rng_In; auto.
      * exact Et.
      * assert (HVn : vis (q :: path) (mkWalk v (o q) (upd (w_done w) q true) (upd (w_list w) ii (o q)) (w_ends w))).
        { apply vis_next; auto; try lia.
          - destruct HT as [p [Hp Tp]]. exists p, (w_vert w). auto.
          - apply (other_tou (proj1 Tq) Ho). }
        refine (IH (S ii) _ c l (q :: path) HVn _ _ _ _ Hrun); cbn [w_ends]; [simpl; lia|lia|auto|].
        intros Ew. destruct (Hs Ew) as [tt [-> [_ [Ht [_ [p [u [r [-> [Hu Hp]]]]]]]]]].
        exists ((q, v) :: (p, u) :: r). split; auto. split; auto. rewrite Hu in Ho. split.
        { constructor; auto. apply Tq. }
        split; auto. exists q, v, ((p, u) :: r). auto.
      * injection Hrun as <- <-. apply Hopen. auto.
      * injection Hrun as <- <-. right; left. split; auto. rewrite <- Hii, HL2.
        split.
        { rewrite map_length, rev_length. destruct path; simpl in *; [inversion HG|lia]. }
        split; [apply map_o_NoDup; auto|]. split; [apply map_o_incl; auto|].
        destruct (Hs Ew) as [tt [-> [_ [Ht _]]]]. rewrite <- map_rev. eapply chain_okfrom. apply trail_okfrom. auto.
Qed.

Lemma start_vis : (0 < n)%nat -> exists e0 r, orig = e0 :: r /\
  strong [(0%nat, va 0)] (mkWalk (va 0) e0 (upd (repeat false n) 0 true) orig false).
Proof.
  intros H. destruct (@list_cons _ orig H) as [e0 [r E]]. exists e0, r. split; auto.
  assert (Eo : o 0 = e0) by (unfold o; rewrite E; auto).
  split; [|split; [constructor; auto|split; auto; exists 0%nat, (va 0), []; auto]].
  unfold vis. cbn [w_done w_list w_vert w_edge map fst length].
  split; [apply grown_0; auto|]. split; [rewrite upd_length; apply repeat_length|]. split.
  { intros p Hp. rewrite nth_error_upd, repeat_length. destruct (Nat.eqb_spec 0 p) as [<-|Hne].
    - destruct (Nat.ltb_spec 0 n); [reflexivity|lia].
    - rewrite nth_error_repeat by auto. destruct (in_dec Nat.eq_dec p [0%nat]) as [[C|[]]|]; auto. congruence. }
  split; auto. split; [rewrite E; simpl; congruence|].
  split; exists 0%nat; simpl; auto. split; auto. split; auto.
Qed.

Lemma order_list_cons l e0 r v0 z : l = e0 :: r -> nat_at e2v 0 = Ok v0 -> nat_at orig 0 = Ok z ->
  order_list e2v orig rng errout l =
  order_loop e2v orig rng errout (length l - 1) 1 (mkWalk v0 e0 (upd (repeat false (length orig)) 0 true) l false).
Proof. intros -> H1 H2. unfold order_list. rewrite H1. cbn [bind]. rewrite H2. reflexivity. Qed.
Lemma order_list_start e0 r : (0 < n)%nat -> orig = e0 :: r ->
  order_list e2v orig rng errout orig =
  order_loop e2v orig rng errout (n - 1) 1 (mkWalk (va 0) e0 (upd (repeat false n) 0 true) orig false).
Proof.
  intros Hn Eo. apply (@order_list_cons orig e0 r (va 0) (o 0) Eo); apply nat_at_Ok; [apply (va_at Hn)|apply (o_at Hn)].
Qed.

Lemma order_sound c l : order_list e2v orig rng errout orig = Ok (c, l) ->
  (c = ordered /\ orig = [] /\ l = []) \/ order_ok c l.
Proof.
  intros Hrun. destruct (Nat.eq_dec n 0) as [E|E].
  - left. assert (Eo : orig = []) by (apply length_zero_iff_nil; exact E). rewrite Eo in Hrun. simpl in Hrun.
    injection Hrun as <- <-. auto.
  - right. destruct start_vis as [e0 [r [Eo HS]]]; [lia|].
    assert (Hrun' : order_loop e2v orig rng errout (n - 1) 1 (mkWalk (va 0) e0 (upd (repeat false n) 0 true) orig false) = Ok (c, l)).
    { rewrite <- Hrun. symmetry. apply (@order_list_start e0 r); auto. lia. }
    eapply loop_sound; [apply HS|reflexivity| | | |exact Hrun'].
    + simpl. lia.
    + discriminate.
    + intros _. exists [(0%nat, va 0)]. auto.
Qed.

(** ** Closed polygons *)
Section Regular.
Hypothesis Hreg : two_regular e2v.

Lemma noloop p : (p < n)%nat -> va p <> vb p.
Proof. intros H. apply (proj2 Hreg p); [apply va_at|apply vb_at]; auto. Qed.
Lemma two v : In v e2v -> length (rng v) = 2%nat.
Proof. intros H. rewrite (Permutation_length (Hrng v)). apply (proj1 Hreg); auto. Qed.
Lemma tou_In p v : tou p v -> In v e2v.
Proof. intros H. apply tou_pos in H. destruct H as [x [H _]]. eapply nth_error_In; eauto. Qed.
Lemma three p q r v : tou p v -> tou q v -> tou r v -> p <> q -> q <> r -> p <> r -> False.
Proof.
  intros Tp Tq Tr H1 H2 H3. assert (Hv := two _ (tou_In Tp)).
  destruct (tou_pos Tp) as [x [Hx Ex]], (tou_pos Tq) as [y [Hy Ey]], (tou_pos Tr) as [z [Hz Ez]].
  assert (L : (length [x; y; z] <= length (rng v))%nat).
  { apply NoDup_incl_length.
    - repeat constructor; simpl; intros C; repeat destruct C as [C|C]; subst; auto.
    - intros a [<-|[<-|[<-|[]]]]; apply rng_In; auto. }
  rewrite Hv in L. simpl in L. lia.
Qed.

Lemma trail_split (q : nat) (t : list (nat * Z)) : In q (map fst t) -> exists t1 w t2, t = t1 ++ (q, w) :: t2.
Proof.
  intros H. apply in_map_iff in H. destruct H as [[q' w] [E H]]. simpl in E. subst q'.
  apply in_split in H. destruct H as [t1 [t2 H]]. eauto.
Qed.
Lemma trail_NoDup t : trail t -> NoDup (map fst t).
Proof. intros H. apply grown_NoDup. apply trail_grown; auto. Qed.
Lemma fst_distinct (t1 t2 t3 : list (nat * Z)) p u q w :
  NoDup (map fst (t1 ++ (p, u) :: t2 ++ (q, w) :: t3)) -> p <> q.
Proof.
  rewrite map_app. simpl. rewrite map_app. simpl. intros H.
  apply NoDup_remove_2 in H. intros ->. apply H. apply in_or_app. right. apply in_or_app. right. left; auto.
Qed.

Lemma hit p u t q : trail ((p, u) :: t) -> In q (map fst t) -> tou q u -> q = 0%nat /\ u = vb 0.
Proof.
  intros Ht Hq Tq. assert (HN := trail_NoDup Ht).
  destruct (trail_split _ _ Hq) as [t1 [w [t2 ->]]].
  assert (Tp : tou p u) by (eapply trail_tou; eauto; left; auto).
  assert (Hpq : p <> q) by (apply (@fst_distinct [] t1 t2 p u q w); auto).
  (* the element visited just after q leaves w behind *)
  assert (Hsucc : u <> w).
  { intros ->. destruct t1 as [|[r x] t1] using rev_ind.
    - simpl in Ht. assert (Ho := @trail_other [] p w q w t2 Ht). assert (Hp := proj1 Tp).
      apply (noloop Hp). unfold other in Ho. intuition congruence.
    - clear IHt1. rewrite <- app_assoc in Ht. simpl in Ht.
      assert (Ho := @trail_other ((p, w) :: t1) r x q w t2 Ht).
      assert (Tr : tou r x) by (eapply trail_tou; eauto; right; apply in_or_app; right; left; auto).
      rewrite <- app_assoc in HN. simpl in HN.
      apply (@three p q r w); auto.
      + split; [apply Tr|]. unfold other in Ho. tauto.
      + intros ->. apply (@fst_distinct ((p, w) :: t1) [] t2 r x r w) in HN. auto.
      + apply (@fst_distinct [] t1 ((q, w) :: t2) p w r x). auto. }
  destruct t2 as [|[s y] t2].
  - destruct (@trail_last ((p, u) :: t1) q w Ht) as [-> ->]. split; auto. destruct Tq as [_ [Tq|Tq]]; congruence.
  - assert (Ho := @trail_other ((p, u) :: t1) q w s y t2 Ht).
    assert (Ts : tou s y) by (eapply trail_tou; eauto; right; apply in_or_app; right; right; left; auto).
    assert (E : u = y) by (destruct Tq as [_ Tq]; unfold other in Ho; intuition congruence). subst y. exfalso.
    apply (@three p q s u); auto.
    + intros ->. apply (@fst_distinct ((p, u) :: t1) [] t2 s w s u) in HN. auto.
    + apply (@fst_distinct [] (t1 ++ [(q, w)]) t2 p u s u). rewrite <- app_assoc. auto.
Qed.

Lemma closed p u t : trail ((p, u) :: t) -> u = vb 0 ->
  forall q r v, In q (map fst ((p, u) :: t)) -> tou q v -> tou r v -> In r (map fst ((p, u) :: t)).
Proof.
  intros Ht Hu q r v Hq Tq Tr. destruct (in_dec Nat.eq_dec r (map fst ((p, u) :: t))) as [|Hr]; auto. exfalso.
  assert (HN := trail_NoDup Ht).
  assert (Hne : forall s, In s (map fst ((p, u) :: t)) -> s <> r) by (intros s Hs ->; auto).
  assert (Tp : tou p u) by (eapply trail_tou; eauto; left; auto).
  assert (T0 : tou 0 u) by (split; [apply (grown_pos (trail_grown Ht))|auto]).
  assert (H0 : In 0%nat (map fst ((p, u) :: t))).
  { clear - Ht. remember ((p, u) :: t) as tt. clear Heqtt. induction Ht; [left; auto|right; auto]. }
  assert (Hp0 : p <> 0%nat).
  { intros ->. destruct t as [|[s y] t].
    - assert (T := @trail_last [] 0 u Ht). apply (noloop (proj1 T0)). destruct T. congruence.
    - assert (Htail : exists t', (0%nat, u) :: (s, y) :: t = (0%nat, u) :: t' ++ [(0%nat, va 0)]).
      { assert (Hlast : forall tt, trail tt -> exists t', tt = t' ++ [(0%nat, va 0)]).
        { clear. induction 1 as [|p u t q v H [t' IH]]; [exists []; auto|]. exists ((q, v) :: t'). rewrite IH. auto. }
        inversion Ht as [|? ? ? ? ? Ht' ? ? ? E]; subst. destruct (Hlast _ Ht') as [t' ->]. exists t'. auto. }
      destruct Htail as [t' Et]. injection Et as Et. rewrite Et in HN.
      apply (@fst_distinct [] t' [] 0 u 0 (va 0)) in HN. auto. }
  destruct (trail_split _ _ Hq) as [t1 [w [t2 Et]]]. rewrite Et in Ht, HN.
  assert (Tw : tou q w) by (eapply trail_tou; eauto; apply in_or_app; right; left; auto).
  assert (Hin : forall s x, In (s, x) (t1 ++ (q, w) :: t2) -> s <> r).
  { intros s x Hs. apply Hne. rewrite Et. apply in_map_iff. exists (s, x). auto. }
  assert (Hqr : q <> r) by (apply (Hin q w); apply in_or_app; right; left; auto).
  destruct (Z.eq_dec v w) as [->|Hvw].
  - destruct t1 as [|[s x] t1] using rev_ind.
    + simpl in Et. injection Et as -> -> _. apply (@three 0%nat q r w); auto.
    + clear IHt1. rewrite <- app_assoc in Ht, HN. simpl in Ht, HN.
      assert (Ho := @trail_other t1 s x q w t2 Ht).
      assert (Ts : tou s x) by (eapply trail_tou; eauto; apply in_or_app; right; left; auto).
      apply (@three s q r w); auto.
      * split; [apply Ts|]. unfold other in Ho. tauto.
      * apply (@fst_distinct t1 [] t2 s x q w). auto.
      * apply (Hin s x). apply in_or_app. left. apply in_or_app. right. left; auto.
  - destruct t2 as [|[s y] t2].
    + destruct (@trail_last t1 q w Ht) as [-> ->]. assert (v = u) by (destruct Tq as [_ [Tq|Tq]]; congruence). subst v.
      apply (@three p 0%nat r u); auto. apply (Hne p). left; auto.
    + assert (Ho := @trail_other t1 q w s y t2 Ht).
      assert (Ts : tou s y) by (eapply trail_tou; eauto; apply in_or_app; right; right; left; auto).
      assert (v = y) by (destruct Tq as [_ Tq]; unfold other in Ho; intuition congruence). subst y.
      apply (@three q s r v); auto.
      * apply (@fst_distinct t1 [] t2 q w s v). auto.
      * apply (Hin s v). apply in_or_app. right; right; left; auto.
      
Qed.

(** The range of a vertex of the walk. *)
Lemma range_two p u : tou p u -> exists q, q <> p /\ tou q u /\
  exists x y, rng u = [x; y] /\ ((x / 2 = p /\ y / 2 = q) \/ (x / 2 = q /\ y / 2 = p))%nat.
Proof.
  intros Tp. assert (Hv := two _ (tou_In Tp)). destruct (rng u) as [|x [|y [|z r]]] eqn:Er; try discriminate.
  assert (Hx : nth_error e2v x = Some u) by (apply rng_In; rewrite Er; left; auto).
  assert (Hy : nth_error e2v y = Some u) by (apply rng_In; rewrite Er; right; left; auto).
  assert (Hxy : x <> y).
  { assert (H := rng_NoDup u). rewrite Er in H. inversion H as [|? ? Hn _]. intros ->. apply Hn. left; auto. }
  assert (Hd : (x / 2 <> y / 2)%nat).
  { intros E. assert (Ex := Nat.div_mod_eq x 2). assert (Ey := Nat.div_mod_eq y 2).
    assert (Bx := Nat.mod_upper_bound x 2). assert (By := Nat.mod_upper_bound y 2).
    destruct (pos_tou _ Hx) as [Hp _]. apply (noloop Hp).
    assert (Hpair : forall a b, nth_error e2v a = Some u -> nth_error e2v b = Some u -> a = (2 * (x / 2))%nat -> b = (2 * (x / 2) + 1)%nat -> va (x / 2) = vb (x / 2)).
    { intros a b Ha Hb -> ->. rewrite (va_at Hp) in Ha. rewrite (vb_at Hp) in Hb. congruence. }
    destruct (le_lt_dec x y); [apply (Hpair x y)|apply (Hpair y x)]; auto; lia. }
  assert (Hp : (p = x / 2 \/ p = y / 2)%nat).
  { destruct (Nat.eq_dec p (x / 2)); auto. destruct (Nat.eq_dec p (y / 2)); auto. exfalso.
    apply (@three p (x / 2)%nat (y / 2)%nat u); auto; apply pos_tou; auto. }
  destruct Hp as [->| ->].
  - exists (y / 2)%nat. split; auto. split; [apply pos_tou; auto|]. exists x, y. auto.
  - exists (x / 2)%nat. split; auto. split; [apply pos_tou; auto|]. exists x, y. auto.
Qed.

Definition polygon_ok (c : Z) (l : list Z) : Prop :=
  NoDup l /\ l <> [] /\
  (exists vs, polygon (joins orig e2v) l vs /\ NoDup vs) /\
  (forall e, In e l <-> In e orig /\ reach (share orig e2v) (o 0) e) /\
  (c = ordered /\ Permutation l orig \/ c = truncated /\ (length l < n)%nat).

Lemma entries_touch : forall ts u i a, okfrom u ts -> nth_error (entries u ts) i = Some a ->
  exists q v, nth_error ts i = Some (q, v) /\ tou q a /\ (i = 0%nat -> a = u) /\
    (forall j, i = S j -> exists q', nth_error ts j = Some (q', a) /\ tou q' a).
Proof.
  induction ts as [|[q v] r IH]; intros u i a H Ha; [destruct i; discriminate|].
  simpl in H. destruct H as [Hq [Ho Hr]]. destruct i as [|i]; simpl in Ha.
  - injection Ha as <-. exists q, v. split; auto. split; [apply (other_tou Hq Ho)|]. split; auto. discriminate.
  - destruct (IH v i a Hr Ha) as [q' [v' [H1 [H2 [H3 H4]]]]]. exists q', v'. split; auto. split; auto.
    split; [discriminate|]. intros j E. injection E as <-. destruct i as [|i].
    + rewrite H3 by auto. exists q. split; auto. apply (other_tou Hq Ho).
    + destruct (H4 i eq_refl) as [q2 [H5 H6]]. exists q2. auto.
Qed.

Lemma nth_fst_distinct (ts : list (nat * Z)) i j p q u v : NoDup (map fst ts) ->
  nth_error ts i = Some (p, u) -> nth_error ts j = Some (q, v) -> i <> j -> p <> q.
Proof.
  intros H Hi Hj Hij ->. apply Hij. apply (proj1 (NoDup_nth_error (map fst ts)) H).
  - rewrite map_length. apply nth_error_Some. congruence.
  - rewrite !nth_error_map, Hi, Hj. reflexivity.
Qed.

Lemma last_exit : forall ts u, ts <> [] -> exists q, nth_error ts (length ts - 1) = Some (q, exit_of u ts).
Proof.
  induction ts as [|[q v] r IH]; intros u H; [congruence|]. destruct r as [|b r].
  - exists q. reflexivity.
  - destruct (IH v) as [q' Hq']; [discriminate|]. exists q'. simpl in *. rewrite Nat.sub_0_r in Hq'. auto.
Qed.

(** The corners are distinct. *)
Lemma entries_NoDup ts u : okfrom u ts -> NoDup (map fst ts) -> exit_of u ts = u -> (2 <= length ts)%nat -> NoDup (entries u ts).
Proof.
  intros Hok HN Hex H2. apply NoDup_nth_error. intros i j Hi E.
  destruct (nth_error (entries u ts) i) as [a|] eqn:Ei; [|apply nth_error_None in Ei; lia].
  symmetry in E. assert (Hj : (j < length (entries u ts))%nat) by (apply nth_error_Some; congruence).
  rewrite entries_len in Hi, Hj.
  destruct (Nat.eq_dec i j) as [|Hij]; auto. exfalso.
  (* the element before i, cyclically *)
  assert (Hprev : forall i a, nth_error (entries u ts) i = Some a -> exists q v q' v', nth_error ts i = Some (q, v) /\ tou q a /\
     nth_error ts (if (i =? 0)%nat then length ts - 1 else i - 1)%nat = Some (q', v') /\ tou q' a).
  { intros k b Hk. destruct (@entries_touch ts u k b Hok Hk) as [q [v [H3 [H4 [H5 H6]]]]]. exists q, v.
    destruct k as [|k].
    - rewrite H5 in * by auto. destruct (@last_exit ts u) as [q' Hq']; [destruct ts; [simpl in H2; lia|discriminate]|].
      rewrite Hex in Hq'. exists q', u. split; auto. split; auto. split; auto.
      assert (G : forall ts u q v k, okfrom u ts -> nth_error ts k = Some (q, v) -> tou q v).
      { clear. induction ts as [|[q v] r IH]; intros u q' v' [|k] H Hk; try discriminate; simpl in *.
        - injection Hk as <- <-. apply (other_tou (proj1 H) (proj1 (proj2 H))).
        - apply (IH v _ _ k); tauto. }
      apply (G ts u q' u _ Hok Hq').
    - destruct (H6 k eq_refl) as [q' [H7 H8]]. exists q', b. split; auto. split; auto.
      replace (if (S k =? 0)%nat then length ts - 1 else S k - 1)%nat with k by (simpl; lia). auto. }
  destruct (Hprev i a Ei) as [p1 [x1 [p2 [x2 [A1 [A2 [A3 A4]]]]]]].
  destruct (Hprev j a E) as [q1 [y1 [q2 [y2 [B1 [B2 [B3 B4]]]]]]].
  set (i' := (if (i =? 0)%nat then length ts - 1 else i - 1)%nat) in *.
  set (j' := (if (j =? 0)%nat then length ts - 1 else j - 1)%nat) in *.
  assert (Hii : i <> i') by (unfold i'; destruct (Nat.eqb_spec i 0); lia).
  assert (Hjj : j <> j') by (unfold j'; destruct (Nat.eqb_spec j 0); lia).
  assert (Hi'j' : i' <> j') by (unfold i', j'; destruct (Nat.eqb_spec i 0), (Nat.eqb_spec j 0); lia).
  assert (D1 := nth_fst_distinct _ HN A1 A3 Hii).
  assert (D2 := nth_fst_distinct _ HN B1 B3 Hjj).
  assert (D3 := nth_fst_distinct _ HN A1 B1 Hij).
  assert (D4 := nth_fst_distinct _ HN A3 B3 Hi'j').
  destruct (Nat.eq_dec q1 p2) as [Eq|Nq]; [|apply (@three p1 p2 q1 a); auto].
  destruct (Nat.eq_dec q2 p1) as [Eq2|Nq2]; [|subst; apply (@three p1 p2 q2 a); auto].
  (* only two elements *)
  subst. assert (i' = j) by (destruct (Nat.eq_dec i' j) as [|Hd]; auto; exfalso; apply (nth_fst_distinct _ HN A3 B1 Hd); auto).
  assert (j' = i) by (destruct (Nat.eq_dec j' i) as [|Hd]; auto; exfalso; apply (nth_fst_distinct _ HN B3 A1 Hd); auto).
  assert (L2 : length ts = 2%nat) by (unfold i', j' in *; destruct (Nat.eqb_spec i 0), (Nat.eqb_spec j 0); lia).
  destruct ts as [|[s1 w1] [|[s2 w2] [|]]]; try discriminate. simpl in Hok, Hex. subst w2.
  assert (w1 = u).
  { destruct i as [|[|i]], j as [|[|j]]; simpl in *; try lia; congruence. }
  subst w1. destruct Hok as [L1 [O1 _]]. apply (noloop L1). unfold other in O1. intuition congruence.
Qed.

Lemma regular_done t c l w ii : strong t w -> length t = ii ->
  (c = ordered /\ l = w_list w /\ ii = n \/ c = truncated /\ l = firstn ii (w_list w) /\ (ii < n)%nat) ->
  (exists p u r, t = (p, u) :: r /\ exists q, In q (map fst r) /\ tou q u) ->
  polygon_ok c l.
Proof.
  intros [HV [Ht [_ _]]] Hii Hc [p [u [r [-> [q [Hq Tq]]]]]].
  destruct (hit Ht Hq Tq) as [-> Hu].
  destruct HV as [HG [_ [_ [HL1 [HL2 _]]]]].
  rewrite map_length, Hii in HL2.
  assert (El : l = map o (map fst (rev ((p, u) :: r)))).
  { rewrite map_rev, <- HL2. destruct Hc as [[_ [-> ->]]|[_ [-> _]]]; auto. rewrite firstn_all2; auto. lia. }
  assert (El' : l = map o (rev (map fst ((p, u) :: r)))) by (rewrite <- map_rev; auto).
  assert (Hok := trail_okfrom Ht).
  assert (Hex : exit_of (vb 0) (rev ((p, u) :: r)) = vb 0) by (simpl; rewrite exit_app; auto).
  assert (Hlen2 : (2 <= length (rev ((p, u) :: r)))%nat).
  { rewrite rev_length. simpl. destruct r; [destruct Hq|simpl; lia]. }
  split; [rewrite El'; apply map_o_NoDup; auto|].
  split.
  { intros E. rewrite E in El. apply (f_equal (@length _)) in El. rewrite !map_length in El. simpl length in El at 1. lia. }
  split.
  { exists (entries (vb 0) (rev ((p, u) :: r))). split.
    - split; [rewrite El, entries_len, !map_length; auto|].
      intros i e a b He Ha Hb. apply (@okfrom_joins (rev ((p, u) :: r)) (vb 0) i e a b Hok); auto; [rewrite <- El; auto|]. rewrite Hex.
      assert (Hf : firstn 1 (entries (vb 0) (rev ((p, u) :: r))) = [vb 0]).
      { destruct (rev ((p, u) :: r)) as [|[a0 b0] rr]; [simpl in Hlen2; lia|reflexivity]. }
      rewrite Hf in Hb. exact Hb.
    - apply entries_NoDup; auto. rewrite map_rev. apply NoDup_rev. apply trail_NoDup; auto. }
  split.
  { intros e. split.
    - intros He. rewrite El' in He. split; [apply (map_o_incl HG); auto|apply (map_o_reach HG); auto].
    - intros [_ He]. rewrite El'. rewrite map_rev. apply in_rev. rewrite rev_involutive.
      assert (G : forall e f, reach (share orig e2v) e f -> e = o 0 -> exists x, In x (map fst ((p, u) :: r)) /\ f = o x).
      { induction 1 as [|a b d Hab IH [v [H1 H2]]]; intros E.
        - exists 0%nat. split; auto. right; auto.
        - destruct (IH E) as [x [Hx ->]]. apply touches_tou in H1. apply touches_tou in H2.
          destruct H1 as [x' [Ex Tx]], H2 as [y [-> Ty]].
          assert (x' = x) by (apply o_inj; [apply Tx|apply (grown_lt HG); auto|auto]). subst x'.
          exists y. split; auto. apply (@closed p u r Ht Hu x y v); auto. }
      destruct (G _ _ He eq_refl) as [x [Hx ->]]. apply in_map. auto. }
  destruct Hc as [[-> [_ Hn]]|[-> [_ Hn]]]; [left|right]; split; auto.
  - rewrite El'. apply map_o_full; auto. rewrite map_length. lia.
  - rewrite El', map_length, rev_length, map_length. lia.
Qed.

Lemma loop_regular k : forall ii w t, strong t w -> length t = ii -> (ii + k = n)%nat ->
  exists c l, order_loop e2v orig rng errout k ii w = Ok (c, l) /\ polygon_ok c l.
Proof.
  induction k as [|k IH]; intros ii w t HS Hii Hk.
  - exists ordered, (w_list w). split; [reflexivity|]. apply (@regular_done t ordered (w_list w) w ii); auto.
    + left. split; auto. split; auto. lia.
    + destruct HS as [HV [Ht [_ [p [u [r [-> _]]]]]]]. exists p, u, r. split; auto.
      assert (Tp : tou p u) by (eapply trail_tou; eauto; left; auto).
      destruct (range_two Tp) as [q [Hqp [Tq _]]]. exists q. split; auto.
      assert (HG := trail_grown Ht).
      assert (Hall : Permutation (map fst ((p, u) :: r)) (seq 0 n)).
      { apply NoDup_full; [apply grown_NoDup; auto|apply grown_lt; auto|rewrite map_length; lia]. }
      assert (Hin : In q (map fst ((p, u) :: r))).
      { apply (Permutation_in q (Permutation_sym Hall)). apply in_seq. destruct Tq; lia. }
      destruct Hin as [E|Hin]; auto. simpl in E. congruence.
  - assert (HS' := HS). destruct HS' as [HV [Ht [Ew [p [u [r [Et [Hu Hp]]]]]]]].
    assert (Tp : tou p u) by (eapply trail_tou; eauto; rewrite Et; left; auto).
    destruct (range_two Tp) as [q [Hqp [Tq [x [y [Er Hxy]]]]]].
    assert (HD2 := proj1 (proj2 (proj2 HV))).
    assert (Hturn : order_turn e2v orig rng errout ii w = order_pick e2v orig ii w [x; y]).
    { unfold order_turn. rewrite Hu, Er. reflexivity. }
    assert (Hnext : exists v, other q u v /\ order_pick e2v orig ii w [x; y] =
       if in_dec Nat.eq_dec q (map fst t) then Ok (Stop truncated (firstn ii (w_list w)))
       else Ok (Next (mkWalk v (o q) (upd (w_done w) q true) (upd (w_list w) ii (o q)) (w_ends w)))).
    { set (v := if va q =? u then vb q else va q). exists v. split.
      { unfold v, other. destruct Tq as [_ Tq]. destruct (Z.eqb_spec (va q) u); [left; auto|right; split; auto]. intuition congruence. }
      assert (Tx : tou (x / 2) u) by (destruct Hxy as [[-> _]|[-> _]]; auto).
      unfold order_pick. rewrite (proj2 (nat_at_Ok _ _ _) (o_at (proj1 Tx))). cbn [bind].
      assert (Eit : (if o (x / 2) =? w_edge w then Ok y else Ok x) = Ok (if (x / 2 =? p)%nat then y else x)).
      { rewrite Hp. destruct (Nat.eqb_spec (x / 2) p) as [->|Hne]; [rewrite Z.eqb_refl; auto|].
        destruct (Z.eqb_spec (o (x / 2)) (o p)) as [E|]; auto. apply o_inj in E; [congruence|apply Tx|apply Tp]. }
      rewrite Eit. cbn [bind].
      assert (Eq : ((if (x / 2 =? p)%nat then y else x) / 2 = q)%nat).
      { destruct Hxy as [[H1 H2]|[H1 H2]]; rewrite H1.
        - rewrite Nat.eqb_refl. auto.
        - destruct (Nat.eqb_spec q p); congruence. }
      rewrite Eq. rewrite (proj2 (nat_at_Ok _ _ _) (HD2 q (proj1 Tq))). cbn [bind].
      destruct (in_dec Nat.eq_dec q (map fst t)) as [Hin|Hin]; cbn [negb].
      - rewrite Ew. reflexivity.
      - rewrite (proj2 (nat_at_Ok _ _ _) (o_at (proj1 Tq))). cbn [bind].
        replace (q * 2)%nat with (2 * q)%nat by lia.
        rewrite (proj2 (nat_at_Ok _ _ _) (va_at (proj1 Tq))). cbn [bind]. rewrite Hu. unfold v.
        destruct (Z.eqb_spec (va q) u) as [E|E].
        + rewrite (proj2 (nat_at_Ok _ _ _) (vb_at (proj1 Tq))). reflexivity.
        + rewrite Nat.add_0_r, (proj2 (nat_at_Ok _ _ _) (va_at (proj1 Tq))). reflexivity. }
    destruct Hnext as [v [Ho Hpick]]. cbn [order_loop]. rewrite Hturn, Hpick.
    destruct (in_dec Nat.eq_dec q (map fst t)) as [Hin|Hin]; cbn [bind].
    + exists truncated, (firstn ii (w_list w)). split; auto. apply (@regular_done t truncated _ w ii); auto.
      * right. split; auto. split; auto. lia.
      * exists p, u, r. split; auto. exists q. split; auto. rewrite Et in Hin. destruct Hin as [E|Hin]; auto. simpl in E. congruence.
    + apply (IH (S ii) _ ((q, v) :: t)); [|simpl; lia|lia].
      split; [|split; [|split; auto]].
      * refine (@vis_next (map fst t) w q v (w_ends w) ii HV _ _ Hin _ _).
        -- rewrite map_length; auto.
        -- lia.
        -- exists p, u. split; [rewrite Et; left; auto|]. auto.
        -- apply (other_tou (proj1 Tq) Ho).
      * rewrite Et in *. constructor; auto. apply Tq.
      * exists q, v, t. auto.
Qed.

Lemma order_regular : orig <> [] ->
  exists c l, order_list e2v orig rng errout orig = Ok (c, l) /\ polygon_ok c l.
Proof.
  intros Hne. assert (Hn : (0 < n)%nat) by (assert (n <> 0%nat) by (intros E; apply Hne; apply length_zero_iff_nil; exact E); lia).
  destruct (start_vis Hn) as [e0 [r [Eo HS]]].
  destruct (@loop_regular (n - 1) 1 _ _ HS eq_refl ltac:(lia)) as [c [l [Hrun Hok]]].
  exists c, l. split; auto. rewrite <- Hrun. apply (@order_list_start e0 r); auto.
Qed.
End Regular.
End Ordering.
