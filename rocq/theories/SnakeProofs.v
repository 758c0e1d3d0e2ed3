(** Proofs about snaxel motion: distances, coordinates, flips and inside flags. *)
From Coq Require Import Floats.SpecFloat.
From Verif Require Import Base Containers Mesh Num Snake SpecSnake.
Set Implicit Arguments.
Open Scope Q_scope.

(** Turn the operations of [Qn] into those of Q and the boolean comparisons into
    propositions. *)
Ltac qn := cbn [Qn n0 n1 nhalf neps nadd nsub nmul ndiv nopp nabs nlt nle neq nfin] in *.
Ltac qcases := repeat match goal with
  | |- context [if qlt ?a ?b then _ else _] =>
      let E := fresh "C" in destruct (qlt a b) eqn:E; [apply qlt_true in E | apply qlt_false in E]
  | H : context [if qlt ?a ?b then _ else _] |- _ =>
      let E := fresh "C" in destruct (qlt a b) eqn:E; [apply qlt_true in E | apply qlt_false in E]
  | |- context [if Qle_bool ?a ?b then _ else _] =>
      let E := fresh "C" in destruct (Qle_bool a b) eqn:E; [apply Qle_bool_iff in E | apply qle_false in E]
  | H : context [if Qle_bool ?a ?b then _ else _] |- _ =>
      let E := fresh "C" in destruct (Qle_bool a b) eqn:E; [apply Qle_bool_iff in E | apply qle_false in E]
  end.

Lemma omap_Forall2 A B (f : A -> outcome B) l bs : omap_list f l = Ok bs -> Forall2 (fun a b => f a = Ok b) l bs.
Proof.
  revert bs. induction l as [|a l IH]; intros bs H; simpl in H; [injection H as <-; constructor|].
  destruct (f a) as [b| | |] eqn:E; try discriminate. cbn [bind] in H.
  destruct (omap_list f l) as [r| | |]; try discriminate. cbn [bind] in H. injection H as <-.
  constructor; auto.
Qed.
Lemma Forall2_nth A B (P : A -> B -> Prop) l l' : Forall2 P l l' ->
  forall i a b, nth_error l i = Some a -> nth_error l' i = Some b -> P a b.
Proof.
  induction 1 as [|u v r r' H0 H1 IH]; intros [|i] x y; simpl; try discriminate; eauto.
  intros E F; injection E as <-; injection F as <-; auto.
Qed.
Lemma Forall2_ex A B (P : A -> B -> Prop) l l' : Forall2 P l l' ->
  forall i a, nth_error l i = Some a -> exists b, nth_error l' i = Some b /\ P a b.
Proof.
  induction 1 as [|u v r r' H0 H1 IH]; intros [|i] x; simpl; try discriminate; eauto.
  intros E; injection E as <-; eauto.
Qed.
Lemma Forall2_ex_r A B (P : A -> B -> Prop) l l' : Forall2 P l l' ->
  forall i b, nth_error l' i = Some b -> exists a, nth_error l i = Some a /\ P a b.
Proof.
  induction 1 as [|u v r r' H0 H1 IH]; intros [|i] x; simpl; try discriminate; eauto.
  intros E; injection E as <-; eauto.
Qed.
Lemma Forall2_len A B (P : A -> B -> Prop) l l' : Forall2 P l l' -> length l = length l'.
Proof. induction 1; simpl; auto. Qed.
Lemma combine_nth_error A B (la : list A) (lb : list B) i a b :
  nth_error (combine la lb) i = Some (a, b) <-> nth_error la i = Some a /\ nth_error lb i = Some b.
Proof.
  revert la lb. induction i as [|i IH]; intros [|x la] [|y lb]; simpl; try (split; [discriminate|intros []; discriminate]).
  - split; [intros H; injection H as <- <-; auto|intros [E F]; congruence].
  - apply IH.
Qed.

(** ** UpdateDistance *)
Lemma clamp01 (x : Q) : in01 (@clamp Qn x).
Proof. unfold clamp, std_min, std_max, in01. qn. qcases; lra. Qed.
Lemma clamp_id (x : Q) : in01 x -> @clamp Qn x = x.
Proof.
  unfold clamp, std_min, std_max, in01. intros H. qn. qcases; auto; exfalso; lra.
Qed.
Lemma clamp_mono (x y : Q) : x <= y -> @clamp Qn x <= @clamp Qn y.
Proof. intros H. unfold clamp, std_min, std_max. qn. qcases; lra. Qed.
Lemma clamp_turn (x : Q) : @clamp Qn (1 - x) == 1 - @clamp Qn x.
Proof. unfold clamp, std_min, std_max. qn. qcases; lra. Qed.
Lemma clamp_near (d x : Q) : in01 d -> Qabs (@clamp Qn (d + x) - d) <= Qabs x.
Proof.
  intros H. unfold in01 in H. unfold clamp, std_min, std_max. qn.
  apply Qabs_case; intros; apply Qabs_case; intros; qcases; lra.
Qed.
Lemma limited_abs (lim x : Q) : 0 <= lim -> Qabs (@limited Qn lim x) <= lim.
Proof. intros H. unfold limited. qn. apply Qabs_case; intros; qcases; lra. Qed.
Lemma limited_id (lim x : Q) : Qabs x <= lim -> @limited Qn lim x = x.
Proof.
  intros H. unfold limited. qn. pose proof (Qle_Qabs x). pose proof (Qle_Qabs (- x)). rewrite Qabs_opp in H1.
  qcases; auto; exfalso; lra.
Qed.
Lemma limited_opp (lim x : Q) : 0 <= lim -> @limited Qn lim (- x) == - @limited Qn lim x.
Proof. intros H. unfold limited. qn. qcases; lra. Qed.
Lemma limited_gap (lim x y g : Q) : 0 <= lim -> 0 <= g -> x <= g + y -> @limited Qn lim x <= g + @limited Qn lim y.
Proof. intros. unfold limited. qn. qcases; lra. Qed.

Lemma limited_ext (lim x y : Q) : x == y -> @limited Qn lim x == @limited Qn lim y.
Proof. intros H. unfold limited. qn. qcases; lra. Qed.
Lemma clamp_ext (x y : Q) : x == y -> @clamp Qn x == @clamp Qn y.
Proof. intros H. unfold clamp, std_min, std_max. qn. qcases; lra. Qed.

Section Update.
Variable N : num.
Variables (es : list Z) (limits : list N) (scaled : bool) (maxDstep : N).
Lemma update_distance_each dt l l' : update_distance es limits scaled maxDstep dt l = Ok l' ->
  length dt = length l /\
  Forall2 (fun ds s' => exists lim, own_limit es limits scaled maxDstep (snd ds) = Ok lim /\ s' = move (fst ds) lim (snd ds))
    (combine dt l) l'.
Proof.
  unfold update_distance. destruct (Nat.eqb_spec (length dt) (length l)) as [E|E]; [|discriminate].
  intros H. split; auto. apply omap_Forall2 in H. induction H as [|x y r r' H0 H1 IH]; constructor; auto.
  destruct (own_limit es limits scaled maxDstep (snd x)) as [lim| | |]; try discriminate.
  cbn [bind] in H0. injection H0 as <-. eauto.
Qed.
Lemma update_distance1_each dt l l' : update_distance1 es limits scaled maxDstep dt l = Ok l' ->
  Forall2 (fun s s' => exists lim, own_limit es limits scaled maxDstep s = Ok lim /\ s' = move dt lim s) l l'.
Proof.
  unfold update_distance1. intros H. apply omap_Forall2 in H. induction H as [|x y r r' H0 H1 IH]; constructor; auto.
  destruct (own_limit es limits scaled maxDstep x) as [lim| | |]; try discriminate.
  cbn [bind] in H0. injection H0 as <-. eauto.
Qed.
End Update.

Lemma move_same (N : num) (dt lim : N) s : same_but_d s (move dt lim s).
Proof. repeat split. Qed.

(** Without rounding: a move ends in [0,1] and is no longer than the limit. *)
Lemma move_exact (dt lim : Q) (s : qsnax) :
  in01 (sx_d (move (N := Qn) dt lim s)) /\
  (0 <= lim -> in01 (sx_d s) -> Qabs (sx_d (move (N := Qn) dt lim s) - sx_d s) <= lim) /\
  (Qabs (sx_v s * dt) <= lim -> in01 (sx_d s + sx_v s * dt) ->
   sx_d (move (N := Qn) dt lim s) = sx_d s + sx_v s * dt).
Proof.
  cbn [move sx_set_d sx_d]. split; [|split].
  - apply clamp01.
  - intros Hl Hd. eapply Qle_trans; [apply clamp_near; auto|]. apply limited_abs; auto.
  - intros H1 H2. unfold move. cbn [sx_set_d sx_d]. qn. rewrite limited_id by auto. apply clamp_id; auto.
Qed.

(** In IEEE arithmetic: a move ends in [0,1] or gives NaN. *)
Definition fin01 (x : f64) : Prop := SFleb (S754_zero false) x = true /\ SFleb x f_one = true.
Lemma f_lt_cases a b : SFltb a b = false -> a = S754_nan \/ b = S754_nan \/ SFleb b a = true.
Proof.
  unfold SFltb, SFleb.
  destruct a as [[]|[]| |[] m1 e1], b as [[]|[]| |[] m2 e2]; simpl; intros H; auto; try discriminate.
  - assert (E : forall A (x y z : A), match Z.compare e2 e1 with Lt => x | Eq => y | Gt => z end =
                match Z.compare e1 e2 with Lt => z | Eq => y | Gt => x end)
      by (intros; rewrite (Z.compare_antisym e1 e2); destruct (Z.compare e1 e2); auto).
    right; right. rewrite E. destruct (Z.compare e1 e2); auto.
    pose proof (Pos.compare_cont_antisym m1 m2 Eq) as A; simpl in A; rewrite <- A. destruct (Pos.compare_cont Eq m1 m2); auto; discriminate.
  - assert (E : forall A (x y z : A), match Z.compare e2 e1 with Lt => x | Eq => y | Gt => z end =
                match Z.compare e1 e2 with Lt => z | Eq => y | Gt => x end)
      by (intros; rewrite (Z.compare_antisym e1 e2); destruct (Z.compare e1 e2); auto).
    right; right. rewrite E. destruct (Z.compare e1 e2); auto.
    pose proof (Pos.compare_cont_antisym m1 m2 Eq) as A; simpl in A; rewrite <- A. destruct (Pos.compare_cont Eq m1 m2); auto; discriminate.
Qed.
Lemma f_lt_le a b : SFltb a b = true -> SFleb a b = true.
Proof. unfold SFltb, SFleb. destruct (SFcompare a b) as [[]|]; auto; discriminate. Qed.
Lemma clamp_float (x : f64) : @clamp Fn x = S754_nan \/ fin01 (@clamp Fn x).
Proof.
  unfold clamp, std_min, std_max, fin01. cbn [Fn n0 n1 nlt].
  destruct (SFltb x (S754_zero false)) eqn:E1.
  - right. split; reflexivity.
  - destruct (f_lt_cases _ _ E1) as [->|[?|E2]]; [left; reflexivity|discriminate|].
    destruct (SFltb f_one x) eqn:E3; [right; split; reflexivity|].
    destruct (f_lt_cases _ _ E3) as [?|[->|E4]]; [discriminate|left; reflexivity|]. right; auto.
Qed.

(** ** UpdateCoord *)
Lemma update_coord_each (N : num) (mverts : list (Z * point N)) l sverts r :
  update_coord mverts l sverts = Ok r ->
  (length l <= length sverts)%nat /\ map fst r = map fst sverts /\
  (forall i s, nth_error l i = Some s -> exists v p, nth_error sverts i = Some v /\ snax_coord mverts s = Ok p /\
                                                     nth_error r i = Some (fst v, p)) /\
  (forall i, (length l <= i)%nat -> nth_error r i = nth_error sverts i).
Proof.
  revert sverts r. induction l as [|s l IH]; intros sverts r H; simpl in H.
  - injection H as <-. split; [simpl; lia|]. split; [auto|]. split; [|auto]. intros [|i] s; discriminate.
  - destruct sverts as [|v sv]; [discriminate|].
    destruct (snax_coord mverts s) as [p| | |] eqn:E; try discriminate. cbn [bind] in H.
    destruct (update_coord mverts l sv) as [q| | |] eqn:E2; try discriminate. cbn [bind] in H. injection H as <-.
    destruct (IH _ _ E2) as [H1 [H2 [H3 H4]]]. split; [simpl; lia|]. split; [simpl; congruence|]. split.
    + intros [|i] t; simpl; [intros Ht; injection Ht as <-; eauto 6|apply H3].
    + intros [|i] Hi; simpl in *; [lia|]. apply H4; lia.
Qed.
Lemma lerp_exact (a b d : Q) : @lerp Qn a b d == a + d * (b - a).
Proof. unfold lerp. qn. ring. Qed.
Lemma lerp_between (a b d : Q) : in01 d -> Qmin a b <= @lerp Qn a b d <= Qmax a b.
Proof.
  unfold in01. intros [H0 H1]. rewrite lerp_exact.
  destruct (Qlt_le_dec a b) as [L|L].
  - rewrite Q.min_l, Q.max_r by lra. nra.
  - rewrite Q.min_r, Q.max_l by lra. nra.
Qed.

(** ** Inside flags *)
Lemma compare_spec this tf other of b : compare_internal this tf other of = Ok b ->
  b = true <-> (forall i x y, nth_error this i = Some x -> nth_error other i = Some y ->
                              ~ (xorb x tf = true /\ xorb y of = true)).
Proof.
  revert other. induction this as [|x r IH]; intros other H; simpl in H.
  - injection H as <-. split; auto. intros _ [|i]; discriminate.
  - destruct (xorb x tf) eqn:Ex.
    + destruct other as [|y other]; [discriminate|]. destruct (xorb y of) eqn:Ey.
      * injection H as <-. split; [discriminate|]. intros Hall. exfalso. apply (Hall 0%nat x y); auto.
      * rewrite (IH _ H). split.
        -- intros Hall [|i] a c; simpl; [|apply Hall]. intros Ea Ec [_ H2]. congruence.
        -- intros Hall i. apply (Hall (S i)).
    + rewrite (IH _ H). split.
      * intros Hall [|i] a c; simpl; [intros Ea Ec [H1 _]; congruence|].
        intros Ea Ec. apply (Hall i a c Ea). destruct other; [discriminate|auto].
      * intros Hall i a c Ea Ec. apply (Hall (S i) a c Ea). destruct other; [destruct i; discriminate|auto].
Qed.
Lemma compare_ok this tf other of : (length this <= length other)%nat -> exists b, compare_internal this tf other of = Ok b.
Proof.
  revert other. induction this as [|x r IH]; intros [|y other] H; simpl in *; eauto; try lia.
  destruct (xorb x tf); [|apply IH; lia]. destruct (xorb y of); [eauto|apply IH; lia].
Qed.
Lemma merge_spec indep tf of this other r : merge_flags indep tf of this other = Ok r ->
  length r = length this /\
  forall i x, nth_error this i = Some x -> exists y, nth_error other i = Some y /\
    nth_error r i = Some (merge_flag indep tf of x y).
Proof.
  revert other r. induction this as [|x t IH]; intros other r H; simpl in H.
  - injection H as <-. split; auto. intros [|i]; discriminate.
  - destruct other as [|y other]; [discriminate|]. change (at_ (y :: other) 0) with (Ok y) in H. cbn [bind tl] in H.
    destruct (merge_flags indep tf of t other) as [q| | |] eqn:E; try discriminate. cbn [bind] in H. injection H as <-.
    destruct (IH _ _ E) as [H1 H2]. split; [simpl; auto|].
    intros [|i] a; simpl; [intros Ha; injection Ha as <-; eauto|apply H2].
Qed.
Lemma merge_ok indep tf of this other : (length this <= length other)%nat ->
  exists r, merge_flags indep tf of this other = Ok r.
Proof.
  revert other. induction this as [|x t IH]; intros [|y other] H; simpl in *; eauto; try lia.
  change (at_ (y :: other) 0) with (Ok y). cbn [bind tl]. destruct (IH other) as [r Hr]; [lia|]. rewrite Hr. simpl; eauto.
Qed.

(** ** ValidateDistance *)
(** In the frame of the lower vertex, one comparison moves the snaxel to the
    position of its sibling when it is on the wrong side of it. *)
Lemma validate_same (N : num) (s t : snax N) : same_but_d s (validate_against s t).
Proof. unfold validate_against. destruct (sx_index s =? sx_index t)%Z; repeat split. Qed.
Lemma validate_step a b (s t : qsnax) x y : a <> b -> pos_is a b s x -> pos_is a b t y -> (a < b)%Z ->
  sx_index s <> sx_index t -> sx_order s <> sx_order t ->
  exists x', pos_is a b (validate_against s t) x' /\
    x' == (if (sx_order s <? sx_order t)%Z then Qmin x y else Qmax x y).
Proof.
  intros Hab Hs Ht Hlt Hi Ho. unfold validate_against.
  destruct (Z.eqb_spec (sx_index s) (sx_index t)) as [|_]; [contradiction|].
  assert (Hm : forall u v, u <= v -> Qmin u v == u /\ Qmin v u == u /\ Qmax u v == v /\ Qmax v u == v).
  { intros u v H. repeat split; [apply Q.min_l|apply Q.min_r|apply Q.max_r|apply Q.max_l]; auto. }
  unfold pos_is. cbn [sx_set_d sx_from sx_to sx_d]. qn.
  destruct Hs as [[Sf [St Sx]]|[Sf [St Sx]]], Ht as [[Tf [Tt Ty]]|[Tf [Tt Ty]]];
    rewrite Sf, Tf, ?St, ?Tt.
  - rewrite (proj2 (Z.eqb_eq a a)) by auto. rewrite (proj2 (Z.ltb_lt a b)) by auto. cbn [negb].
    destruct (Z.ltb_spec (sx_order s) (sx_order t)) as [L|L]; cbn [xorb negb andb]; eexists; (split; [left; split; [auto|split; [auto|reflexivity]]|]);
      destruct (Qlt_le_dec x y) as [K|K]; destruct (Hm _ _ K) || destruct (Hm _ _ (Qlt_le_weak _ _ K)); qcases; lra.
  - rewrite (proj2 (Z.eqb_neq a b)) by auto. rewrite (proj2 (Z.ltb_ge b a)) by lia. cbn [negb].
    destruct (Z.ltb_spec (sx_order s) (sx_order t)) as [L|L]; cbn [xorb negb andb]; eexists; (split; [left; split; [auto|split; [auto|reflexivity]]|]);
      destruct (Qlt_le_dec x y) as [K|K]; destruct (Hm _ _ K) || destruct (Hm _ _ (Qlt_le_weak _ _ K)); qcases; lra.
  - rewrite (proj2 (Z.eqb_neq b a)) by auto. rewrite (proj2 (Z.ltb_lt a b)) by auto. cbn [negb].
    destruct (Z.ltb_spec (sx_order s) (sx_order t)) as [L|L]; cbn [xorb negb andb]; eexists; (split; [right; split; [auto|split; [auto|reflexivity]]|]);
      destruct (Qlt_le_dec x y) as [K|K]; destruct (Hm _ _ K) || destruct (Hm _ _ (Qlt_le_weak _ _ K)); qcases; lra.
  - rewrite (proj2 (Z.eqb_eq b b)) by auto. rewrite (proj2 (Z.ltb_ge b a)) by lia. cbn [negb].
    destruct (Z.ltb_spec (sx_order s) (sx_order t)) as [L|L]; cbn [xorb negb andb]; eexists; (split; [right; split; [auto|split; [auto|reflexivity]]|]);
      destruct (Qlt_le_dec x y) as [K|K]; destruct (Hm _ _ K) || destruct (Hm _ _ (Qlt_le_weak _ _ K)); qcases; lra.
Qed.
