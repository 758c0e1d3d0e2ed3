(** Proofs about Flood.v. *)
From Verif Require Import Base Containers ContainersProofs Mesh SpecMesh MeshProofs SwitchProofs RemoveProofs Flood SpecFlood.
Set Implicit Arguments.
Open Scope Z_scope.

(** ** The generic flood fill, on positions. *)
Section Generic.
Variable n : nat.
Variable nbrs : Z -> outcome (list Z).
Variable nb : nat -> list nat.
Hypothesis nbrs_ok : forall p, (p < n)%nat -> nbrs (Z.of_nat p) = Ok (map Z.of_nat (nb p)).
Hypothesis nb_range : forall p q, (p < n)%nat -> In q (nb p) -> (q < n)%nat.
Hypothesis nb_sym : forall p q, (p < n)%nat -> (q < n)%nat -> In q (nb p) -> In p (nb q).
Variable b0 : list Z.
Hypothesis b0_len : length b0 = n.

Definition fr (p : nat) : Prop := nth_error b0 p = Some 0.

Inductive conn : nat -> nat -> Prop :=
| conn_refl p : fr p -> conn p p
| conn_step p q r : conn p q -> In r (nb q) -> fr r -> conn p r.

Lemma fr_lt p : fr p -> (p < n)%nat.
Proof. intros H. rewrite <- b0_len. apply nth_error_Some. rewrite H. discriminate. Qed.
Lemma conn_fr p q : conn p q -> fr p /\ fr q.
Proof. induction 1; intuition. Qed.
Lemma conn_trans p q r : conn p q -> conn q r -> conn p r.
Proof. intros H1 H2. induction H2 as [x Hx|x y z Hxy IH Hin Hz]; auto. apply conn_step with y; auto. Qed.
Lemma conn_sym p q : conn p q -> conn q p.
Proof.
  induction 1 as [p Hp|p q r H IH Hin Hr]; [constructor; auto|].
  apply conn_trans with q; auto. apply conn_step with r; [constructor; auto| |apply conn_fr in H; tauto].
  apply nb_sym; auto; apply fr_lt; auto. apply conn_fr in H; tauto.
Qed.

(** [lab block p x] *)
Definition lab (b : list Z) p x := nth_error b p = Some x.

Record finv (st : list bool) (b : list Z) (expl nB : Z) (pend : list Z) : Prop := {
  fi_lst : length st = n;
  fi_lb : length b = n;
  fi_expl : expl = Z.of_nat (length (filter (fun x => x) st));
  fi_nB : 0 <= nB;
  fi_fixed : forall p x, x <> 0 -> lab b0 p x -> lab b p x /\ nth_error st p = Some true;
  fi_unexp : forall p, nth_error st p = Some false -> fr p /\ lab b p 0;
  fi_range : forall p x, fr p -> nth_error st p = Some true -> lab b p x -> 1 <= x <= nB;
  fi_used : forall x, 1 <= x < nB -> exists p, fr p /\ nth_error st p = Some true /\ lab b p x;
  fi_conn : forall p q x, fr p -> fr q -> nth_error st p = Some true -> nth_error st q = Some true ->
     lab b p x -> lab b q x -> conn p q;
  fi_pend : Forall (fun z => exists p, z = Z.of_nat p /\ (p < n)%nat) pend;
  fi_pconn : forall p q, In (Z.of_nat p) pend -> fr p -> nth_error st q = Some true -> fr q -> lab b q nB -> conn p q;
  fi_pp : forall p q, In (Z.of_nat p) pend -> In (Z.of_nat q) pend -> fr p -> fr q -> conn p q;
  fi_closed : forall p q x, fr p -> fr q -> nth_error st p = Some true -> lab b p x -> In q (nb p) ->
     (nth_error st q = Some true /\ lab b q x) \/
     (nth_error st q = Some false /\ x = nB /\ In (Z.of_nat q) pend)
}.

Lemma st_dec st p : length st = n -> (p < n)%nat -> nth_error st p = Some true \/ nth_error st p = Some false.
Proof.
  intros L H. destruct (nth_error st p) as [[]|] eqn:E; auto.
  apply nth_error_None in E. lia.
Qed.

Lemma count_upd st p : nth_error st p = Some false ->
  length (filter (fun x : bool => x) (upd st p true)) = S (length (filter (fun x => x) st)).
Proof.
  revert p. induction st as [|b st IH]; intros [|p] H; simpl in *; try discriminate.
  - injection H as ->. reflexivity.
  - destruct b; simpl; rewrite IH; auto.
Qed.

Lemma explore_inv nB q cur f :
  finv (f_status f) (f_block f) (f_explored f) nB (q :: cur ++ f_next f) -> 1 <= nB ->
  exists f', explore nbrs nB q f = Ok f' /\
    finv (f_status f') (f_block f') (f_explored f') nB (cur ++ f_next f') /\
    ((f_explored f' = f_explored f /\ f_next f' = f_next f /\ at_ (f_status f) q = Ok true) \/
     (f_explored f' = f_explored f + 1)) /\
    at_ (f_status f') q = Ok true /\
    (forall p, nth_error (f_status f) p = Some true -> nth_error (f_status f') p = Some true) /\
    ((exists p, fr p /\ nth_error (f_status f) p = Some true /\ lab (f_block f) p nB) \/ at_ (f_status f) q = Ok false ->
     exists p, fr p /\ nth_error (f_status f') p = Some true /\ lab (f_block f') p nB).
Proof.
  intros I HnB. destruct f as [st b expl next]; simpl in *.
  assert (Hq := fi_pend I). assert (Hrest := Forall_inv_tail Hq).
  destruct (Forall_inv Hq) as [p [-> Hp]]. clear Hq.
  unfold explore; simpl.
  destruct (st_dec st (fi_lst I) Hp) as [Hs|Hs].
  - rewrite (proj2 (at_Ok st (Z.of_nat p) true)); cbn [bind].
    2:{ split; [lia|]. rewrite Nat2Z.id; auto. }
    eexists. split; [reflexivity|]. simpl. split; [|split; [|split; [|split]]]; auto.
    + destruct I. constructor; auto.
      * intros p0 q0 Hi. apply fi_pconn0. right; auto.
      * intros p0 q0 H1 H2. apply fi_pp0; right; auto.
      * intros p0 q0 x F1 F2 S1 L1 Hi. destruct (fi_closed0 p0 q0 x F1 F2 S1 L1 Hi) as [H|[H1 [H2 [H3|H3]]]]; auto.
        apply Nat2Z.inj in H3. subst q0. congruence.
    + apply at_Ok. split; [lia|]. rewrite Nat2Z.id; auto.
    + intros [H|H]; auto. discriminate.
  - rewrite (proj2 (at_Ok st (Z.of_nat p) false)); cbn [bind].
    2:{ split; [lia|]. rewrite Nat2Z.id; auto. }
    destruct (fi_unexp I p Hs) as [Hfr Hl0].
    rewrite (proj2 (at_Ok b (Z.of_nat p) 0)); cbn [bind].
    2:{ split; [lia|]. rewrite Nat2Z.id; auto. }
    rewrite nbrs_ok by auto. cbn [bind]. rewrite Nat2Z.id.
    assert (Lp : (p < length st)%nat) by (rewrite (fi_lst I); auto).
    assert (Lb : (p < length b)%nat) by (rewrite (fi_lb I); auto).
    assert (Sst : forall r, r <> p -> nth_error (upd st p true) r = nth_error st r) by (intros; apply nth_error_upd_other; auto).
    assert (Sb : forall r, r <> p -> nth_error (upd b p nB) r = nth_error b r) by (intros; apply nth_error_upd_other; auto).
    assert (Pst : nth_error (upd st p true) p = Some true) by (apply nth_error_upd_same; auto).
    assert (Pb : nth_error (upd b p nB) p = Some nB) by (apply nth_error_upd_same; auto).
    assert (Hin0 : In (Z.of_nat p) (Z.of_nat p :: cur ++ next)) by (left; auto).
    eexists. split; [reflexivity|]. simpl. split; [|split; [|split; [|split]]]; auto.
    + assert (Hpc : forall r, fr r -> In (Z.of_nat r) (cur ++ next ++ map Z.of_nat (nb p)) -> conn r p).
      { intros r Fr Hi. rewrite app_assoc in Hi. apply in_app_or in Hi. destruct Hi as [Hi|Hi].
        - apply (fi_pp I); auto. right; auto.
        - apply in_map_iff in Hi. destruct Hi as [r' [E Hi]]. apply Nat2Z.inj in E. subst r'.
          apply conn_sym. apply conn_step with p; auto. constructor; auto. }
      assert (Hlp : forall q0, fr q0 -> nth_error st q0 = Some true -> lab b q0 nB -> conn p q0).
      { intros q0 Fq Hs0 Hl. apply (fi_pconn I); auto. }
      constructor.
      * rewrite upd_length. apply (fi_lst I).
      * rewrite upd_length. apply (fi_lb I).
      * rewrite count_upd by auto. rewrite (fi_expl I). lia.
      * apply (fi_nB I).
      * intros r x Hx Hr. destruct (fi_fixed I Hx Hr) as [H1 H2].
        assert (r <> p) by (intros ->; congruence). unfold lab. rewrite Sb, Sst; auto.
      * intros r Hr. assert (r <> p) by (intros ->; congruence).
        unfold lab. rewrite Sb by auto. apply (fi_unexp I). rewrite <- Sst; auto.
      * intros r x Fr Hr Hl. destruct (Nat.eq_dec r p) as [->|E].
        -- unfold lab in Hl. rewrite Pb in Hl. injection Hl as <-. lia.
        -- unfold lab in Hl. rewrite Sb in Hl by auto. rewrite Sst in Hr by auto. eapply (fi_range I); eauto.
      * intros x Hx. destruct (fi_used I Hx) as [r [Fr [Hr Hl]]].
        assert (r <> p) by (intros ->; congruence). exists r. unfold lab. rewrite Sst, Sb; auto.
      * intros r q0 x Fr Fq Hr Hq0 Hl Hl'. unfold lab in *.
        destruct (Nat.eq_dec r p) as [->|E]; destruct (Nat.eq_dec q0 p) as [->|E'].
        -- constructor; auto.
        -- rewrite Pb in Hl. injection Hl as <-. rewrite Sst in Hq0 by auto. rewrite Sb in Hl' by auto. auto.
        -- rewrite Pb in Hl'. injection Hl' as <-. rewrite Sst in Hr by auto. rewrite Sb in Hl by auto. apply conn_sym; auto.
        -- rewrite Sst in Hr, Hq0 by auto. rewrite Sb in Hl, Hl' by auto. eapply (fi_conn I); eauto.
      * rewrite app_assoc. apply Forall_app. split; auto. apply Forall_forall. intros z Hz.
        apply in_map_iff in Hz. destruct Hz as [r [<- Hr]]. exists r. split; auto. eapply nb_range; eauto.
      * intros r q0 Hi Fr Hq0 Fq Hl. apply conn_trans with p; auto. unfold lab in Hl.
        destruct (Nat.eq_dec q0 p) as [->|E]; [constructor; auto|].
        rewrite Sst in Hq0 by auto. rewrite Sb in Hl by auto. auto.
      * intros r q0 H1 H2 Fr Fq. apply conn_trans with p; auto. apply conn_sym; auto.
      * intros r q0 x Fr Fq Hr Hl Hi. unfold lab in *.
        destruct (Nat.eq_dec r p) as [->|E].
        -- rewrite Pb in Hl. injection Hl as <-.
           destruct (Nat.eq_dec q0 p) as [->|E']; [auto|]. rewrite Sst, Sb by auto.
           destruct (st_dec st (fi_lst I) (fr_lt Fq)) as [Hq0|Hq0].
           ++ left. split; auto. destruct (nth_error b q0) as [y|] eqn:Ey.
              2:{ apply nth_error_None in Ey. rewrite (fi_lb I) in Ey. pose proof (fr_lt Fq). lia. }
              destruct (fi_closed I Fq Hfr Hq0 Ey) as [[H _]|[_ [H _]]]; try congruence.
              apply nb_sym; auto; apply fr_lt; auto.
           ++ right. split; auto. split; auto. rewrite !in_app_iff. right; right. apply in_map; auto.
        -- rewrite Sst in Hr by auto. rewrite Sb in Hl by auto.
           destruct (fi_closed I Fr Fq Hr Hl Hi) as [[H1 H2]|[H1 [H2 H3]]].
           ++ left. assert (q0 <> p) by (intros ->; congruence). rewrite Sst, Sb; auto.
           ++ destruct (Nat.eq_dec q0 p) as [->|E']; [left; subst x; auto|].
              right. rewrite Sst by auto. split; auto. split; auto.
              destruct H3 as [H3|H3]; [apply Nat2Z.inj in H3; congruence|].
              rewrite app_assoc. apply in_or_app. auto.
    + apply at_Ok. split; [lia|]. rewrite Nat2Z.id; auto.
    + intros r Hr. assert (r <> p) by (intros ->; congruence). rewrite Sst; auto.
    + intros _. exists p. auto.
Qed.

Lemma queue_inv nB : 1 <= nB -> forall cur f,
  finv (f_status f) (f_block f) (f_explored f) nB (cur ++ f_next f) ->
  exists f', for_each cur (explore nbrs nB) f = Ok f' /\
    finv (f_status f') (f_block f') (f_explored f') nB (f_next f') /\
    ((f_explored f' = f_explored f /\ f_next f' = f_next f) \/ f_explored f + 1 <= f_explored f') /\
    ((exists p, fr p /\ nth_error (f_status f) p = Some true /\ lab (f_block f) p nB) ->
     exists p, fr p /\ nth_error (f_status f') p = Some true /\ lab (f_block f') p nB) /\
    (match cur with q :: _ => at_ (f_status f) q = Ok false ->
        f_explored f + 1 <= f_explored f' /\
        exists p, fr p /\ nth_error (f_status f') p = Some true /\ lab (f_block f') p nB | [] => True end).
Proof.
  intros HnB. induction cur as [|q cur IH]; intros f I; simpl in *.
  - exists f. split; [auto|]. split; [auto|]. split; [left; auto|]. split; auto.
  - destruct (@explore_inv nB q cur f I HnB) as [f1 [E1 [I1 [M1 [A1 [K1 U1]]]]]]. rewrite E1. cbn [bind].
    destruct (IH f1 I1) as [f2 [E2 [I2 [M2 [U2 _]]]]]. exists f2. split; auto. split; auto. split; [|split].
    + destruct M1 as [[Ma [Mb _]]|Ma]; destruct M2 as [[Mc Md]|Mc]; [left; split; congruence|right; lia..].
    + intros H. auto.
    + intros H. split; auto. destruct M1 as [[_ [_ Ha]]|Ma]; [congruence|]. destruct M2 as [[Mc _]|Mc]; lia.
Qed.

Lemma first_false_spec l : forall k, (exists p, nth_error l p = Some false) ->
  exists p, first_false l k = k + Z.of_nat p /\ nth_error l p = Some false.
Proof.
  induction l as [|b l IH]; intros k [p Hp]; [destruct p; discriminate|]. simpl. destruct b.
  - destruct p as [|p]; [discriminate|]. destruct (IH (k + 1)) as [r [E Hr]]; [exists p; auto|].
    exists (S r). split; auto. rewrite E. lia.
  - exists 0%nat. split; [lia|auto].
Qed.

Lemma not_all l : (length (filter (fun x : bool => x) l) < length l)%nat -> exists p, nth_error l p = Some false.
Proof.
  induction l as [|b l IH]; simpl; intros H; [lia|]. destruct b; simpl in H.
  - destruct IH as [p Hp]; [lia|]. exists (S p). auto.
  - exists 0%nat. auto.
Qed.
Lemma all_true l p : (length l <= length (filter (fun x : bool => x) l))%nat -> (p < length l)%nat -> nth_error l p = Some true.
Proof.
  revert p. assert (F : forall l', (length (filter (fun x : bool => x) l') <= length l')%nat).
  { induction l' as [|b l' IH]; simpl; [lia|]. destruct b; simpl; lia. }
  induction l as [|b l IH]; simpl; intros p H Hp; [lia|]. pose proof (F l). destruct b; simpl in H; [|lia].
  destruct p; auto. simpl. apply IH; lia.
Qed.

Definition done (nB : Z) (b : list Z) : Prop :=
  length b = n /\
  (forall p x, x <> 0 -> lab b0 p x -> lab b p x) /\
  (forall p, fr p -> exists x, lab b p x /\ 1 <= x <= nB) /\
  (forall x, 1 <= x <= nB -> exists p, fr p /\ lab b p x) /\
  (forall p q, fr p -> fr q -> (exists x, lab b p x /\ lab b q x) <-> conn p q).

Lemma loop_ok : forall fuel nB queue f,
  finv (f_status f) (f_block f) (f_explored f) nB queue -> f_next f = [] ->
  (1 <= nB -> exists p, fr p /\ nth_error (f_status f) p = Some true /\ lab (f_block f) p nB) ->
  (queue <> [] -> 1 <= nB) ->
  (2 * (n - length (filter (fun x => x) (f_status f))) + match queue with [] => 0 | _ => 1 end < fuel)%nat ->
  exists nB' b, fill_loop nbrs fuel (Z.of_nat n) nB queue f = Ok (nB', b) /\ done nB' b.
Proof.
  induction fuel as [|fuel IH]; intros nB queue f I Hnext Hlast Hq Hfuel; [lia|].
  unfold fill_loop; fold fill_loop.
  destruct (Z.leb_spec (Z.of_nat n) (f_explored f)) as [Hdone|Hmore].
  - exists nB, (f_block f). split; auto.
    assert (All : forall p, (p < n)%nat -> nth_error (f_status f) p = Some true).
    { intros p Hp. apply all_true; rewrite (fi_lst I); auto. rewrite (fi_expl I) in Hdone. lia. }
    assert (Lab : forall p, fr p -> exists x, lab (f_block f) p x).
    { intros p Fp. unfold lab. destruct (nth_error (f_block f) p) eqn:E; eauto.
      apply nth_error_None in E. rewrite (fi_lb I) in E. apply fr_lt in Fp. lia. }
    assert (AllF : forall p, fr p -> nth_error (f_status f) p = Some true) by (intros p Fp; apply All, fr_lt; auto).
    split; [apply (fi_lb I)|]. split; [intros p x Hx Hl; apply (fi_fixed I Hx Hl)|]. split; [|split].
    + intros p Fp. destruct (Lab p Fp) as [x Hx]. exists x. split; auto. eapply (fi_range I); eauto.
    + intros x Hx. destruct (Z.eq_dec x nB) as [->|E].
      * destruct Hlast as [p [Fp [_ Hl]]]; [lia|]. eauto.
      * destruct (fi_used I (x := x)) as [p [Fp [_ Hl]]]; [lia|]. eauto.
    + intros p q Fp Fq. split.
      * intros [x [H1 H2]]. apply (fi_conn I) with x; auto.
      * intros H. destruct (Lab p Fp) as [x Hx]. exists x. split; auto.
        induction H as [p Hp|p q r H IHc Hin Hr]; auto.
        assert (Fq' : fr q) by (apply conn_fr in H; tauto).
        destruct (fi_closed I Fq' Hr (AllF q Fq') (IHc Fp Fq' Hx) Hin) as [[_ H1]|[H1 _]]; auto.
        rewrite (AllF r Hr) in H1. discriminate.
  - assert (Hnot : (length (filter (fun x => x) (f_status f)) < n)%nat) by (rewrite (fi_expl I) in Hmore; lia).
    destruct queue as [|q queue].
    + destruct (@first_false_spec (f_status f) 0) as [p [E Hp]].
      { apply not_all. rewrite (fi_lst I). auto. }
      rewrite E. rewrite Z.add_0_l.
      assert (Hat : at_ (f_status f) (Z.of_nat p) = Ok false).
      { apply at_Ok. split; [lia|]. rewrite Nat2Z.id. auto. }
      rewrite Hat. cbn [bind].
      assert (Hnn := fi_nB I).
      assert (Hpn : (p < n)%nat). { rewrite <- (fi_lst I). apply nth_error_Some. congruence. }
      assert (I1 : finv (f_status f) (f_block f) (f_explored f) (nB + 1) ([Z.of_nat p] ++ f_next f)).
      { rewrite Hnext. destruct I. constructor; auto; try lia.
        - intros r x Fr Hs Hl. specialize (fi_range0 r x Fr Hs Hl). lia.
        - intros x Hx. destruct (Z.eq_dec x nB) as [->|Ex]; [|apply fi_used0; lia]. apply Hlast. lia.
        - constructor; [|constructor]. eauto.
        - intros r q _ _ Hs Fq Hl. specialize (fi_range0 q (nB + 1) Fq Hs Hl). lia.
        - intros r q [H1|[]] [H2|[]] Fr Fq. apply Nat2Z.inj in H1, H2. subst. constructor; auto.
        - intros r q x Fr Fq Hs Hl Hi. destruct (fi_closed0 r q x Fr Fq Hs Hl Hi) as [H|[_ [_ []]]]; auto. }
      destruct (@queue_inv (nB + 1) ltac:(lia) [Z.of_nat p] f I1) as [f1 [E1 [I2 [M [U1 U2]]]]].
      destruct (U2 Hat) as [Mx U3]. rewrite E1. cbn [bind].
      apply IH; simpl; auto; [lia|].
      assert (Hc1 := fi_expl I). assert (Hc2 := fi_expl I2).
      destruct (f_next f1); lia.
    + cbn [bind]. assert (HnB : 1 <= nB) by (apply Hq; discriminate).
      assert (I1 : finv (f_status f) (f_block f) (f_explored f) nB ((q :: queue) ++ f_next f)).
      { rewrite Hnext, app_nil_r. auto. }
      destruct (@queue_inv nB HnB (q :: queue) f I1) as [f1 [E1 [I2 [M [U1 U2]]]]].
      rewrite E1. cbn [bind]. apply IH; simpl; auto.
      assert (Hc1 := fi_expl I). assert (Hc2 := fi_expl I2).
      destruct M as [[Ma Mb]|Ma]; [rewrite Mb, Hnext; lia|]. destruct (f_next f1); lia.
Qed.

Lemma flood_done :
  exists nB b, fill_loop nbrs (2 * n + 2) (Z.of_nat n) 0 []
    {| f_status := map (fun x => negb (x =? 0)) b0; f_block := b0;
       f_explored := Z.of_nat (length (filter (fun x => negb (x =? 0)) b0)); f_next := [] |} = Ok (nB, b) /\ done nB b.
Proof.
  assert (Hst : forall p, nth_error (map (fun x => negb (x =? 0)) b0) p = option_map (fun x => negb (x =? 0)) (nth_error b0 p)).
  { intros p. rewrite nth_error_map. reflexivity. }
  assert (Hcnt : length (filter (fun x : bool => x) (map (fun x => negb (x =? 0)) b0)) = length (filter (fun x => negb (x =? 0)) b0)).
  { clear. induction b0 as [|x l IH]; simpl; auto. destruct (x =? 0); simpl; auto. }
  assert (Hno : forall p, fr p -> nth_error (map (fun x => negb (x =? 0)) b0) p = Some true -> False).
  { intros p Fp. rewrite Hst, Fp. simpl. discriminate. }
  apply loop_ok; simpl; auto; try lia; try congruence.
  constructor; auto; try lia.
  all: try solve [intros; match goal with H : In _ [] |- _ => destruct H
       | Fp : fr ?p, Hs : nth_error _ ?p = Some true |- _ => destruct (Hno p Fp Hs) end].
  - rewrite map_length; auto.
  - intros p x Hx Hl. split; auto. rewrite Hst, Hl. simpl. destruct (Z.eqb_spec x 0); [congruence|reflexivity].
  - intros p Hp. rewrite Hst in Hp. unfold fr, lab. destruct (nth_error b0 p) as [x|]; simpl in Hp; [|discriminate].
    destruct (Z.eqb_spec x 0); [subst; auto|discriminate].
Qed.
End Generic.

(** ** From positions to indices. *)
Section Indexed.
Variable A : Type.
Variable idx : A -> Z.
Variable l : list A.
Hypothesis idx_nodup : NoDup (map idx l).

Lemma pos_unique p q a b : nth_error l p = Some a -> nth_error l q = Some b -> idx a = idx b -> p = q.
Proof.
  intros Hp Hq E. apply (NoDup_nth_error (map idx l)); auto.
  - rewrite map_length. apply nth_error_Some. congruence.
  - rewrite !nth_error_map, Hp, Hq. simpl. congruence.
Qed.

Lemma label_at p a b x : nth_error l p = Some a -> (label idx l b (idx a) x <-> nth_error b p = Some x).
Proof.
  intros Hp. split.
  - intros [q [c [Hq [E Hx]]]]. rewrite (pos_unique _ _ Hp Hq) by auto. auto.
  - intros H. exists p, a. auto.
Qed.

Variable b0 : list Z.
Hypothesis b0_len : length b0 = length l.

Lemma free_at p a : nth_error l p = Some a -> (free_elem idx l b0 (idx a) <-> fr b0 p).
Proof.
  intros Hp. unfold free_elem, fr. split.
  - intros [_ H]. destruct (nth_error b0 p) as [x|] eqn:E.
    + destruct (Z.eq_dec x 0) as [->|Hx]; auto. exfalso. apply H. exists x. split; auto. apply (label_at _ _ _ Hp); auto.
    + apply nth_error_None in E. assert (p < length l)%nat by (apply nth_error_Some; congruence). lia.
  - intros H. split; [exists a; split; auto; eapply nth_error_In; eauto|].
    intros [x [Hx Hl]]. apply (label_at _ _ _ Hp) in Hl. congruence.
Qed.

Variable adj : Z -> Z -> Prop.
Variable nb : nat -> list nat.
Hypothesis nb_adj : forall p q a b, nth_error l p = Some a -> nth_error l q = Some b ->
  (In q (nb p) <-> adj (idx a) (idx b)) \/ p = q.

Lemma free_pos i : free_elem idx l b0 i -> exists p a, nth_error l p = Some a /\ idx a = i /\ fr b0 p.
Proof.
  intros H. destruct (proj1 H) as [a [Ha E]]. apply In_nth_error in Ha. destruct Ha as [p Hp].
  exists p, a. split; auto. split; auto. apply (free_at _ Hp). congruence.
Qed.

Lemma fr_elem p : fr b0 p -> exists a, nth_error l p = Some a.
Proof.
  intros H. destruct (nth_error l p) as [a|] eqn:E; eauto. apply nth_error_None in E.
  assert (p < length b0)%nat by (apply nth_error_Some; rewrite H; discriminate). lia.
Qed.

Lemma conn_joined p q a b : nth_error l p = Some a -> nth_error l q = Some b ->
  (conn nb b0 p q <-> joined (free_elem idx l b0) adj (idx a) (idx b)).
Proof.
  intros Hp Hq. split.
  - intros H. revert b Hq. induction H as [p Fp|p q r H IH Hin Fr]; intros b Hq.
    + assert (a = b) by congruence. subst. constructor. apply (free_at _ Hp). auto.
    + assert (Fq : fr b0 q) by (destruct H; auto). destruct (fr_elem Fq) as [c Hc].
      specialize (IH Hp c Hc). destruct (nb_adj _ _ Hc Hq) as [[H1 _]|E].
      * apply joined_step with (idx c); auto. apply (free_at _ Hq); auto.
      * subst r. assert (b = c) by congruence. subst; auto.
  - intros H. remember (idx a) as u eqn:Eu. remember (idx b) as v eqn:Ev. revert q b Hq Ev.
    induction H as [u Fu|u v w H IH Hadj Fw]; intros q b Hq Ev; subst.
    + assert (p = q) by (eapply pos_unique; eauto). subst q. constructor. apply (free_at _ Hp). auto.
    + assert (Fv : free_elem idx l b0 v) by (destruct H; auto). destruct (free_pos Fv) as [r [c [Hr [E Fr]]]]. subst v.
      specialize (IH eq_refl r c Hr eq_refl). destruct (nb_adj _ _ Hr Hq) as [[_ H1]|E].
      * apply conn_step with r; auto. apply (free_at _ Hq); auto.
      * subst r; auto.
Qed.

Lemma done_components nB b : done (length l) nb b0 nB b -> component_labels idx l adj b0 nB b.
Proof.
  intros [D1 [D2 [D3 [D4 D5]]]]. split; auto. split; [|split; [|split]].
  - intros i x Hx [p [a [Hp [E Hl]]]]. exists p, a. split; auto. split; auto. apply D2; auto.
  - intros i Fi. destruct (free_pos Fi) as [p [a [Hp [E Fp]]]]. destruct (D3 p Fp) as [x [Hx Hr]].
    exists x. split; auto. exists p, a. auto.
  - intros x Hx. destruct (D4 x Hx) as [p [Fp Hl]]. destruct (fr_elem Fp) as [a Ha].
    exists (idx a). split; [apply (free_at _ Ha); auto|]. exists p, a; auto.
  - intros i j Fi Fj. destruct (free_pos Fi) as [p [a [Hp [Ea Fp]]]]. destruct (free_pos Fj) as [q [c [Hq [Ec Fq]]]].
    subst i j. rewrite <- (conn_joined _ _ Hp Hq), <- (D5 p q Fp Fq).
    split; intros [x [H1 H2]]; exists x.
    + apply (label_at _ _ _ Hp) in H1. apply (label_at _ _ _ Hq) in H2. auto.
    + split; [apply (label_at _ _ _ Hp)|apply (label_at _ _ _ Hq)]; auto.
Qed.
End Indexed.

Lemma omap_list_ok A B (f : A -> outcome B) (P : A -> B -> Prop) l :
  (forall a, In a l -> exists b, f a = Ok b /\ P a b) ->
  exists bs, omap_list f l = Ok bs /\ Forall2 P l bs.
Proof.
  induction l as [|a l IH]; intros H; simpl.
  - exists []. split; auto.
  - destruct (H a) as [b [Hb Pb]]; [left; auto|]. rewrite Hb. cbn [bind].
    destruct IH as [bs [Hbs Pbs]]; [intros; apply H; right; auto|]. rewrite Hbs. cbn [bind].
    exists (b :: bs). split; auto.
Qed.
Lemma Forall2_In_l A B (P : A -> B -> Prop) l l' a : Forall2 P l l' -> In a l -> exists b, In b l' /\ P a b.
Proof.
  induction 1 as [|x y l l' H F IH]; intros Hi; [destruct Hi|]. destruct Hi as [<-|Hi].
  - exists y. simpl; auto.
  - destruct (IH Hi) as [b [Hb Pb]]. exists b. simpl; auto.
Qed.
Lemma Forall2_In_r A B (P : A -> B -> Prop) l l' b : Forall2 P l l' -> In b l' -> exists a, In a l /\ P a b.
Proof.
  induction 1 as [|x y l l' H F IH]; intros Hi; [destruct Hi|]. destruct Hi as [<-|Hi].
  - exists x. simpl; auto.
  - destruct (IH Hi) as [a [Ha Pa]]. exists a. simpl; auto.
Qed.

Arguments Forall2_In_l {A B P l l' a} _ _.
Arguments Forall2_In_r {A B P l l' b} _ _.

(** A fill on the elements of a list whose neighbours are known. *)
Lemma flood_components A (idx : A -> Z) (l : list A) (nbrs : Z -> outcome (list Z)) (adj : Z -> Z -> Prop) (block0 : list Z) :
  NoDup (map idx l) ->
  (forall u v, adj u v -> adj v u) ->
  (forall p a, nth_error l p = Some a ->
     exists zs, nbrs (Z.of_nat p) = Ok zs /\
       (forall z, In z zs -> exists q, z = Z.of_nat q /\ (q < length l)%nat) /\
       (forall q b, nth_error l q = Some b -> p <> q -> (In (Z.of_nat q) zs <-> adj (idx a) (idx b)))) ->
  (block0 = [] \/ length block0 = length l) ->
  exists n block, flood nbrs (length l) block0 = Ok (n, block) /\ component_labels idx l adj block0 n block.
Proof.
  intros Hnd Hsym Hn Hb.
  set (nb := fun p => match nbrs (Z.of_nat p) with Ok zs => map Z.to_nat zs | _ => [] end).
  set (b := if (length block0 =? 0)%nat then repeat 0 (length l) else block0).
  assert (Lb : length b = length l).
  { unfold b. destruct (Nat.eqb_spec (length block0) 0) as [E|E].
    - apply repeat_length.
    - destruct Hb as [->|Hb]; [simpl in E; lia|auto]. }
  assert (Hp : forall p, (p < length l)%nat -> exists a, nth_error l p = Some a).
  { intros p H. apply nth_error_Some in H. destruct (nth_error l p); eauto; congruence. }
  assert (Hok : forall p, (p < length l)%nat -> nbrs (Z.of_nat p) = Ok (map Z.of_nat (nb p))).
  { intros p H. destruct (Hp p H) as [a Ha]. destruct (Hn p a Ha) as [zs [E [H1 _]]].
    unfold nb. rewrite E. f_equal. rewrite map_map. rewrite <- (map_id zs) at 1. apply map_ext_in.
    intros z Hz. destruct (H1 z Hz) as [q [-> _]]. rewrite Nat2Z.id. auto. }
  assert (Hin : forall p q, (p < length l)%nat -> (In q (nb p) <-> exists zs, nbrs (Z.of_nat p) = Ok zs /\ In (Z.of_nat q) zs)).
  { intros p q H. rewrite (Hok p H). split.
    - intros Hi. eexists. split; [reflexivity|]. apply in_map; auto.
    - intros [zs [E Hi]]. injection E as <-. apply in_map_iff in Hi. destruct Hi as [r [E Hr]]. apply Nat2Z.inj in E. subst; auto. }
  assert (Hadj : forall p q a c, nth_error l p = Some a -> nth_error l q = Some c -> (In q (nb p) <-> adj (idx a) (idx c)) \/ p = q).
  { intros p q a c Ha Hc. destruct (Nat.eq_dec p q) as [E|E]; [right; auto|left].
    assert (p < length l)%nat by (apply nth_error_Some; congruence).
    destruct (Hn p a Ha) as [zs [Ez [_ H2]]]. rewrite Hin by auto. rewrite <- (H2 q c Hc E). split.
    - intros [zs' [E' Hi]]. congruence.
    - intros Hi. exists zs; auto. }
  destruct (@flood_done (length l) nbrs nb) with (b0 := b) as [n [blk [E D]]]; auto.
  - intros p q H Hi. apply Hin in Hi; auto. destruct Hi as [zs [Ez Hi]]. destruct (Hp p H) as [a Ha].
    destruct (Hn p a Ha) as [zs' [E' [H1 _]]]. assert (zs' = zs) by congruence. subst.
    destruct (H1 _ Hi) as [q' [Eq Hq]]. apply Nat2Z.inj in Eq. subst; auto.
  - intros p q H1 H2 Hi. destruct (Hp p H1) as [a Ha]. destruct (Hp q H2) as [c Hc].
    destruct (Hadj p q a c Ha Hc) as [F|F]; [|subst; auto]. destruct (Hadj q p c a Hc Ha) as [G|G]; [|subst; auto].
    apply G, Hsym, F; auto.
  - exists n, blk. split.
    + unfold flood. fold b. destruct (Nat.eqb_spec (length block0) 0) as [E0|E0]; unfold b in *.
      * exact E.
      * destruct Hb as [->|Hb]; [simpl in E0; lia|]. rewrite (proj2 (Nat.eqb_eq _ _) Hb). exact E.
    + assert (C : component_labels idx l adj b n blk) by (eapply done_components; eauto).
      destruct (Nat.eqb_spec (length block0) 0) as [E0|E0]; unfold b in C; [|exact C].
      destruct block0; [|simpl in E0; lia].
      assert (Feq : forall i, free_elem idx l [] i <-> free_elem idx l (repeat 0 (length l)) i).
      { intros i. unfold free_elem. split; intros [H1 H2]; split; auto; intros [x [Hx [p [a [Ha [_ Hl]]]]]].
        - apply nth_error_In, repeat_spec in Hl. auto.
        - destruct p; discriminate. }
      assert (Jeq : forall i j, joined (free_elem idx l []) adj i j <-> joined (free_elem idx l (repeat 0 (length l))) adj i j).
      { intros i j. split; induction 1; [constructor; apply Feq; auto| |constructor; apply Feq; auto|];
          eapply joined_step; eauto; apply Feq; auto. }
      destruct C as [C1 [C2 [C3 [C4 C5]]]]. split; auto. split; [|split; [|split]].
      * intros i x Hx [p [a [_ [_ Hl]]]]. destruct p; discriminate.
      * intros i Fi. apply C3, Feq, Fi.
      * intros x Hx. destruct (C4 x Hx) as [i [Fi Hi]]. exists i. split; auto. apply Feq, Fi.
      * intros i j Fi Fj. rewrite Jeq. apply C5; apply Feq; auto.
Qed.

Lemma flood_bad_size nbrs n block0 : block0 <> [] -> length block0 <> n -> flood nbrs n block0 = Throw.
Proof.
  intros H1 H2. unfold flood. destruct (Nat.eqb_spec (length block0) 0) as [E|E].
  - destruct block0; [congruence|discriminate].
  - destruct (Nat.eqb_spec (length block0) n); [congruence|reflexivity].
Qed.

(** Position of an index. *)
Lemma find_pos A (idx : A -> Z) l q b : NoDup (map idx l) -> nth_error l q = Some b -> find idx l (idx b) = Z.of_nat q.
Proof.
  intros Hnd Hq. destruct (find_spec idx l (idx b)) as [[_ H]|[j [a [H1 [H2 H3]]]]].
  - exfalso. apply H. exists b. split; auto. eapply nth_error_In; eauto.
  - rewrite H1. f_equal. eapply (@pos_unique _ idx); eauto.
Qed.
Lemma find_range A (idx : A -> Z) l k : (exists a, In a l /\ idx a = k) -> exists q, find idx l k = Z.of_nat q /\ (q < length l)%nat.
Proof.
  intros He. destruct (find_spec idx l k) as [[_ H]|[j [a [H1 [H2 H3]]]]]; [contradiction|].
  exists j. split; auto. apply nth_error_Some. congruence.
Qed.
Lemma find_inj A (idx : A -> Z) l k q b : NoDup (map idx l) -> nth_error l q = Some b -> find idx l k = Z.of_nat q -> k = idx b.
Proof.
  intros Hnd Hq H. destruct (find_spec idx l k) as [[H1 _]|[j [a [H1 [H2 H3]]]]]; [lia|].
  rewrite H1 in H. apply Nat2Z.inj in H. subst j. congruence.
Qed.

Arguments find_pos {A idx l q b} _ _.
Arguments find_inj {A idx l k q b} _ _ _.

Lemma other_end_two self x y : self = x \/ self = y -> exists z, other_end self [x; y] = Ok z /\
  (z = x \/ z = y) /\ (forall w, w <> self -> (w = z <-> (w = x \/ w = y))).
Proof.
  intros H. unfold other_end. simpl. destruct (Z.eqb_spec x self) as [E|E].
  - exists y. repeat split; auto; intros; subst; intuition congruence.
  - exists x. repeat split; auto; intros; subst; intuition congruence.
Qed.

Lemma vert_nbrs_spec m p v : well_connected m ->
  (forall e, In e (edges m) -> length (ed_vertind e) = 2%nat) ->
  nth_error (verts m) p = Some v ->
  exists zs, vert_nbrs m (Z.of_nat p) = Ok zs /\
    (forall z, In z zs -> exists q, z = Z.of_nat q /\ (q < length (verts m))%nat) /\
    (forall q w, nth_error (verts m) q = Some w -> p <> q ->
       (In (Z.of_nat q) zs <-> share_edge m (ve_index v) (ve_index w))).
Proof.
  intros Hw H2 Hp. destruct Hw as [[U1 [U2 [U3 [U4 _]]]] [[M1 [M2 _]] [X1 [X2 _]]]].
  assert (Hv : In v (verts m)) by (eapply nth_error_In; eauto).
  unfold vert_nbrs. rewrite (proj2 (at_Ok (verts m) (Z.of_nat p) v)) by (rewrite Nat2Z.id; split; [lia|auto]).
  cbn [bind].
  destruct (@omap_list_ok Z Z (fun e => do ed <- at_ (edges m) (find ed_index (edges m) e);
                      do x <- other_end (ve_index v) (ed_vertind ed);
                      Ok (find ve_index (verts m) x))
    (fun e z => exists y, EV m e y /\ z = find ve_index (verts m) y /\
        forall w, w <> ve_index v -> (w = y <-> EV m e w)) (ve_edgeind v)) as [zs [Ez F]].
  { intros e He. assert (VEe : VE m (ve_index v) e) by (exists v; auto).
    assert (EVe : EV m e (ve_index v)) by (apply M1; auto; intros ->; apply (X1 _ VEe)).
    destruct EVe as [ed [Hed [Ei Hin]]].
    destruct (@find_at _ ed_index (edges m) e) as [ed' [Ha [Hi Ei']]]; [eauto|].
    assert (ed' = ed) by (eapply (@NoDup_idx_inj _ ed_index); eauto; congruence). subst ed'.
    rewrite Ha. cbn [bind]. specialize (H2 ed Hed).
    assert (Hown := @owner _ ed_index ed_vertind (edges m) _ _ U3 Hed Ei). 
    destruct (ed_vertind ed) as [|x [|y [|? ?]]] eqn:Ev; try discriminate.
    destruct (@other_end_two (ve_index v) x y) as [z [Hz [Hz1 Hz2]]].
    { simpl in Hin. intuition. }
    rewrite Hz. cbn [bind]. eexists. split; [reflexivity|]. exists z. split; [|split; auto].
    - apply Hown. simpl. intuition.
    - intros w Hne. rewrite Hz2 by auto. unfold EV. rewrite <- Hown. simpl. intuition. }
  exists zs. split; auto. split.
  - intros z Hz. destruct (Forall2_In_r F Hz) as [e [He [y [Hy [-> _]]]]].
    apply find_range. assert (VEy : VE m y e) by (apply M2; auto; intros ->; apply (X2 _ Hy)).
    eapply lists_has; eauto.
  - intros q w Hq Hne. assert (Hne' : ve_index w <> ve_index v).
    { intros E. apply Hne. eapply (@pos_unique _ ve_index); eauto. }
    split.
    + intros Hi. destruct (Forall2_In_r F Hi) as [e [He [y [Hy [E Hz]]]]].
      symmetry in E. apply (find_inj U4 Hq) in E. exists e. split.
      * apply M1; [exists v; auto|]. intros ->. apply (X1 (ve_index v)). exists v; auto.
      * apply Hz; auto.
    + intros [e [E1 E2]]. assert (VEe : VE m (ve_index v) e) by (apply M2; auto; intros E0; apply (X2 e); rewrite <- E0; auto).
      apply (@owner _ ve_index ve_edgeind (verts m) _ _ U4 Hv eq_refl) in VEe.
      destruct (Forall2_In_l F VEe) as [z [Hz [y [Hy [-> Hw]]]]].
      apply Hw in E2; auto. rewrite <- E2 in Hz. rewrite (find_pos U4 Hq) in Hz. auto.
Qed.

Lemma connected_vertex_spec m block0 : well_connected m ->
  (forall e, In e (edges m) -> length (ed_vertind e) = 2%nat) ->
  (block0 = [] \/ length block0 = length (verts m)) ->
  exists n block, connected_vertex m block0 = Ok (n, block) /\
    component_labels ve_index (verts m) (share_edge m) block0 n block.
Proof.
  intros Hw H2 Hb. unfold connected_vertex. apply flood_components; auto.
  - destruct Hw as [[_ [_ [_ [U _]]]] _]. auto.
  - intros u v [e [H H']]. exists e; auto.
  - intros p a Hp. apply vert_nbrs_spec; auto.
Qed.

Lemma volu_nbrs_spec m bound p v : well_connected m ->
  (forall s, In s (surfs m) -> length (su_voluind s) = 2%nat) ->
  (bound = [] \/ length bound = length (surfs m)) ->
  nth_error (volus m) p = Some v ->
  exists zs, volu_nbrs m bound (Z.of_nat p) = Ok zs /\
    (forall z, In z zs -> exists q, z = Z.of_nat q /\ (q < length (volus m))%nat) /\
    (forall q w, nth_error (volus m) q = Some w -> p <> q ->
       (In (Z.of_nat q) zs <-> share_surface m (stopping m bound) (vo_index v) (vo_index w))).
Proof.
  intros Hw H2 Hb Hp. destruct Hw as [[U1 [U2 [U3 [U4 [Z1 [Z2 _]]]]]] [[_ [_ [_ [_ [M5 M6]]]]] [_ [_ [_ [X4 _]]]]]].
  assert (Hv : In v (volus m)) by (eapply nth_error_In; eauto).
  assert (Hv0 : vo_index v <> 0) by (intros E; apply Z1; exists v; auto).
  unfold volu_nbrs. rewrite (proj2 (at_Ok (volus m) (Z.of_nat p) v)) by (rewrite Nat2Z.id; split; [lia|auto]).
  cbn [bind].
  assert (HVS : forall s, In s (vo_surfind v) -> SV m s (vo_index v)).
  { intros s Hs. assert (VSs : VS m (vo_index v) s) by (exists v; auto).
    apply M6; auto; intros ->; apply (X4 _ VSs). }
  assert (G : forall l, (forall s, In s l -> SV m s (vo_index v)) ->
    exists zs, volu_nbrs_from m bound (vo_index v) l = Ok zs /\
      (forall z, In z zs -> exists w, has_volu m w /\ z = find vo_index (volus m) w) /\
      (forall w, w <> vo_index v -> has_volu m w ->
         (In (find vo_index (volus m) w) zs <-> exists s, In s l /\ ~ stopping m bound s /\ SV m s w))).
  { induction l as [|s l IH]; intros Hl.
    - exists []. split; auto. split; [intros z []|]. intros w _ _. split; [intros []|intros [s [[] _]]].
    - destruct IH as [tl [Et [Ht1 Ht2]]]; [intros; apply Hl; right; auto|].
      assert (SVs : SV m s (vo_index v)) by (apply Hl; left; auto).
      destruct SVs as [su [Hsu [Es Hin]]].
      destruct (In_nth_error _ _ Hsu) as [k Hk].
      assert (Ef : find su_index (surfs m) s = Z.of_nat k) by (rewrite <- Es; apply find_pos; auto).
      assert (Hstop : exists b, (if is_nil bound then Ok false else at_ bound (Z.of_nat k)) = Ok b /\ (b = true <-> stopping m bound s)).
      { destruct bound as [|b0 bound'].
        - exists false. split; auto. split; [discriminate|]. intros [j [a [_ [_ H]]]]. destruct j; discriminate.
        - destruct Hb as [Hb|Hb]; [discriminate|]. simpl is_nil.
          destruct (nth_error (b0 :: bound') k) as [b|] eqn:E.
          2:{ apply nth_error_None in E. assert (k < length (surfs m))%nat by (apply nth_error_Some; congruence). lia. }
          exists b. split; [apply at_Ok; rewrite Nat2Z.id; split; auto; lia|]. split.
          + intros ->. exists k, su. auto.
          + intros [j [a [Hj [Ea Hs]]]]. assert (j = k) by (eapply (@pos_unique _ su_index); eauto; congruence). subst. congruence. }
      destruct Hstop as [b [Eb Hbs]]. simpl volu_nbrs_from. rewrite Ef, Eb. cbn [bind].
      assert (Hown := @owner _ su_index su_voluind (surfs m) _ _ U2 Hsu Es).
      destruct b.
      + cbn [bind]. rewrite Et. cbn [bind]. exists tl. split; auto. split; auto.
        intros w Hne Hw. rewrite (Ht2 w Hne Hw). split.
        * intros [t [H1 H3]]. exists t. simpl; auto.
        * intros [t [[<-|H1] H3]]; [exfalso; apply H3, Hbs; auto|exists t; auto].
      + rewrite (proj2 (at_Ok (surfs m) (Z.of_nat k) su)) by (rewrite Nat2Z.id; split; [lia|auto]). cbn [bind].
        specialize (H2 su Hsu).
        destruct (su_voluind su) as [|x [|y [|? ?]]] eqn:Ev; try discriminate.
        destruct (@other_end_two (vo_index v) x y) as [z [Hz [Hz1 Hz2]]].
        { simpl in Hin. intuition. }
        rewrite Hz. cbn [bind].
        assert (SVz : SV m s z) by (apply Hown; simpl; intuition).
        assert (HSV : forall w, w <> vo_index v -> (w = z <-> SV m s w)).
        { intros w Hne. rewrite Hz2 by auto. unfold SV. rewrite <- Hown. simpl. intuition. }
        assert (Hns : ~ stopping m bound s) by (intros H; apply Hbs in H; discriminate).
        destruct (Z.eqb_spec z 0) as [E0|E0]; cbn [bind]; rewrite Et; cbn [bind].
        * exists tl. split; auto. split; auto. intros w Hne Hw. rewrite (Ht2 w Hne Hw). split.
          -- intros [t [H1 H3]]. exists t. simpl; auto.
          -- intros [t [[<-|H1] H3]]; [|exists t; auto]. exfalso. apply Z1. destruct H3 as [_ H3].
             apply HSV in H3; auto. congruence.
        * exists (find vo_index (volus m) z :: tl). split; auto.
          assert (Hhz : has_volu m z). { apply M5 in SVz; auto. eapply lists_has; eauto. }
          split.
          -- intros z' [<-|Hz']; [exists z; auto|auto].
          -- intros w Hne Hw. simpl. rewrite (Ht2 w Hne Hw). split.
             ++ intros [H|[t [H1 H3]]]; [|exists t; auto]. exists s. split; auto. split; auto. apply HSV; auto.
                destruct Hw as [a [Ha Ea]]. destruct (In_nth_error _ _ Ha) as [j Hj].
                subst w. rewrite (find_pos U1 Hj) in H. symmetry. eapply find_inj; eauto.
             ++ intros [t [[<-|H1] [H3 H4]]]; [|right; exists t; auto]. left. apply HSV in H4; auto. subst; auto. }
  destruct (G (vo_surfind v) HVS) as [zs [Ez [G1 G2]]]. exists zs. split; auto. split.
  - intros z Hz. destruct (G1 z Hz) as [w [Hw ->]]. apply find_range; auto.
  - intros q w Hq Hne. assert (Hne' : vo_index w <> vo_index v).
    { intros E. apply Hne. eapply (@pos_unique _ vo_index); eauto. }
    assert (Hw : has_volu m (vo_index w)) by (exists w; split; auto; eapply nth_error_In; eauto).
    rewrite <- (find_pos U1 Hq), (G2 _ Hne' Hw). split.
    + intros [s [H1 [H3 H4]]]. exists s. auto.
    + intros [s [H1 [H3 H4]]]. exists s. split; auto. apply (@owner _ vo_index vo_surfind (volus m) _ _ U1 Hv eq_refl). apply M5; auto.
Qed.

Lemma connected_volumes_spec m block0 bound : well_connected m ->
  (forall s, In s (surfs m) -> length (su_voluind s) = 2%nat) ->
  (block0 = [] \/ length block0 = length (volus m)) ->
  (bound = [] \/ length bound = length (surfs m)) ->
  exists n block, connected_volumes m block0 bound = Ok (n, block) /\
    component_labels vo_index (volus m) (share_surface m (stopping m bound)) block0 n block.
Proof.
  intros Hw H2 Hb Hbd. unfold connected_volumes.
  replace ((length bound =? 0)%nat || (length bound =? length (surfs m))%nat)%bool with true.
  2:{ symmetry. apply orb_true_iff. destruct Hbd as [->|Hbd]; [left; auto|right; apply Nat.eqb_eq; auto]. }
  apply flood_components; auto.
  - destruct Hw as [[U _] _]. auto.
  - intros u v [e [H0 [H H']]]. exists e; auto.
  - intros p a Hp. apply volu_nbrs_spec; auto.
Qed.
