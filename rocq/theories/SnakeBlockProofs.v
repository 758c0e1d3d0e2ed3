(** Proofs about the mesh vertices inside a snake. *)
From Verif Require Import Base Containers Mesh SpecMesh Flood Num Snake SpecSnake MeshProofs FloodProofs SnakeProofs SnakeTimeProofs.
Set Implicit Arguments.
Open Scope Z_scope.

Definition count (l : list bool) : nat := length (filter (fun x => x) l).
Lemma upd_true l p : nth_error l p = Some true -> upd l p true = l.
Proof.
  revert p. induction l as [|b l IH]; intros [|p] H; simpl in *; try discriminate.
  - congruence.
  - f_equal. auto.
Qed.
Lemma filter_le A (f : A -> bool) l : (length (filter f l) <= length l)%nat.
Proof. induction l as [|x l IH]; simpl; auto. destruct (f x); simpl; lia. Qed.

Lemma some_false l : (count l < length l)%nat -> exists p, nth_error l p = Some false.
Proof.
  unfold count. induction l as [|b l IH]; simpl; intros H; [lia|]. destruct b; simpl in H.
  - destruct IH as [p Hp]; [lia|]. exists (S p). auto.
  - exists 0%nat. auto.
Qed.
Lemma every_true l p : (length l <= count l)%nat -> (p < length l)%nat -> nth_error l p = Some true.
Proof.
  unfold count. revert p. induction l as [|b l IH]; simpl; intros p H Hp; [lia|].
  pose proof (filter_le (fun x : bool => x) l). destruct b; simpl in H; [|lia].
  destruct p; auto. simpl. apply IH; lia.
Qed.
Lemma first_is_false l : forall k, (exists p, nth_error l p = Some false) ->
  exists p, first_false l k = k + Z.of_nat p /\ nth_error l p = Some false.
Proof.
  induction l as [|b l IH]; intros k [p Hp]; [destruct p; discriminate|]. simpl. destruct b.
  - destruct p as [|p]; [discriminate|]. destruct (IH (k + 1)) as [r [E Hr]]; [exists p; auto|].
    exists (S r). split; auto. rewrite E. lia.
  - exists 0%nat. split; [lia|auto].
Qed.

Section Block.
Variable N : num.
Variable rng : Z -> list Z.
Variable m : mesh.
Variable l : list (snax N).
Hypothesis legal : legal_rng l rng.
Hypothesis wc : well_connected m.
Hypothesis two : forall e, In e (edges m) -> length (ed_vertind e) = 2%nat.
Hypothesis onm : on_mesh m l.

Let rr e p : In p (rng e) -> 0 <= p < Z.of_nat (length l).
Proof.
  intros H. apply (proj2 (legal e)) in H. destruct H as [H0 [s [Hs _]]].
  assert (Z.to_nat p < length l)%nat by (apply nth_error_Some; congruence). lia.
Qed.

Lemma see_ok v subs : forall done n, length done = length l -> n = Z.of_nat (count done) ->
  (forall p, In p subs -> 0 <= p < Z.of_nat (length l)) ->
  exists done' n', for_each subs (see_snax l v) (done, n) = Ok (done', n') /\
    length done' = length l /\ n' = Z.of_nat (count done') /\
    forall k s, nth_error l k = Some s ->
      (nth_error done' k = Some true <-> nth_error done k = Some true \/ (In (Z.of_nat k) subs /\ sx_from s = v)).
Proof.
  induction subs as [|p subs IH]; intros done n Hl Hn Hr.
  - exists done, n. split; [auto|]. split; auto. split; auto. intros k s Hs. simpl. tauto.
  - destruct (at_in_range l (Hr p (or_introl eq_refl))) as [s Es].
    cbn [for_each]. unfold see_snax at 1. rewrite Es. cbn [bind]. apply at_Ok in Es. destruct Es as [Hp0 Es].
    assert (Hpl : (Z.to_nat p < length l)%nat) by (apply nth_error_Some; congruence).
    destruct (Z.eqb_spec v (sx_from s)) as [Hv|Hv].
    + destruct (@at_in_range _ done p) as [b Eb]; [lia|]. rewrite Eb. cbn [bind]. apply at_Ok in Eb. destruct Eb as [_ Eb].
      destruct (IH (upd done (Z.to_nat p) true) (if b then n else n + 1)) as [d' [n' [E1 [E2 [E3 E4]]]]].
      * rewrite upd_length; auto.
      * destruct b.
        -- rewrite upd_true by auto. auto.
        -- unfold count. rewrite count_upd by auto. unfold count in Hn. lia.
      * intros; apply Hr; right; auto.
      * exists d', n'. split; [exact E1|]. split; auto. split; auto. intros k t Ht. rewrite (E4 k t Ht).
        destruct (Nat.eq_dec k (Z.to_nat p)) as [->|Hne].
        -- rewrite nth_error_upd_same by lia. assert (t = s) by congruence. subst t. rewrite Z2Nat.id by lia. simpl. split; auto.
        -- rewrite nth_error_upd_other by auto. simpl. intuition lia.
    + destruct (IH done n Hl Hn) as [d' [n' [E1 [E2 [E3 E4]]]]]; [intros; apply Hr; right; auto|].
      exists d', n'. split; [exact E1|]. split; auto. split; auto. intros k t Ht. rewrite (E4 k t Ht). simpl.
      assert (p = Z.of_nat k -> sx_from t <> v).
      { intros ->. rewrite Nat2Z.id in Es. assert (t = s) by congruence. congruence. }
      intuition.
Qed.

(** Positions of enclosed vertices. *)
Definition good (q : Z) : Prop := exists p v, q = Z.of_nat p /\ nth_error (verts m) p = Some v /\ enclosed m l (ve_index v).

Lemma other_good v e : In v (verts m) -> enclosed m l (ve_index v) -> In e (ve_edgeind v) -> rng e = [] ->
  exists ed x, at_ (edges m) (find ed_index (edges m) e) = Ok ed /\ other_end (ve_index v) (ed_vertind ed) = Ok x /\
    good (find ve_index (verts m) x).
Proof.
  intros Hv Henc He Hr. destruct wc as [[U1 [U2 [U3 [U4 _]]]] [[M1 [M2 _]] [X1 [X2 _]]]].
  assert (VEe : VE m (ve_index v) e) by (exists v; auto).
  assert (EVe : EV m e (ve_index v)) by (apply M1; auto; intros ->; apply (X1 _ VEe)).
  destruct EVe as [ed [Hed [Ei Hin]]].
  destruct (@find_at _ ed_index (edges m) e) as [ed' [Ha [Hi Ei']]]; [eauto|].
  assert (ed' = ed) by (eapply (@NoDup_idx_inj _ ed_index); eauto; congruence). subst ed'.
  exists ed. pose proof (two ed Hed) as H2.
  assert (Hno : forall s, In s l -> sx_edge s <> ed_index ed).
  { intros s Hs E. apply In_nth_error in Hs. destruct Hs as [k Hk]. pose proof (rng_self legal _ Hk) as K.
    rewrite E, Ei, Hr in K. destruct K. }
  destruct (ed_vertind ed) as [|x [|y [|? ?]]] eqn:Ev; try discriminate.
  destruct (@other_end_two (ve_index v) x y) as [z [Hz [Hz1 Hz2]]]; [simpl in Hin; intuition|].
  exists z. split; auto. split; auto.
  assert (Hzen : enclosed m l z).
  { destruct (Z.eq_dec z (ve_index v)) as [->|Hne]; auto.
    apply (@enc_edge m N l ed (ve_index v) z); auto. rewrite Ev. simpl in Hin.
    destruct Hz1 as [->| ->]; destruct Hin as [->|[->|[]]]; auto; congruence. }
  assert (EVz : EV m e z) by (exists ed; rewrite Ev; simpl; intuition).
  assert (VEz : VE m z e) by (apply M2; auto; intros ->; apply (X2 _ EVz)).
  destruct VEz as [w [Hw [Ew _]]]. apply In_nth_error in Hw. destruct Hw as [p Hp].
  exists p, w. split; [rewrite <- Ew; apply (find_pos U4 Hp)|]. split; auto. congruence.
Qed.

(** The edges of one vertex. *)
Lemma edges_ok v : In v (verts m) -> enclosed m l (ve_index v) -> forall es st, incl es (ve_edgeind v) ->
  length (b_snax st) = length l -> b_seen st = Z.of_nat (count (b_snax st)) -> Forall good (b_next st) ->
  exists st', for_each es (block_edge rng m l v) st = Ok st' /\
    b_vert st' = b_vert st /\ b_block st' = b_block st /\
    length (b_snax st') = length l /\ b_seen st' = Z.of_nat (count (b_snax st')) /\ Forall good (b_next st') /\
    forall k s, nth_error l k = Some s ->
      (nth_error (b_snax st') k = Some true <->
       nth_error (b_snax st) k = Some true \/ (In (sx_edge s) es /\ sx_from s = ve_index v)).
Proof.
  intros Hv Henc. induction es as [|e es IH]; intros st Hes Hl Hn Hg.
  - exists st. split; [auto|]. do 5 (split; [auto|]). intros k s Hs. simpl. tauto.
  - cbn [for_each]. unfold block_edge at 1. destruct (rng e) as [|p r] eqn:Er.
    + destruct (@other_good v e Hv Henc (Hes e (or_introl eq_refl)) Er) as [ed [x [E1 [E2 E3]]]].
      rewrite E1. cbn [bind]. rewrite E2. cbn [bind].
      destruct (IH (mkBlock (b_vert st) (b_snax st) (b_block st) (b_seen st) (b_next st ++ [find ve_index (verts m) x])))
        as [st' [F1 [F2 [F3 [F4 [F5 [F6 F7]]]]]]]; auto.
      { intros y Hy; apply Hes; right; auto. }
      { simpl. apply Forall_app. split; auto. }
      exists st'. split; [exact F1|]. do 5 (split; [auto|]). intros k s Hs. rewrite (F7 k s Hs). simpl.
      assert (e <> sx_edge s).
      { intros ->. pose proof (rng_self legal _ Hs) as K. rewrite Er in K. destruct K. }
      intuition.
    + assert (Hrp : forall q, In q (p :: r) -> 0 <= q < Z.of_nat (length l)) by (intros q Hq; apply (rr e); rewrite Er; auto).
      destruct (@see_ok (ve_index v) (p :: r) (b_snax st) (b_seen st) Hl Hn Hrp) as [d' [n' [E1 [E2 [E3 E4]]]]].
      rewrite E1. cbn [bind fst snd].
      destruct (IH (mkBlock (b_vert st) d' (b_block st) n' (b_next st))) as [st' [F1 [F2 [F3 [F4 [F5 [F6 F7]]]]]]]; auto.
      { intros y Hy; apply Hes; right; auto. }
      exists st'. split; [exact F1|]. do 5 (split; [auto|]). intros k s Hs. rewrite (F7 k s Hs). cbn [b_snax].
      rewrite (E4 k s Hs), <- Er. simpl.
      assert (In (Z.of_nat k) (rng e) <-> e = sx_edge s).
      { split; [|intros ->; apply (rng_self legal); auto]. intros K. apply (proj2 (legal e)) in K.
        destruct K as [_ [t [Ht Te]]]. rewrite Nat2Z.id in Ht. congruence. }
      intuition.
Qed.

Definition visited (st : block_state) (i : Z) : Prop := exists q v, nth_error (verts m) q = Some v /\ ve_index v = i /\ nth_error (b_vert st) q = Some true.
Record inv (nB : Z) (st : block_state) : Prop := {
  i_lv : length (b_vert st) = length (verts m);
  i_lb : length (b_block st) = length (verts m);
  i_ls : length (b_snax st) = length l;
  i_seen : b_seen st = Z.of_nat (count (b_snax st));
  i_next : Forall good (b_next st);
  i_mark : forall q, nth_error (b_vert st) q = Some true -> exists x, nth_error (b_block st) q = Some x /\ 1 <= x <= nB;
  i_free : forall q, nth_error (b_vert st) q = Some false -> nth_error (b_block st) q = Some 0;
  i_sound : forall q, nth_error (b_vert st) q = Some true -> good (Z.of_nat q);
  i_snax : forall k s, nth_error l k = Some s -> (nth_error (b_snax st) k = Some true <-> visited st (sx_from s))
}.

Lemma vert_ok nB q st : 1 <= nB -> inv nB st -> good q ->
  exists st', block_vert rng m l nB q st = Ok st' /\ inv nB st' /\
    (nth_error (b_vert st) (Z.to_nat q) = Some true -> st' = st) /\
    (nth_error (b_vert st) (Z.to_nat q) = Some false -> count (b_vert st') = S (count (b_vert st))).
Proof.
  intros HnB I [p [v [-> [Hp Henc]]]]. pose proof wc as [[U1 [U2 [U3 [U4 _]]]] [[M1 [M2 _]] [X1 [X2 _]]]].
  assert (Hpl : (p < length (verts m))%nat) by (apply nth_error_Some; congruence).
  unfold block_vert. destruct (@at_in_range _ (b_vert st) (Z.of_nat p)) as [b Eb]; [rewrite (i_lv I); lia|].
  rewrite Eb. cbn [bind]. apply at_Ok in Eb. destruct Eb as [_ Eb]. rewrite Nat2Z.id in Eb |- *.
  destruct b.
  - exists st. split; [auto|]. split; auto. split; [auto|congruence].
  - rewrite (proj2 (at_Ok (verts m) (Z.of_nat p) v)) by (rewrite Nat2Z.id; split; [lia|auto]). cbn [bind].
    destruct (@edges_ok v (nth_error_In _ _ Hp) Henc (ve_edgeind v)
       (mkBlock (b_vert st) (b_snax st) (upd (b_block st) p nB) (b_seen st) (b_next st)))
      as [st1 [E1 [E2 [E3 [E4 [E5 [E6 E7]]]]]]]; try apply I; [intros x Hx; exact Hx|].
    simpl in E2, E3, E7. rewrite E1. cbn [bind].
    eexists. split; [reflexivity|]. split; [|split; [congruence|]].
    + constructor; cbn [b_vert b_snax b_block b_seen b_next].
      * rewrite upd_length, E2. apply (i_lv I).
      * rewrite E3, upd_length. apply (i_lb I).
      * auto.
      * auto.
      * auto.
      * intros q Hq. rewrite E2 in Hq. rewrite E3. destruct (Nat.eq_dec q p) as [->|Hne].
        -- exists nB. split; [apply nth_error_upd_same; rewrite (i_lb I); auto|lia].
        -- rewrite nth_error_upd_other in Hq by auto. destruct (i_mark I _ Hq) as [x [Hx Hr]]. exists x. split; auto.
           rewrite nth_error_upd_other by auto. auto.
      * intros q Hq. rewrite E2 in Hq. rewrite E3. destruct (Nat.eq_dec q p) as [->|Hne].
        -- rewrite nth_error_upd_same in Hq by (rewrite (i_lv I); auto). discriminate.
        -- rewrite nth_error_upd_other in * by auto. apply (i_free I); auto.
      * intros q Hq. rewrite E2 in Hq. destruct (Nat.eq_dec q p) as [->|Hne]; [exists p, v; auto|].
        rewrite nth_error_upd_other in Hq by auto. apply (i_sound I); auto.
      * intros k s Hs. rewrite (E7 k s Hs), (i_snax I k Hs). unfold visited. cbn [b_vert]. rewrite E2. split.
        -- intros [[q [w [Hq [Ew Hv]]]]|[_ Ef]].
           ++ exists q, w. split; auto. split; auto. destruct (Nat.eq_dec q p) as [->|Hne]; [congruence|].
              rewrite nth_error_upd_other by auto. auto.
           ++ exists p, v. split; auto. split; auto. apply nth_error_upd_same. rewrite (i_lv I); auto.
        -- intros [q [w [Hq [Ew Hv]]]]. destruct (Nat.eq_dec q p) as [->|Hne].
           ++ right. assert (w = v) by congruence. subst w. split; auto.
              destruct (onm s (nth_error_In _ _ Hs)) as [u [Hu [Eu He]]].
              assert (u = v) by (eapply (@NoDup_idx_inj _ ve_index); eauto; [eapply nth_error_In; eauto|congruence]). subst u. auto.
           ++ left. exists q, w. rewrite nth_error_upd_other in Hv by auto. auto.
    + intros _. cbn [b_vert]. rewrite E2. unfold count. apply count_upd. auto.
Qed.
Lemma inv_mono nB nB' st : nB <= nB' -> inv nB st -> inv nB' st.
Proof.
  intros H []. constructor; auto. intros q Hq. destruct (i_mark0 q Hq) as [x [Hx Hr]]. exists x. split; auto. lia.
Qed.
Lemma verts_ok nB : 1 <= nB -> forall qs st, inv nB st -> Forall good qs ->
  exists st', for_each qs (block_vert rng m l nB) st = Ok st' /\ inv nB st' /\ (count (b_vert st) <= count (b_vert st'))%nat /\
    (count (b_vert st') = count (b_vert st) -> st' = st) /\
    (forall q, In q qs -> nth_error (b_vert st) (Z.to_nat q) = Some false -> (count (b_vert st) < count (b_vert st'))%nat).
Proof.
  intros HnB. induction qs as [|q qs IH]; intros st I Hg.
  - exists st. split; [auto|]. split; auto. split; auto. split; auto. intros ? [].
  - inversion Hg as [|? ? G1 G2]; subst. destruct (vert_ok HnB I G1) as [st1 [E1 [I1 [K1 K2]]]].
    cbn [for_each]. rewrite E1. cbn [bind]. destruct (IH st1 I1 G2) as [st2 [E2 [I2 [L2 [S2 P2]]]]].
    assert (Hb : nth_error (b_vert st) (Z.to_nat q) = Some true \/ nth_error (b_vert st) (Z.to_nat q) = Some false).
    { destruct G1 as [p [v [-> [Hp _]]]]. rewrite Nat2Z.id.
      destruct (nth_error (b_vert st) p) as [[]|] eqn:E; auto. apply nth_error_None in E. rewrite (i_lv I) in E.
      assert (p < length (verts m))%nat by (apply nth_error_Some; congruence). lia. }
    exists st2. split; [auto|]. split; auto. destruct Hb as [Hb|Hb].
    + rewrite (K1 Hb) in *. split; auto. split; auto. intros q' [<-|Hq'] Hf; [congruence|eauto].
    + specialize (K2 Hb). split; [lia|]. split; [lia|]. intros; lia.
Qed.

Lemma loop_done fuel : forall nB queue st, 0 <= nB -> inv nB st -> Forall good queue -> b_next st = [] -> (queue <> [] -> 1 <= nB) ->
  (2 * (length (verts m) - count (b_vert st)) + (match queue with [] => 0 | _ => 1 end) <= fuel)%nat ->
  exists nB' st', block_loop rng fuel m l nB queue st = Ok (nB', b_block st') /\ inv nB' st' /\ nB <= nB' /\
    forall k s, nth_error l k = Some s -> nth_error (b_snax st') k = Some true.
Proof.
  induction fuel as [|fuel IH]; intros nB queue st H0 I Hq Hnx HnB Hf; cbn [block_loop].
  - assert (Hall : Z.of_nat (length l) <= b_seen st).
    { rewrite (i_seen I). apply inj_le. rewrite <- (i_ls I).
      destruct (Nat.le_gt_cases (length (b_snax st)) (count (b_snax st))) as [|Hlt]; auto. exfalso.
      destruct (@some_false (b_snax st) Hlt) as [k Hk].
      assert (Hkl : (k < length l)%nat) by (rewrite <- (i_ls I); apply nth_error_Some; congruence).
      destruct (nth_error l k) as [s|] eqn:Es; [|apply nth_error_None in Es; lia].
      assert (K : nth_error (b_snax st) k = Some true); [|congruence].
      apply (i_snax I k Es). destruct (onm s (nth_error_In _ _ Es)) as [v [Hv [Ev _]]].
      apply In_nth_error in Hv. destruct Hv as [p Hp]. exists p, v. split; auto. split; auto.
      apply every_true; [|rewrite (i_lv I); apply nth_error_Some; congruence].
      rewrite (i_lv I). lia. }
    rewrite (proj2 (Z.leb_le _ _) Hall). exists nB, st. split; auto. split; auto. split; [lia|].
    intros k s Hs. apply every_true; [rewrite (i_ls I); rewrite (i_seen I) in Hall; lia|].
    rewrite (i_ls I). apply nth_error_Some. congruence.
  - destruct (Z.leb_spec (Z.of_nat (length l)) (b_seen st)) as [Hall|Hall].
    + exists nB, st. split; auto. split; auto. split; [lia|].
      intros k s Hs. apply every_true; [rewrite (i_ls I); rewrite (i_seen I) in Hall; lia|].
      rewrite (i_ls I). apply nth_error_Some. congruence.
    + assert (Hstart : exists nB1 q1, (match queue with
                  | [] => do b <- at_ (b_snax st) (first_false (b_snax st) 0);
                          if b : bool then Throw
                          else do s <- at_ l (first_false (b_snax st) 0); Ok (nB + 1, [find ve_index (verts m) (sx_from s)])
                  | _ => Ok (nB, queue)
                  end) = Ok (nB1, q1) /\ 1 <= nB1 /\ nB <= nB1 /\ Forall good q1 /\
                  (queue = [] -> exists q, In q q1 /\ nth_error (b_vert st) (Z.to_nat q) = Some false)).
      { destruct queue as [|q0 queue].
        - destruct (@first_is_false (b_snax st) 0) as [k [Ek Hk]].
          { apply some_false. rewrite (i_ls I). rewrite (i_seen I) in Hall. lia. }
          rewrite Ek, Z.add_0_l.
          rewrite (proj2 (at_Ok (b_snax st) (Z.of_nat k) false)) by (rewrite Nat2Z.id; split; [lia|auto]). cbn [bind].
          assert (Hkl : (k < length l)%nat) by (rewrite <- (i_ls I); apply nth_error_Some; congruence).
          destruct (nth_error l k) as [s|] eqn:Es; [|apply nth_error_None in Es; lia].
          rewrite (proj2 (at_Ok l (Z.of_nat k) s)) by (rewrite Nat2Z.id; split; [lia|auto]). cbn [bind].
          destruct (onm s (nth_error_In _ _ Es)) as [v [Hv [Ev _]]]. apply In_nth_error in Hv. destruct Hv as [p Hp].
          pose proof wc as [[_ [_ [_ [U4 _]]]] _].
          assert (Ef : find ve_index (verts m) (sx_from s) = Z.of_nat p) by (rewrite <- Ev; apply (find_pos U4 Hp)).
          rewrite Ef. eexists _, _. split; [reflexivity|]. split; [lia|]. split; [lia|]. split.
          + constructor; auto. exists p, v. split; auto. split; auto. rewrite Ev. apply enc_origin. eapply nth_error_In; eauto.
          + intros _. exists (Z.of_nat p). split; [left; auto|]. rewrite Nat2Z.id.
            destruct (nth_error (b_vert st) p) as [[]|] eqn:Eb; auto.
            * assert (K : nth_error (b_snax st) k = Some true); [|congruence].
              apply (i_snax I k Es). exists p, v. auto.
            * apply nth_error_None in Eb. rewrite (i_lv I) in Eb.
              assert (p < length (verts m))%nat by (apply nth_error_Some; congruence). lia.
        - eexists _, _. split; [reflexivity|]. split; [apply HnB; discriminate|]. split; [lia|]. split; auto. discriminate. }
      destruct Hstart as [nB1 [q1 [Es [Hn1 [Hn2 [Hg1 Hp1]]]]]]. rewrite Es. cbn [bind]. clear Es.
      destruct (verts_ok Hn1 (inv_mono Hn2 I) Hg1) as [st1 [E1 [I1 [L1 [S1 P1]]]]]. rewrite E1. cbn [bind].
      destruct (IH nB1 (b_next st1) (mkBlock (b_vert st1) (b_snax st1) (b_block st1) (b_seen st1) [])) as [nB' [st' [F1 [F2 [F3 F4]]]]].
      * lia.
      * destruct I1. constructor; auto. constructor.
      * apply (i_next I1).
      * auto.
      * auto.
      * cbn [b_vert].
        assert (Hc : (count (b_vert st1) <= length (verts m))%nat) by (rewrite <- (i_lv I1); apply filter_le).
        destruct (Nat.eq_dec (count (b_vert st1)) (count (b_vert st))) as [Ec|Ec].
        -- assert (st1 = st) by auto. subst st1. rewrite Hnx. destruct queue as [|q0 queue]; [|lia].
           destruct (Hp1 eq_refl) as [q [Hqq Hff]]. specialize (P1 q Hqq Hff). lia.
        -- destruct (b_next st1), queue; lia.
      * exists nB', st'. split; [exact F1|]. split; auto. split; [lia|auto].
Qed.

Lemma find_block_ok fuel : (2 * length (verts m) <= fuel)%nat ->
  exists n block, find_block rng fuel m l = Ok (n, block) /\ length block = length (verts m) /\
    (forall q x, nth_error block q = Some x -> 0 <= x <= n) /\
    (forall q v x, nth_error (verts m) q = Some v -> nth_error block q = Some x -> 0 < x -> enclosed m l (ve_index v)) /\
    (forall s, In s l -> exists q v x, nth_error (verts m) q = Some v /\ ve_index v = sx_from s /\ nth_error block q = Some x /\ 0 < x).
Proof.
  intros Hf. unfold find_block.
  set (st0 := mkBlock (repeat false (length (verts m))) (repeat false (length l)) (repeat 0 (length (verts m))) 0 []).
  assert (Hrep : forall n, count (repeat false n) = 0%nat) by (induction n; auto).
  assert (Hnone : forall n k, nth_error (repeat false n) k = Some true -> False).
  { intros n k H. apply nth_error_In, repeat_spec in H. discriminate. }
  assert (I0 : inv 0 st0).
  { constructor; cbn [st0 b_vert b_snax b_block b_seen b_next].
    - apply repeat_length.
    - apply repeat_length.
    - apply repeat_length.
    - rewrite Hrep. auto.
    - constructor.
    - intros q H. destruct (Hnone _ _ H).
    - intros q H. apply nth_error_repeat.
      assert (q < length (repeat false (length (verts m))))%nat by (apply nth_error_Some; congruence). rewrite repeat_length in *. auto.
    - intros q H. destruct (Hnone _ _ H).
    - intros k s Hs. split; [intros H; destruct (Hnone _ _ H)|]. intros [q [v [_ [_ H]]]]. destruct (Hnone _ _ H). }
  destruct (@loop_done fuel 0 [] st0) as [n [st [E [I [Hn Hall]]]]].
  { lia. }
  { exact I0. }
  { constructor. }
  { reflexivity. }
  { congruence. }
  { lia. }
  exists n, (b_block st). split; [exact E|]. split; [apply (i_lb I)|]. 
  assert (Hb : forall q x, nth_error (b_block st) q = Some x ->
    (nth_error (b_vert st) q = Some true /\ 1 <= x <= n) \/ (nth_error (b_vert st) q = Some false /\ x = 0)).
  { intros q x Hx. destruct (nth_error (b_vert st) q) as [[]|] eqn:Eb.
    - destruct (i_mark I _ Eb) as [y [Hy Hr]]. left. split; auto. congruence.
    - pose proof (i_free I _ Eb). right. split; auto. congruence.
    - apply nth_error_None in Eb. rewrite (i_lv I), <- (i_lb I) in Eb. assert (q < length (b_block st))%nat by (apply nth_error_Some; congruence). lia. }
  split; [|split].
  - intros q x Hx. destruct (Hb q x Hx) as [[_ H]|[_ ->]]; [lia|].
    lia.
  - intros q v x Hv Hx Hpos. destruct (Hb q x Hx) as [[H _]|[_ ->]]; [|lia].
    destruct (i_sound I _ H) as [p [w [Ep [Hp Hw]]]]. assert (p = q) by lia. subst p. congruence.
  - intros s Hs. apply In_nth_error in Hs. destruct Hs as [k Hk]. pose proof (Hall k s Hk) as K.
    apply (i_snax I k Hk) in K. destruct K as [q [v [Hv [Ev Hb1]]]]. destruct (i_mark I _ Hb1) as [x [Hx Hr]].
    exists q, v, x. split; [auto|]. split; auto. split; auto. lia.
Qed.
End Block.
