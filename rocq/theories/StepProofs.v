(** Lemmas on the limits of steps. *)
From Verif Require Import Base Containers Mesh Flood Edit Num Snake StepLimit SpecMesh SpecGroup SpecStep
  ContainersProofs MeshProofs FloodProofs CropProofs EditProofs.
Import Mesh.
Set Implicit Arguments.
Open Scope Z_scope.

Lemma for_each_pre A S (body : A -> S -> outcome S) (P : list A -> S -> Prop) l :
  (forall d a r s, l = d ++ a :: r -> P d s -> exists s', body a s = Ok s' /\ P (d ++ [a]) s') ->
  forall s, P [] s -> exists s', for_each l body s = Ok s' /\ P l s'.
Proof.
  intros H. assert (G : forall r d s, l = d ++ r -> P d s -> exists s', for_each r body s = Ok s' /\ P l s').
  { induction r as [|a r IH]; intros d s E Hd.
    - exists s. rewrite app_nil_r in E. subst d. auto.
    - destruct (H d a r s E Hd) as [s1 [R1 P1]]. simpl. rewrite R1. cbn [bind].
      apply (IH (d ++ [a])); auto. rewrite <- app_assoc. exact E. }
  intros s Hs. exact (G l [] s eq_refl Hs).
Qed.

Section L.
Variable m : mesh.
Variable len : list Q.
Hypothesis Wc : well_connected m.
Hypothesis Len : length len = length (edges m).

Lemma edge_at e : has_edge m e -> exists q a x, find ed_index (edges m) e = Z.of_nat q /\ nth_error (edges m) q = Some a /\ ed_index a = e /\
  nth_error len q = Some x /\ at_ len (find ed_index (edges m) e) = Ok x.
Proof using All.
  intros H. destruct (@find_at _ ed_index (edges m) e H) as [a [Hat [Ha Ea]]].
  apply at_Ok in Hat. destruct Hat as [H0 Hn].
  set (q := Z.to_nat (find ed_index (edges m) e)) in *.
  assert (Eq : find ed_index (edges m) e = Z.of_nat q) by (unfold q; lia).
  assert (Lq : (q < length len)%nat) by (rewrite Len; apply nth_error_Some; congruence).
  destruct (nth_error len q) as [x|] eqn:Ex; [|apply nth_error_None in Ex; lia].
  exists q, a, x. do 4 (split; auto). rewrite Eq. unfold at_. destruct (Z.ltb_spec (Z.of_nat q) 0); [lia|]. rewrite Nat2Z.id, Ex. reflexivity.
Qed.
Lemma edge_length_fun e x y : edge_length m len e x -> edge_length m len e y -> x = y.
Proof using All.
  intros [q [a [Hq [Ea Hx]]]] [q' [a' [Hq' [Ea' Hy]]]].
  assert (q = q').
  { destruct Wc as [[_ [_ [U _]]] _]. apply (proj1 (NoDup_nth_error (map ed_index (edges m)))); auto.
    - rewrite map_length. apply nth_error_Some. congruence.
    - rewrite !nth_error_map, Hq, Hq'. simpl. congruence. }
  subst q'. congruence.
Qed.
Lemma edge_len_ok e : has_edge m e -> exists x, edge_len m len e = Ok x /\ edge_length m len e x.
Proof using All.
  intros H. destruct (edge_at H) as [q [a [x [E1 [E2 [E3 [E4 E5]]]]]]]. exists x. split; auto. exists q, a. auto.
Qed.

(** What has been seen: the edges of [P] and the shortest of them. *)
Definition seen (P : Z -> Prop) (st : list Z * option Q) : Prop :=
  NoDup (fst st) /\ (forall e, In e (fst st) <-> P e) /\
  match snd st with
  | None => fst st = []
  | Some x => (exists e, P e /\ edge_length m len e x) /\ forall e y, P e -> edge_length m len e y -> (x <= y)%Q
  end.
Lemma seen_ext P Q st : (forall e, P e <-> Q e) -> seen P st -> seen Q st.
Proof.
  intros E [H1 [H2 H3]]. split; auto. split; [intro e; rewrite H2; auto|]. destruct (snd st) as [x|]; auto.
  destruct H3 as [[e [He Hl]] H4]. split; [exists e; split; auto; apply E; auto|]. intros e' y Hy. apply H4. apply E; auto.
Qed.
Lemma see_edge_ok P e st : has_edge m e -> seen P st -> exists st', see_edge m len e st = Ok st' /\ seen (fun x => P x \/ x = e) st'.
Proof using All.
  intros He [H1 [H2 H3]]. unfold see_edge. destruct (mem_z e (fst st)) eqn:Em.
  - exists st. split; auto. apply mem_z_In in Em. apply H2 in Em. apply (@seen_ext P); [|split; auto].
    intro x. split; [auto|]. intros [K| ->]; auto.
  - apply mem_z_not_In in Em. destruct (edge_len_ok He) as [x [-> Hx]]. cbn [bind].
    eexists. split; [reflexivity|]. split; [|split]; simpl.
    + apply NoDup_app_intro_ || idtac. rewrite <- (rev_involutive (fst st ++ [e])). apply NoDup_rev. rewrite rev_app_distr. simpl.
      constructor; [rewrite <- in_rev; auto|apply NoDup_rev; auto].
    + intro y. rewrite in_app_iff, H2. simpl. intuition.
    + destruct (snd st) as [x0|].
      * destruct H3 as [[e0 [He0 Hl0]] H4]. unfold qlt. destruct (Qle_bool x0 x) eqn:Eq; simpl.
        -- apply Qle_bool_iff in Eq. split; [exists e0; auto|]. intros e' y [K| ->] Hy; [eapply H4; eauto|].
           rewrite (edge_length_fun Hy Hx). exact Eq.
        -- assert (Lt : (x < x0)%Q) by (apply Qnot_le_lt; intro K; apply Qle_bool_iff in K; congruence).
           split; [exists e; auto|]. intros e' y [K| ->] Hy; [pose proof (H4 _ _ K Hy); lra|].
           rewrite (edge_length_fun Hy Hx). lra.
      * split; [exists e; auto|]. intros e' y [K| ->] Hy.
        -- apply H2 in K. rewrite H3 in K. destruct K.
        -- rewrite (edge_length_fun Hy Hx). lra.
Qed.
(** A loop whose body adds the edges of [R a]. *)
Lemma see_loop A (R : A -> Z -> Prop) (body : A -> list Z * option Q -> outcome (list Z * option Q)) l :
  (forall a P st, In a l -> seen P st -> exists st', body a st = Ok st' /\ seen (fun x => P x \/ R a x) st') ->
  forall P st, seen P st -> exists st', for_each l body st = Ok st' /\ seen (fun x => P x \/ exists a, In a l /\ R a x) st'.
Proof.
  intros H P st Hs.
  destruct (@for_each_pre _ _ body (fun d => seen (fun x => P x \/ exists a, In a d /\ R a x)) l) with (s := st) as [st' [E S]].
  - intros d a r s E Hd. assert (Ia : In a l) by (rewrite E; apply in_or_app; simpl; auto).
    destruct (H a _ s Ia Hd) as [s' [E' S']].
    exists s'. split; auto. revert S'. apply seen_ext. intro x. split.
    + intros [[K|[b [Hb K]]]|K]; auto; right; [exists b|exists a]; (split; auto; apply in_or_app; simpl; auto).
    + intros [K|[b [Hb K]]]; auto. apply in_app_or in Hb. destruct Hb as [Hb|[<-|[]]]; eauto.
  - revert Hs. apply seen_ext. intro x. split; [auto|]. intros [K|[a [[] _]]]; auto.
  - exists st'. auto.
Qed.

Definition of_cells (ps : list Z) (e : Z) : Prop :=
  exists p v s, In p ps /\ nth_error (volus m) (Z.to_nat p) = Some v /\ In s (vo_surfind v) /\ SE m s e.
Lemma see_cells_ok ps : (forall p, In p ps -> 0 <= p < Z.of_nat (length (volus m))) ->
  exists st, see_cells m len ps = Ok st /\ seen (of_cells ps) st.
Proof using All.
  intros Hps. unfold see_cells.
  destruct (@see_loop Z (fun p e => exists v s, nth_error (volus m) (Z.to_nat p) = Some v /\ In s (vo_surfind v) /\ SE m s e)
    (fun p st => do v <- at_ (volus m) p ; for_each (vo_surfind v) (fun s st =>
      do sf <- isearch su_index (surfs m) s ; for_each (su_edgeind sf) (see_edge m len) st) st) ps) with (P := fun _ : Z => False) (st := (@nil Z, @None Q)) as [st [E S]].
  - intros p P st Hp Hs. specialize (Hps p Hp).
    destruct (nth_error (volus m) (Z.to_nat p)) as [v|] eqn:Ev; [|apply nth_error_None in Ev; lia].
    assert (Ea : at_ (volus m) p = Ok v) by (unfold at_; destruct (Z.ltb_spec p 0); [lia|]; rewrite Ev; reflexivity).
    rewrite Ea. cbn [bind].
    destruct (@see_loop Z (fun s e => SE m s e)
      (fun s st => do sf <- isearch su_index (surfs m) s ; for_each (su_edgeind sf) (see_edge m len) st) (vo_surfind v)) with (P := P) (st := st) as [st' [E' S']]; auto.
    + intros s P' st' Hin Hs'.
      assert (Vs : VS m (vo_index v) s) by (exists v; split; [eapply nth_error_In; eauto|auto]).
      assert (Nz : s <> 0) by (intros ->; destruct Wc as [_ [_ [_ [_ [_ [X _]]]]]]; exact (X _ Vs)).
      assert (Sv : SV m s (vo_index v)) by (apply Wc; auto).
      assert (Hsf : has_surf m s) by (destruct Sv as [sf [H1 [H2 _]]]; exists sf; auto).
      destruct (@find_at _ su_index (surfs m) s Hsf) as [sf [Hat [Hin2 Ei]]].
      unfold isearch. rewrite Hat. cbn [bind].
      destruct (@see_loop Z (fun a x => x = a) (see_edge m len) (su_edgeind sf)) with (P := P') (st := st') as [st2 [E2 S2]]; auto.
      * intros e P2 st2 He Hs2. apply see_edge_ok; auto.
        assert (Se : SE m s e) by (exists sf; auto).
        assert (Ne : e <> 0) by (intros ->; destruct Wc as [_ [_ [_ [_ [X _]]]]]; exact (X _ Se)).
        assert (Es : ES m e s) by (apply Wc; auto). destruct Es as [a [H1 [H2 _]]]. exists a; auto.
      * exists st2. split; auto. revert S2. apply seen_ext. intro x. split; (intros [K|K]; [auto|right]).
        -- destruct K as [a [Ha ->]]. exists sf. auto.
        -- destruct K as [sf' [H1 [H2 H3]]]. exists x. split; auto.
           rewrite (@NoDup_idx_inj _ su_index (surfs m) sf sf'); auto; [apply Wc|congruence].
    + exists st'. split; auto. revert S'. apply seen_ext. intro x. split; (intros [K|K]; [auto|right]).
      * destruct K as [s [H1 H2]]. exists v, s. auto.
      * destruct K as [v' [s [H1 [H2 H3]]]]. injection H1 as <-. exists s. auto.
  - split; [constructor|]. split; [intro; simpl; tauto|reflexivity].
  - exists st. split; auto. revert S. apply seen_ext. intro x. unfold of_cells. split.
    + intros [[]|[p [Hp [v [s H]]]]]. exists p, v, s. tauto.
    + intros [p [v [s [Hp H]]]]. right. exists p. split; auto. exists v, s. auto.
Qed.

(** Adding the limit of one cell. *)
Lemma add_limits_ok x es : NoDup es -> (forall e, In e es -> has_edge m e) ->
  forall st, length (fst st) = length (edges m) -> length (snd st) = length (edges m) ->
  exists st', for_each es (add_limit m len x) st = Ok st' /\ length (fst st') = length (edges m) /\ length (snd st') = length (edges m) /\
    forall q a n y l, nth_error (edges m) q = Some a -> nth_error len q = Some l -> nth_error (fst st) q = Some n -> nth_error (snd st) q = Some y ->
      (In (ed_index a) es -> nth_error (fst st') q = Some (n + 1) /\ nth_error (snd st') q = Some (y + x / l)%Q) /\
      (~ In (ed_index a) es -> nth_error (fst st') q = Some n /\ nth_error (snd st') q = Some y).
Proof using All.
  intros Nd He st L1 L2.
  destruct (@for_each_pre _ _ (add_limit m len x) (fun d st' => length (fst st') = length (edges m) /\ length (snd st') = length (edges m) /\
    forall q a n y l, nth_error (edges m) q = Some a -> nth_error len q = Some l -> nth_error (fst st) q = Some n -> nth_error (snd st) q = Some y ->
      (In (ed_index a) d -> nth_error (fst st') q = Some (n + 1) /\ nth_error (snd st') q = Some (y + x / l)%Q) /\
      (~ In (ed_index a) d -> nth_error (fst st') q = Some n /\ nth_error (snd st') q = Some y)) es) with (s := st) as [st' [E S]].
  - intros d e r [acc lim] Ees [La [Ll Hd]]. simpl in La, Ll, Hd.
    assert (Hne : ~ In e d). { rewrite Ees in Nd. apply NoDup_remove_2 in Nd. intro K. apply Nd. apply in_or_app; auto. }
    destruct (edge_at (He e ltac:(rewrite Ees; apply in_or_app; simpl; auto))) as [p [b [l [Ep [Eb [Ei [El Eat]]]]]]].
    unfold add_limit. cbn [fst snd]. rewrite Eat.
    assert (Lp : (p < length (edges m))%nat) by (apply nth_error_Some; congruence).
    destruct (nth_error acc p) as [n0|] eqn:En; [|apply nth_error_None in En; lia].
    destruct (nth_error lim p) as [y0|] eqn:Ey; [|apply nth_error_None in Ey; lia].
    unfold modify, at_. rewrite Ep. destruct (Z.ltb_spec (Z.of_nat p) 0); [lia|]. rewrite !Nat2Z.id, En, Ey. cbn [bind].
    eexists. split; [reflexivity|]. simpl. rewrite !upd_length. do 2 (split; auto).
    intros q a n y l' Ha Hl Hn Hy. destruct (Nat.eq_dec p q) as [<-|Npq].
    + assert (b = a) by congruence. subst b. assert (l' = l) by congruence. subst l'.
      destruct (Hd p a n y l Ha El Hn Hy) as [_ D2]. rewrite Ei in D2. destruct (D2 Hne) as [D3 D4].
      rewrite En in D3. rewrite Ey in D4. injection D3 as ->. injection D4 as ->.
      rewrite !nth_error_upd_same by lia. split; auto. intros K. exfalso. apply K. rewrite Ei. apply in_or_app; simpl; auto.
    + rewrite !nth_error_upd_other by auto. destruct (Hd q a n y l' Ha Hl Hn Hy) as [D1 D2].
      assert (Ne : ed_index a <> e).
      { intro K. apply Npq. destruct Wc as [[_ [_ [U _]]] _]. apply (proj1 (NoDup_nth_error (map ed_index (edges m)))); auto.
        - rewrite map_length. auto.
        - rewrite !nth_error_map, Eb, Ha. simpl. congruence. }
      split; intros K.
      * apply D1. apply in_app_or in K. destruct K as [K|[K|[]]]; auto. congruence.
      * apply D2. intro K'. apply K. apply in_or_app; auto.
  - simpl. do 2 (split; auto). intros q a n y l Ha Hl Hn Hy. split; [intros []|auto].
  - exists st'. auto.
Qed.

Variable findall : list Z -> Z -> list Z.
Hypothesis Pos : forall x, In x len -> (0 < x)%Q.
Variable parents : list (list Z * list Z).
Hypothesis Legal : forall conn, findall_of conn (findall conn).
Hypothesis Par : forall cells conn, In (cells, conn) parents -> NoDup cells /\ length conn = length (volus m).

Lemma qsum_app a b : qsum (a ++ b) == qsum a + qsum b.
Proof. unfold qsum. induction a as [|x a IH]; simpl; [lra|]. rewrite IH. lra. Qed.

(** The state when the cells [D] have been handled. *)
Definition handled (D : list (nat * Z)) (st : list Z * list Q) : Prop :=
  length (fst st) = length (edges m) /\ length (snd st) = length (edges m) /\
  forall q a l, nth_error (edges m) q = Some a -> nth_error len q = Some l ->
    exists ks xs y, NoDup ks /\ (forall k, In k ks <-> In k D /\ shares m parents (ed_index a) k) /\
      Forall2 (shortest m len parents) ks xs /\
      nth_error (fst st) q = Some (Z.of_nat (length ks)) /\ nth_error (snd st) q = Some y /\ y == qsum xs / l.

Lemma forall2_app_ A B (R : A -> B -> Prop) l1 l2 m1 m2 : Forall2 R l1 m1 -> Forall2 R l2 m2 -> Forall2 R (l1 ++ l2) (m1 ++ m2).
Proof. apply Forall2_app. Qed.

Lemma parent_cell_ok i c cells conn D st : nth_error parents i = Some (cells, conn) -> In c cells -> ~ In (i, c) D -> handled D st ->
  exists st', parent_cell findall m len conn c st = Ok st' /\ handled (D ++ [(i, c)]) st'.
Proof using All.
  intros Hi Hc Nd [L1 [L2 Hh]]. unfold parent_cell.
  destruct (Par cells conn (nth_error_In _ _ Hi)) as [Ncell Lconn].
  destruct (Legal conn c) as [Nf Hf].
  destruct (@see_cells_ok (findall conn c)) as [[es mn] [E [S1 [S2 S3]]]].
  { intros p Hp. apply Hf in Hp. destruct Hp as [H0 H1]. assert (Z.to_nat p < length conn)%nat by (apply nth_error_Some; congruence). lia. }
  rewrite E. cbn [bind fst snd] in *.
  assert (Sh : forall e, In e es <-> shares m parents e (i, c)).
  { intro e. rewrite S2. unfold of_cells, shares. simpl. split.
    - intros [p [v [s [Hp H]]]]. apply Hf in Hp. exists cells, conn, (Z.to_nat p), v, s. tauto.
    - intros [cells' [conn' [p [v [s [H1 [H2 [H3 [H4 [H5 H6]]]]]]]]]]. rewrite Hi in H1. injection H1 as <- <-.
      exists (Z.of_nat p), v, s. rewrite Nat2Z.id. split; auto. apply Hf. rewrite Nat2Z.id. split; [lia|auto]. }
  assert (He : forall e, In e es -> has_edge m e).
  { intros e H. apply Sh in H. destruct H as [? [? [? [? [s [_ [_ [_ [_ [_ Se]]]]]]]]]].
    assert (Ne : e <> 0) by (intros ->; destruct Wc as [_ [_ [_ [_ [X _]]]]]; exact (X _ Se)).
    assert (Es : ES m e s) by (apply Wc; auto). destruct Es as [a [H1 [H2 _]]]. exists a; auto. }
  destruct mn as [x|].
  - assert (Hx : shortest m len parents (i, c) x).
    { destruct S3 as [[e [P1 P2]] P3]. split.
      - exists e. split; auto. apply Sh, S2. auto.
      - intros e' y K Hy. apply (P3 e'); auto. apply S2, Sh. auto. }
    destruct (add_limits_ok x S1 He st L1 L2) as [st' [R [L1' [L2' F]]]]. exists st'. split; auto. split; auto. split; auto.
    intros q a l Ha Hl. destruct (Hh q a l Ha Hl) as [ks [xs [y [Nk [Ik [Fk [Ka [Ky Ey]]]]]]]].
    destruct (F q a _ _ l Ha Hl Ka Ky) as [F1 F2].
    assert (Pl : (0 < l)%Q) by (apply Pos; eapply nth_error_In; eauto).
    destruct (in_dec Z.eq_dec (ed_index a) es) as [I|I].
    + destruct (F1 I) as [G1 G2]. exists (ks ++ [(i, c)]), (xs ++ [x]), (y + x / l)%Q.
      split; [|split; [|split; [|split; [|split]]]].
      * rewrite <- (rev_involutive (ks ++ [(i, c)])). apply NoDup_rev. rewrite rev_app_distr. simpl.
        constructor; [rewrite <- in_rev; intro K; apply Ik in K; tauto|apply NoDup_rev; auto].
      * intro k. rewrite !in_app_iff, Ik. simpl. split.
        -- intros [[K1 K2]|[<-|[]]]; [tauto|]. split; auto. apply Sh. auto.
        -- intros [[K1|[<-|[]]] K2]; auto.
      * apply Forall2_app; auto.
      * rewrite app_length, G1. simpl. f_equal. lia.
      * exact G2.
      * rewrite Ey, qsum_app. unfold qsum at 3. simpl. field. intro K. rewrite K in Pl. lra.
    + destruct (F2 I) as [G1 G2]. exists ks, xs, y. split; auto. split; [|auto].
      intro k. rewrite Ik, in_app_iff. simpl. split; [tauto|]. intros [[K|[<-|[]]] K2]; auto. exfalso. apply I. apply Sh. auto.
  - exists st. split; auto. split; auto. split; auto. simpl in S3. subst es.
    intros q a l Ha Hl. destruct (Hh q a l Ha Hl) as [ks [xs [y [Nk [Ik R]]]]]. exists ks, xs, y. split; auto. split; [|auto].
    intro k. rewrite Ik, in_app_iff. simpl. split; [tauto|]. intros [[K|[<-|[]]] K2]; auto. apply Sh in K2. destruct K2.
Qed.

Fixpoint keys (i : nat) (ps : list (list Z * list Z)) : list (nat * Z) :=
  match ps with [] => [] | p :: r => map (pair i) (fst p) ++ keys (S i) r end.
Lemma keys_In ps : forall i k, In k (keys i ps) <-> exists j cells conn, nth_error ps j = Some (cells, conn) /\ fst k = (i + j)%nat /\ In (snd k) cells.
Proof.
  induction ps as [|[cs cn] r IH]; intros i k; simpl.
  - split; [intros []|]. intros [[|j] [? [? [K _]]]]; discriminate.
  - rewrite in_app_iff, in_map_iff, IH. split.
    + intros [[c [<- Hc]]|[j [cells [conn [H1 [H2 H3]]]]]].
      * exists 0%nat, cs, cn. simpl. split; auto.
      * exists (S j), cells, conn. simpl. split; auto. split; auto. lia.
    + intros [[|j] [cells [conn [H1 [H2 H3]]]]]; simpl in H1.
      * injection H1 as -> ->. left. exists (snd k). split; auto. destruct k; simpl in *. f_equal. lia.
      * right. exists j, cells, conn. split; auto. split; auto. lia.
Qed.

Lemma set_limits_run : forall ps i D st, (forall j p, nth_error ps j = Some p -> nth_error parents (i + j) = Some p) ->
  (forall k, In k D -> (fst k < i)%nat) -> handled D st ->
  exists st', for_each ps (fun p st => for_each (fst p) (parent_cell findall m len (snd p)) st) st = Ok st' /\ handled (D ++ keys i ps) st'.
Proof using All.
  induction ps as [|[cells conn] r IH]; intros i D st Hp HD Hh.
  - exists st. simpl. rewrite app_nil_r. auto.
  - cbn [for_each fst snd keys].
    assert (Hi : nth_error parents i = Some (cells, conn)) by (specialize (Hp 0%nat _ eq_refl); rewrite Nat.add_0_r in Hp; exact Hp).
    destruct (Par cells conn (nth_error_In _ _ Hi)) as [Ncell _].
    destruct (@for_each_pre _ _ (parent_cell findall m len conn) (fun d => handled (D ++ map (pair i) d)) cells) with (s := st) as [st1 [R1 H1]].
    + intros d c r' s Ec Hd. destruct (@parent_cell_ok i c cells conn (D ++ map (pair i) d) s) as [s' [Rs Hs']]; auto.
      * rewrite Ec. apply in_or_app; simpl; auto.
      * intro K. apply in_app_or in K. destruct K as [K|K].
        -- apply HD in K. simpl in K. lia.
        -- apply in_map_iff in K. destruct K as [c' [K1 K2]]. injection K1 as ->. rewrite Ec in Ncell. apply NoDup_remove_2 in Ncell. apply Ncell. apply in_or_app; auto.
      * exists s'. split; auto. rewrite map_app, app_assoc. exact Hs'.
    + simpl. rewrite app_nil_r. exact Hh.
    + rewrite R1. cbn [bind]. destruct (IH (S i) (D ++ map (pair i) cells) st1) as [st2 [R2 H2]]; auto.
      * intros j p Hj. specialize (Hp (S j) p Hj). rewrite <- plus_n_Sm in Hp. exact Hp.
      * intros k K. apply in_app_or in K. destruct K as [K|K]; [apply HD in K; lia|].
        apply in_map_iff in K. destruct K as [c' [<- _]]. simpl. lia.
      * exists st2. split; auto. rewrite app_assoc. exact H2.
Qed.

Lemma qsum_le xs b : (forall x, In x xs -> (0 < x <= b)%Q) -> xs <> [] -> (0 < qsum xs <= b * count xs)%Q.
Proof.
  intros H N. assert (G : forall xs, (forall x, In x xs -> (0 < x <= b)%Q) -> (0 <= qsum xs <= b * count xs)%Q).
  { clear. induction xs as [|x xs IH]; intros H; unfold count; simpl length.
    - unfold qsum. simpl. change (inject_Z 0) with 0%Q. lra.
    - rewrite Nat2Z.inj_succ. unfold Z.succ. rewrite inject_Z_plus. fold (count xs). change (inject_Z 1) with 1%Q.
      unfold qsum. simpl. fold (qsum xs). pose proof (IH (fun y Hy => H y (or_intror Hy))). pose proof (H x (or_introl eq_refl)). lra. }
  split; [|apply G; auto]. destruct xs as [|x xs]; [congruence|]. unfold qsum. simpl. fold (qsum xs).
  pose proof (G xs (fun y Hy => H y (or_intror Hy))). pose proof (H x (or_introl eq_refl)). lra.
Qed.

Lemma set_limits_ok : exists lims, set_limits findall m len parents = Ok lims /\ length lims = length (edges m) /\
  forall q a l x, nth_error (edges m) q = Some a -> nth_error len q = Some l -> nth_error lims q = Some x ->
    (0 < x <= 1)%Q /\
    exists ks xs, NoDup ks /\ (forall k, In k ks <-> shares m parents (ed_index a) k) /\
      Forall2 (shortest m len parents) ks xs /\ (ks = [] -> x == 1) /\ (ks <> [] -> x * l == qsum xs / count ks).
Proof using All.
  unfold set_limits.
  destruct (@set_limits_run parents 0 [] (repeat 0 (length (edges m)), repeat 0%Q (length (edges m)))) as [[acc lim] [R [L1 [L2 H]]]].
  - auto.
  - intros k [].
  - unfold handled. simpl. rewrite !repeat_length. do 2 (split; auto). intros q a l Ha Hl.
    assert (Lq : (q < length (edges m))%nat) by (apply nth_error_Some; congruence).
    exists [], [], 0%Q. split; [constructor|]. split; [intro k; simpl; tauto|]. split; [constructor|].
    split; [|split].
    + simpl. apply nth_error_repeat. auto.
    + apply nth_error_repeat. auto.
    + unfold qsum, Qdiv. simpl. lra.
  - rewrite R. cbn [bind]. simpl in L1, L2, H. eexists. split; [reflexivity|].
    split; [rewrite map_length, combine_length; simpl; lia|].
    intros q a l x Ha Hl Hx. destruct (H q a l Ha Hl) as [ks [xs [y [Nk [Ik [Fk [Ka [Ky Ey]]]]]]]].
    assert (Sk : forall k, In k ks <-> shares m parents (ed_index a) k).
    { intro k. rewrite Ik. split; [tauto|]. intro K. split; auto. apply keys_In.
      destruct K as [cells [conn [p [v [s [K1 [K2 _]]]]]]]. exists (fst k), cells, conn. auto. }
    simpl fst in Hx. simpl snd in Hx. rewrite nth_error_map in Hx.
    rewrite (combine_nth_error _ _ _ Ka Ky) in Hx || idtac.
    assert (Hx' : x = average (Z.of_nat (length ks)) y).
    { destruct (nth_error (combine acc lim) q) as [[u w]|] eqn:Ec; [|discriminate]. simpl in Hx. injection Hx as <-.
      assert (Eu : nth_error acc q = Some u /\ nth_error lim q = Some w).
      { clear - Ec. revert lim q Ec. induction acc as [|b acc IH]; intros [|d lim] [|q]; simpl; try discriminate; auto. intro K; injection K as -> ->; auto. }
      destruct Eu as [Eu Ew]. congruence. }
    clear Hx. assert (Pl : (0 < l)%Q) by (apply Pos; eapply nth_error_In; eauto).
    assert (Xs : forall z, In z xs -> (0 < z <= l)%Q).
    { intros z Hz. assert (Ez : exists k, In k ks /\ shortest m len parents k z).
      { clear - Fk Hz. induction Fk as [|k w ks xs H Fk IH]; [destruct Hz|]. destruct Hz as [->|Hz]; [exists k; simpl; auto|].
        destruct (IH Hz) as [k' [K1 K2]]. exists k'. simpl. auto. }
      destruct Ez as [k [Hk [[e [He Hl']] Hm]]]. split.
      - destruct Hl' as [q' [a' [_ [_ K]]]]. apply Pos. eapply nth_error_In; eauto.
      - apply (Hm (ed_index a)); [apply Sk; auto|]. exists q, a. auto. }
    assert (Lk : length xs = length ks) by (clear - Fk; induction Fk; simpl; auto).
    assert (Cn : count xs = count ks) by (unfold count; rewrite Lk; reflexivity).
    assert (Big : ks <> [] -> x * l == qsum xs / count ks /\ (0 < x <= 1)%Q).
    { intros Nn. assert (Nx : xs <> []) by (destruct xs, ks; simpl in *; congruence).
      pose proof (@qsum_le xs l Xs Nx) as Q1. rewrite Cn in Q1.
      assert (Pc : (0 < count ks)%Q).
      { unfold count. destruct ks as [|k ks]; [congruence|]. change 0%Q with (inject_Z 0). rewrite <- Zlt_Qlt. simpl length. lia. }
      assert (Ex : x * l == qsum xs / count ks).
      { subst x. unfold average. destruct (Z.ltb_spec 1 (Z.of_nat (length ks))) as [G|G].
        - rewrite Ey. unfold count. field. split; [fold (count ks)|]; lra.
        - assert (Lo : length ks = 1%nat) by (destruct ks as [|? [|? ?]]; simpl in *; [congruence|reflexivity|lia]).
          rewrite Lo. simpl. rewrite Ey. unfold count. rewrite Lo. simpl. field. lra. }
      split; auto. split.
      - apply Qnot_le_lt. intro K. assert (x * l <= 0)%Q by nra. rewrite Ex in H0.
        assert (0 < qsum xs / count ks)%Q by (apply Qlt_shift_div_l; lra). lra.
      - apply Qnot_lt_le. intro K. assert (l < x * l)%Q by nra. rewrite Ex in H0.
        assert (qsum xs / count ks <= l)%Q by (apply Qle_shift_div_r; lra). lra. }
    assert (Nil : ks = [] -> x == 1) by (intros ->; subst x; reflexivity).
    split.
    + destruct ks as [|k ks]; [rewrite (Nil eq_refl); lra|]. apply Big. discriminate.
    + exists ks, xs. split; auto. split; auto. split; auto. split; auto. intro Nn. apply Big. auto.
Qed.
End L.
