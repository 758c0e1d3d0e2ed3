(** Ordering all the surfaces of a mesh. *)
From Verif Require Import Base Containers ContainersProofs Mesh SpecMesh MeshProofs SwitchProofs FloodProofs
  Order SpecOrder OrderProofs OrderMeshProofs SplitSurf SpecSplitSurf SplitSurfProofs SplitSurfStep SplitSurfWhole.
From Verif Require SpawnProofs.
Import Mesh.
Set Implicit Arguments.
Open Scope Z_scope.

(** ** Lists *)
Lemma prefix_form A (l : list A) : forall l', (length l <= length l')%nat ->
  (forall q, (q < length l)%nat -> nth_error l' q = nth_error l q) -> l' = l ++ skipn (length l) l'.
Proof.
  induction l as [|x r IH]; intros l' L H; simpl; auto. destruct l' as [|y r']; simpl in *; [lia|].
  assert (E := H 0%nat ltac:(lia)). simpl in E. injection E as ->. f_equal. apply IH; [lia|].
  intros q Q. apply (H (S q)). lia.
Qed.
Lemma upd_form A (l : list A) : forall n l' a, (n < length l)%nat -> (length l <= length l')%nat ->
  (forall q, (q < length l)%nat -> q <> n -> nth_error l' q = nth_error l q) -> nth_error l' n = Some a ->
  l' = upd l n a ++ skipn (length l) l'.
Proof.
  induction l as [|x r IH]; intros n l' a Hn L H E; simpl in *; [lia|]. destruct l' as [|y r']; simpl in *; [lia|].
  destruct n as [|n]; simpl in *.
  - injection E as ->. f_equal. apply prefix_form; [lia|]. intros q Q. apply (H (S q)); lia.
  - assert (E0 := H 0%nat ltac:(lia) ltac:(lia)). simpl in E0. injection E0 as ->. f_equal. apply IH; auto; try lia.
    intros q Q D. apply (H (S q)); lia.
Qed.
Lemma filter_upd A (f : A -> bool) l n s a : nth_error l n = Some s -> f s = true -> f a = false ->
  (length (filter f (upd l n a)) + 1 = length (filter f l))%nat.
Proof.
  revert n. induction l as [|x r IH]; intros [|n] H E1 E2; simpl in *; try discriminate.
  - injection H as ->. rewrite E1, E2. simpl. lia.
  - specialize (IH n H E1 E2). destruct (f x); simpl; lia.
Qed.
Lemma filter_upd_same A (f : A -> bool) l n s a : nth_error l n = Some s -> f a = f s ->
  length (filter f (upd l n a)) = length (filter f l).
Proof.
  revert n. induction l as [|x r IH]; intros [|n] H E; simpl in *; try discriminate.
  - injection H as ->. rewrite E. destruct (f s); reflexivity.
  - specialize (IH n H E). destruct (f x); simpl; lia.
Qed.
Lemma filter_none A (f : A -> bool) l : (forall x, In x l -> f x = false) -> filter f l = [].
Proof. induction l as [|x r IH]; intros H; simpl; auto. rewrite (H x) by (simpl; auto). apply IH. intros; apply H; simpl; auto. Qed.
Lemma skipn_app_le A (l1 l2 : list A) k : (k <= length l1)%nat -> skipn k (l1 ++ l2) = skipn k l1 ++ l2.
Proof. intros H. rewrite skipn_app. replace (k - length l1)%nat with 0%nat by lia. reflexivity. Qed.

(** Number of surfaces not yet in order. *)
Definition waiting (m : mesh) : nat := length (filter (fun s => negb (su_ordered s)) (surfs m)).
Definition no_room (m : mesh) (cap : Z) : nat := if cap =? Z.of_nat (length (surfs m)) then 1%nat else 0%nat.
Definition pairs_of (p : Z -> Z) (news : list surf) : list Z := flat_map (fun t => [p (su_index t); su_index t]) news.

Lemma orderable_same m m' k t : same_ends m m' -> orderable k m t -> orderable k m' t.
Proof.
  intros E. unfold orderable. destruct (su_ordered t).
  - apply one_polygon_same; auto.
  - intros [H1 H2]. split.
    + apply (@simple_loops_same m m' (su_edgeind t)); auto. reflexivity.
    + apply (@at_most_same m m' k (su_edgeind t)); auto. reflexivity.
Qed.

Section Loop.
Variable table : list Z -> Z -> list nat.
Hypothesis Ht : forall l, is_table l (table l).
Variable m0 : mesh.
Let n0 := length (surfs m0).

Definition Inv (p : Z -> Z) (m : mesh) (cap : Z) (pairs : list Z) : Prop :=
  well_connected m /\ sided m /\ parts_of p m0 m /\ Z.of_nat (length (surfs m)) <= cap /\ 2 <= cap /\
  (forall t, In t (surfs m) -> orderable 2 m t) /\
  (forall t, In t (skipn n0 (surfs m)) -> su_ordered t = true) /\
  pairs = pairs_of p (skipn n0 (surfs m)) /\
  (forall q t, nth_error (surfs m0) q = Some t -> su_ordered t = true -> nth_error (surfs m) q = Some t).

(** One surface. *)
Lemma step_ok p m cap pairs n s : Inv p m cap pairs -> nth_error (surfs m) n = Some s -> su_ordered s = false ->
  exists p' m' cap' new, order_surface table (S (length (su_edgeind s))) (Z.of_nat n) m cap = Ok (m', cap', new) /\
    Inv p' m' cap' (if -1 <? new then pairs ++ [su_index s; new] else pairs) /\ cap <= cap' /\
    (length (surfs m') + 2 * waiting m' <= length (surfs m) + 2 * waiting m)%nat /\ (length (surfs m) <= length (surfs m'))%nat /\
    (2 * waiting m' + no_room m' cap' < 2 * waiting m + no_room m cap)%nat /\
    (cap' = cap -> forall t, nth_error (surfs m') n = Some t -> su_ordered t = true) /\
    (forall q t, nth_error (surfs m) q = Some t -> su_ordered t = true -> nth_error (surfs m') q = Some t).
Proof using Ht.
  intros (W & SD & PT & LC & C2 & OD & NW & PR & KP) Hn Hs.
  assert (Ln : (n < length (surfs m))%nat) by (apply nth_error_Some; congruence).
  assert (Os := OD s (nth_error_In _ _ Hn)). unfold orderable in Os. rewrite Hs in Os. destruct Os as [SL AM].
  assert (Ln0 : (n0 <= length (surfs m))%nat) by exact (parts_length PT).
  assert (Nn : (n < n0)%nat).
  { destruct (Nat.lt_ge_cases n n0) as [H|H]; auto. exfalso.
    assert (It : In s (skipn n0 (surfs m))) by (eapply nth_In_skipn; eauto). apply NW in It. congruence. }
  assert (Fl : (length (tighten (su_edgeind s)) < S (length (su_edgeind s)))%nat).
  { apply Nat.lt_succ_r. apply (Nat.le_trans _ (length (nodup Z.eq_dec (su_edgeind s)))).
    - apply NoDup_incl_length; [apply SpawnProofs.tighten_NoDup|]. intros e He. apply nodup_In, tighten_In, He.
    - apply NoDup_incl_length; [apply NoDup_nodup|]. intros e He. apply nodup_In in He. auto. }
  destruct (@walk_ok table Ht _ _ W SL) as (c & l & R & P & Case).
  (* enough room, or nothing to split *)
  assert (A : Z.of_nat (length (surfs m)) < cap \/ c = ordered ->
    exists m' new q, order_surface table (S (length (su_edgeind s))) (Z.of_nat n) m cap = Ok (m', cap, new) /\
    well_connected m' /\ parts_of q m m' /\
    (forall i, (i < length (surfs m))%nat -> i <> n -> nth_error (surfs m') i = nth_error (surfs m) i) /\
    (exists s', nth_error (surfs m') n = Some s' /\ su_index s' = su_index s /\ su_voluind s' = su_voluind s /\ done m' s') /\
    (forall t, In t (skipn (length (surfs m)) (surfs m')) -> done m' t /\ q (su_index t) = su_index s) /\
    (length (surfs m') <= length (surfs m) + 1)%nat /\ Z.of_nat (length (surfs m')) <= cap /\
    ((new = -1 /\ length (surfs m') = length (surfs m)) \/
     (0 < new /\ exists t, nth_error (surfs m') (length (surfs m)) = Some t /\ su_index t = new))).
  { intros [Room|Ord].
    - destruct (@order_surface_ok table Ht _ 2%nat m cap n s Hn Fl W SD SL AM) as (m' & new & q & H1 & H2 & H3 & H4 & H5 & H6 & H7 & H8);
        [simpl; lia|].
      exists m', new, q. do 6 (split; [assumption|]). split; [simpl in H7; lia|]. split; [simpl in H7; lia|assumption].
    - subst c. destruct Case as [[_ Hl]|[X _]]; [|discriminate].
      destruct (@rewrite_ok m n s (su_write l true s) W Hn) as [W' PT']; auto.
      exists (with_surfs m (upd (surfs m) n (su_write l true s))), (-1), (fun x => x).
      split.
      { cbn [order_surface]. rewrite (at_nth _ _ Hn). cbn [bind]. rewrite R. cbn [bind].
        change (negb (ordered =? truncated)) with true. cbn iota. rewrite (modify_nth _ _ _ Hn). reflexivity. }
      split; [exact W'|]. split; [exact PT'|].
      split; [intros q _ Q; apply nth_error_upd_other; auto|].
      split.
      { exists (su_write l true s). split; [apply nth_error_upd_same; auto|]. split; [reflexivity|]. split; [reflexivity|]. split; [reflexivity|].
        eapply one_polygon_same; [apply (parts_ends PT')|exact P]. }
      split; [intros t It; simpl in It; rewrite skipn_all2 in It by (rewrite length_upd; auto); contradiction|].
      simpl. rewrite length_upd. split; [lia|]. split; [auto|auto]. }
  assert (B : (Z.of_nat (length (surfs m)) < cap \/ c = ordered) \/ (cap <= Z.of_nat (length (surfs m)) /\ c <> ordered)).
  { destruct (Z_lt_le_dec (Z.of_nat (length (surfs m))) cap); auto. destruct (Z.eq_dec c ordered); auto. }
  destruct B as [B|[Full Tr]].
  2: { (* no room *)
    assert (EC : cap = Z.of_nat (length (surfs m))) by lia. destruct Case as [[X _]|[-> _]]; [contradiction|].
    set (s' := su_write (tighten (su_edgeind s)) false s).
    assert (Hset : forall e, In e (su_edgeind s') <-> In e (su_edgeind s)) by (intros; apply tighten_In).
    destruct (@rewrite_ok m n s s' W Hn) as [W' PT']; auto.
    set (m' := with_surfs m (upd (surfs m) n s')) in *.
    exists p, m', (cap + cap / 2), (-1).
    assert (G : 1 <= cap / 2) by (apply Z.div_le_lower_bound; lia).
    assert (L' : length (surfs m') = length (surfs m)) by (simpl; apply length_upd).
    split.
    { cbn [order_surface]. rewrite (at_nth _ _ Hn). cbn [bind]. rewrite R. cbn [bind].
      change (negb (truncated =? truncated)) with false. cbn iota.
      destruct (Z.eqb_spec (cap - Z.of_nat (length (surfs m))) 0) as [_|Q]; [|lia].
      rewrite (modify_nth _ _ _ Hn). reflexivity. }
    assert (E' : same_ends m m') by apply (parts_ends PT').
    assert (WT : waiting m' = waiting m) by (unfold waiting; simpl; apply filter_upd_same with s; auto; simpl; rewrite Hs; auto).
    split.
    { split; [exact W'|]. split; [eapply sided_parts; eauto|]. split; [exact (parts_trans PT PT')|].
      split; [rewrite L'; lia|]. split; [lia|].
      split.
      { intros t It. simpl in It. destruct (@In_upd _ _ _ _ _ _ Hn It) as [->|It'].
        - unfold orderable. simpl su_ordered. cbn iota. split.
          + apply (@simple_loops_same m m' (su_edgeind s)); auto.
          + apply (@at_most_same m m' 2%nat (su_edgeind s)); auto.
        - apply (@orderable_same m m' 2%nat t E'). auto. }
      split; [intros t It; simpl in It; rewrite skipn_upd in It by auto; auto|].
      split; [simpl; rewrite skipn_upd by auto; exact PR|].
      intros q t Hq Ot. simpl. destruct (Nat.eq_dec n q) as [->|D].
      - pose proof (KP q t Hq Ot). congruence.
      - rewrite nth_error_upd_other by auto. auto. }
    split; [lia|]. rewrite WT, L'. split; [lia|]. split; [lia|].
    split; [unfold no_room; rewrite L'; destruct (Z.eqb_spec cap (Z.of_nat (length (surfs m)))); [|lia];
            destruct (Z.eqb_spec (cap + cap / 2) (Z.of_nat (length (surfs m)))); lia|].
    split; [lia|].
    intros q t Hq Ot. simpl. destruct (Nat.eq_dec n q) as [->|D]; [congruence|]. rewrite nth_error_upd_other by auto. auto. }
  destruct (A B) as (m' & new & q & H1 & W' & P' & H4 & [s' [S1 [S2 [S3 [S4 S5]]]]] & H6 & H7 & H8 & H9).
  pose proof (parts_length P') as LL.
  assert (F := @upd_form _ (surfs m) n (surfs m') s' Ln LL H4 S1).
  set (news := skipn (length (surfs m)) (surfs m')) in *.
  assert (E' : same_ends m m') by apply (parts_ends P').
  exists (fun x => p (q x)), m', cap, new. split; [exact H1|].
  assert (WT : (waiting m' + 1 = waiting m)%nat).
  { unfold waiting. rewrite F, filter_app, app_length, (@filter_none _ _ news).
    - simpl length at 2. pose proof (@filter_upd _ (fun s => negb (su_ordered s)) (surfs m) n s s' Hn) as X. simpl in X.
      rewrite Hs, S4 in X. specialize (X eq_refl eq_refl). lia.
    - intros t It. apply H6 in It as [[It _] _]. rewrite It. reflexivity. }
  assert (SK : skipn n0 (surfs m') = skipn n0 (surfs m) ++ news).
  { rewrite F at 1. rewrite skipn_app_le by (rewrite length_upd; auto). rewrite skipn_upd by auto. reflexivity. }
  assert (KK : forall i t, nth_error (surfs m) i = Some t -> su_ordered t = true -> nth_error (surfs m') i = Some t).
  { intros i t Hi Ot. rewrite H4; auto; [apply nth_error_Some; congruence|intros ->; congruence]. }
  assert (PS : p (su_index s) = su_index s).
  { destruct PT as (_ & _ & _ & _ & _ & [more A6] & A7 & _). apply A7. intros [u [Iu Eu]].
    destruct (@nth_skipn_In _ _ _ _ Iu) as [i [I1 I2]]. pose proof W as [[_ [U _]] _].
    assert (i = n) by (eapply (@pos_unique _ su_index); eauto). subst i. unfold n0 in Nn. lia. }
  assert (QO : forall t, In t (skipn n0 (surfs m)) -> q (su_index t) = su_index t).
  { intros t It. destruct P' as (_ & _ & _ & _ & _ & [more A6] & A7 & _). apply A7. intros [u [Iu Eu]].
    destruct (@nth_skipn_In _ _ _ _ Iu) as [i [I1 I2]]. destruct (@nth_skipn_In _ _ _ _ It) as [j [J1 J2]].
    pose proof W' as [[_ [U _]] _]. pose proof (KK j t J2 (NW t It)) as J3.
    assert (i = j) by (eapply (@pos_unique _ su_index); eauto). subst i.
    assert (j < length (surfs m))%nat by (apply nth_error_Some; congruence). lia. }
  assert (PP : (if -1 <? new then pairs ++ [su_index s; new] else pairs) = pairs_of (fun x => p (q x)) (skipn n0 (surfs m'))).
  { rewrite SK. unfold pairs_of. rewrite flat_map_app.
    assert (E1 : flat_map (fun t => [p (q (su_index t)); su_index t]) (skipn n0 (surfs m)) = pairs).
    { rewrite PR. unfold pairs_of. clear - QO. induction (skipn n0 (surfs m)) as [|t r IH]; simpl; auto.
      rewrite (QO t) by (simpl; auto). do 2 f_equal. apply IH. intros. apply QO. simpl. auto. }
    rewrite E1. destruct H9 as [[-> L9]|[Np [t [T1 T2]]]].
    - assert (EN : news = []) by (unfold news; rewrite skipn_all2; auto; lia). rewrite EN. simpl. rewrite app_nil_r. reflexivity.
    - assert (L9 : (length (surfs m) < length (surfs m'))%nat) by (apply nth_error_Some; congruence).
      assert (LN : length news = 1%nat) by (unfold news; rewrite skipn_length; lia).
      assert (In t news) by (unfold news; eapply nth_In_skipn; [|exact T1]; lia).
      clearbody news. destruct news as [|u [|]]; simpl in LN; try lia.
      destruct H as [->|[]]. simpl. rewrite (proj2 (H6 t (or_introl eq_refl))), T2, PS.
      destruct (Z.ltb_spec (-1) new); [reflexivity|lia]. }
  rewrite PP.
  split.
  { split; [exact W'|]. split; [eapply sided_parts; eauto|]. split; [exact (parts_trans PT P')|].
    split; [exact H8|]. split; [exact C2|]. split.
    { intros t It. rewrite F in It. apply in_app_iff in It as [It|It].
      - destruct (@In_upd _ _ _ _ _ _ Hn It) as [->|It'].
        + unfold orderable. rewrite S4. exact S5.
        + apply (@orderable_same m m' 2%nat t E'). auto.
      - apply H6 in It as [[O1 O2] _]. unfold orderable. rewrite O1. exact O2. }
    split; [intros t It; rewrite SK in It; apply in_app_iff in It as [It|It]; [auto|apply H6 in It as [[O1 _] _]; auto]|].
    split; [reflexivity|]. intros i t Hi Ot. apply KK; auto. }
  split; [lia|]. split; [lia|]. split; [exact LL|].
  split; [unfold no_room; destruct (_ =? _), (_ =? _); lia|]. split; [intros _ t X; congruence|exact KK].
Qed.

(** One pass. *)
Lemma pass_ok : forall N p m cap pairs n, Inv p m cap pairs -> (n <= length (surfs m))%nat ->
  (length (surfs m) - n + 2 * waiting m <= N)%nat ->
  exists p' m' cap' pairs',
    (forall fuel, (N < fuel)%nat -> order_pass table fuel (Z.of_nat n) m cap pairs = Ok (m', cap', pairs')) /\
    Inv p' m' cap' pairs' /\ cap <= cap' /\
    (cap' = cap -> forall q t, (n <= q)%nat -> nth_error (surfs m') q = Some t -> su_ordered t = true) /\
    (forall q t, nth_error (surfs m) q = Some t -> su_ordered t = true -> nth_error (surfs m') q = Some t) /\
    ((m' = m /\ cap' = cap) \/ (2 * waiting m' + no_room m' cap' < 2 * waiting m + no_room m cap)%nat).
Proof using Ht.
  induction N as [N IH] using lt_wf_ind. intros p m cap pairs n I Hn HN.
  destruct (nth_error (surfs m) n) as [s|] eqn:Es.
  - assert (Ln : (n < length (surfs m))%nat) by (apply nth_error_Some; congruence).
    assert (Lz : (Z.of_nat n <? Z.of_nat (length (surfs m))) = true) by (apply Z.ltb_lt; lia).
    destruct N as [|N]; [lia|]. destruct (su_ordered s) eqn:Os.
    + destruct (IH N ltac:(lia) p m cap pairs (S n) I ltac:(lia) ltac:(lia)) as (p' & m' & cap' & pairs' & R & I' & C & D & K & M).
      exists p', m', cap', pairs'. split; [|split; [exact I'|split; [exact C|split; [|split; [exact K|exact M]]]]].
      * intros [|fuel] Hf; [lia|]. cbn [order_pass]. rewrite Lz, (at_nth _ _ Es). cbn [bind]. rewrite Os.
        replace (Z.of_nat n + 1) with (Z.of_nat (S n)) by lia. apply R. lia.
      * intros E q t Q T. destruct (Nat.eq_dec q n) as [->|]; [|apply (D E q t); auto; lia].
        pose proof (K n s Es Os). congruence.
    + destruct (step_ok n I Es Os) as (p1 & m1 & cap1 & new & R1 & I1 & C1 & L1 & G1 & M1 & O1 & K1).
      destruct (IH N ltac:(lia) p1 m1 cap1 _ (S n) I1 ltac:(lia) ltac:(lia)) as (p' & m' & cap' & pairs' & R & I' & C & D & K & M).
      exists p', m', cap', pairs'. split; [|split; [exact I'|split; [lia|split; [|split]]]].
      * intros [|fuel] Hf; [lia|]. cbn [order_pass]. rewrite Lz, (at_nth _ _ Es). cbn [bind]. rewrite Os.
        rewrite R1. cbn [bind]. replace (Z.of_nat n + 1) with (Z.of_nat (S n)) by lia. apply R. lia.
      * intros E q t Q T. destruct (Nat.eq_dec q n) as [->|]; [|apply (D ltac:(lia) q t); auto; lia].
        destruct (nth_error (surfs m1) n) as [t1|] eqn:T1.
        -- pose proof (O1 ltac:(lia) t1 eq_refl) as Ot. pose proof (K n t1 T1 Ot). congruence.
        -- apply nth_error_None in T1. lia.
      * intros q t Q T. apply K; auto.
      * right. destruct M as [[-> ->]|M]; lia.
  - apply nth_error_None in Es. assert (n = length (surfs m)) by lia. subst n.
    exists p, m, cap, pairs. split; [|split; [exact I|split; [lia|split; [|split; [auto|auto]]]]].
    + intros [|fuel] Hf; [lia|]. cbn [order_pass]. rewrite Z.ltb_irrefl. reflexivity.
    + intros _ q t Q T. assert (q < length (surfs m))%nat by (apply nth_error_Some; congruence). lia.
Qed.

(** All passes. *)
Lemma passes_ok : forall M p m cap pairs, Inv p m cap pairs -> (2 * waiting m + no_room m cap <= M)%nat ->
  exists p' m' cap' pairs' N,
    (forall fuel, (N <= fuel)%nat -> order_passes table fuel m cap pairs = Ok (m', cap', pairs')) /\
    Inv p' m' cap' pairs' /\ (forall t, In t (surfs m') -> su_ordered t = true).
Proof using Ht.
  induction M as [M IH] using lt_wf_ind. intros p m cap pairs I HM.
  destruct (@pass_ok _ p m cap pairs 0%nat I (Nat.le_0_l _) (Nat.le_refl _)) as (p1 & m1 & cap1 & pairs1 & R & I1 & C & D & K & Dec).
  destruct (Z.eq_dec cap1 cap) as [E|E].
  - exists p1, m1, cap1, pairs1, (S (length (surfs m) - 0 + 2 * waiting m)). split; [|split; [exact I1|]].
    + intros [|fuel] Hf; [lia|]. cbn [order_passes]. change 0 with (Z.of_nat 0). rewrite (R (S fuel)) by lia. cbn [bind].
      destruct (Z.eqb_spec cap1 cap); [reflexivity|contradiction].
    + intros t It. apply In_nth_error in It as [q Q]. apply (D E q t); auto. lia.
  - destruct Dec as [[_ Ec]|Dec]; [contradiction|].
    destruct (IH (2 * waiting m1 + no_room m1 cap1)%nat ltac:(lia) p1 m1 cap1 pairs1 I1 ltac:(lia)) as (p' & m' & cap' & pairs' & N & R' & I' & A').
    exists p', m', cap', pairs', (S (N + (length (surfs m) - 0 + 2 * waiting m))). split; [|split; [exact I'|exact A']].
    intros [|fuel] Hf; [lia|]. cbn [order_passes]. change 0 with (Z.of_nat 0). rewrite (R (S fuel)) by lia. cbn [bind].
    destruct (Z.eqb_spec cap1 cap); [contradiction|]. apply R'. lia.
Qed.
End Loop.

Lemma parts_refl m : parts_of (fun x => x) m m.
Proof.
  split; [reflexivity|]. split; [reflexivity|]. split; [reflexivity|]. split; [reflexivity|].
  split; [apply map_ext; intros; apply map_id|]. split; [exists []; rewrite app_nil_r; reflexivity|]. split; [auto|].
  split; [intros t It; exists t; auto|]. split; [|auto]. intros s e. split; [intros H; exists s; auto|intros [t [<- H]]; auto].
Qed.

Lemma order_edges_ok table m cap : (forall l, is_table l (table l)) ->
  well_connected m -> sided m -> Z.of_nat (length (surfs m)) <= cap -> 2 <= cap ->
  (forall s, In s (surfs m) -> orderable 2 m s) ->
  exists p m' cap' N, let news := skipn (length (surfs m)) (surfs m') in
    (forall fuel, (N <= fuel)%nat -> order_edges table fuel m cap = Ok (m', cap', pairs_of p news)) /\
    well_connected m' /\ parts_of p m m' /\
    (forall t, In t (surfs m') -> done m' t) /\
    (forall q s, nth_error (surfs m) q = Some s -> su_ordered s = true -> nth_error (surfs m') q = Some s).
Proof.
  intros Ht W SD LC C2 OD. destruct (surfs m) as [|s0 r0] eqn:E0.
  - exists (fun x => x), m, cap, 0%nat. cbn zeta. rewrite E0. split; [intros; unfold order_edges; rewrite E0; reflexivity|].
    split; auto. split; [apply parts_refl|]. split; [intros t []|]. intros q s H. destruct q; discriminate.
  - rewrite <- E0 in *. destruct (@passes_ok table Ht m (2 * waiting m + no_room m cap) (fun x => x) m cap []) as (p & m' & cap' & pairs & N & R & I & A); auto.
    { split; [exact W|]. split; [exact SD|]. split; [apply parts_refl|]. split; auto. split; auto. split; auto.
      rewrite skipn_all. split; [intros t []|]. split; [reflexivity|auto]. }
    destruct I as (W' & SD' & PT & LC' & C2' & OD' & NW & -> & KP).
    exists p, m', cap', N. cbn zeta. split; [|split; [exact W'|split; [exact PT|split; [|exact KP]]]].
    + intros fuel Hf. unfold order_edges. rewrite <- (R fuel Hf). rewrite E0. reflexivity.
    + intros t It. specialize (A t It). split; auto. specialize (OD' t It). unfold orderable in OD'. rewrite A in OD'. exact OD'.
Qed.
