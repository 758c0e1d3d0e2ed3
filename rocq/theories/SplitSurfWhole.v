(** Ordering one surface, with as many splits as needed. *)
From Verif Require Import Base Containers ContainersProofs Mesh SpecMesh MeshProofs SwitchProofs FloodProofs
  Order SpecOrder OrderProofs OrderMeshProofs SplitSurf SpecSplitSurf SplitSurfProofs SplitSurfStep.
From Verif Require SpawnProofs.
Import Mesh.
Set Implicit Arguments.
Open Scope Z_scope.

Definition done (m : mesh) (t : surf) : Prop := su_ordered t = true /\ one_polygon m (su_edgeind t).

Section Whole.
Variable table : list Z -> Z -> list nat.
Hypothesis Ht : forall l, is_table l (table l).

(** What the walk along one surface gives. *)
Lemma walk_ok m l0 : well_connected m -> simple_loops m l0 ->
  exists c l, surf_order m table l0 = Ok (c, l) /\ one_polygon m l /\
    ((c = ordered /\ forall e, In e l <-> In e l0) \/
     (c = truncated /\ exists e0, In e0 l0 /\
        (forall e, In e l <-> In e l0 /\ reach (edges_meet m l0) e0 e) /\
        ~ (forall e, In e l0 -> reach (edges_meet m l0) e0 e))).
Proof using Ht.
  intros W SL. pose proof W as [[_ [_ [Ue _]]] _]. destruct l0 as [|x r] eqn:E0.
  - exists ordered, []. split; [reflexivity|]. split; [|left; split; [auto|tauto]].
    split; [constructor|]. exists []. split; [constructor|]. split; auto. intros i e a b X. destruct i; discriminate.
  - destruct (@surface_order m table (x :: r) Ue Ht) as (c & l & vs & e0 & R & I0 & _ & P & Nl & Nv & Hl & C & Q); auto; [discriminate|].
    exists c, l. split; auto. split; [split; auto; exists vs; auto|].
    destruct C as [-> | ->].
    + left. split; auto. intros e. rewrite Hl. split; [tauto|]. intros I. split; auto. apply Q; auto.
    + right. split; auto. exists e0. split; auto. split; auto. intros A. apply Q in A. discriminate.
Qed.
Lemma two_polygons m k l0 l e0 : In e0 l0 -> (forall e, In e l <-> In e l0 /\ reach (edges_meet m l0) e0 e) ->
  ~ (forall e, In e l0 -> reach (edges_meet m l0) e0 e) -> at_most m k l0 -> exists k', k = S (S k').
Proof.
  intros I0 Hl N A. pose proof (@rest_some m l0 l e0 Hl N) as HR.
  destruct (left_out l0 l) as [|e1 r] eqn:E; [congruence|].
  assert (I1 : In e1 (left_out l0 l)) by (rewrite E; simpl; auto). apply rest_In in I1 as [I1 I2].
  assert (D : e1 <> e0) by (intros ->; apply I2, Hl; split; auto; constructor).
  assert (L : (length [e0; e1] <= k)%nat).
  { apply A.
    - constructor; [simpl; intros [H|[]]; auto|]. constructor; auto. constructor.
    - intros e [<-|[<-|[]]]; auto.
    - assert (X : ~ reach (edges_meet m l0) e0 e1) by (intros R; apply I2, Hl; auto).
      intros e f [<-|[<-|[]]] [<-|[<-|[]]] Hne R; try congruence; auto. apply X. apply reach_sym; auto. }
  simpl in L. destruct k as [|[|k']]; try lia. eauto.
Qed.

Lemma nth_skipn_In A (l : list A) k t : In t (skipn k l) -> exists q, (k <= q)%nat /\ nth_error l q = Some t.
Proof.
  revert l. induction k as [|k IH]; intros l H; simpl in H.
  - apply In_nth_error in H as [q Hq]. exists q. split; [lia|auto].
  - destruct l as [|x r]; [contradiction|]. destruct (IH r H) as [q [Q1 Q2]]. exists (S q). split; [lia|auto].
Qed.
Lemma nth_In_skipn A (l : list A) k t q : (k <= q)%nat -> nth_error l q = Some t -> In t (skipn k l).
Proof.
  revert l q. induction k as [|k IH]; intros l q H E; simpl.
  - eapply nth_error_In; eauto.
  - destruct q as [|q]; [lia|]. destruct l as [|x r]; [discriminate|]. apply (IH r q); auto. lia.
Qed.

Lemma order_surface_ok : forall fuel k m cap n s,
  nth_error (surfs m) n = Some s -> (length (tighten (su_edgeind s)) < fuel)%nat ->
  well_connected m -> sided m -> simple_loops m (su_edgeind s) -> at_most m k (su_edgeind s) ->
  Z.of_nat (length (surfs m) + (k - 1)) <= cap ->
  exists m' new p, order_surface table fuel (Z.of_nat n) m cap = Ok (m', cap, new) /\
    well_connected m' /\ parts_of p m m' /\
    (forall q, (q < length (surfs m))%nat -> q <> n -> nth_error (surfs m') q = nth_error (surfs m) q) /\
    (exists s', nth_error (surfs m') n = Some s' /\ su_index s' = su_index s /\ su_voluind s' = su_voluind s /\ done m' s') /\
    (forall t, In t (skipn (length (surfs m)) (surfs m')) -> done m' t /\ p (su_index t) = su_index s) /\
    (length (surfs m') <= length (surfs m) + (k - 1))%nat /\
    ((new = -1 /\ length (surfs m') = length (surfs m)) \/
     (0 < new /\ exists t, nth_error (surfs m') (length (surfs m)) = Some t /\ su_index t = new)).
Proof using Ht.
  induction fuel as [|fuel IH]; intros k m cap n s Hn Hf W SD SL AM Hc; [lia|].
  pose proof W as [[_ [Us _]] _].
  assert (Ln : (n < length (surfs m))%nat) by (apply nth_error_Some; congruence).
  cbn [order_surface]. rewrite (at_nth _ _ Hn). cbn [bind].
  destruct (walk_ok W SL) as (c & l & R & P & [[-> Hl]|[-> [e0 [I0 [Hl Nall]]]]]).
  - rewrite R. cbn [bind]. change (negb (ordered =? truncated)) with true. cbn iota.
    rewrite (modify_nth _ _ _ Hn). cbn [bind].
    destruct (@rewrite_ok m n s (su_write l true s) W Hn) as [W' PT]; auto.
    exists (with_surfs m (upd (surfs m) n (su_write l true s))), (-1), (fun x => x).
    split; [reflexivity|]. split; [exact W'|]. split; [exact PT|].
    split; [intros q _ Q; apply nth_error_upd_other; auto|].
    split.
    { exists (su_write l true s). split; [apply nth_error_upd_same; auto|]. split; [reflexivity|]. split; [reflexivity|]. split; [reflexivity|].
      eapply one_polygon_same; [apply (parts_ends PT)|exact P]. }
    split; [intros t It; simpl in It; rewrite skipn_all2 in It by (rewrite length_upd; auto); contradiction|].
    simpl. rewrite length_upd. split; [lia|auto].
  - rewrite R. cbn [bind]. change (negb (truncated =? truncated)) with false. cbn iota.
    destruct (@two_polygons _ _ _ _ _ I0 Hl Nall AM) as [k' ->].
    destruct (Z.eqb_spec (cap - Z.of_nat (length (surfs m))) 0) as [Q|_]; [lia|].
    set (full := tighten (su_edgeind s)). fold full in Hf.
    assert (Hfull : forall e, In e full <-> In e (su_edgeind s)) by (intros; apply tighten_In).
    assert (Hlf : incl l full) by (intros e He; apply Hfull; apply Hl in He; tauto).
    destruct (@new_surf_ok m n s l full W SD Hn Hfull Hlf) as (m1 & cc & NS). cbn zeta in NS.
    set (new := max_index su_index (surfs m) + 1) in *. destruct NS as (N1 & W1 & P1 & S1 & C1).
    rewrite N1. cbn [bind].
    set (t1 := mkSurf new (su_border s) (su_ordered s) (su_voluind s) (left_out full l ++ cc)) in *.
    assert (Npos : 0 < new) by (pose proof (@max_index_nonneg _ su_index (surfs m)); unfold new; lia).
    assert (L1 : length (surfs m1) = S (length (surfs m))) by (rewrite S1, app_length, length_upd; simpl; lia).
    replace (Z.of_nat (length (surfs m1)) - 1) with (Z.of_nat (length (surfs m))) by lia.
    assert (Ht1 : nth_error (surfs m1) (length (surfs m)) = Some t1).
    { rewrite S1, nth_error_app2; rewrite length_upd; [|lia]. rewrite Nat.sub_diag. reflexivity. }
    assert (E1 : same_ends m m1) by apply (parts_ends P1).
    assert (Hfl : forall e, In e l <-> In e full /\ reach (edges_meet m full) e0 e).
    { intros e. rewrite Hl, Hfull. rewrite (reach_iff _ _ (meet_list m (su_edgeind s) full Hfull)). tauto. }
    assert (I0f : In e0 full) by (apply Hfull; auto).
    assert (Hrc : forall e, In e (left_out full l ++ cc) <-> In e (left_out full l)).
    { intros e. rewrite in_app_iff. split; [intros [H|H]; auto|auto]. }
    destruct (IH (S k') m1 cap (length (surfs m)) t1) as (m2 & new2 & p2 & O2 & W2 & P2 & F2 & [t2 [T2 [I2 [V2 D2]]]] & G2 & L2 & _); auto.
    { simpl su_edgeind. apply (Nat.le_lt_trans _ (length (left_out full l))).
      - apply tighten_le; [intros e; apply Hrc|]. unfold left_out. apply NoDup_filter. apply SpawnProofs.tighten_NoDup.
      - assert (length (left_out full l) < length full)%nat; [|lia].
        assert (NF : NoDup full) by apply SpawnProofs.tighten_NoDup.
        assert (I0r : In e0 l) by (apply Hfl; split; auto; constructor).
        clear - I0f I0r. unfold left_out. induction full as [|x r IHr]; [contradiction|]. simpl.
        assert (LE : forall r, (length (filter (fun e => negb (mem_z e l)) r) <= length r)%nat).
        { clear. induction r as [|x r IHr]; simpl; auto. destruct (negb _); simpl; lia. }
        destruct I0f as [->|I0f].
        + assert (E : mem_z e0 l = true) by (apply mem_z_In; auto). rewrite E. simpl. pose proof (LE r). lia.
        + specialize (IHr I0f). destruct (negb _); simpl; lia. }
    { eapply sided_parts; eauto. }
    { eapply (@simple_loops_same _ _ _ _ E1 Hrc). eapply rest_simple; [exact Hfl|].
      apply (@simple_loops_same m m (su_edgeind s) full); auto. reflexivity. }
    { eapply (@at_most_same _ _ _ _ _ E1 Hrc). eapply rest_at_most; [exact I0f|exact Hfl|].
      apply (@at_most_same m m (S (S k')) (su_edgeind s) full); auto. reflexivity. }
    { rewrite L1. lia. }
    rewrite O2. cbn [bind]. rewrite Z.eqb_refl.
    set (s1 := su_set_edgeind l s) in *.
    assert (H1n : nth_error (surfs m1) n = Some s1).
    { rewrite S1, nth_error_app1 by (rewrite length_upd; auto). apply nth_error_upd_same; auto. }
    assert (H2n : nth_error (surfs m2) n = Some s1) by (rewrite F2; [auto|lia|lia]).
    assert (SD2 : sided m2) by (eapply sided_parts; [exact P2|]; eapply sided_parts; eauto).
    destruct (@volus_push_ok m2 new n s1 W2 SD2 H2n) as (ws & V3 & W3 & P3).
    { intros v Hv. exists t2. split; [eapply nth_error_In; eauto|]. split; [exact I2|]. rewrite V2. exact Hv. }
    rewrite V3. cbn [bind]. set (m3 := mkMesh ws (surfs m2) (edges m2) (verts m2) (meshDim m2)) in *.
    assert (H3n : nth_error (surfs m3) n = Some s1) by exact H2n.
    rewrite (modify_nth _ _ _ H3n). cbn [bind].
    destruct (@rewrite_ok m3 n s1 (su_set_ordered true s1) W3 H3n) as [W4 P4]; auto; try reflexivity.
    set (m4 := with_surfs m3 (upd (surfs m3) n (su_set_ordered true s1))) in *.
    pose proof (parts_trans P1 (parts_trans P2 (parts_trans P3 P4))) as P5.
    assert (E5 : same_ends m m4) by apply (parts_ends P5).
    assert (E24 : same_ends m2 m4) by apply (parts_ends (parts_trans P3 P4)).
    assert (L4 : length (surfs m4) = length (surfs m2)) by (simpl; rewrite length_upd; auto).
    assert (Lm2 : (S (length (surfs m)) <= length (surfs m2))%nat) by (pose proof (parts_length P2); lia).
    exists m4, new. eexists. split; [reflexivity|]. split; [exact W4|]. split; [exact P5|].
    split.
    { intros q Q1 Q2. simpl. rewrite nth_error_upd_other by auto. rewrite F2 by lia. rewrite S1, nth_error_app1 by (rewrite length_upd; auto).
      apply nth_error_upd_other; auto. }
    split.
    { exists (su_set_ordered true s1). split; [simpl; apply nth_error_upd_same; lia|]. split; [reflexivity|]. split; [reflexivity|]. split; [reflexivity|].
      simpl. eapply one_polygon_same; [exact E5|exact P]. }
    split.
    { intros t It. simpl in It. rewrite skipn_upd in It by auto.
      destruct (@nth_skipn_In _ _ _ _ It) as [q [Q1 Q2]].
      assert (Dt : done m2 t /\ p2 (su_index t) = new).
      { destruct (Nat.eq_dec q (length (surfs m))) as [->|D].
        - assert (t = t2) by congruence. subst t. split; auto.
          assert (PI : p2 new = new).
          { pose proof P2 as (_ & _ & _ & _ & _ & [more A6] & A7 & _). apply A7.
            intros [u [Iu Eu]]. destruct (@nth_skipn_In _ _ _ _ Iu) as [q' [Q1' Q2']].
            assert (q' = length (surfs m)); [|lia]. pose proof W2 as [[_ [U2 _]] _].
            eapply (@pos_unique _ su_index); [exact U2|exact Q2'|exact T2|]. rewrite Eu. symmetry. exact I2. }
          rewrite I2. exact PI.
        - apply G2. rewrite L1. apply (@nth_In_skipn _ _ _ _ q); auto. lia. }
      destruct Dt as [[D1 D3] DP]. split; [split; [auto|eapply one_polygon_same; [exact E24|exact D3]]|].
      rewrite DP. rewrite Z.eqb_refl. reflexivity. }
    split; [rewrite L4; lia|].
    right. split; auto. exists t2. split; [|exact I2]. simpl. rewrite nth_error_upd_other by lia. exact T2.
Qed.
End Whole.
