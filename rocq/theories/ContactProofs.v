(** Lemmas on merging snaxels in contact. *)
From Coq Require Import Reals.
From Verif Require Import Base Containers Mesh Edit Num Snake Spawn Contact SpecMesh SpecSpawn SpecContact
  ContainersProofs MeshProofs FloodProofs SwitchProofs CropProofs GroupMergeProofs RemoveSnakeProofs.
Import Mesh.
Set Implicit Arguments.
Open Scope Z_scope.

Lemma pair_dec : forall x y : Z * Z, {x = y} + {x <> y}.
Proof. decide equality; apply Z.eq_dec. Qed.

Lemma into_In imp a b : goes_into imp a b -> In (a, b) imp /\ 0 < b.
Proof. intros [H [l1 [l2 [-> _]]]]. split; auto. apply in_or_app. simpl. auto. Qed.

Lemma into_snoc pre i t a b :
  goes_into (pre ++ [(i, t)]) a b <-> goes_into pre a b \/ (i = a /\ t = b /\ 0 < b /\ ~ In (b, a) pre).
Proof.
  split.
  - intros [Hb [l1 [l2 [E N]]]]. destruct (rev l2) as [|q r] eqn:Er.
    + right. assert (l2 = []) by (rewrite <- (rev_involutive l2), Er; reflexivity). subst l2.
      apply app_inj_tail in E. destruct E as [-> E]. injection E as -> ->. auto.
    + left. split; auto. exists l1, (rev r). split; auto.
      assert (l2 = rev r ++ [q]) by (rewrite <- (rev_involutive l2), Er; reflexivity). subst l2.
      rewrite app_comm_cons, app_assoc in E. apply app_inj_tail in E. tauto.
  - intros [[Hb [l1 [l2 [-> N]]]]|[-> [-> [Hb N]]]]; split; auto.
    + exists l1, (l2 ++ [(i, t)]). rewrite <- app_assoc. auto.
    + exists pre, []. auto.
Qed.

Lemma into_one imp a b : In (a, b) imp -> 0 < a -> 0 < b -> goes_into imp a b \/ goes_into imp b a.
Proof.
  induction imp as [|p imp IH] using rev_ind; simpl; intros H Ha Hb; [contradiction|].
  apply in_app_or in H. destruct p as [i t]. rewrite !into_snoc.
  destruct (in_dec pair_dec (a, b) imp) as [I|I]; [destruct (IH I Ha Hb); auto|].
  destruct H as [H|[H|[]]]; [contradiction|]. injection H as -> ->.
  destruct (in_dec pair_dec (b, a) imp) as [J|J]; [|left; right; auto].
  clear IH. destruct (in_split _ _ J) as [l1 [l2 E]].
  right. left. split; auto. exists l1, l2. split; auto. intro K. apply I. rewrite E. apply in_or_app. auto.
Qed.

Lemma into_anti imp a b : a <> b -> goes_into imp a b -> ~ goes_into imp b a.
Proof.
  intro Nab. induction imp as [|[i t] imp IH] using rev_ind.
  - intros [_ [[|? ?] [? [E _]]]]; discriminate.
  - rewrite !into_snoc. intros [H|[-> [-> [Hb N]]]] [K|[E1 [E2 [Ha M]]]].
    + exact (IH H K).
    + subst. apply M. apply (into_In H).
    + apply N. apply (into_In K).
    + congruence.
Qed.

Lemma into_ends imp a b c : paired imp -> goes_into imp a b -> ~ goes_into imp c a.
Proof.
  intros P H K. destruct (into_In H) as [H1 H2]. destruct (into_In K) as [K1 K2].
  destruct (P _ _ _ _ H1 K1 H2 K2) as [D [_ [_ E]]]. specialize (E eq_refl). subst c.
  exact (into_anti D H K).
Qed.
Lemma into_fun imp a b b' : paired imp -> goes_into imp a b -> goes_into imp a b' -> b' = b.
Proof.
  intros P H K. destruct (into_In H) as [H1 H2]. destruct (into_In K) as [K1 K2].
  destruct (P _ _ _ _ H1 K1 H2 K2) as [_ [E _]]. symmetry. auto.
Qed.

Section Run.
Variable N : num.
Variable k : snake N.
Notation c0 := (k_conn k).
Hypothesis Step : in_step k.
Hypothesis Wc : well_connected c0.
Hypothesis Two : forall e, In e (edges c0) -> two_ended e.
Hypothesis Nde : forall v, In v (verts c0) -> NoDup (ve_edgeind v).

Lemma contacts_run imp :
  paired imp ->
  (forall i t, In (i, t) imp -> 0 < t -> 0 < i /\ has_vert c0 i /\ has_vert c0 t) ->
  forall suf pre sw c, imp = pre ++ suf -> merged c0 sw c -> (forall a b, In (a, b) sw <-> goes_into pre a b) ->
  exists c' sw', contacts (k_snaxs k) suf (rev (map snd sw)) c (map (fun p => find (@sx_index N) (k_snaxs k) (snd p)) sw) (map fst sw)
      = Ok (c', map (fun p => find (@sx_index N) (k_snaxs k) (snd p)) sw', map fst sw') /\
    merged c0 sw' c' /\ (forall a b, In (a, b) sw' <-> goes_into imp a b).
Proof using Two.
  intros P Pos. induction suf as [|[i t] suf IH]; intros pre sw c E G S.
  - simpl. exists c, sw. rewrite app_nil_r in E. subst pre. auto.
  - cbn [contacts].
    assert (Hit : In (i, t) imp) by (rewrite E; apply in_or_app; simpl; auto).
    assert (Pre : forall p, In p pre -> In p imp) by (intros p Hp; rewrite E; apply in_or_app; auto).
    assert (E' : imp = (pre ++ [(i, t)]) ++ suf) by (rewrite <- app_assoc; exact E).
    assert (InT : forall x, mem_z x (rev (map snd sw)) = true <-> exists a, goes_into pre a x).
    { intro x. rewrite mem_z_In, <- in_rev, in_map_iff. split.
      - intros [[a b] [Eb Hb]]. simpl in Eb. subst b. exists a. apply S. exact Hb.
      - intros [a Ha]. exists (a, x). split; auto. apply S. exact Ha. }
    destruct (mem_z i (rev (map snd sw)) || mem_z t (rev (map snd sw)))%bool eqn:Eb.
    + apply (IH (pre ++ [(i, t)]) sw c E' G). intros a b. rewrite S, into_snoc. split; [auto|].
      intros [H|[-> [-> [Hb Nb]]]]; auto. apply orb_true_iff in Eb. destruct Eb as [Eb|Eb]; apply InT in Eb; destruct Eb as [x Hx].
      * exfalso. destruct (into_In Hx) as [H1 H2]. destruct (P _ _ _ _ Hit (Pre _ H1) Hb H2) as [_ [_ [_ Q]]].
        apply Nb. rewrite (Q eq_refl). exact H1.
      * destruct (into_In Hx) as [H1 H2]. destruct (P _ _ _ _ Hit (Pre _ H1) Hb H2) as [_ [_ [Q _]]].
        rewrite (Q eq_refl). exact Hx.
    + apply orb_false_iff in Eb. destruct Eb as [Ei Et].
      assert (Ni : ~ exists a, goes_into pre a i) by (intro H; apply InT in H; congruence).
      assert (Nt : ~ exists a, goes_into pre a t) by (intro H; apply InT in H; congruence).
      destruct (Z.ltb_spec 0 t) as [Ht|Ht].
      * destruct (Pos i t Hit Ht) as [Hi [Vi Vt]].
        assert (D : i <> t) by (apply (P _ _ _ _ Hit Hit Ht Ht)).
        assert (F1 : ~ In i (map fst sw)).
        { intro H. apply in_map_iff in H. destruct H as [[a b] [Ea Hab]]. simpl in Ea. subst a. apply S in Hab.
          destruct (into_In Hab) as [H1 H2]. destruct (P _ _ _ _ Hit (Pre _ H1) Ht H2) as [_ [Q _]].
          apply Nt. exists i. rewrite (Q eq_refl). exact Hab. }
        assert (F2 : ~ In i (map snd sw)).
        { intro H. apply in_map_iff in H. destruct H as [[a b] [Ea Hab]]. simpl in Ea. subst b. apply Ni. exists a. apply S. exact Hab. }
        destruct (@merged_step c0 Two sw c i t G D Vi Vt F1 F2) as [c1 [R G1]]. rewrite R. cbn [bind].
        specialize (IH (pre ++ [(i, t)]) (sw ++ [(i, t)]) c1 E' G1).
        rewrite !map_app, rev_app_distr in IH. simpl in IH. apply IH.
        intros a b. rewrite in_app_iff, S, into_snoc. simpl. split.
        -- intros [H|[H|[]]]; auto. injection H as <- <-. right. do 3 (split; auto). intro H.
           destruct (@into_one pre t i H Ht Hi) as [K|K]; [apply Ni | apply Nt]; eauto.
        -- intros [H|[-> [-> _]]]; auto.
      * apply (IH (pre ++ [(i, t)]) sw c E' G). intros a b. rewrite S, into_snoc. split; [auto|].
        intros [H|[-> [-> [Hb _]]]]; auto. lia.
Qed.

Lemma stop_run ks : (forall x, In x ks -> In x (map (@sx_index N) (k_snaxs k))) -> forall l,
  map (@sx_index N) l = map (@sx_index N) (k_snaxs k) ->
  for_each (map (find (@sx_index N) (k_snaxs k)) ks) (fun p l => modify l p (@stopped N)) l
  = Ok (map (fun x => if mem_z (sx_index x) ks then stopped x else x) l).
Proof using Step Wc.
  intros Hk. assert (Und : NoDup (map (@sx_index N) (k_snaxs k))).
  { destruct Step as [-> _]. apply Wc. }
  induction ks as [|x ks IH]; intros l E.
  - simpl. rewrite map_id. reflexivity.
  - cbn [map for_each]. rewrite <- (find_map_idx (@sx_index N) (k_snaxs k) l x E).
    rewrite modify_find; [|rewrite E; auto|rewrite E; apply Hk; left; reflexivity]. cbn [bind].
    rewrite IH.
    + f_equal. unfold on. rewrite map_map. apply map_ext. intro a. simpl.
      destruct (Z.eqb_spec (sx_index a) x) as [Ea|Ea]; simpl; auto.
      destruct (mem_z _ ks); auto.
    + intros y Hy. apply Hk. right; auto.
    + rewrite <- E. apply map_on. reflexivity.
Qed.

Lemma rho_became imp sw y : paired imp -> (forall a b, In (a, b) sw <-> goes_into imp a b) -> became imp y (rho sw y).
Proof.
  intros P S. destruct (in_dec Z.eq_dec y (map fst sw)) as [I|I].
  - left. apply in_map_iff in I. destruct I as [[a b] [Ea Hab]]. simpl in Ea. subst a.
    rewrite (@rho_in sw y b); [apply S; auto| |].
    + apply in_map_iff. exists (y, b). auto.
    + intros r Hr. apply S in Hr. apply S in Hab. exact (into_fun P Hab Hr).
  - right. split; [apply rho_out; auto|]. intros w Hw. apply I. apply S in Hw. apply in_map_iff. exists (y, w). auto.
Qed.

Lemma merge_contacts_ok imp :
  paired imp ->
  (forall i t, In (i, t) imp -> 0 < t -> 0 < i /\ has_vert c0 i /\ has_vert c0 t) ->
  exists k', merge_contacts k imp = Ok k' /\
    (forall x', In x' (k_snaxs k') <-> exists x, In x (k_snaxs k) /\ (forall b, ~ goes_into imp (sx_index x) b) /\ after_contact imp x x') /\
    (forall v, has_vert (k_conn k') v <-> has_vert c0 v /\ forall b, ~ goes_into imp v b) /\
    Forall2 (moved_ends imp) (edges c0) (edges (k_conn k')) /\
    surfs (k_conn k') = surfs c0 /\ volus (k_conn k') = volus c0 /\ meshDim (k_conn k') = meshDim c0 /\
    k_edges k' = k_edges k /\ k_surfs k' = k_surfs k /\ k_in k' = k_in k /\ k_flipped k' = k_flipped k /\
    well_connected (k_conn k') /\ in_step k'.
Proof using Step Wc Two Nde.
  intros P Pos. unfold merge_contacts.
  assert (G0 : merged c0 [] c0).
  { constructor; auto. rewrite (map_ext_in _ (fun e => e)), map_id; auto.
    intros e _. unfold ed_set_vertind. rewrite (map_ext_in _ (fun y => y)), map_id; [destruct e; reflexivity|reflexivity]. }
  destruct (@contacts_run imp P Pos imp [] [] c0 eq_refl G0) as [c [sw [R [G S]]]].
  { intros a b. split; [intros []|]. intros [_ [[|? ?] [? [E _]]]]; discriminate. }
  simpl in R. rewrite R. cbn [bind]. clear R.
  assert (Ks : forall x, In x (map snd sw) -> In x (map (@sx_index N) (k_snaxs k))).
  { intros x Hx. apply in_map_iff in Hx. destruct Hx as [[a b] [Eb Hb]]. simpl in Eb. subst b. apply S in Hb.
    destruct (into_In Hb) as [H1 H2]. destruct (Pos _ _ H1 H2) as [_ [_ V]]. destruct Step as [-> _]. apply has_vert_In. exact V. }
  rewrite <- (map_map snd (find (@sx_index N) (k_snaxs k))). rewrite (@stop_run (map snd sw) Ks (k_snaxs k) eq_refl). cbn [bind].
  assert (F : forall v, In v (map fst sw) <-> exists b, goes_into imp v b).
  { intro v. rewrite in_map_iff. split.
    - intros [[a b] [Ea Hab]]. simpl in Ea. subst a. exists b. apply S. auto.
    - intros [b Hb]. exists (v, b). split; auto. apply S. auto. }
  assert (T : forall v, In v (map snd sw) <-> exists a, goes_into imp a v).
  { intro v. rewrite in_map_iff. split.
    - intros [[a b] [Ea Hab]]. simpl in Ea. subst b. exists a. apply S. auto.
    - intros [b Hb]. exists (b, v). split; auto. apply S. auto. }
  pose proof (merged_vi G) as Vi.
  eexists. split; [reflexivity|]. cbn [k_snaxs k_conn k_edges k_surfs k_in k_flipped volus surfs edges verts meshDim].
  split; [|split; [|split; [|split; [|split; [|split; [|split; [|split; [|split; [|split; [|split]]]]]]]]]]; auto.
  - intro x'. rewrite drop_In, in_map_iff. split.
    + intros [[x [Ex Hx]] Hn]. exists x. split; auto.
      assert (Ei : sx_index x' = sx_index x) by (subst x'; destruct (mem_z _ _); reflexivity).
      rewrite Ei in Hn. split; [intros b Hb; apply Hn, F; eauto|].
      destruct (mem_z (sx_index x) (map snd sw)) eqn:Em; subst x'.
      * left. split; [apply T, mem_z_In; auto|reflexivity].
      * right. split; auto. apply mem_z_not_In in Em. intros a Ha. apply Em, T. eauto.
    + intros [x [Hx [Hn A]]]. split.
      * exists x. split; auto. destruct A as [[A ->]|[A ->]].
        -- apply T, mem_z_In in A. rewrite A. reflexivity.
        -- destruct (mem_z (sx_index x) (map snd sw)) eqn:Em; auto. apply mem_z_In, T in Em. destruct Em as [a Ha]. elim (A a Ha).
      * assert (Ei : sx_index x' = sx_index x) by (destruct A as [[_ ->]|[_ ->]]; reflexivity).
        rewrite Ei. intro H. apply F in H. destruct H as [b Hb]. exact (Hn b Hb).
  - intro v. unfold has_vert at 1. simpl. split.
    + intros [a [Ha Ea]]. apply drop_In in Ha. destruct Ha as [Ha Hn]. subst v. split.
      * apply has_vert_In. rewrite <- Vi. apply in_map. auto.
      * intros b Hb. apply Hn, F. eauto.
    + intros [Hv Hn]. apply has_vert_In in Hv. rewrite <- Vi in Hv. apply in_map_iff in Hv. destruct Hv as [a [Ea Ha]].
      exists a. split; auto. apply drop_In. split; auto. rewrite Ea. intro H. apply F in H. destruct H as [b Hb]. exact (Hn b Hb).
  - rewrite (mg_ed G). clear - P S. induction (edges c0) as [|e l IH]; constructor; auto.
    unfold moved_ends. simpl. do 3 (split; auto). induction (ed_vertind e) as [|y r IHr]; constructor; auto.
    apply rho_became; auto.
  - apply (mg_su G).
  - apply (mg_vo G).
  - apply (mg_dim G).
  - (* the merged vertices have no edges *)
    pose proof (mg_wc G) as Wc'.
    assert (Ne : forall e v, EV c e v -> ~ In v (map fst sw)).
    { intros e v [a [Ha [_ Hv]]] Hf. rewrite (mg_ed G) in Ha. apply in_map_iff in Ha. destruct Ha as [e0 [<- _]].
      simpl in Hv. apply in_map_iff in Hv. destruct Hv as [y [Ey _]].
      apply F in Hf. destruct Hf as [b Hb].
      destruct (@rho_became imp sw y P S) as [Q|[Q1 Q2]]; rewrite Ey in *.
      - exact (into_ends P Hb Q).
      - subst v. rewrite Q1 in Hb. exact (Q2 _ Hb). }
    assert (Vn : forall v e, VE c v e -> ~ In v (map fst sw)).
    { intros v e H. apply (Ne e). destruct Wc' as [_ [[M1 _] [X1 _]]]. apply M1; auto. intros ->. exact (X1 _ H). }
    set (c' := mkMesh _ _ _ _ _).
    assert (Same : forall v e, VE c' v e <-> VE c v e).
    { intros v e. unfold VE, c'. simpl. rewrite drop_lists. split; [tauto|]. intro H. split; auto. exact (Vn v e H). }
    destruct Wc' as [[U1 [U2 [U3 [U4 [Z1 [Z2 [Z3 Z4]]]]]]] [[M1 [M2 M3]] [X1 [X2 X3]]]].
    split; [|split].
    + unfold unique_indices. do 3 (split; [assumption|]). split; [apply drop_NoDup; auto|]. do 3 (split; [assumption|]).
      intro H. apply Z4. destruct H as [a [Ha Ea]]. apply drop_In in Ha. exists a. tauto.
    + split; [|split].
      * intros v e H He. apply Same in H. exact (M1 v e H He).
      * intros v e H Hv. apply Same. exact (M2 v e H Hv).
      * exact M3.
    + split; [|split].
      * intros v H. apply Same in H. exact (X1 v H).
      * exact X2.
      * exact X3.
  - destruct Step as [S1 [S2 S3]]. split; [|split]; simpl.
    + apply drop_map. rewrite Vi, <- S1, map_map. apply map_ext. intro a. destruct (mem_z _ _); reflexivity.
    + rewrite S2, (mg_ed G), map_map. reflexivity.
    + rewrite S3, (mg_su G). reflexivity.
Qed.
End Run.
