(** Crop. *)
From Verif Require Import Base Containers ContainersProofs Mesh SpecMesh MeshProofs SwitchProofs RemoveProofs
  FloodProofs Order Edit SpecOrder SpecEdit.
Set Implicit Arguments.
Open Scope Z_scope.

(** The references of [m'] are those of [m] between objects satisfying the four
    predicates. *)
Definition restr m (PN PE PS PV : Z -> Prop) m' : Prop :=
  (forall n e, VE m' n e <-> VE m n e /\ PN n /\ PE e) /\
  (forall e n, EV m' e n <-> EV m e n /\ PN n /\ PE e) /\
  (forall e s, ES m' e s <-> ES m e s /\ PE e /\ PS s) /\
  (forall s e, SE m' s e <-> SE m s e /\ PE e /\ PS s) /\
  (forall s v, v <> 0 -> (SV m' s v <-> SV m s v /\ PS s /\ PV v)) /\
  (forall v s, VS m' v s <-> VS m v s /\ PS s /\ PV v).
Definition objs m m' : Prop :=
  map vo_index (volus m') = map vo_index (volus m) /\ map su_index (surfs m') = map su_index (surfs m) /\
  map ed_index (edges m') = map ed_index (edges m) /\ map ve_index (verts m') = map ve_index (verts m) /\
  meshDim m' = meshDim m.
Definition T (_ : Z) : Prop := True.

Lemma restr_trans m m1 m2 PN PE PS PV QN QE QS QV :
  restr m PN PE PS PV m1 -> restr m1 QN QE QS QV m2 ->
  restr m (fun x => PN x /\ QN x) (fun x => PE x /\ QE x) (fun x => PS x /\ QS x) (fun x => PV x /\ QV x) m2.
Proof.
  intros [A1 [A2 [A3 [A4 [A5 A6]]]]] [B1 [B2 [B3 [B4 [B5 B6]]]]].
  repeat apply conj; intros.
  - rewrite B1, A1. tauto.
  - rewrite B2, A2. tauto.
  - rewrite B3, A3. tauto.
  - rewrite B4, A4. tauto.
  - rewrite B5, A5 by auto. tauto.
  - rewrite B6, A6. tauto.
Qed.
Lemma restr_ext m m' PN PE PS PV QN QE QS QV :
  (forall x, PN x <-> QN x) -> (forall x, PE x <-> QE x) -> (forall x, PS x <-> QS x) -> (forall x, PV x <-> QV x) ->
  restr m PN PE PS PV m' -> restr m QN QE QS QV m'.
Proof.
  intros E1 E2 E3 E4 [A1 [A2 [A3 [A4 [A5 A6]]]]].
  repeat apply conj; intros.
  - rewrite A1, E1, E2. tauto.
  - rewrite A2, E1, E2. tauto.
  - rewrite A3, E3, E2. tauto.
  - rewrite A4, E3, E2. tauto.
  - rewrite A5, E3, E4 by auto. tauto.
  - rewrite A6, E3, E4. tauto.
Qed.
Lemma restr_refl m : restr m T T T T m.
Proof. unfold T. repeat apply conj; intros; tauto. Qed.
Lemma restr_wc m m' PN PE PS PV : well_connected m -> unique_indices m' -> (volus m' <> [] -> volus m <> []) ->
  restr m PN PE PS PV m' -> well_connected m'.
Proof.
  intros [U [[M1 [M2 [M3 [M4 [M5 M6]]]]] [X1 [X2 [X3 [X4 X5]]]]]] U' HV [A1 [A2 [A3 [A4 [A5 A6]]]]].
  split; auto. split.
  - repeat apply conj; intros a b H Hz.
    + rewrite A1 in H. rewrite A2. split; [apply M1|]; tauto.
    + rewrite A2 in H. rewrite A1. split; [apply M2|]; tauto.
    + rewrite A3 in H. rewrite A4. split; [apply M3|]; tauto.
    + rewrite A4 in H. rewrite A3. split; [apply M4|]; tauto.
    + rewrite A5 in H by auto. rewrite A6. split; [apply M5|]; tauto.
    + assert (b <> 0).
      { intros ->. destruct U' as [_ [_ [_ [_ [Z _]]]]]. apply Z. apply lists_has in H. exact H. }
      rewrite A6 in H. rewrite A5 by auto. split; [apply M6|]; tauto.
  - repeat apply conj.
    + intros v H. apply A1 in H. apply (X1 v). tauto.
    + intros v H. apply A2 in H. apply (X2 v). tauto.
    + intros v H. apply A4 in H. apply (X3 v). tauto.
    + intros v H. apply A6 in H. apply (X4 v). tauto.
    + intros Hn e H. apply A3 in H. apply (X5 (HV Hn) e). tauto.
Qed.

(** ** Same objects *)
Lemma objs_refl m : objs m m.
Proof. repeat split. Qed.
Lemma objs_trans m m1 m2 : objs m m1 -> objs m1 m2 -> objs m m2.
Proof. intros [A1 [A2 [A3 [A4 A5]]]] [B1 [B2 [B3 [B4 B5]]]]. repeat split; congruence. Qed.
Lemma map_fst_eq A (idx : A -> Z) B (b : A -> B) l l' :
  map (fun a => (idx a, b a)) l' = map (fun a => (idx a, b a)) l -> map idx l' = map idx l.
Proof.
  intros H. apply (f_equal (map fst)) in H. rewrite !map_map in H. exact H.
Qed.
Lemma same_objs m m' : same_objects m m' -> objs m m'.
Proof. intros [A1 [A2 [A3 [A4 A5]]]]. repeat split; auto; eapply map_fst_eq; eauto. Qed.
Lemma objs_has m m' : objs m m' ->
  (forall i, has_volu m' i <-> has_volu m i) /\ (forall i, has_surf m' i <-> has_surf m i) /\
  (forall i, has_edge m' i <-> has_edge m i) /\ (forall i, has_vert m' i <-> has_vert m i).
Proof.
  intros [A1 [A2 [A3 [A4 _]]]]. repeat apply conj; intros i.
  - rewrite !has_volu_In, A1. tauto.
  - rewrite !has_surf_In, A2. tauto.
  - rewrite !has_edge_In, A3. tauto.
  - rewrite !has_vert_In, A4. tauto.
Qed.
Lemma objs_unique m m' : objs m m' -> unique_indices m -> unique_indices m'.
Proof.
  intros Ho [U1 [U2 [U3 [U4 [Z1 [Z2 [Z3 Z4]]]]]]]. destruct (objs_has Ho) as [H1 [H2 [H3 H4]]].
  destruct Ho as [A1 [A2 [A3 [A4 _]]]]. unfold unique_indices.
  rewrite A1, A2, A3, A4, H1, H2, H3, H4. tauto.
Qed.
Lemma objs_volus m m' : objs m m' -> volus m' <> [] -> volus m <> [].
Proof. intros [A1 _] H E. rewrite E in A1. destruct (volus m'); [auto|discriminate]. Qed.

Lemma lists_get_map A (idx : A -> Z) get (g : A -> list Z) l l' i x :
  map idx l' = map idx l -> map get l' = map g l -> lists idx get l' i x <-> lists idx g l i x.
Proof.
  revert l'. induction l as [|a l IH]; intros [|a' l'] H1 H2; simpl in *; try discriminate; [unfold lists; simpl; split; intros [? [[] _]]|].
  injection H1 as E1 H1. injection H2 as E2 H2. specialize (IH l' H1 H2). unfold lists in *. split.
  - intros [b [[<-|Hb] [E Hx]]].
    + exists a. rewrite <- E1, <- E2. split; [left|]; auto.
    + destruct (proj1 IH) as [c [Hc1 Hc2]]; [exists b; auto|]. exists c; split; [right|]; auto.
  - intros [b [[<-|Hb] [E Hx]]].
    + exists a'. rewrite E1, E2. split; [left|]; auto.
    + destruct (proj2 IH) as [c [Hc1 Hc2]]; [exists b; auto|]. exists c; split; [right|]; auto.
Qed.
Lemma lists_maps A (idx : A -> Z) get l l' i x :
  map idx l' = map idx l -> map get l' = map get l -> lists idx get l' i x <-> lists idx get l i x.
Proof. apply lists_get_map. Qed.

(** ** One removal *)
Definition sided m m' : Prop := forall s, (exists v, SV m' s v) <-> (exists v, SV m s v).

Lemma sides_nonempty l i : (exists x, In x (sides l i)) <-> exists x, In x l.
Proof.
  split.
  - intros [x Hx]. unfold sides in Hx. destruct l as [|y r]; [simpl in Hx; tauto|]. exists y. left; auto.
  - intros [x Hx]. destruct (sides l i) as [|y r] eqn:E; [|exists y; left; auto].
    exfalso. assert (H : length (sides l i) = 0%nat) by (rewrite E; auto).
    unfold sides in H. rewrite app_length, repeat_length in H. pose proof (count_erase i l).
    destruct l as [|z l]; [destruct Hx|]. simpl length in *. lia.
Qed.

Lemma wc_remove4 m i : well_connected m -> has_volu m i ->
  exists m', remove_index 4 i m = Ok m' /\ objs m m' /\ restr m T T T (fun v => v <> i) m' /\ sided m m'.
Proof.
  intros W Hi. destruct (remove4_spec W Hi) as [m' [E [O [V1 [V2 [V3 [V4 V5]]]]]]].
  exists m'. split; [exact E|]. pose proof (same_objs O) as O'. split; auto.
  assert (Hi0 : i <> 0). { intros ->. destruct W as [[_ [_ [_ [_ [Z _]]]]] _]. auto. }
  destruct O' as [O1 [O2 [O3 [O4 _]]]].
  assert (HSV : forall s v, SV m' s v <-> lists su_index (fun s => sides (su_voluind s) i) (surfs m) s v).
  { intros s v. apply lists_get_map; auto. }
  split.
  - unfold T. repeat apply conj; intros.
    + unfold VE. rewrite V1. tauto.
    + unfold EV. rewrite V2. tauto.
    + unfold ES. rewrite V2. tauto.
    + unfold SE. rewrite (@lists_maps _ su_index su_edgeind (surfs m) (surfs m')); auto. tauto.
    + rewrite HSV. unfold SV, lists. split.
      * intros [a [Ha [Ea Hx]]]. apply sides_In in Hx; auto. split; [exists a|]; tauto.
      * intros [[a [Ha [Ea Hx]]] [_ Hv]]. exists a. rewrite sides_In; auto.
    + rewrite V5. tauto.
  - intros s. split.
    + intros [v Hv]. apply HSV in Hv. destruct Hv as [a [Ha [Ea Hx]]].
      destruct (proj1 (sides_nonempty (su_voluind a) i)) as [y Hy]; [eauto|]. exists y, a. auto.
    + intros [v [a [Ha [Ea Hx]]]].
      destruct (proj2 (sides_nonempty (su_voluind a) i)) as [y Hy]; [eauto|]. exists y. apply HSV. exists a. auto.
Qed.

Lemma wc_remove3 m i : well_connected m -> has_surf m i ->
  exists m', remove_index 3 i m = Ok m' /\ objs m m' /\ restr m T T (fun s => s <> i) T m' /\
    (forall s v, SV m' s v <-> SV m s v /\ s <> i).
Proof.
  intros W Hi. destruct (remove3_spec W Hi) as [m' [E [O [V1 [V2 [V3 [V4 [V5 V6]]]]]]]].
  exists m'. split; [exact E|]. pose proof (same_objs O) as O'. split; auto.
  destruct O' as [O1 [O2 [O3 [O4 _]]]].
  split; auto. unfold T. repeat apply conj; intros.
  - unfold VE. rewrite V1. tauto.
  - unfold EV. rewrite (@lists_maps _ ed_index ed_vertind (edges m) (edges m')); auto. tauto.
  - rewrite V3. tauto.
  - rewrite V5. tauto.
  - rewrite V6. tauto.
  - rewrite V4. tauto.
Qed.

Lemma wc_remove2 m i : well_connected m -> has_edge m i ->
  exists m', remove_index 2 i m = Ok m' /\ objs m m' /\ restr m T (fun e => e <> i) T T m' /\
    (forall s v, SV m' s v <-> SV m s v).
Proof.
  intros W Hi. destruct (remove2_spec W Hi) as [m' [E [O [V1 [V2 [V3 [V4 [V5 [V6 V7]]]]]]]]].
  exists m'. split; [exact E|]. pose proof (same_objs O) as O'. split; auto.
  destruct O' as [O1 [O2 [O3 [O4 _]]]].
  assert (HSV : forall s v, SV m' s v <-> SV m s v) by (intros; apply lists_maps; auto).
  split; auto. unfold T. repeat apply conj; intros.
  - rewrite V3. tauto.
  - rewrite V5. tauto.
  - rewrite V6. tauto.
  - rewrite V4. tauto.
  - rewrite HSV. tauto.
  - unfold VS. rewrite V1. tauto.
Qed.

(** ** Removing a list *)
Lemma not_in_cons (x i : Z) r : (x <> i /\ ~ In x r) <-> ~ In x (i :: r).
Proof. simpl. split; intros H; intuition. Qed.

Lemma removes4 L : forall m, well_connected m -> (forall i, In i L -> has_volu m i) ->
  exists m', for_each L (fun v m => remove_index 4 v m) m = Ok m' /\ well_connected m' /\ objs m m' /\
    restr m T T T (fun v => ~ In v L) m' /\ sided m m'.
Proof.
  induction L as [|i r IH]; intros m W HL; cbn [for_each].
  - exists m. split; auto. split; auto. split; [apply objs_refl|]. split; [|intros s; tauto].
    eapply restr_ext; [..|apply restr_refl]; unfold T; simpl; tauto.
  - destruct (@wc_remove4 m i W) as [m1 [E1 [O1 [R1 S1]]]]; [apply HL; left; auto|].
    assert (W1 : well_connected m1).
    { eapply restr_wc; eauto; [eapply objs_unique; eauto; apply W|apply objs_volus; auto]. }
    rewrite E1. cbn [bind].
    destruct (IH m1 W1) as [m' [E2 [W2 [O2 [R2 S2]]]]].
    { intros k Hk. apply (objs_has O1). apply HL. right; auto. }
    exists m'. split; auto. split; auto. split; [eapply objs_trans; eauto|]. split.
    + eapply restr_ext; [..|eapply restr_trans; eauto]; unfold T; try tauto. intros x. apply not_in_cons.
    + intros s. rewrite (S2 s). apply S1.
Qed.
Lemma removes3 L : forall m, well_connected m -> (forall i, In i L -> has_surf m i) ->
  exists m', for_each L (fun v m => remove_index 3 v m) m = Ok m' /\ well_connected m' /\ objs m m' /\
    restr m T T (fun v => ~ In v L) T m' /\ (forall s v, SV m' s v <-> SV m s v /\ ~ In s L).
Proof.
  induction L as [|i r IH]; intros m W HL; cbn [for_each].
  - exists m. split; auto. split; auto. split; [apply objs_refl|]. split; [|simpl; tauto].
    eapply restr_ext; [..|apply restr_refl]; unfold T; simpl; tauto.
  - destruct (@wc_remove3 m i W) as [m1 [E1 [O1 [R1 S1]]]]; [apply HL; left; auto|].
    assert (W1 : well_connected m1).
    { eapply restr_wc; eauto; [eapply objs_unique; eauto; apply W|apply objs_volus; auto]. }
    rewrite E1. cbn [bind].
    destruct (IH m1 W1) as [m' [E2 [W2 [O2 [R2 S2]]]]].
    { intros k Hk. apply (objs_has O1). apply HL. right; auto. }
    exists m'. split; auto. split; auto. split; [eapply objs_trans; eauto|]. split.
    + eapply restr_ext; [..|eapply restr_trans; eauto]; unfold T; try tauto. intros x. apply not_in_cons.
    + intros s v. rewrite S2, S1, <- not_in_cons. tauto.
Qed.
Lemma removes2 L : forall m, well_connected m -> (forall i, In i L -> has_edge m i) ->
  exists m', for_each L (fun v m => remove_index 2 v m) m = Ok m' /\ well_connected m' /\ objs m m' /\
    restr m T (fun v => ~ In v L) T T m' /\ (forall s v, SV m' s v <-> SV m s v).
Proof.
  induction L as [|i r IH]; intros m W HL; cbn [for_each].
  - exists m. split; auto. split; auto. split; [apply objs_refl|]. split; [|simpl; tauto].
    eapply restr_ext; [..|apply restr_refl]; unfold T; simpl; tauto.
  - destruct (@wc_remove2 m i W) as [m1 [E1 [O1 [R1 S1]]]]; [apply HL; left; auto|].
    assert (W1 : well_connected m1).
    { eapply restr_wc; eauto; [eapply objs_unique; eauto; apply W|apply objs_volus; auto]. }
    rewrite E1. cbn [bind].
    destruct (IH m1 W1) as [m' [E2 [W2 [O2 [R2 S2]]]]].
    { intros k Hk. apply (objs_has O1). apply HL. right; auto. }
    exists m'. split; auto. split; auto. split; [eapply objs_trans; eauto|]. split.
    + eapply restr_ext; [..|eapply restr_trans; eauto]; unfold T; try tauto. intros x. apply not_in_cons.
    + intros s v. rewrite S2, S1. tauto.
Qed.

(** Vertices keep their edge lists, so the mesh is not consistent in between. *)
Lemma removes1 m L : well_connected m -> (forall i, In i L -> has_vert m i) -> forall m0,
  verts m0 = verts m -> map ed_index (edges m0) = map ed_index (edges m) -> (forall e v, EV m0 e v -> EV m e v) ->
  exists m', for_each L (fun v m => remove_index 1 v m) m0 = Ok m' /\
    volus m' = volus m0 /\ surfs m' = surfs m0 /\ verts m' = verts m0 /\ meshDim m' = meshDim m0 /\
    map ed_index (edges m') = map ed_index (edges m0) /\ map ed_surfind (edges m') = map ed_surfind (edges m0) /\
    (forall e v, EV m' e v <-> EV m0 e v /\ ~ In v L).
Proof.
  intros [[Uv [Us [Ue [Un [Zv [Zs [Ze Zn]]]]]]] [[M1 [M2 [M3 [M4 [M5 M6]]]]] [X1 [X2 [X3 [X4 X5]]]]]] HL.
  induction L as [|i r IH]; intros m0 Hv He Hsub; cbn [for_each].
  - exists m0. repeat apply conj; auto. simpl. tauto.
  - assert (Ho : has_vert m i) by (apply HL; left; auto).
    cbn [remove_index]. unfold remove1. rewrite Hv.
    destruct (find_at ve_index (verts m) Ho) as [vo [Hat [Hin Hidx]]].
    rewrite Hat. cbn [bind].
    pose proof (@owner _ ve_index ve_edgeind (verts m) _ _ Un Hin Hidx) as Hown.
    assert (Hks : forall k, In k (ve_edgeind vo) <-> EV m k i).
    { intros k. rewrite Hown. split.
      - intros H. apply M1; auto. intros ->. apply (X1 i). exact H.
      - intros H. apply M2; auto. intros ->. apply Zn. exact Ho. }
    unfold erase_at. rewrite (@for_each_modify _ ed_index (fun a => ed_set_vertind (erase_all i (ed_vertind a)) a)); auto.
    2:{ intros []. unfold ed_set_vertind. simpl. rewrite erase_all_idem. reflexivity. }
    2:{ rewrite He. auto. }
    2:{ intros k Hk. apply Hks in Hk. rewrite He. apply has_edge_In. apply lists_has in Hk. exact Hk. }
    cbn [bind].
    match goal with |- context [for_each r _ ?x] => set (m1 := x) end.
    assert (I1 : map ed_index (edges m1) = map ed_index (edges m0)) by (apply map_same_if; auto).
    assert (I2 : map ed_surfind (edges m1) = map ed_surfind (edges m0)) by (apply map_same_if; auto).
    assert (I3 : forall e v, EV m1 e v <-> EV m0 e v /\ v <> i).
    { intros e v. unfold EV, m1. simpl. rewrite lists_erased; auto; [reflexivity|].
      intros k Hk. apply Hks. apply Hsub. exact Hk. }
    destruct (IH (fun k Hk => HL k (or_intror Hk)) m1) as [m' [E [A1 [A2 [A3 [A4 [A5 [A6 A7]]]]]]]].
    + reflexivity.
    + congruence.
    + intros e v H. apply I3 in H. apply Hsub. tauto.
    + exists m'. repeat apply conj; auto; try (rewrite ?A1, ?A2, ?A4; reflexivity); try congruence.
      intros e v. rewrite A7, I3, <- not_in_cons. tauto.
Qed.

(** ** The lists of objects to delete *)
Lemma gather_ok A (idx : A -> Z) get l ks : NoDup (map idx l) ->
  (forall k, In k ks -> exists a, In a l /\ idx a = k) ->
  exists r, gather idx get l ks = Ok r /\ forall x, In x r <-> exists k, In k ks /\ lists idx get l k x.
Proof.
  intros Hnd H. unfold gather.
  destruct (@omap_list_ok _ _ (fun k => isearch idx l k) (fun k a => In a l /\ idx a = k) ks) as [bs [E HF]].
  { intros k Hk. unfold isearch. destruct (find_at idx l (H k Hk)) as [a [Ha Hb]]. exists a. auto. }
  rewrite E. cbn [bind]. eexists. split; [reflexivity|]. intros x. rewrite in_flat_map. clear E H.
  induction HF as [|k a ks bs [Ha Ek] HF IH].
  - split; [intros [b [[] _]]|intros [b [[] _]]].
  - split.
    + intros [b [[<-|Hb] Hx]].
      * exists k. split; [left; auto|]. exists a. auto.
      * destruct (proj1 IH) as [k' [Hk' Hl]]; [exists b; auto|]. exists k'. split; [right|]; auto.
    + intros [k' [[<-|Hk'] Hl]].
      * exists a. split; [left; auto|]. apply (@owner _ idx get l k a Hnd Ha Ek). auto.
      * destruct (proj2 IH) as [b [Hb Hx]]; [exists k'; auto|]. exists b. split; [right|]; auto.
Qed.

Lemma empties_In A (idx : A -> Z) get (l : list A) i : NoDup (map idx l) ->
  In i (map idx (filter (fun a => is_nil (get a)) l)) <->
  (exists a, In a l /\ idx a = i) /\ ~ exists x, lists idx get l i x.
Proof.
  intros Hnd. rewrite in_map_iff. split.
  - intros [a [Ea Ha]]. apply filter_In in Ha. destruct Ha as [Ha Hn]. split; [eauto|].
    intros [x Hx]. apply (@owner _ idx get l i a Hnd Ha Ea) in Hx. destruct (get a); [destruct Hx|discriminate].
  - intros [[a [Ha Ea]] Hn]. exists a. split; auto. apply filter_In. split; auto.
    destruct (get a) as [|x r] eqn:E; auto. exfalso. apply Hn. exists x, a. rewrite E. simpl. auto.
Qed.

Lemma drop_lists A (idx : A -> Z) get del (l : list A) i x :
  lists idx get (drop idx del l) i x <-> lists idx get l i x /\ ~ In i del.
Proof.
  unfold lists, drop. split.
  - intros [a [Ha [Ea Hx]]]. apply filter_In in Ha. destruct Ha as [Ha Hn].
    apply negb_true_iff in Hn. apply mem_z_not_In in Hn. rewrite Ea in Hn. split; [exists a|]; auto.
  - intros [[a [Ha [Ea Hx]]] Hn]. exists a. split; auto. apply filter_In. split; auto.
    apply negb_true_iff, mem_z_not_In. rewrite Ea. auto.
Qed.
Lemma drop_has A (idx : A -> Z) del (l : list A) i :
  (exists a, In a (drop idx del l) /\ idx a = i) <-> (exists a, In a l /\ idx a = i) /\ ~ In i del.
Proof.
  unfold drop. split.
  - intros [a [Ha Ea]]. apply filter_In in Ha. destruct Ha as [Ha Hn].
    apply negb_true_iff in Hn. apply mem_z_not_In in Hn. rewrite Ea in Hn. split; [exists a|]; auto.
  - intros [[a [Ha Ea]] Hn]. exists a. split; auto. apply filter_In. split; auto.
    apply negb_true_iff, mem_z_not_In. rewrite Ea. auto.
Qed.
Lemma drop_NoDup A (idx : A -> Z) del (l : list A) : NoDup (map idx l) -> NoDup (map idx (drop idx del l)).
Proof.
  unfold drop. induction l as [|a l IH]; simpl; intros H; auto. inversion H as [|? ? Hn Hnd]; subst.
  destruct (negb _); simpl; auto. constructor; auto. intros Hc. apply Hn.
  apply in_map_iff in Hc. destruct Hc as [b [Eb Hb]]. apply filter_In in Hb. apply in_map_iff. exists b. tauto.
Qed.

(** 0 comes first when nothing is negative. *)
Lemma crop_volus_spec l : (In 0 l /\ (forall x, In x l -> 0 <= x)) \/ l = [] ->
  exists d, crop_volus (tighten l) = (d, d) /\ forall x, In x d <-> In x l /\ x <> 0.
Proof.
  intros [[H0 Hp]| ->].
  2:{ exists []. split; [reflexivity|]. simpl. tauto. }
  pose proof (tighten_strict l) as Hs.
  assert (HI : forall x, In x (tighten l) <-> In x l) by (intros; apply tighten_In).
  destruct (tighten l) as [|y r]; [apply HI in H0; destruct H0|].
  assert (y = 0).
  { assert (0 <= y) by (apply Hp, HI; left; auto).
    destruct (proj2 (HI 0) H0) as [E|Hr]; auto.
    inversion Hs as [|? ? _ Hf]; subst. apply Forall_forall with (x := 0) in Hf; auto. lia. }
  subst y. exists r. unfold crop_volus. simpl. rewrite Nat.sub_0_r, firstn_all. split; auto.
  intros x. rewrite <- HI. simpl. split.
  - intros Hx. split; auto. intros ->. inversion Hs as [|? ? _ Hf]; subst.
    apply Forall_forall with (x := 0) in Hf; auto. lia.
  - intros [[E|Hx] Hn]; auto. congruence.
Qed.

Lemma ve_edge m n e : well_connected m -> VE m n e -> has_edge m e.
Proof.
  intros [_ [[M1 _] [X1 _]]] H. assert (e <> 0) by (intros ->; apply (X1 n); auto).
  apply M1 in H; auto. apply lists_has in H. exact H.
Qed.
Lemma es_surf m e s : well_connected m -> ES m e s -> s <> 0 -> has_surf m s.
Proof. intros [_ [[_ [_ [M3 _]]] _]] H Hs. apply M3 in H; auto. apply lists_has in H. exact H. Qed.
Lemma sv_volu m s v : well_connected m -> SV m s v -> v <> 0 -> has_volu m v.
Proof. intros [_ [[_ [_ [_ [_ [M5 _]]]]] _]] H Hs. apply M5 in H; auto. apply lists_has in H. exact H. Qed.

Section Plan.
Variables (m : mesh) (t : Z) (L : list Z).
Hypothesis W : well_connected m.
Hypothesis HL : forall i, In i L -> crop_target m t i.
Hypothesis H0 : forall e, plan_edge m t L e -> ~ ES m e 0.

Lemma plan_vert_has n : plan_vert t L n -> has_vert m n.
Proof. intros [-> Hn]. destruct (HL _ Hn) as [[_ H]|[[H _]|[[H _]|[H _]]]]; auto; discriminate. Qed.
Lemma plan_edge_has e : plan_edge m t L e -> has_edge m e.
Proof.
  intros [[E Hn]|[n [Hn He]]].
  - destruct (HL _ Hn) as [[H _]|[[_ H]|[[H _]|[H _]]]]; auto; congruence.
  - eapply ve_edge; eauto.
Qed.
Lemma plan_surf_has s : plan_surf m t L s -> has_surf m s.
Proof.
  intros [[E Hn]|[e [He Hs]]].
  - destruct (HL _ Hn) as [[H _]|[[H _]|[[_ H]|[H _]]]]; auto; congruence.
  - eapply es_surf; eauto. intros ->. eapply H0; eauto.
Qed.
Lemma plan_volu_has v : plan_volu m t L v -> v = 0 \/ has_volu m v.
Proof.
  intros [[E Hn]|[s [Hs Hv]]].
  - destruct (HL _ Hn) as [[H _]|[[H _]|[[H _]|[_ H]]]]; auto; congruence.
  - destruct (Z.eq_dec v 0); auto. right. eapply sv_volu; eauto.
Qed.

Lemma crop_lists_ok : (1 <= t <= 4) -> exists n e s v, crop_lists t L m = Ok (n, e, s, v) /\
  (forall x, In x n <-> plan_vert t L x) /\ (forall x, In x e <-> plan_edge m t L x) /\
  (forall x, In x s <-> plan_surf m t L x) /\ (forall x, In x v <-> plan_volu m t L x).
Proof.
  intros Ht. pose proof W as [[Uv [Us [Ue [Un _]]]] _].
  assert (Hn : exists n, (t <> 1 -> n = []) /\ (t = 1 -> n = L) /\ forall x, In x n <-> plan_vert t L x).
  { destruct (Z.eq_dec t 1).
    - exists L. unfold plan_vert. split; [congruence|]. split; auto. intros x. tauto.
    - exists []. unfold plan_vert. split; auto. split; [congruence|]. intros x. simpl. tauto. }
  destruct Hn as [n [N1 [N2 N3]]].
  assert (He : exists e, (t = 1 -> gather ve_index ve_edgeind (verts m) n = Ok e) /\ (t = 2 -> e = L) /\ (2 < t -> e = []) /\
    forall x, In x e <-> plan_edge m t L x).
  { destruct (Z.eq_dec t 1) as [E|E]; [|destruct (Z.eq_dec t 2) as [E2|E2]].
    - destruct (@gather_ok _ ve_index ve_edgeind (verts m) n Un) as [e [Ge Ie]].
      { intros k Hk. apply N3, plan_vert_has in Hk. exact Hk. }
      exists e. split; auto. split; [lia|]. split; [lia|]. intros x. rewrite Ie. unfold plan_edge, above. split.
      + intros [k [Hk Hx]]. right. exists k. rewrite <- N3. auto.
      + intros [[? _]|[k [Hk Hx]]]; [lia|]. exists k. rewrite N3. auto.
    - exists L. split; [lia|]. split; auto. split; [lia|]. intros x. unfold plan_edge, above, plan_vert. split; auto.
      intros [[_ H]|[k [[? _] _]]]; auto. lia.
    - exists []. split; [lia|]. split; [lia|]. split; auto. intros x. unfold plan_edge, above, plan_vert. simpl. split; [tauto|].
      intros [[? H]|[k [[? _] _]]]; lia. }
  destruct He as [e [E1 [E2 [E3 E4]]]].
  assert (Hs : exists s, (t <= 2 -> gather ed_index ed_surfind (edges m) e = Ok s) /\ (t = 3 -> s = L) /\ (t = 4 -> s = []) /\
    forall x, In x s <-> plan_surf m t L x).
  { destruct (Z_le_dec t 2) as [E|E]; [|destruct (Z.eq_dec t 3) as [E5|E5]].
    - destruct (@gather_ok _ ed_index ed_surfind (edges m) e Ue) as [s [Gs Is]].
      { intros k Hk. apply E4, plan_edge_has in Hk. exact Hk. }
      exists s. split; auto. split; [lia|]. split; [lia|]. intros x. rewrite Is. unfold plan_surf, above. split.
      + intros [k [Hk Hx]]. right. exists k. rewrite <- E4. auto.
      + intros [[? _]|[k [Hk Hx]]]; [lia|]. exists k. rewrite E4. auto.
    - exists L. split; [lia|]. split; auto. split; [lia|]. intros x. unfold plan_surf, above. split; auto.
      intros [[_ H]|[k [Hk Hx]]]; auto. apply E4 in Hk. rewrite E3 in Hk by lia. destruct Hk.
    - exists []. split; [lia|]. split; [lia|]. split; auto. intros x. unfold plan_surf, above. simpl. split; [tauto|].
      intros [[? H]|[k [Hk Hx]]]; [lia|]. apply E4 in Hk. rewrite E3 in Hk by lia. destruct Hk. }
  destruct Hs as [s [S1 [S2 [S3 S4]]]].
  assert (Hv : exists v, (t <= 3 -> gather su_index su_voluind (surfs m) s = Ok v) /\ (t = 4 -> v = L) /\
    forall x, In x v <-> plan_volu m t L x).
  { destruct (Z_le_dec t 3) as [E|E].
    - destruct (@gather_ok _ su_index su_voluind (surfs m) s Us) as [v [Gv Iv]].
      { intros k Hk. apply S4, plan_surf_has in Hk. exact Hk. }
      exists v. split; auto. split; [lia|]. intros x. rewrite Iv. unfold plan_volu, above. split.
      + intros [k [Hk Hx]]. right. exists k. rewrite <- S4. auto.
      + intros [[? _]|[k [Hk Hx]]]; [lia|]. exists k. rewrite S4. auto.
    - exists L. split; [lia|]. split; auto. intros x. unfold plan_volu, above. split; [intros; left; split; [lia|auto]|].
      intros [[_ H]|[k [Hk Hx]]]; auto. apply S4 in Hk. rewrite S3 in Hk by lia. destruct Hk. }
  destruct Hv as [v [V1 [V2 V3]]].
  exists n, e, s, v. split; [|auto].
  assert (t = 1 \/ t = 2 \/ t = 3 \/ t = 4) as [E|[E|[E|E]]] by lia; rewrite E; cbn [crop_lists].
  - rewrite <- (N2 E), (E1 E). cbn [bind]. rewrite S1 by lia. cbn [bind]. rewrite V1 by lia. reflexivity.
  - rewrite <- (E2 E), S1 by lia. cbn [bind]. rewrite V1 by lia. cbn [bind]. rewrite (N1 ltac:(lia)). reflexivity.
  - rewrite <- (S2 E), V1 by lia. cbn [bind]. rewrite (N1 ltac:(lia)), (E3 ltac:(lia)). reflexivity.
  - rewrite (N1 ltac:(lia)), (E3 ltac:(lia)), (S3 E), (V2 E). reflexivity.
Qed.
End Plan.

Lemma one_sided_restr m : objs m (set_surfs (map one_sided (surfs m)) m) /\
  restr m T T T T (set_surfs (map one_sided (surfs m)) m) /\ sided m (set_surfs (map one_sided (surfs m)) m).
Proof.
  assert (Hi : forall s, su_index (one_sided s) = su_index s)
    by (intros s; unfold one_sided; destruct (su_voluind s) as [|? [|? ?]]; reflexivity).
  assert (He : forall s, su_edgeind (one_sided s) = su_edgeind s)
    by (intros s; unfold one_sided; destruct (su_voluind s) as [|? [|? ?]]; reflexivity).
  assert (Hv : forall s x, In x (su_voluind (one_sided s)) <-> In x (su_voluind s) \/ (x = 0 /\ length (su_voluind s) = 1%nat)).
  { intros s x. unfold one_sided. destruct (su_voluind s) as [|? [|? ?]] eqn:E; simpl; rewrite ?E; simpl;
      intuition (try discriminate; congruence). }
  split; [|split].
  - repeat split; simpl; auto. rewrite map_map. apply map_ext. auto.
  - unfold T. repeat apply conj; intros; try tauto; try (unfold VE, EV, ES, VS; simpl; tauto).
    + unfold SE. simpl. rewrite (@lists_maps _ su_index su_edgeind (surfs m)); [tauto| |]; rewrite map_map; apply map_ext; auto.
    + unfold SV. simpl. unfold lists. split.
      * intros [a [Ha [Ea Hx]]]. apply in_map_iff in Ha. destruct Ha as [b [<- Hb]].
        rewrite Hi in Ea. apply Hv in Hx. split; auto. exists b. intuition congruence.
      * intros [[a [Ha [Ea Hx]]] _]. exists (one_sided a). rewrite Hi, Hv. split; auto. apply in_map; auto.
  - intros s. unfold SV. simpl. unfold lists. split.
    + intros [v [a [Ha [Ea Hx]]]]. apply in_map_iff in Ha. destruct Ha as [b [<- Hb]].
      rewrite Hi in Ea. apply Hv in Hx. destruct (su_voluind b) as [|y r] eqn:E.
      * simpl in Hx. destruct Hx as [[]|[_ Hx]]. discriminate.
      * exists y, b. rewrite E. simpl. auto.
    + intros [v [a [Ha [Ea Hx]]]]. exists v, (one_sided a). rewrite Hi, Hv. split; auto. apply in_map; auto.
Qed.

(** Whether something is listed is decidable. *)
Lemma lists_dec A (idx : A -> Z) get (l : list A) (P : Z -> bool) i :
  (exists x, lists idx get l i x /\ P x = true) \/ ~ exists x, lists idx get l i x /\ P x = true.
Proof.
  destruct (existsb (fun a => (idx a =? i) && existsb P (get a))%bool l) eqn:E; [left|right].
  - apply existsb_exists in E. destruct E as [a [Ha E]]. apply andb_true_iff in E. destruct E as [E1 E2].
    apply existsb_exists in E2. destruct E2 as [x [Hx Px]]. exists x. split; auto. exists a. split; auto. split; [lia|auto].
  - intros [x [[a [Ha [Ea Hx]]] Px]]. rewrite <- not_true_iff_false in E. apply E. apply existsb_exists.
    exists a. split; auto. apply andb_true_iff. split; [lia|]. apply existsb_exists. eauto.
Qed.
Lemma classic_sv m s : (exists v, SV m s v) \/ ~ exists v, SV m s v.
Proof.
  destruct (lists_dec su_index su_voluind (surfs m) (fun _ => true) s) as [[x [H _]]|H]; [left; exists x; auto|right].
  intros [x Hx]. apply H. exists x. auto.
Qed.
Lemma classic_es m e d : (exists s, ES m e s /\ ~ In s d) \/ ~ exists s, ES m e s /\ ~ In s d.
Proof.
  destruct (lists_dec ed_index ed_surfind (edges m) (fun x => negb (mem_z x d)) e) as [[x [H Hn]]|H]; [left; exists x|right].
  - split; auto. apply mem_z_not_In, negb_true_iff. auto.
  - intros [x [Hx Hn]]. apply H. exists x. split; auto. apply negb_true_iff, mem_z_not_In. auto.
Qed.
Lemma classic_ve m e d : (exists s, VE m e s /\ ~ In s d) \/ ~ exists s, VE m e s /\ ~ In s d.
Proof.
  destruct (lists_dec ve_index ve_edgeind (verts m) (fun x => negb (mem_z x d)) e) as [[x [H Hn]]|H]; [left; exists x|right].
  - split; auto. apply mem_z_not_In, negb_true_iff. auto.
  - intros [x [Hx Hn]]. apply H. exists x. split; auto. apply negb_true_iff, mem_z_not_In. auto.
Qed.

Lemma crop_core_spec m t L : well_connected m -> 1 <= t <= 4 ->
  (forall i, In i L -> crop_target m t i) -> (forall e, plan_edge m t L e -> ~ ES m e 0) ->
  (forall v, has_volu m v -> 0 < v) ->
  plan_volu m t L 0 \/ (forall v, ~ plan_volu m t L v) ->
  exists m', crop_core t L m = Ok m' /\ well_connected m' /\ cropped m t L m' /\ restricted m m' /\ meshDim m' = meshDim m.
Proof.
  intros W Ht HL H0 Hpos Hext. unfold crop_core.
  destruct (crop_lists_ok W HL H0 Ht) as [n [e [s [v [E [In1 [Ie [Is Iv]]]]]]]].
  rewrite E. cbn [bind]. clear E.
  destruct (@crop_volus_spec v) as [d4 [E4 I4]].
  { destruct Hext as [Hx|Hx]; [left|right].
    - split; [apply Iv; auto|]. intros x Hi. apply Iv in Hi. apply (plan_volu_has W HL) in Hi.
      destruct Hi as [->|Hi]; [lia|]. specialize (Hpos _ Hi). lia.
    - destruct v as [|x r]; auto. exfalso. apply (Hx x), Iv. left; auto. }
  rewrite E4. cbv iota beta. clear E4.
  (* volumes *)
  destruct (@removes4 d4 m W) as [m1 [E1 [W1 [O1 [R1 S1]]]]].
  { intros i Hi. apply I4 in Hi. destruct Hi as [Hi Hz]. apply Iv in Hi. apply (plan_volu_has W HL) in Hi. tauto. }
  rewrite E1. cbn [bind]. clear E1.
  destruct (one_sided_restr m1) as [O1' [R1' S1']].
  set (m1' := set_surfs (map one_sided (surfs m1)) m1) in *.
  assert (W1' : well_connected m1').
  { eapply restr_wc; [exact W1|eapply objs_unique; eauto; apply W1|apply objs_volus; auto|exact R1']. }
  assert (O : objs m m1') by (eapply objs_trans; eauto).
  set (d3 := tighten _). cbv zeta.
  assert (I3 : forall x, In x d3 <-> plan_surf m t L x \/ (has_surf m x /\ ~ exists v, SV m x v)).
  { intros x. unfold d3. rewrite tighten_In, in_app_iff, Is.
    rewrite (@empties_In _ su_index su_voluind (surfs m1)) by apply W1.
    change ((exists a, In a (surfs m1) /\ su_index a = x)) with (has_surf m1 x).
    destruct (objs_has O1) as [_ [Hs _]]. rewrite Hs.
    change ((exists x0, lists su_index su_voluind (surfs m1) x x0)) with (exists v, SV m1 x v). rewrite (S1 x). tauto. }
  (* surfaces *)
  destruct (@removes3 d3 m1' W1') as [m2 [E2 [W2 [O2 [R2 S2]]]]].
  { intros i Hi. apply I3 in Hi. apply (objs_has O). destruct Hi as [Hi|[Hi _]]; auto.
    eapply plan_surf_has; eauto. }
  rewrite E2. cbn [bind]. clear E2.
  assert (O' : objs m m2) by (eapply objs_trans; eauto).
  assert (R02 : restr m T T (fun x => ~ In x d3) (fun x => ~ In x d4) m2).
  { eapply restr_ext; [..|eapply restr_trans; [eapply restr_trans; [exact R1|exact R1']|exact R2]]; unfold T; tauto. }
  set (d2 := tighten _). cbv zeta.
  assert (I2 : forall x, In x d2 <-> plan_edge m t L x \/ (has_edge m x /\ ~ exists y, ES m x y /\ ~ In y d3)).
  { intros x. unfold d2. rewrite tighten_In, in_app_iff, Ie.
    rewrite (@empties_In _ ed_index ed_surfind (edges m2)) by apply W2.
    change ((exists a, In a (edges m2) /\ ed_index a = x)) with (has_edge m2 x).
    destruct (objs_has O') as [_ [_ [He _]]]. rewrite He.
    assert (HE : (exists x0, lists ed_index ed_surfind (edges m2) x x0) <-> exists y, ES m x y /\ ~ In y d3).
    { destruct R02 as [_ [_ [R _]]]. unfold T in R. split; intros [y Hy]; exists y; specialize (R x y); unfold ES in *; tauto. }
    rewrite HE. tauto. }
  (* edges *)
  destruct (@removes2 d2 m2 W2) as [m3 [E3 [W3 [O3 [R3 S3]]]]].
  { intros i Hi. apply I2 in Hi. apply (objs_has O'). destruct Hi as [Hi|[Hi _]]; auto.
    eapply plan_edge_has; eauto. }
  rewrite E3. cbn [bind]. clear E3.
  assert (O'' : objs m m3) by (eapply objs_trans; eauto).
  assert (R03 : restr m T (fun x => ~ In x d2) (fun x => ~ In x d3) (fun x => ~ In x d4) m3).
  { eapply restr_ext; [..|eapply restr_trans; [exact R02|exact R3]]; unfold T; tauto. }
  set (d1 := tighten _). cbv zeta.
  assert (I1 : forall x, In x d1 <-> plan_vert t L x \/ (has_vert m x /\ ~ exists y, VE m x y /\ ~ In y d2)).
  { intros x. unfold d1. rewrite tighten_In, in_app_iff, In1.
    rewrite (@empties_In _ ve_index ve_edgeind (verts m3)) by apply W3.
    change ((exists a, In a (verts m3) /\ ve_index a = x)) with (has_vert m3 x).
    destruct (objs_has O'') as [_ [_ [_ He]]]. rewrite He.
    assert (HE : (exists x0, lists ve_index ve_edgeind (verts m3) x x0) <-> exists y, VE m x y /\ ~ In y d2).
    { destruct R03 as [R _]. unfold T in R. split; intros [y Hy]; exists y; specialize (R x y); unfold VE in *; tauto. }
    rewrite HE. tauto. }
  (* vertices *)
  destruct (@removes1 m3 d1 W3) with (m0 := m3) as [m4 [E4 [A1 [A2 [A3 [A4 [A5 [A6 A7]]]]]]]]; auto.
  { intros i Hi. apply I1 in Hi. apply (objs_has O''). destruct Hi as [Hi|[Hi _]]; auto.
    eapply plan_vert_has; eauto. }
  rewrite E4. cbn [bind]. clear E4.
  eexists. split; [reflexivity|].
  match goal with |- well_connected ?x /\ _ => set (m5 := x) end.
  assert (HV : forall i, has_volu m5 i <-> has_volu m i /\ ~ In i d4).
  { intros i. destruct (objs_has O'') as [H _]. rewrite <- H. unfold has_volu, m5; simpl. rewrite drop_has, A1. tauto. }
  assert (HS : forall i, has_surf m5 i <-> has_surf m i /\ ~ In i d3).
  { intros i. destruct (objs_has O'') as [_ [H _]]. rewrite <- H. unfold has_surf, m5; simpl. rewrite drop_has, A2. tauto. }
  assert (HE : forall i, has_edge m5 i <-> has_edge m i /\ ~ In i d2).
  { intros i. destruct (objs_has O'') as [_ [_ [H _]]]. rewrite <- H. rewrite (has_edge_In m3), <- A5, in_map_idx.
    unfold has_edge, m5; simpl. rewrite drop_has. tauto. }
  assert (HN : forall i, has_vert m5 i <-> has_vert m i /\ ~ In i d1).
  { intros i. destruct (objs_has O'') as [_ [_ [_ H]]]. rewrite <- H. unfold has_vert, m5; simpl. rewrite drop_has, A3. tauto. }
  assert (U5 : unique_indices m5).
  { destruct W as [[_ [_ [_ [_ [Z1 [Z2 [Z3 Z4]]]]]]] _].
    unfold unique_indices. rewrite HV, HS, HE, HN.
    repeat apply conj; try tauto; unfold m5; simpl; apply drop_NoDup.
    - rewrite A1. apply W3. - rewrite A2. apply W3. - rewrite A5. apply W3. - rewrite A3. apply W3. }
  assert (R5 : restr m (fun x => ~ In x d1) (fun x => ~ In x d2) (fun x => ~ In x d3) (fun x => ~ In x d4) m5).
  { destruct R03 as [B1 [B2 [B3 [B4 [B5 B6]]]]]. unfold T in *. repeat apply conj; intros; unfold m5.
    - unfold VE; simpl. rewrite drop_lists, A3. fold (VE m3 n0 e0). rewrite B1. tauto.
    - unfold EV; simpl. rewrite drop_lists. fold (EV m4 e0 n0). rewrite A7, B2. tauto.
    - unfold ES; simpl. rewrite drop_lists, (@lists_maps _ ed_index ed_surfind (edges m3)) by auto.
      fold (ES m3 e0 s0). rewrite B3. tauto.
    - unfold SE; simpl. rewrite drop_lists, A2. fold (SE m3 s0 e0). rewrite B4. tauto.
    - unfold SV; simpl. rewrite drop_lists, A2. fold (SV m3 s0 v0). rewrite B5 by auto. tauto.
    - unfold VS; simpl. rewrite drop_lists, A1. fold (VS m3 v0 s0). rewrite B6. tauto. }
  split; [|split; [|split]].
  - eapply (restr_wc W U5 (PV := fun x => ~ In x d4)); [|exact R5]. unfold m5; simpl. rewrite A1. intros H. apply (objs_volus O''). intros E. rewrite E in H. auto.
  - assert (Hd3 : forall x, has_surf m x -> (~ In x d3 <-> ~ plan_surf m t L x /\ exists v, SV m x v)).
    { intros x Hx. rewrite I3. split.
      - intros H. split; [tauto|]. destruct (classic_sv m x) as [Hc|Hc]; auto. exfalso. apply H. auto.
      - intros [Hp Hs] [Hc|[_ Hc]]; auto. }
    repeat apply conj.
    + intros i. rewrite HV, I4, Iv. split; [|tauto]. intros [Hi Hn]. split; auto. intros Hp. apply Hn. split; auto.
      specialize (Hpos _ Hi). lia.
    + intros i. rewrite HS. split; intros [Hi Hn]; (split; [auto|]); apply Hd3; auto.
    + intros i. rewrite HE, I2. split.
      * intros [Hi Hn]. split; auto. split; [tauto|].
        destruct (classic_es m i d3) as [[y [Hy Hd]]|Hc]; [|exfalso; apply Hn; auto].
        exists y. split; auto. destruct (Z.eq_dec y 0); auto. right. rewrite HS. split; auto. eapply es_surf; eauto.
      * intros [Hi [Hp [y [Hy Hd]]]]. split; auto. intros [Hc|[_ Hc]]; auto. apply Hc. exists y. split; auto.
        destruct Hd as [->|Hd]; [|apply HS in Hd; tauto]. rewrite I3. intros [Hq|[Hq _]].
        -- eapply plan_surf_has in Hq; eauto. apply W in Hq. auto.
        -- apply W in Hq. auto.
    + intros i. rewrite HN, I1. split.
      * intros [Hi Hn]. split; auto. split; [tauto|].
        destruct (classic_ve m i d2) as [[y [Hy Hd]]|Hc]; [|exfalso; apply Hn; auto].
        exists y. split; auto. rewrite HE. split; auto. eapply ve_edge; eauto.
      * intros [Hi [Hp [y [Hy Hd]]]]. split; auto. intros [Hc|[_ Hc]]; auto. apply Hc. exists y. split; auto.
        apply HE in Hd. tauto.
  - destruct R5 as [B1 [B2 [B3 [B4 [B5 B6]]]]]. repeat apply conj; intros.
    + rewrite B1, HN, HE. split; [|tauto]. intros [H H']. split; auto. split; split; try tauto.
      * apply lists_has in H. exact H.
      * eapply ve_edge; eauto.
    + rewrite B2, HN, HE. split; [|tauto]. intros [H H']. split; auto. split; split; try tauto.
      * destruct W as [_ [[_ [M2 _]] [_ [X2 _]]]]. apply M2 in H; [apply lists_has in H; exact H|].
        intros ->. apply (X2 e0); auto.
      * apply lists_has in H. exact H.
    + rewrite B3, HE, HS. split; [|tauto]. intros [H' H'']. split; auto. split; split; try tauto.
      * apply lists_has in H'. exact H'.
      * eapply es_surf; eauto.
    + rewrite B3, HE. split; [intros [H [H' _]]|intros [H [_ H']]].
      * split; auto. split; auto. apply lists_has in H. exact H.
      * split; auto. split; auto. rewrite I3. intros [Hq|[Hq _]].
        -- eapply plan_surf_has in Hq; eauto. apply W in Hq. auto.
        -- apply W in Hq. auto.
    + rewrite B4, HE, HS. split; [|tauto]. intros [H' H'']. split; auto. split; split; try tauto.
      * destruct W as [_ [[_ [_ [_ [M4 _]]]] [_ [_ [X3 _]]]]]. apply M4 in H'; [apply lists_has in H'; exact H'|].
        intros ->. apply (X3 s0); auto.
      * apply lists_has in H'. exact H'.
    + rewrite B5, HV, HS by auto. split; [|tauto]. intros [H' H'']. split; auto. split; split; try tauto.
      * apply lists_has in H'. exact H'.
      * eapply sv_volu; eauto.
    + rewrite B6, HV, HS. split; [|tauto]. intros [H' H'']. split; auto. split; split; try tauto.
      * destruct W as [_ [[_ [_ [_ [_ [_ M6]]]]] [_ [_ [_ [X4 _]]]]]]. apply M6 in H'; [apply lists_has in H'; exact H'|].
        intros ->. apply (X4 v0); auto.
      * apply lists_has in H'. exact H'.
  - unfold m5; simpl. rewrite A4. apply O''.
Qed.
