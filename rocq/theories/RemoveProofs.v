(** RemoveIndex, TestConnectivity, merging and tightening. *)
From Verif Require Import Base Containers ContainersProofs Mesh SpecMesh MeshProofs SwitchProofs.
Set Implicit Arguments.
Open Scope Z_scope.

(** ** RemoveIndex *)
Lemma lists_erased A (idx : A -> Z) get set (l : list A) ks x0 i x :
  (forall l a, get (set l a) = l) -> (forall l a, idx (set l a) = idx a) ->
  (forall k, lists idx get l k x0 -> In k ks) ->
  lists idx get (map (fun a => if mem_z (idx a) ks then set (erase_all x0 (get a)) a else a) l) i x <->
  lists idx get l i x /\ x <> x0.
Proof.
  intros Hg Hi Hks. unfold lists. split.
  - intros [a' [Ha [Ei Hx]]]. apply in_map_iff in Ha. destruct Ha as [a [Ea Ha]].
    destruct (mem_z (idx a) ks) eqn:Em; subst a'.
    + rewrite Hi in Ei. rewrite Hg in Hx. apply erase_all_In in Hx. split; [exists a; tauto|tauto].
    + split; [exists a; auto|]. intros ->. apply mem_z_not_In in Em. apply Em. apply Hks. exists a; auto.
  - intros [[a [Ha [Ei Hx]]] Hne].
    eexists. split; [apply in_map_iff; exists a; split; [reflexivity|auto]|].
    destruct (mem_z (idx a) ks); auto. rewrite Hi, Hg. split; auto. apply erase_all_In; auto.
Qed.

Lemma lists_cleared A (idx : A -> Z) get f (l : list A) k i x :
  (forall a, idx (f a) = idx a) -> (forall a, get (f a) = []) ->
  lists idx get (on idx k f l) i x <-> lists idx get l i x /\ i <> k.
Proof.
  intros Hi Hg. unfold lists, on. split.
  - intros [a' [Ha [Ei Hx]]]. apply in_map_iff in Ha. destruct Ha as [a [Ea Ha]].
    destruct (Z.eqb_spec (idx a) k); subst a'.
    + rewrite Hg in Hx. destruct Hx.
    + split; [exists a; auto|congruence].
  - intros [[a [Ha [Ei Hx]]] Hne]. exists a. split; auto. apply in_map_iff. exists a. split; auto.
    destruct (Z.eqb_spec (idx a) k); congruence.
Qed.

Lemma map_same_if A B (g : A -> B) (f : A -> A) (c : A -> bool) l :
  (forall a, g (f a) = g a) -> map g (map (fun a => if c a then f a else a) l) = map g l.
Proof. intros H. apply map_same. intros a _. destruct (c a); auto. Qed.

Lemma remove1_spec m i :
  well_connected m -> has_vert m i ->
  exists m', remove1 i m = Ok m' /\ same_objects m m' /\
    volus m' = volus m /\ surfs m' = surfs m /\ verts m' = verts m /\
    map ed_surfind (edges m') = map ed_surfind (edges m) /\
    (forall e v, EV m' e v <-> EV m e v /\ v <> i).
Proof.
  intros [[Uv [Us [Ue [Un [Zv [Zs [Ze Zn]]]]]]] [[M1 [M2 [M3 [M4 [M5 M6]]]]] [X1 [X2 [X3 [X4 X5]]]]]] Ho.
  unfold remove1. destruct (find_at ve_index (verts m) Ho) as [vo [Hat [Hin Hidx]]].
  rewrite Hat. cbn [bind].
  pose proof (@owner _ ve_index ve_edgeind (verts m) _ _ Un Hin Hidx) as Hown.
  assert (Hks : forall k, In k (ve_edgeind vo) <-> EV m k i).
  { intros k. rewrite Hown. split.
    - intros H. apply M1; auto. intros ->. apply (X1 i). exact H.
    - intros H. apply M2; auto. intros ->. apply Zn. exact Ho. }
  unfold erase_at. rewrite (@for_each_modify _ ed_index (fun a => ed_set_vertind (erase_all i (ed_vertind a)) a)); auto.
  2:{ intros []. unfold ed_set_vertind. simpl. rewrite erase_all_idem. reflexivity. }
  2:{ intros k Hk. apply Hks in Hk. apply has_edge_In. apply lists_has in Hk. exact Hk. }
  cbn [bind]. eexists. split; [reflexivity|].
  split; [|split; [reflexivity|split; [reflexivity|split; [reflexivity|split]]]]; simpl.
  - repeat split; simpl; auto. apply map_same_if; auto.
  - apply map_same_if; auto.
  - intros e v. unfold EV. simpl. rewrite lists_erased; auto; [reflexivity|].
    intros k Hk. apply Hks. exact Hk.
Qed.

Lemma remove2_spec m i :
  well_connected m -> has_edge m i ->
  exists m', remove2 i m = Ok m' /\ same_objects m m' /\
    volus m' = volus m /\ map su_voluind (surfs m') = map su_voluind (surfs m) /\
    (forall v e, VE m' v e <-> VE m v e /\ e <> i) /\
    (forall s e, SE m' s e <-> SE m s e /\ e <> i) /\
    (forall e v, EV m' e v <-> EV m e v /\ e <> i) /\
    (forall e s, ES m' e s <-> ES m e s /\ e <> i) /\
    (forall s s', In s (surfs m) -> In s' (surfs m') -> su_index s' = su_index s ->
       su_ordered s' = su_ordered s && negb (mem_z i (su_edgeind s))).
Proof.
  intros [[Uv [Us [Ue [Un [Zv [Zs [Ze Zn]]]]]]] [[M1 [M2 [M3 [M4 [M5 M6]]]]] [X1 [X2 [X3 [X4 X5]]]]]] Ho.
  unfold remove2. destruct (find_at ed_index (edges m) Ho) as [eo [Hat [Hin Hidx]]].
  rewrite Hat. cbn [bind].
  pose proof (@owner _ ed_index ed_vertind (edges m) _ _ Ue Hin Hidx) as HownV.
  pose proof (@owner _ ed_index ed_surfind (edges m) _ _ Ue Hin Hidx) as HownS.
  assert (HksV : forall k, In k (ed_vertind eo) <-> VE m k i).
  { intros k. rewrite HownV. split.
    - intros H. apply M2; auto. intros ->. apply (X2 i). exact H.
    - intros H. apply M1; auto. intros ->. apply Ze. exact Ho. }
  unfold erase_at. rewrite (@for_each_modify _ ve_index (fun a => ve_set_edgeind (erase_all i (ve_edgeind a)) a)); auto.
  2:{ intros []. unfold ve_set_edgeind. simpl. rewrite erase_all_idem. reflexivity. }
  2:{ intros k Hk. apply HksV in Hk. apply has_vert_In. apply lists_has in Hk. exact Hk. }
  cbn [bind]. rewrite for_each_if_found.
  set (ks := filter (fun k => mem_z k (map su_index (surfs m))) (ed_surfind eo)).
  assert (HksS : forall k, In k ks <-> SE m k i).
  { intros k. unfold ks. rewrite filter_In, mem_z_In, HownS, <- has_surf_In. split.
    - intros [H1 H2]. apply M3; auto. intros ->; auto.
    - intros H. split; [apply M4; auto; intros ->; auto|]. apply lists_has in H. exact H. }
  assert (Hdi : forall a, su_index (drop_edge i a) = su_index a)
    by (intros a; unfold drop_edge; destruct (mem_z _ _); reflexivity).
  rewrite (@for_each_modify _ su_index (drop_edge i)); auto.
  2:{ intros [si sb so sv se]. unfold drop_edge; simpl. destruct (mem_z i se) eqn:E; simpl;
      rewrite ?erase_all_idem; (assert (mem_z i (erase_all i se) = false) as -> by
        (apply mem_z_not_In; rewrite erase_all_In; tauto)); unfold su_set_edgeind, su_set_ordered; simpl;
      rewrite ?erase_all_idem; reflexivity. }
  2:{ intros k Hk. apply HksS in Hk. apply has_surf_In. apply lists_has in Hk. exact Hk. }
  cbn [bind]. rewrite modify_find; auto; [|apply has_edge_In; auto].
  cbn [bind]. eexists. split; [reflexivity|].
  split; [|split; [reflexivity|split; [|split; [|split; [|split; [|split]]]]]]; simpl.
  - repeat split; simpl; auto.
    + apply map_same_if. intros a; unfold drop_edge; destruct (mem_z _ _); reflexivity.
    + unfold on. apply map_same_if; auto.
    + apply map_same_if; auto.
  - apply map_same_if. intros a; unfold drop_edge; destruct (mem_z _ _); reflexivity.
  - intros v e. unfold VE. simpl. rewrite lists_erased; auto; [reflexivity|].
    intros k Hk. apply HksV. exact Hk.
  - intros s e. unfold SE. simpl.
    assert (Hge : forall a, su_edgeind (drop_edge i a) = erase_all i (su_edgeind a))
      by (intros a; unfold drop_edge; destruct (mem_z _ _); reflexivity).
    rewrite <- (@lists_erased _ su_index su_edgeind su_set_edgeind (surfs m) ks i s e); auto.
    2:{ intros k Hk. apply HksS. exact Hk. }
    unfold lists. split; intros [a' [Ha [Ei Hx]]]; apply in_map_iff in Ha; destruct Ha as [a [Ea Ha]];
      (eexists; split; [apply in_map_iff; exists a; split; [reflexivity|auto]|]);
      destruct (mem_z (su_index a) ks); subst a'; auto.
    + rewrite Hge in Hx. rewrite Hdi in Ei. auto.
    + rewrite Hge, Hdi. auto.
  - intros e v. unfold EV. simpl. apply lists_cleared; auto.
  - intros e s. unfold ES. simpl. apply lists_cleared; auto.
  - intros s s' Hs Hs' E. apply in_map_iff in Hs'. destruct Hs' as [a [Ea Ha]].
    assert (Eia : su_index a = su_index s) by (rewrite <- E, <- Ea; destruct (mem_z _ _); auto).
    assert (a = s) by (eapply (@NoDup_idx_inj _ su_index (surfs m)); eauto). subst a.
    destruct (mem_z i (su_edgeind s)) eqn:Em.
    + assert (mem_z (su_index s) ks = true) as Ek.
      { apply mem_z_In, HksS. exists s. rewrite mem_z_In in Em. auto. }
      rewrite Ek in Ea. subst s'. unfold drop_edge. rewrite Em. simpl. rewrite andb_false_r. reflexivity.
    + simpl. rewrite andb_true_r. destruct (mem_z (su_index s) ks); subst s'; auto.
      unfold drop_edge. rewrite Em. reflexivity.
Qed.

Lemma remove3_spec m i :
  well_connected m -> has_surf m i ->
  exists m', remove3 i m = Ok m' /\ same_objects m m' /\
    verts m' = verts m /\ map ed_vertind (edges m') = map ed_vertind (edges m) /\
    (forall e s, ES m' e s <-> ES m e s /\ s <> i) /\
    (forall v s, VS m' v s <-> VS m v s /\ s <> i) /\
    (forall s e, SE m' s e <-> SE m s e /\ s <> i) /\
    (forall s v, SV m' s v <-> SV m s v /\ s <> i).
Proof.
  intros [[Uv [Us [Ue [Un [Zv [Zs [Ze Zn]]]]]]] [[M1 [M2 [M3 [M4 [M5 M6]]]]] [X1 [X2 [X3 [X4 X5]]]]]] Ho.
  unfold remove3. destruct (find_at su_index (surfs m) Ho) as [so [Hat [Hin Hidx]]].
  rewrite Hat. cbn [bind].
  pose proof (@owner _ su_index su_edgeind (surfs m) _ _ Us Hin Hidx) as HownE.
  pose proof (@owner _ su_index su_voluind (surfs m) _ _ Us Hin Hidx) as HownV.
  assert (HksE : forall k, In k (su_edgeind so) <-> ES m k i).
  { intros k. rewrite HownE. split.
    - intros H. apply M4; auto. intros ->. apply (X3 i). exact H.
    - intros H. apply M3; auto. intros ->. apply Zs. exact Ho. }
  unfold erase_at. rewrite (@for_each_modify _ ed_index (fun a => ed_set_surfind (erase_all i (ed_surfind a)) a)); auto.
  2:{ intros []. unfold ed_set_surfind. simpl. rewrite erase_all_idem. reflexivity. }
  2:{ intros k Hk. apply HksE in Hk. apply has_edge_In. apply lists_has in Hk. exact Hk. }
  cbn [bind]. rewrite for_each_if_found.
  set (ks := filter (fun k => mem_z k (map vo_index (volus m))) (su_voluind so)).
  assert (HksV : forall k, In k ks <-> VS m k i).
  { intros k. unfold ks. rewrite filter_In, mem_z_In, HownV, <- has_volu_In. split.
    - intros [H1 H2]. apply M5; auto. intros ->; auto.
    - intros H. split; [apply M6; auto; intros ->; apply (X4 k); auto|]. apply lists_has in H. exact H. }
  rewrite (@for_each_modify _ vo_index (fun a => vo_set_surfind (erase_all i (vo_surfind a)) a)); auto.
  2:{ intros []. unfold vo_set_surfind. simpl. rewrite erase_all_idem. reflexivity. }
  2:{ intros k Hk. apply HksV in Hk. apply has_volu_In. apply lists_has in Hk. exact Hk. }
  cbn [bind]. rewrite modify_find; auto; [|apply has_surf_In; auto].
  cbn [bind]. eexists. split; [reflexivity|].
  split; [|split; [reflexivity|split; [|split; [|split; [|split]]]]]; simpl.
  - repeat split; simpl; auto; try (apply map_same_if; auto).
  - apply map_same_if; auto.
  - intros e s. unfold ES. simpl. rewrite lists_erased; auto; [reflexivity|].
    intros k Hk. apply HksE. exact Hk.
  - intros v s. unfold VS. simpl. rewrite lists_erased; auto; [reflexivity|].
    intros k Hk. apply HksV. exact Hk.
  - intros s e. unfold SE. simpl. apply lists_cleared; auto.
  - intros s v. unfold SV. simpl. apply lists_cleared; auto.
Qed.

(** The sides of a surface after a volume is dropped. *)
Definition sides (l : list Z) (old : Z) : list Z :=
  erase_all old l ++ repeat 0 (Nat.min (count_occ Z.eq_dec l old) (2 - length (erase_all old l))).

Lemma count_erase old l : (count_occ Z.eq_dec l old + length (erase_all old l) = length l)%nat.
Proof.
  unfold erase_all. induction l as [|x r IH]; simpl; auto.
  destruct (Z.eq_dec x old) as [->|E].
  - rewrite Z.eqb_refl. simpl. lia.
  - destruct (Z.eqb_spec x old); [congruence|]. simpl. lia.
Qed.

Lemma count_snoc0 old r : old <> 0 -> count_occ Z.eq_dec (r ++ [0]) old = count_occ Z.eq_dec r old.
Proof. intros H. rewrite count_occ_app, count_occ_cons_neq by congruence. simpl. lia. Qed.

Lemma erase_snoc0 old r : old <> 0 -> erase_all old (r ++ [0]) = erase_all old r ++ [0].
Proof.
  intros H. unfold erase_all. rewrite filter_app. f_equal. cbn [filter].
  destruct (Z.eqb_spec 0 old); [congruence|reflexivity].
Qed.
Lemma erase_cons_eq old r : erase_all old (old :: r) = erase_all old r.
Proof. unfold erase_all. cbn [filter]. rewrite Z.eqb_refl. reflexivity. Qed.
Lemma erase_cons_neq old x r : x <> old -> erase_all old (x :: r) = x :: erase_all old r.
Proof. intros H. unfold erase_all. cbn [filter]. destruct (Z.eqb_spec x old); [congruence|reflexivity]. Qed.

Lemma erase_push0_spec old : old <> 0 -> forall n seen rest k,
  (length rest + Nat.min (count_occ Z.eq_dec rest old) 2 + k < n)%nat -> ~ In old seen ->
  erase_push0 n old seen rest =
  seen ++ erase_all old rest ++
  repeat 0 (Nat.min (count_occ Z.eq_dec rest old) (2 - length (seen ++ erase_all old rest))).
Proof.
  intros H0. induction n as [|n IH]; intros seen rest k Hn Hs; [lia|].
  destruct rest as [|x r]; cbn [erase_push0].
  { simpl. rewrite app_nil_r. reflexivity. }
  destruct (Z.eqb_spec x old) as [->|E].
  - rewrite count_occ_cons_eq in * by reflexivity. cbn [length] in Hn.
    rewrite erase_cons_eq. pose proof (count_erase old r) as Hce.
    destruct (Nat.ltb_spec (length (seen ++ r)) 2) as [Hl|Hl]; rewrite app_length in Hl.
    + rewrite (IH seen (r ++ [0]) 0%nat); auto.
      * rewrite erase_snoc0, count_snoc0, !app_length by auto. cbn [length].
        rewrite <- !app_assoc. f_equal. f_equal.
        replace (Nat.min (count_occ Z.eq_dec r old) (2 - (length seen + (length (erase_all old r) + 1))))
          with (count_occ Z.eq_dec r old) by lia.
        replace (Nat.min (S (count_occ Z.eq_dec r old)) (2 - (length seen + length (erase_all old r))))
          with (S (count_occ Z.eq_dec r old)) by lia.
        reflexivity.
      * rewrite app_length, count_snoc0 by auto. cbn [length]. lia.
    + rewrite (IH seen r k); auto; [|lia].
      f_equal. f_equal. f_equal. rewrite !app_length. lia.
  - rewrite count_occ_cons_neq in * by auto. cbn [length] in Hn.
    rewrite erase_cons_neq by auto.
    rewrite (IH (seen ++ [x]) r k); auto; [|lia|].
    + rewrite <- !app_assoc. reflexivity.
    + rewrite in_app_iff. simpl. intuition.
Qed.

Lemma drop_volu_sides old l : old <> 0 -> drop_volu old l = sides l old.
Proof.
  intros H0. unfold drop_volu, sides.
  rewrite (@erase_push0_spec old H0 _ [] l 0%nat); [reflexivity| |simpl; tauto].
  pose proof (count_erase old l). lia.
Qed.

Lemma sides_In l old x : old <> 0 -> x <> 0 -> In x (sides l old) <-> In x l /\ x <> old.
Proof.
  intros H0 Hx. unfold sides. rewrite in_app_iff, erase_all_In. split; auto.
  intros [H|H]; auto. apply repeat_spec in H. congruence.
Qed.

Lemma sides_not_old l old : old <> 0 -> ~ In old (sides l old).
Proof.
  intros H0. unfold sides. rewrite in_app_iff, erase_all_In. intros [[_ H]|H]; auto.
  apply repeat_spec in H. congruence.
Qed.

Lemma sides_length l old : (2 <= length l)%nat ->
  length (sides l old) = Nat.max 2 (length l - count_occ Z.eq_dec l old).
Proof. intros H. unfold sides. rewrite app_length, repeat_length. pose proof (count_erase old l). lia. Qed.

Lemma sides_absent l old : ~ In old l -> sides l old = l.
Proof.
  intros H. unfold sides. rewrite erase_all_absent; auto.
  rewrite (proj1 (count_occ_not_In Z.eq_dec l old)); auto. simpl. apply app_nil_r.
Qed.

Lemma sides_idem l old : old <> 0 -> sides (sides l old) old = sides l old.
Proof. intros H. apply sides_absent. apply sides_not_old; auto. Qed.

Lemma remove4_spec m i :
  well_connected m -> has_volu m i ->
  exists m', remove4 i m = Ok m' /\ same_objects m m' /\
    verts m' = verts m /\ edges m' = edges m /\
    map su_edgeind (surfs m') = map su_edgeind (surfs m) /\
    map su_voluind (surfs m') = map (fun s => sides (su_voluind s) i) (surfs m) /\
    (forall v s, VS m' v s <-> VS m v s /\ v <> i).
Proof.
  intros [[Uv [Us [Ue [Un [Zv [Zs [Ze Zn]]]]]]] [[M1 [M2 [M3 [M4 [M5 M6]]]]] [X1 [X2 [X3 [X4 X5]]]]]] Ho.
  assert (Hi0 : i <> 0) by (intros ->; auto).
  unfold remove4. destruct (find_at vo_index (volus m) Ho) as [vo [Hat [Hin Hidx]]].
  rewrite Hat. cbn [bind].
  pose proof (@owner _ vo_index vo_surfind (volus m) _ _ Uv Hin Hidx) as Hown.
  assert (Hks : forall k, In k (vo_surfind vo) <-> SV m k i).
  { intros k. rewrite Hown. split.
    - intros H. apply M6; auto. intros ->. apply (X4 i). exact H.
    - intros H. apply M5; auto. }
  rewrite (@for_each_modify _ su_index (fun s => su_set_voluind (drop_volu i (su_voluind s)) s)); auto.
  2:{ intros []. unfold su_set_voluind. simpl. rewrite !drop_volu_sides, sides_idem; auto. }
  2:{ intros k Hk. apply Hks in Hk. apply has_surf_In. apply lists_has in Hk. exact Hk. }
  cbn [bind]. rewrite modify_find; auto; [|apply has_volu_In; auto].
  cbn [bind]. eexists. split; [reflexivity|].
  split; [|split; [reflexivity|split; [reflexivity|split; [|split]]]]; simpl.
  - repeat split; simpl; auto; apply map_same_if; auto.
  - apply map_same_if; auto.
  - rewrite map_map. apply map_ext_in. intros s Hs.
    destruct (mem_z (su_index s) (vo_surfind vo)) eqn:Em.
    + simpl. apply drop_volu_sides; auto.
    + rewrite sides_absent; auto. intros Hc. apply mem_z_not_In in Em. apply Em, Hks. exists s; auto.
  - intros v s. unfold VS. simpl. apply lists_cleared; auto.
Qed.

(** ** TestConnectivity *)
Lemma count_if_nonneg A (f : A -> bool) l : 0 <= count_if f l.
Proof. unfold count_if. lia. Qed.
Lemma sum_over_nonneg A (f : A -> Z) l : (forall a, In a l -> 0 <= f a) -> 0 <= sum_over f l.
Proof.
  induction l as [|a r IH]; simpl; intros H; [lia|].
  pose proof (H a (or_introl eq_refl)). assert (0 <= sum_over f r) by (apply IH; intros; apply H; auto). lia.
Qed.
Lemma sum_over_0 A (f : A -> Z) l : (forall a, In a l -> 0 <= f a) ->
  sum_over f l = 0 <-> forall a, In a l -> f a = 0.
Proof.
  induction l as [|a r IH]; simpl; intros H.
  - split; auto; tauto.
  - pose proof (H a (or_introl eq_refl)).
    pose proof (@sum_over_nonneg _ f r (fun b Hb => H b (or_intror Hb))).
    specialize (IH (fun b Hb => H b (or_intror Hb))). split.
    + intros E. intros b [<-|Hb]; [lia|]. apply IH; auto. lia.
    + intros E. rewrite (E a) by auto. apply IH. auto.
Qed.
Lemma count_if_0 A (f : A -> bool) l : count_if f l = 0 <-> forall a, In a l -> f a = false.
Proof.
  unfold count_if. induction l as [|a r IH]; simpl.
  - split; auto; tauto.
  - destruct (f a) eqn:E; simpl.
    + split; [lia|]. intros H. rewrite (H a) in E; auto. discriminate.
    + rewrite IH. split; [intros H b [<-|Hb]; auto|auto].
Qed.
Lemma unknown0_0 T (idx : T -> Z) l refs :
  unknown0 idx l refs = 0 <-> forall r, In r refs -> r = 0 \/ exists t, In t l /\ idx t = r.
Proof.
  unfold unknown0. rewrite count_if_0. split; intros H r Hr; specialize (H r Hr).
  - apply andb_false_iff in H. destruct H as [H|H].
    + right. destruct (find_spec idx l r) as [[H1 H2]|[j [a [H1 [H2 H3]]]]]; [rewrite H1 in H; discriminate|].
      exists a; split; auto. eapply nth_error_In; eauto.
    + left. apply negb_false_iff in H. lia.
  - destruct H as [->|H]; [rewrite Z.eqb_refl; apply andb_false_r|].
    destruct (find idx l r <? 0) eqn:E; auto. apply find_lt0 in E. contradiction.
Qed.
Lemma unknown_0 T (idx : T -> Z) l refs :
  unknown idx l refs = 0 <-> forall r, In r refs -> exists t, In t l /\ idx t = r.
Proof.
  unfold unknown. rewrite count_if_0. split; intros H r Hr; specialize (H r Hr).
  - destruct (find_spec idx l r) as [[H1 H2]|[j [a [H1 [H2 H3]]]]]; [rewrite H1 in H; discriminate|].
    exists a; split; auto. eapply nth_error_In; eauto.
  - destruct (find idx l r <? 0) eqn:E; auto. apply find_lt0 in E. contradiction.
Qed.
Lemma unknown0_nonneg T (idx : T -> Z) l refs : 0 <= unknown0 idx l refs.
Proof. apply count_if_nonneg. Qed.
Lemma unknown_nonneg T (idx : T -> Z) l refs : 0 <= unknown idx l refs.
Proof. apply count_if_nonneg. Qed.
Lemma is_nil_spec A (l : list A) : is_nil l = true <-> l = [].
Proof. destruct l; simpl; split; congruence || discriminate || auto. Qed.

Lemma six_zero a b c d e f : 0 <= a -> 0 <= b -> 0 <= c -> 0 <= d -> 0 <= e -> 0 <= f ->
  a + b + c + d + e + f = 0 <-> a = 0 /\ b = 0 /\ c = 0 /\ d = 0 /\ e = 0 /\ f = 0.
Proof. lia. Qed.

Lemma lists_each A (idx : A -> Z) get l (P : Z -> Prop) :
  (forall a, In a l -> forall x, In x (get a) -> P x) <-> (forall i x, lists idx get l i x -> P x).
Proof.
  split.
  - intros H i x [a [Ha [_ Hx]]]. eauto.
  - intros H a Ha x Hx. apply (H (idx a)). exists a; auto.
Qed.

Ltac nonneg := intros;
  repeat match goal with |- context [if ?b then _ else _] => destruct b end;
  repeat match goal with
    | |- context [unknown0 ?i ?l ?r] => pose proof (unknown0_nonneg i l r); generalize dependent (unknown0 i l r); intros
    | |- context [unknown ?i ?l ?r] => pose proof (unknown_nonneg i l r); generalize dependent (unknown i l r); intros
    end; lia.

Lemma test_connectivity_spec m :
  test_connectivity m = 0 <-> references_known m /\ no_empty m.
Proof.
  unfold test_connectivity. rewrite six_zero; try (apply sum_over_nonneg; nonneg).
  rewrite !sum_over_0 by nonneg.
  unfold references_known, no_empty, VE, EV, ES, SE, SV, VS, has_edge, has_vert, has_surf, has_volu.
  rewrite <- !(lists_each _ _ _ (fun e => e = 0 \/ _)).
  rewrite <- (lists_each su_index su_edgeind (surfs m) (fun e => exists e0, In e0 (edges m) /\ ed_index e0 = e)).
  split.
  - intros [H1 [H2 [H3 [H4 [H5 H6]]]]]. repeat apply conj.
    + intros v Hv. specialize (H1 v Hv). destruct (is_nil _); [discriminate|]. apply unknown0_0. exact H1.
    + intros v Hv. apply unknown0_0. auto.
    + intros v Hv. apply unknown0_0. auto.
    + intros s Hs. specialize (H4 s Hs). apply unknown_0.
      pose proof (unknown_nonneg ed_index (edges m) (su_edgeind s)). destruct (is_nil _); lia.
    + intros v Hv. apply unknown0_0. auto.
    + intros v Hv. apply unknown0_0. auto.
    + intros v Hv E. specialize (H1 v Hv). rewrite E in H1. discriminate.
    + intros s Hs E. specialize (H4 s Hs). rewrite E in H4. discriminate.
  - intros [[H1 [H2 [H3 [H4 [H5 H6]]]]] [H7 H8]]. repeat apply conj.
    + intros v Hv. destruct (is_nil (ve_edgeind v)) eqn:E.
      * apply is_nil_spec in E. exfalso. exact (H7 v Hv E).
      * apply unknown0_0. exact (H1 v Hv).
    + intros v Hv. apply unknown0_0. exact (H2 v Hv).
    + intros v Hv. apply unknown0_0. exact (H3 v Hv).
    + intros s Hs. rewrite (proj2 (unknown_0 ed_index (edges m) (su_edgeind s))); [|exact (H4 s Hs)].
      destruct (is_nil (su_edgeind s)) eqn:E; auto. apply is_nil_spec in E. exfalso. exact (H8 s Hs E).
    + intros v Hv. apply unknown0_0. exact (H5 v Hv).
    + intros v Hv. apply unknown0_0. exact (H6 v Hv).
Qed.

Lemma one_way_0 A T (idxA : A -> Z) getA (la : list A) (idx : T -> Z) back l :
  NoDup (map idx l) ->
  (forall i x, lists idxA getA la i x -> x = 0 \/ exists t, In t l /\ idx t = x) ->
  ((forall a, In a la -> one_way idx back l (idxA a) (getA a) = 0) <->
   (forall i x, lists idxA getA la i x -> x <> 0 -> lists idx back l x i)).
Proof.
  intros Hnd Hkn. unfold one_way. split.
  - intros H i x [a [Ha [Hi Hx]]] Hx0. specialize (H a Ha). apply (proj1 (count_if_0 _ _)) with (a := x) in H; auto.
    apply andb_false_iff in H. destruct H as [H|H]; [apply negb_false_iff in H; lia|].
    destruct (Hkn i x) as [|Ht]; [exists a; auto|congruence|].
    destruct (find_at idx l Ht) as [t [Hat [Htin Hti]]]. rewrite Hat in H.
    apply negb_false_iff, mem_z_In in H. exists t. subst i. auto.
  - intros H a Ha. apply count_if_0. intros x Hx.
    destruct (Z.eqb_spec x 0) as [->|Hx0]; auto. simpl.
    destruct (H (idxA a) x) as [t [Ht [Hti Hb]]]; [exists a; auto|auto|].
    destruct (find_at idx l (k := x)) as [t' [Hat [Htin Hti']]]; [eauto|]. rewrite Hat.
    replace t' with t by (eapply (@NoDup_idx_inj _ idx l); eauto; congruence).
    apply negb_false_iff, mem_z_In. exact Hb.
Qed.

Lemma one_way_nonneg T (idx : T -> Z) back l s refs : 0 <= one_way idx back l s refs.
Proof. apply count_if_nonneg. Qed.

Lemma test_bidir_spec b m :
  unique_indices m -> references_known m ->
  (snd (test_bidir b m) = 0 <-> mutual m).
Proof.
  intros [Uv [Us [Ue [Un _]]]] [K1 [K2 [K3 [K4 [K5 K6]]]]]. unfold test_bidir. simpl.
  rewrite six_zero; try (apply sum_over_nonneg; intros; apply one_way_nonneg).
  rewrite !sum_over_0 by (intros; apply one_way_nonneg).
  rewrite (@one_way_0 _ _ ve_index ve_edgeind (verts m) ed_index ed_vertind (edges m)); auto.
  rewrite (@one_way_0 _ _ ed_index ed_vertind (edges m) ve_index ve_edgeind (verts m)); auto.
  rewrite (@one_way_0 _ _ ed_index ed_surfind (edges m) su_index su_edgeind (surfs m)); auto.
  rewrite (@one_way_0 _ _ su_index su_edgeind (surfs m) ed_index ed_surfind (edges m)); auto;
    [|intros i x H; right; apply (K4 i x H)].
  rewrite (@one_way_0 _ _ su_index su_voluind (surfs m) vo_index vo_surfind (volus m)); auto.
  rewrite (@one_way_0 _ _ vo_index vo_surfind (volus m) su_index su_voluind (surfs m)); auto.
  unfold mutual, VE, EV, ES, SE, SV, VS. split.
  - intros [H1 [H2 [H3 [H4 [H5 H6]]]]]. repeat split; eauto.
  - intros [H1 [H2 [H3 [H4 [H5 H6]]]]]. repeat split; eauto.
Qed.

Lemma fst_bidir_known b m : fst (test_bidir b m) = 0 -> references_known m.
Proof.
  unfold test_bidir. simpl. rewrite six_zero; try (apply sum_over_nonneg; nonneg).
  rewrite !sum_over_0 by nonneg.
  unfold references_known, VE, EV, ES, SE, SV, VS, has_edge, has_vert, has_surf, has_volu.
  rewrite <- !(lists_each _ _ _ (fun e => e = 0 \/ _)).
  rewrite <- (lists_each su_index su_edgeind (surfs m) (fun e => exists e0, In e0 (edges m) /\ ed_index e0 = e)).
  intros [H1 [H2 [H3 [H4 [H5 H6]]]]]. repeat apply conj.
  - intros v Hv. specialize (H1 v Hv). destruct (_ && _); [discriminate|]. apply unknown0_0. exact H1.
  - intros v Hv. specialize (H2 v Hv). apply unknown0_0.
    pose proof (unknown0_nonneg ve_index (verts m) (ed_vertind v)). destruct (_ && _); lia.
  - intros v Hv. apply unknown0_0. auto.
  - intros s Hs. specialize (H4 s Hs). apply unknown_0.
    pose proof (unknown_nonneg ed_index (edges m) (su_edgeind s)). destruct (is_nil _); lia.
  - intros v Hv. specialize (H5 v Hv). apply unknown0_0.
    pose proof (unknown0_nonneg vo_index (volus m) (su_voluind v)). destruct (_ && _); lia.
  - intros v Hv. apply unknown0_0. auto.
Qed.
