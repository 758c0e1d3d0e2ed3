(** SwitchIndex: what each type does to the reference relations. *)
From Verif Require Import Base Containers ContainersProofs Mesh SpecMesh MeshProofs.
Set Implicit Arguments.
Open Scope Z_scope.

Lemma lists_map_same A (idx : A -> Z) get f (l : list A) i x :
  (forall a, In a l -> idx (f a) = idx a /\ get (f a) = get a) ->
  lists idx get (map f l) i x <-> lists idx get l i x.
Proof.
  intros Hf. unfold lists. split.
  - intros [a' [Ha [Hi Hx]]]. apply in_map_iff in Ha. destruct Ha as [a [<- Ha]].
    destruct (Hf a Ha) as [H1 H2]. exists a. rewrite H1 in Hi. rewrite H2 in Hx. auto.
  - intros [a [Ha [Hi Hx]]]. exists (f a). destruct (Hf a Ha) as [H1 H2].
    rewrite H1, H2. split; auto. apply in_map; auto.
Qed.

Lemma lists_map_fun A (idx : A -> Z) get (g : list Z -> list Z) f (l : list A) i x :
  (forall a, In a l -> idx (f a) = idx a /\ get (f a) = g (get a)) ->
  lists idx get (map f l) i x <-> exists a, In a l /\ idx a = i /\ In x (g (get a)).
Proof.
  intros Hf. unfold lists. split.
  - intros [a' [Ha [Hi Hx]]]. apply in_map_iff in Ha. destruct Ha as [a [<- Ha]].
    destruct (Hf a Ha) as [H1 H2]. exists a. rewrite H1 in Hi. rewrite H2 in Hx. auto.
  - intros [a [Ha [Hi Hx]]]. exists (f a). destruct (Hf a Ha) as [H1 H2].
    rewrite H1, H2. split; auto. apply in_map; auto.
Qed.

Lemma map_same A B (g : A -> B) (f : A -> A) l :
  (forall a, In a l -> g (f a) = g a) -> map g (map f l) = map g l.
Proof. intros H. rewrite map_map. apply map_ext_in. exact H. Qed.

(** The element found by an index, its list as a relation. *)
Lemma owner A (idx : A -> Z) get (l : list A) k a :
  NoDup (map idx l) -> In a l -> idx a = k -> forall x, In x (get a) <-> lists idx get l k x.
Proof.
  intros Hnd Ha Hk x. split.
  - intros Hx. exists a; auto.
  - intros [b [Hb [Hi Hx]]]. replace a with b; auto. eapply NoDup_idx_inj; eauto. congruence.
Qed.

Lemma has_vert_In m i : has_vert m i <-> In i (map ve_index (verts m)).
Proof. rewrite in_map_idx. reflexivity. Qed.
Lemma has_edge_In m i : has_edge m i <-> In i (map ed_index (edges m)).
Proof. rewrite in_map_idx. reflexivity. Qed.
Lemma has_surf_In m i : has_surf m i <-> In i (map su_index (surfs m)).
Proof. rewrite in_map_idx. reflexivity. Qed.
Lemma has_volu_In m i : has_volu m i <-> In i (map vo_index (volus m)).
Proof. rewrite in_map_idx. reflexivity. Qed.

Lemma lists_has A (idx : A -> Z) get l i x : lists idx get l i x -> exists a, In a l /\ idx a = i.
Proof. intros [a [H1 [H2 _]]]; eauto. Qed.

Ltac dredirected := unfold redirected; match goal with |- context [if ?b then _ else _] => destruct b end.
Ltac don := unfold on; match goal with |- context [if ?b then _ else _] => destruct b end.

(** Type 4 *)
Lemma switch4_spec m old new :
  well_connected m -> old <> new -> has_volu m old -> has_volu m new ->
  exists m', switch4 old new m = Ok m' /\ same_objects m m' /\
    edges m' = edges m /\ verts m' = verts m /\
    map su_ordered (surfs m') = map su_ordered (surfs m) /\
    map su_edgeind (surfs m') = map su_edgeind (surfs m) /\
    (forall s v, SV m' s v <-> renamed old new (SV m s) v) /\
    (forall v s, VS m' v s <-> VS m v s \/ (v = new /\ VS m old s)).
Proof.
  intros [[Uv [Us [Ue [Un [Zv [Zs [Ze Zn]]]]]]] [[M1 [M2 [M3 [M4 [M5 M6]]]]] [X1 [X2 [X3 [X4 X5]]]]]] Hne Ho Hn.
  unfold switch4. destruct (find_at vo_index (volus m) Ho) as [vo [Hat [Hin Hidx]]].
  rewrite Hat. simpl.
  pose proof (@owner _ vo_index vo_surfind (volus m) _ _ Uv Hin Hidx) as Hown.
  assert (Hks : forall k, In k (vo_surfind vo) <-> SV m k old).
  { intros k. rewrite Hown. split.
    - intros H. apply M6; auto. intros ->. apply (X4 old). exact H.
    - intros H. apply M5; auto. intros ->. apply Zv. exact Ho. }
  destruct (@redirect_loop _ _ su_index su_voluind su_set_voluind vo_index vo_surfind vo_set_surfind
              ltac:(reflexivity) ltac:(reflexivity) ltac:(reflexivity) ltac:(reflexivity)
              ltac:(intros []; reflexivity) ltac:(reflexivity) old new Hne
              (surfs m) (volus m) (vo_surfind vo) Us Uv (proj1 (has_volu_In m new) Hn))
    as [c [Hc Hrun]].
  { intros k Hk. apply Hks in Hk. apply has_surf_In. apply lists_has in Hk. exact Hk. }
  rewrite Hrun. simpl. eexists. split; [reflexivity|].
  split; [|split; [reflexivity|split; [reflexivity|split; [|split; [|split]]]]]; simpl.
  - repeat split; simpl; auto.
    + unfold on. apply map_same. intros a _. destruct (_ =? _); auto.
    + apply map_same. intros a _. dredirected; auto.
  - apply map_same. intros a _. dredirected; auto.
  - apply map_same. intros a _. dredirected; auto.
  - intros s v. unfold SV at 1. simpl. rewrite lists_redirected; auto.
    fold (SV m s). unfold SV at 1. change (lists su_index su_voluind (surfs m) s) with (SV m s).
    split.
    + intros [[H1 H2]|[_ H]]; auto. left. split; auto. intros ->. apply H1. apply Hks. exact H2.
    + intros H. destruct (in_dec Z.eq_dec s (vo_surfind vo)) as [Hi|Hi]; [right; auto|].
      left. split; auto. destruct H as [[H _]|[_ H]]; auto. exfalso; apply Hi, Hks, H.
  - intros v s. unfold VS at 1. simpl. rewrite lists_pushed; auto; [|apply has_volu_In; auto].
    rewrite Hc. unfold referring. rewrite Hks. split.
    + intros [H|[-> [H _]]]; [left; exact H|right; split; auto]. apply Hown, Hks. exact H.
    + intros [H|[-> H]]; [left; exact H|right; split; auto].
      apply Hown, Hks in H. split; auto.
Qed.

(** Type 7 *)
Lemma switch7_spec m old new scope :
  well_connected m -> old <> new -> has_volu m old -> has_volu m new ->
  (forall s, In s scope -> has_surf m s) ->
  exists m', switch7 old new scope m = Ok m' /\ same_objects m m' /\
    edges m' = edges m /\ verts m' = verts m /\
    map su_ordered (surfs m') = map su_ordered (surfs m) /\
    map su_edgeind (surfs m') = map su_edgeind (surfs m) /\
    (forall s v, SV m' s v <-> if in_dec Z.eq_dec s scope then renamed old new (SV m s) v else SV m s v) /\
    (forall v s, VS m' v s <-> (VS m v s /\ ~ (v = old /\ In s scope)) \/
                               (v = new /\ VS m old s /\ In s scope)).
Proof.
  intros [[Uv [Us [Ue [Un [Zv [Zs [Ze Zn]]]]]]] [[M1 [M2 [M3 [M4 [M5 M6]]]]] [X1 [X2 [X3 [X4 X5]]]]]] Hne Ho Hn Hsc.
  unfold switch7.
  destruct (@redirect_erase_loop _ _ su_index su_voluind su_set_voluind vo_index vo_surfind vo_set_surfind
              ltac:(reflexivity) ltac:(reflexivity) ltac:(reflexivity) ltac:(reflexivity)
              ltac:(intros []; reflexivity) ltac:(reflexivity) old new Hne
              (surfs m) (volus m) scope Us Uv (proj1 (has_volu_In m new) Hn) (proj1 (has_volu_In m old) Ho))
    as [c [Hc Hrun]].
  { intros k Hk. apply has_surf_In. auto. }
  rewrite Hrun. simpl. eexists. split; [reflexivity|].
  split; [|split; [reflexivity|split; [reflexivity|split; [|split; [|split]]]]]; simpl.
  - repeat split; simpl; auto.
    + apply map_same. intros a _. unfold moved. destruct (_ =? _); auto. destruct (_ =? _); auto.
    + apply map_same. intros a _. dredirected; auto.
  - apply map_same. intros a _. dredirected; auto.
  - apply map_same. intros a _. dredirected; auto.
  - intros s v. unfold SV at 1. simpl. rewrite lists_redirected; auto.
    destruct (in_dec Z.eq_dec s scope); unfold SV; tauto.
  - intros v s. unfold VS at 1. simpl. rewrite lists_moved; auto; [|apply has_volu_In; auto].
    assert (Hcs : In s c <-> In s scope /\ VS m old s).
    { rewrite Hc. unfold referring. split; intros [H1 H2]; split; auto.
      - apply M5; [exact H2|]. intros ->; auto.
      - apply M6 in H2; [exact H2|]. intros ->. apply (X4 old); auto. }
    rewrite Hcs. unfold VS in *. split.
    + intros [[H1 H2]|H]; [left; split; auto|right; tauto].
      intros [-> H3]. apply H2. auto.
    + intros [[H1 H2]|H]; [left; split; auto|right; tauto]. intros [? [? ?]]; auto.
Qed.

Lemma filter_ext_In A (f g : A -> bool) l : (forall a, In a l -> f a = g a) -> filter f l = filter g l.
Proof.
  induction l as [|x r IH]; simpl; intros H; auto.
  rewrite (H x) by auto. destruct (g x); rewrite IH; auto.
Qed.

Lemma on_at_other A (idx : A -> Z) k k' f (l : list A) a :
  NoDup (map idx l) -> (forall x, idx (f x) = idx x) -> In a l -> idx a = k' -> k <> k' ->
  at_ (on idx k f l) (find idx l k') = Ok a.
Proof.
  intros Hnd Hf Ha Hk Hne.
  assert (Hl : map idx (on idx k f l) = map idx l) by (apply map_on; auto).
  rewrite <- (find_map_idx idx l _ k' Hl).
  destruct (find_at idx (on idx k f l) (k := k')) as [b [Hb [Hbin Hbi]]].
  { exists a. split; auto. unfold on. apply in_map_iff. exists a. split; auto.
    destruct (Z.eqb_spec (idx a) k); congruence. }
  rewrite Hb. f_equal. eapply (@NoDup_idx_inj _ idx (on idx k f l)); eauto.
  - rewrite Hl; auto.
  - unfold on. apply in_map_iff. exists a. split; auto. destruct (Z.eqb_spec (idx a) k); congruence.
  - congruence.
Qed.

(** Type 3 *)
Lemma switch3_spec m old new :
  well_connected m -> old <> new -> has_surf m old -> has_surf m new ->
  exists m', switch3 old new m = Ok m' /\ same_objects m m' /\
    verts m' = verts m /\ map ed_vertind (edges m') = map ed_vertind (edges m) /\
    (forall e s, ES m' e s <-> renamed old new (ES m e) s) /\
    (forall s e, SE m' s e <-> SE m s e \/ (s = new /\ SE m old e)) /\
    (forall v s, VS m' v s <-> renamed old new (VS m v) s) /\
    (forall s v, SV m' s v <-> SV m s v \/ (s = new /\ SV m old v /\ v <> 0)) /\
    (forall s, In s (surfs m') -> su_index s = new -> su_ordered s = false).
Proof.
  intros [[Uv [Us [Ue [Un [Zv [Zs [Ze Zn]]]]]]] [[M1 [M2 [M3 [M4 [M5 M6]]]]] [X1 [X2 [X3 [X4 X5]]]]]] Hne Ho Hn.
  unfold switch3. destruct (find_at su_index (surfs m) Ho) as [so [Hat [Hin Hidx]]].
  rewrite Hat. cbn [bind].
  pose proof (@owner _ su_index su_edgeind (surfs m) _ _ Us Hin Hidx) as HownE.
  pose proof (@owner _ su_index su_voluind (surfs m) _ _ Us Hin Hidx) as HownV.
  assert (HksE : forall k, In k (su_edgeind so) <-> ES m k old).
  { intros k. rewrite HownE. split.
    - intros H. apply M4; auto. intros ->. apply (X3 old). exact H.
    - intros H. apply M3; auto. intros ->. apply Zs. exact Ho. }
  destruct (@redirect_loop _ _ ed_index ed_surfind ed_set_surfind su_index su_edgeind su_set_edgeind
              ltac:(reflexivity) ltac:(reflexivity) ltac:(reflexivity) ltac:(reflexivity)
              ltac:(intros []; reflexivity) ltac:(reflexivity) old new Hne
              (edges m) (surfs m) (su_edgeind so) Ue Us (proj1 (has_surf_In m new) Hn))
    as [c1 [Hc1 Hrun1]].
  { intros k Hk. apply HksE in Hk. apply has_edge_In. apply lists_has in Hk. exact Hk. }
  rewrite Hrun1. cbn [bind].
  set (ss1 := on su_index new _ (surfs m)).
  assert (Hss1 : map su_index ss1 = map su_index (surfs m)) by (unfold ss1; apply map_on; auto).
  assert (Hso1 : at_ ss1 (find su_index (surfs m) old) = Ok so).
  { unfold ss1. apply on_at_other; auto. }
  rewrite Hso1. cbn [bind].
  rewrite for_each_if_found.
  set (ks := filter _ (su_voluind so)).
  assert (HksV : forall k, In k ks <-> VS m k old).
  { intros k. unfold ks. rewrite filter_In, mem_z_In, HownV, <- has_volu_In. split.
    - intros [H1 H2]. apply M5; auto. intros ->; auto.
    - intros H. split; [apply M6; auto; intros ->; apply (X4 k); auto|]. apply lists_has in H. exact H. }
  rewrite <- (find_map_idx su_index (surfs m) ss1 new Hss1).
  destruct (@redirect_loop _ _ vo_index vo_surfind vo_set_surfind su_index su_voluind su_set_voluind
              ltac:(reflexivity) ltac:(reflexivity) ltac:(reflexivity) ltac:(reflexivity)
              ltac:(intros []; reflexivity) ltac:(reflexivity) old new Hne
              (volus m) ss1 ks Uv ltac:(rewrite Hss1; exact Us) ltac:(rewrite Hss1; apply has_surf_In; exact Hn))
    as [c2 [Hc2 Hrun2]].
  { intros k Hk. apply HksV in Hk. apply has_volu_In. apply lists_has in Hk. exact Hk. }
  rewrite Hrun2. cbn [bind].
  set (ss2 := on su_index new _ ss1).
  assert (Hss2 : map su_index ss2 = map su_index ss1) by (unfold ss2; apply map_on; auto).
  rewrite <- (find_map_idx su_index ss1 ss2 new Hss2).
  rewrite modify_find; [|rewrite Hss2, Hss1; auto|rewrite Hss2, Hss1; apply has_surf_In; auto].
  cbn [bind]. eexists. split; [reflexivity|].
  split; [|split; [reflexivity|split; [|split; [|split; [|split; [|split]]]]]]; simpl.
  - repeat split; simpl; auto.
    + apply map_same. intros a _. dredirected; auto.
    + unfold on at 1. rewrite map_same by (intros a _; destruct (_ =? _); auto).
      unfold ss2, on. rewrite map_same by (intros a _; destruct (_ =? _); auto).
      unfold ss1, on. rewrite map_same by (intros a _; destruct (_ =? _); auto). reflexivity.
    + apply map_same. intros a _. dredirected; auto.
  - apply map_same. intros a _. dredirected; auto.
  - intros e s. unfold ES at 1. simpl. rewrite lists_redirected; auto.
    change (lists ed_index ed_surfind (edges m) e) with (ES m e). split.
    + intros [[H1 H2]|[_ H]]; auto. left. split; auto. intros ->. apply H1. apply HksE. exact H2.
    + intros H. destruct (in_dec Z.eq_dec e (su_edgeind so)) as [Hi|Hi]; [right; auto|].
      left. split; auto. destruct H as [[H _]|[_ H]]; auto. exfalso; apply Hi, HksE, H.
  - intros s e. unfold SE at 1. simpl. unfold on at 1. rewrite lists_map_same by (intros a _; destruct (_ =? _); auto).
    unfold ss2, on at 1. rewrite lists_map_same by (intros a _; destruct (_ =? _); auto).
    unfold ss1. rewrite lists_pushed; auto; [|apply has_surf_In; auto].
    rewrite Hc1. unfold referring. rewrite HksE. split.
    + intros [H|[-> [H _]]]; [left; exact H|right; split; auto]. apply HownE, HksE. exact H.
    + intros [H|[-> H]]; [left; exact H|right; split; auto].
      apply HownE, HksE in H. split; auto.
  - intros v s. unfold VS at 1. simpl. rewrite lists_redirected; auto.
    change (lists vo_index vo_surfind (volus m) v) with (VS m v). split.
    + intros [[H1 H2]|[_ H]]; auto. left. split; auto. intros ->. apply H1. apply HksV. exact H2.
    + intros H. destruct (in_dec Z.eq_dec v ks) as [Hi|Hi]; [right; auto|].
      left. split; auto. destruct H as [[H _]|[_ H]]; auto. exfalso; apply Hi, HksV, H.
  - intros s v. unfold SV at 1. simpl. unfold on at 1. rewrite lists_map_same by (intros a _; destruct (_ =? _); auto).
    unfold ss2. rewrite lists_pushed; auto; [|rewrite Hss1; apply has_surf_In; auto].
    unfold ss1, on at 1. rewrite lists_map_same by (intros a _; destruct (_ =? _); auto).
    rewrite Hc2. unfold referring. rewrite HksV.
    change (exists a : volu, In a (volus m) /\ vo_index a = v /\ In old (vo_surfind a)) with (VS m v old).
    split.
    + intros [H|[-> [H _]]]; [left; exact H|right; split; auto]. split.
      * apply M6; auto. intros ->; apply (X4 v); auto.
      * intros ->. apply Zv. apply lists_has in H. exact H.
    + intros [H|[-> [H H0]]]; [left; exact H|right; split; auto].
  - intros s Hs Es. unfold on at 1 in Hs. apply in_map_iff in Hs. destruct Hs as [s0 [E0 Hs0]].
    destruct (Z.eqb_spec (su_index s0) new) as [E|E]; [subst s; reflexivity|congruence].
Qed.

(** Type 2 *)
Lemma for_each_body A S (l : list A) (b1 b2 : A -> S -> outcome S) s :
  (forall a, In a l -> forall s, b1 a s = b2 a s) -> for_each l b1 s = for_each l b2 s.
Proof.
  revert s; induction l as [|a r IH]; intros s H; simpl; auto.
  rewrite (H a) by (simpl; auto). destruct (b2 a s); simpl; auto. apply IH. intros; apply H; simpl; auto.
Qed.

Lemma switch2_spec m old new :
  well_connected m -> old <> new -> has_edge m old -> has_edge m new ->
  exists m', switch2 old new m = Ok m' /\ same_objects m m' /\
    volus m' = volus m /\ map ed_vertind (edges m') = map ed_vertind (edges m) /\
    map su_voluind (surfs m') = map su_voluind (surfs m) /\
    (forall v e, VE m' v e <-> renamed old new (VE m v) e) /\
    (forall s e, SE m' s e <-> renamed old new (SE m s) e) /\
    (forall e s, ES m' e s <-> ES m e s \/ (e = new /\ ES m old s /\ s <> 0)) /\
    (forall s, In s (surfs m') -> In new (su_edgeind s) ->
       (forall s0, In s0 (surfs m) -> su_index s0 = su_index s -> In old (su_edgeind s0)) -> su_ordered s = false).
Proof.
  intros [[Uv [Us [Ue [Un [Zv [Zs [Ze Zn]]]]]]] [[M1 [M2 [M3 [M4 [M5 M6]]]]] [X1 [X2 [X3 [X4 X5]]]]]] Hne Ho Hn.
  unfold switch2. destruct (find_at ed_index (edges m) Ho) as [eo [Hat [Hin Hidx]]].
  rewrite Hat. cbn [bind].
  pose proof (@owner _ ed_index ed_vertind (edges m) _ _ Ue Hin Hidx) as HownV.
  pose proof (@owner _ ed_index ed_surfind (edges m) _ _ Ue Hin Hidx) as HownS.
  assert (HksV : forall k, In k (ed_vertind eo) <-> VE m k old).
  { intros k. rewrite HownV. split.
    - intros H. apply M2; auto. intros ->. apply (X2 old). exact H.
    - intros H. apply M1; auto. intros ->. apply Ze. exact Ho. }
  rewrite (@for_each_modify _ ve_index (fun v => ve_set_edgeind (replace_all old new (ve_edgeind v)) v) (verts m) (ed_vertind eo)); auto.
  2:{ intros [i b l]. unfold ve_set_edgeind. simpl. rewrite replace_all_idem; auto. }
  2:{ intros k Hk. apply HksV in Hk. apply has_vert_In. apply lists_has in Hk. exact Hk. }
  cbn [bind].
  set (body := redirect su_index su_edgeind su_set_edgeind_unordered ed_surfind ed_set_surfind old new
          (find ed_index (edges m) new)).
  set (ks := filter (fun k => mem_z k (map su_index (surfs m))) (ed_surfind eo)).
  assert (HksS : forall k, In k ks <-> SE m k old).
  { intros k. unfold ks. rewrite filter_In, mem_z_In, HownS, <- has_surf_In. split.
    - intros [H1 H2]. apply M3; auto. intros ->; auto.
    - intros H. split; [apply M4; auto; intros ->; auto|]. apply lists_has in H. exact H. }
  assert (Hloop : for_each (find_list su_index (surfs m) (ed_surfind eo))
      (if 0 <? Z.of_nat (length (volus m)) then body else if_found body) (surfs m, edges m) =
      for_each (find_list su_index (surfs m) ks) body (surfs m, edges m)).
  { destruct (0 <? Z.of_nat (length (volus m))) eqn:E3.
    - f_equal. unfold ks. unfold find_list. f_equal. symmetry.
      rewrite <- (filter_ext_In (fun _ => true)).
      + clear. induction (ed_surfind eo); simpl; congruence.
      + intros k Hk. symmetry. apply mem_z_In, has_surf_In. apply HownS in Hk. apply M3 in Hk.
        * apply lists_has in Hk. exact Hk.
        * intros ->. apply (X5 ltac:(intros E0; rewrite E0 in E3; discriminate) old). exact Hk.
    - apply for_each_if_found. }
  rewrite Hloop. unfold body.
  destruct (@redirect_loop _ _ su_index su_edgeind su_set_edgeind_unordered ed_index ed_surfind ed_set_surfind
              ltac:(reflexivity) ltac:(reflexivity) ltac:(reflexivity) ltac:(reflexivity)
              ltac:(intros []; reflexivity) ltac:(reflexivity) old new Hne
              (surfs m) (edges m) ks Us Ue (proj1 (has_edge_In m new) Hn))
    as [c [Hc Hrun]].
  { intros k Hk. apply HksS in Hk. apply has_surf_In. apply lists_has in Hk. exact Hk. }
  rewrite Hrun. cbn [bind]. eexists. split; [reflexivity|].
  split; [|split; [reflexivity|split; [|split; [|split; [|split; [|split]]]]]]; simpl.
  - repeat split; simpl; auto.
    + apply map_same. intros a _. dredirected; auto.
    + unfold on. apply map_same. intros a _. destruct (_ =? _); auto.
    + apply map_same. intros a _. destruct (mem_z _ _); auto.
  - unfold on. apply map_same. intros a _. destruct (_ =? _); auto.
  - apply map_same. intros a _. dredirected; auto.
  - intros v e. unfold VE at 1. simpl. split.
    + intros [a' [Ha [Hi Hx]]]. apply in_map_iff in Ha. destruct Ha as [a [Ea Ha]].
      destruct (mem_z (ve_index a) (ed_vertind eo)) eqn:Em.
      * subst a'. simpl in *. apply replace_all_In in Hx. unfold renamed in *.
        destruct Hx as [[H1 H2]|[H1 H2]]; [left; split; auto; exists a; auto|right; split; auto; exists a; auto].
      * subst a'. left. split; [exists a; auto|]. intros ->. apply mem_z_not_In in Em. apply Em. apply HksV. exists a; auto.
    + intros Hr.
      assert (H : exists a, In a (verts m) /\ ve_index a = v /\ renamed old new (fun y => In y (ve_edgeind a)) e).
      { destruct Hr as [[[a [H1 [H2 H3]]] H4]|[-> [a [H1 [H2 H3]]]]]; exists a; unfold renamed; auto. }
      destruct H as [a [Ha [Ei Hx]]].
      exists (if mem_z (ve_index a) (ed_vertind eo) then ve_set_edgeind (replace_all old new (ve_edgeind a)) a else a).
      split; [apply in_map_iff; exists a; split; auto|].
      destruct (mem_z (ve_index a) (ed_vertind eo)) eqn:Em; split; auto.
      * apply replace_all_In. exact Hx.
      * unfold renamed in Hx. destruct Hx as [[H _]|[_ H]]; auto.
        exfalso. apply mem_z_not_In in Em. apply Em, HksV. exists a; auto.
  - intros s e. unfold SE at 1. simpl. rewrite lists_redirected; auto.
    change (lists su_index su_edgeind (surfs m) s) with (SE m s). split.
    + intros [[H1 H2]|[_ H]]; auto. left. split; auto. intros ->. apply H1. apply HksS. exact H2.
    + intros H. destruct (in_dec Z.eq_dec s ks) as [Hi|Hi]; [right; auto|].
      left. split; auto. destruct H as [[H _]|[_ H]]; auto. exfalso; apply Hi, HksS, H.
  - intros e s. unfold ES at 1. simpl. rewrite lists_pushed; auto; [|apply has_edge_In; auto].
    rewrite Hc. unfold referring. rewrite HksS.
    change (exists a : surf, In a (surfs m) /\ su_index a = s /\ In old (su_edgeind a)) with (SE m s old).
    split.
    + intros [H|[-> [H _]]]; [left; exact H|right; split; auto]. split.
      * apply M4; auto. intros ->; auto.
      * intros ->. apply Zs. apply lists_has in H. exact H.
    + intros [H|[-> [H H0]]]; [left; exact H|right; split; auto].
  - intros s Hs Hnew Hall. apply in_map_iff in Hs. destruct Hs as [s0 [E0 Hs0]].
    unfold redirected in E0.
    assert (Hold : In old (su_edgeind s0)).
    { apply Hall; auto. subst s. destruct (_ && _); auto. }
    assert (mem_z (su_index s0) ks = true) as Em.
    { apply mem_z_In, HksS. exists s0; auto. }
    apply mem_z_In in Hold. rewrite Em, Hold in E0. subst s. reflexivity.
Qed.

(** Type 5 *)
Lemma for_each_own A S (idx : A -> Z) (l0 : list A) ks own (body : Z -> S -> outcome S) s :
  NoDup (map idx l0) -> (forall k, In k own -> In k (map idx l0)) ->
  for_each (find_list idx l0 ks) (fun p s => if mem_z p (find_list idx l0 own) then body p s else Ok s) s =
  for_each (find_list idx l0 (filter (fun k => mem_z k own) ks)) body s.
Proof.
  intros Hnd Hown. revert s; induction ks as [|k r IH]; intros s; simpl; auto.
  assert (E : mem_z (find idx l0 k) (find_list idx l0 own) = mem_z k own).
  { destruct (mem_z k own) eqn:Ek.
    - apply mem_z_In in Ek. apply mem_z_In. unfold find_list. apply in_map; auto.
    - apply mem_z_not_In in Ek. apply mem_z_not_In. intros Hin. apply Ek.
      unfold find_list in Hin. apply in_map_iff in Hin. destruct Hin as [k' [Ef Hk']].
      destruct (find_at idx l0 (proj1 (in_map_idx idx l0 k') (Hown _ Hk'))) as [a [Ha [_ Hi]]].
      rewrite Ef in Ha. apply find_at_inv in Ha. destruct Ha as [_ Hi2]. congruence. }
  rewrite E. destruct (mem_z k own); simpl; auto.
  destruct (body (find idx l0 k) s); simpl; auto.
Qed.

Lemma switch5_spec m old new scope :
  well_connected m -> old <> new -> has_vert m old -> has_vert m new ->
  exists m', switch5 old new scope m = Ok m' /\ same_objects m m' /\
    volus m' = volus m /\ surfs m' = surfs m /\ map ed_surfind (edges m') = map ed_surfind (edges m) /\
    (forall e v, EV m' e v <-> if in_dec Z.eq_dec e scope then renamed old new (EV m e) v else EV m e v) /\
    (forall v e, VE m' v e <-> (VE m v e /\ ~ (v = old /\ In e scope)) \/
                               (v = new /\ VE m old e /\ In e scope)).
Proof.
  intros [[Uv [Us [Ue [Un [Zv [Zs [Ze Zn]]]]]]] [[M1 [M2 [M3 [M4 [M5 M6]]]]] [X1 [X2 [X3 [X4 X5]]]]]] Hne Ho Hn.
  unfold switch5. destruct (find_at ve_index (verts m) Ho) as [vo [Hat [Hin Hidx]]].
  rewrite Hat. cbn [bind].
  pose proof (@owner _ ve_index ve_edgeind (verts m) _ _ Un Hin Hidx) as Hown.
  assert (Hks : forall k, In k (ve_edgeind vo) <-> EV m k old).
  { intros k. rewrite Hown. split.
    - intros H. apply M1; auto. intros ->. apply (X1 old). exact H.
    - intros H. apply M2; auto. intros ->. apply Zn. exact Ho. }
  rewrite for_each_own; auto.
  2:{ intros k Hk. apply Hks in Hk. apply has_edge_In. apply lists_has in Hk. exact Hk. }
  set (ks := filter _ scope).
  assert (Hk2 : forall k, In k ks <-> In k scope /\ EV m k old).
  { intros k. unfold ks. rewrite filter_In, mem_z_In, Hks. tauto. }
  destruct (@redirect_erase_loop _ _ ed_index ed_vertind ed_set_vertind ve_index ve_edgeind ve_set_edgeind
              ltac:(reflexivity) ltac:(reflexivity) ltac:(reflexivity) ltac:(reflexivity)
              ltac:(intros []; reflexivity) ltac:(reflexivity) old new Hne
              (edges m) (verts m) ks Ue Un (proj1 (has_vert_In m new) Hn) (proj1 (has_vert_In m old) Ho))
    as [c [Hc Hrun]].
  { intros k Hk. apply has_edge_In. apply Hk2 in Hk. destruct Hk as [_ Hk]. apply lists_has in Hk. exact Hk. }
  rewrite Hrun. cbn [bind]. eexists. split; [reflexivity|].
  split; [|split; [reflexivity|split; [reflexivity|split; [|split]]]]; simpl.
  - repeat split; simpl; auto.
    + apply map_same. intros a _. dredirected; auto.
    + apply map_same. intros a _. unfold moved. destruct (_ =? _); auto. destruct (_ =? _); auto.
  - apply map_same. intros a _. dredirected; auto.
  - intros e v. unfold EV at 1. simpl. rewrite lists_redirected; auto.
    change (lists ed_index ed_vertind (edges m) e) with (EV m e). rewrite Hk2.
    destruct (in_dec Z.eq_dec e scope) as [Hi|Hi].
    + split.
      * intros [[H1 H2]|[_ H]]; auto. left. split; auto. intros ->. tauto.
      * intros H. destruct H as [[H H2]|[-> H]]; [|right; split; [split; auto|right; auto]].
        destruct (in_dec Z.eq_dec e ks) as [H3|H3]; rewrite Hk2 in H3.
        -- right. split; auto. left; auto.
        -- left. split; auto.
    + split; [intros [[_ H]|[[? _] _]]; [auto|contradiction]|]. intros H. left. split; auto. tauto.
  - intros v e. unfold VE at 1. simpl. rewrite lists_moved; auto; [|apply has_vert_In; auto].
    assert (Hcs : In e c <-> In e scope /\ VE m old e).
    { rewrite Hc. unfold referring. rewrite Hk2.
      change (exists a, In a (edges m) /\ ed_index a = e /\ In old (ed_vertind a)) with (EV m e old).
      split.
      - intros [[H1 H2] _]. split; auto. apply M2; auto. intros ->; auto.
      - intros [H1 H2]. assert (EV m e old) by (apply M1; auto; intros ->; apply (X1 old); auto). tauto. }
    rewrite Hcs. unfold VE in *. split.
    + intros [[H1 H2]|H]; [left; split; auto|right; tauto].
      intros [-> H3]. apply H2. auto.
    + intros [[H1 H2]|H]; [left; split; auto|right; tauto]. intros [? [? ?]]; auto.
Qed.

(** Type 6 *)
Lemma push_new_loop new vs : forall (ws : list volu),
  NoDup (map vo_index ws) -> (forall v, In v vs -> 0 < v -> In v (map vo_index ws)) ->
  exists ws', for_each vs (fun v vs => if 0 <? v
         then modify vs (find vo_index vs v) (fun w => vo_set_surfind (vo_surfind w ++ [new]) w)
         else Ok vs) ws = Ok ws' /\
    map (fun v => (vo_index v, vo_border v)) ws' = map (fun v => (vo_index v, vo_border v)) ws /\
    (forall v s, lists vo_index vo_surfind ws' v s <->
                 lists vo_index vo_surfind ws v s \/ (s = new /\ 0 < v /\ In v vs)).
Proof.
  induction vs as [|v r IH]; intros ws Hnd Hk; simpl.
  - exists ws. repeat split; auto; tauto.
  - destruct (Z.ltb_spec 0 v) as [Hp|Hp].
    + rewrite modify_find; auto; [|apply Hk; simpl; auto]. cbn [bind].
      set (ws1 := on vo_index v _ ws).
      assert (H1 : map vo_index ws1 = map vo_index ws) by (unfold ws1; apply map_on; auto).
      destruct (IH ws1) as [ws' [Hr [Ho Hl]]].
      { rewrite H1; auto. }
      { intros; rewrite H1; apply Hk; simpl; auto. }
      exists ws'. split; auto. split.
      * rewrite Ho. unfold ws1, on. apply map_same. intros a _. destruct (_ =? _); auto.
      * intros v' s. rewrite Hl. unfold ws1.
        rewrite (@lists_pushed _ vo_index vo_surfind vo_set_surfind ltac:(reflexivity) ltac:(reflexivity));
          [|apply Hk; simpl; auto].
        simpl. split; [intros [[H|[H [H2|[]]]]|H]|intros [H|[H3 [H4 [H5|H5]]]]]; subst; tauto.
    + destruct (IH ws) as [ws' [Hr [Ho Hl]]]; auto.
      { intros; apply Hk; simpl; auto. }
      exists ws'. split; auto. split; auto. intros v' s. rewrite Hl.
      split; [tauto|]. intros [H|[H3 [H4 [H5|H5]]]]; auto. lia.
Qed.

Lemma switch6_spec m old new scope :
  well_connected m -> old <> new -> has_surf m old -> has_surf m new ->
  (forall e, In e scope -> has_edge m e) ->
  exists m', switch6 old new scope m = Ok m' /\ same_objects m m' /\
    verts m' = verts m /\ map ed_vertind (edges m') = map ed_vertind (edges m) /\
    map su_voluind (surfs m') = map su_voluind (surfs m) /\
    (forall e s, ES m' e s <-> if in_dec Z.eq_dec e scope then renamed old new (ES m e) s else ES m e s) /\
    (forall s e, SE m' s e <-> (SE m s e /\ ~ (s = old /\ In e scope)) \/
                               (s = new /\ SE m old e /\ In e scope)) /\
    (forall v s, VS m' v s <-> VS m v s \/ (s = new /\ 0 < v /\ SV m new v)).
Proof.
  intros [[Uv [Us [Ue [Un [Zv [Zs [Ze Zn]]]]]]] [[M1 [M2 [M3 [M4 [M5 M6]]]]] [X1 [X2 [X3 [X4 X5]]]]]] Hne Ho Hn Hsc.
  unfold switch6.
  destruct (@redirect_erase_loop _ _ ed_index ed_surfind ed_set_surfind su_index su_edgeind su_set_edgeind
              ltac:(reflexivity) ltac:(reflexivity) ltac:(reflexivity) ltac:(reflexivity)
              ltac:(intros []; reflexivity) ltac:(reflexivity) old new Hne
              (edges m) (surfs m) scope Ue Us (proj1 (has_surf_In m new) Hn) (proj1 (has_surf_In m old) Ho))
    as [c [Hc Hrun]].
  { intros k Hk. apply has_edge_In. auto. }
  rewrite Hrun. cbn [bind].
  set (ss := map _ (surfs m)).
  assert (Hss : map su_index ss = map su_index (surfs m)).
  { unfold ss. apply map_same. intros a _. unfold moved. destruct (_ =? _); auto. destruct (_ =? _); auto. }
  assert (Hssv : map su_voluind ss = map su_voluind (surfs m)).
  { unfold ss. apply map_same. intros a _. unfold moved. destruct (_ =? _); auto. destruct (_ =? _); auto. }
  rewrite <- (find_map_idx su_index (surfs m) ss new Hss).
  destruct (find_at su_index ss (k := new)) as [sn [Hat [Hin Hidx]]].
  { apply in_map_idx. rewrite Hss. apply has_surf_In; auto. }
  rewrite Hat. cbn [bind].
  assert (Hown : forall x, In x (su_voluind sn) <-> SV m new x).
  { intros x. rewrite (@owner _ su_index su_voluind ss _ _ ltac:(rewrite Hss; auto) Hin Hidx).
    unfold ss, SV. apply lists_map_same. intros a _. unfold moved. destruct (_ =? _); auto. destruct (_ =? _); auto. }
  destruct (@push_new_loop new (su_voluind sn) (volus m) Uv) as [ws [Hw [Hwo Hwl]]].
  { intros v Hv Hp. apply Hown in Hv. apply M5 in Hv; [|lia]. apply has_volu_In. apply lists_has in Hv. exact Hv. }
  rewrite Hw. cbn [bind]. eexists. split; [reflexivity|].
  split; [|split; [reflexivity|split; [|split; [|split; [|split]]]]]; simpl.
  - repeat split; simpl; auto.
    + unfold ss. apply map_same. intros a _. unfold moved. destruct (_ =? _); auto. destruct (_ =? _); auto.
    + apply map_same. intros a _. dredirected; auto.
  - apply map_same. intros a _. dredirected; auto.
  - exact Hssv.
  - intros e s. unfold ES at 1. simpl. rewrite lists_redirected; auto.
    destruct (in_dec Z.eq_dec e scope); unfold ES; tauto.
  - intros s e. unfold SE at 1. simpl. unfold ss. rewrite lists_moved; auto; [|apply has_surf_In; auto].
    assert (Hcs : In e c <-> In e scope /\ SE m old e).
    { rewrite Hc. unfold referring.
      change (exists a, In a (edges m) /\ ed_index a = e /\ In old (ed_surfind a)) with (ES m e old).
      split; intros [H1 H2]; split; auto.
      - apply M3; auto. intros ->; auto.
      - apply M4; auto. intros ->. apply (X3 old); auto. }
    rewrite Hcs. unfold SE in *. split.
    + intros [[H1 H2]|H]; [left; split; auto|right; tauto].
      intros [-> H3]. apply H2. auto.
    + intros [[H1 H2]|H]; [left; split; auto|right; tauto]. intros [? [? ?]]; auto.
  - intros v s. unfold VS at 1. simpl. rewrite Hwl, Hown. tauto.
Qed.

(** Type 1: on edges with two different ends the body of the loop is the
    redirection with erasure. *)
Definition two_ended (e : edge) : Prop := exists a b, ed_vertind e = [a; b] /\ a <> b.

Lemma switch1_loop old new ns os : old <> new ->
  forall ks m la lb, NoDup ks -> NoDup (map ed_index la) ->
  map ed_index la = map ed_index (edges m) ->
  (forall k, In k ks -> exists e, In e la /\ ed_index e = k /\ two_ended e /\ In old (ed_vertind e)) ->
  for_each (find_list ed_index (edges m) ks) (switch1_body old new ns os)
     (mkMesh (volus m) (surfs m) la lb (meshDim m)) =
  do (es, vs) <- for_each (find_list ed_index (edges m) ks)
     (redirect_erase ed_index ed_vertind ed_set_vertind ve_edgeind ve_set_edgeind old new ns os) (la, lb);
  Ok (mkMesh (volus m) (surfs m) es vs (meshDim m)).
Proof.
  intros Hne. induction ks as [|k r IH]; intros m la lb Hk Hnd Hidx Hall; simpl; auto.
  inversion Hk as [|? ? Hkr Hr]; subst.
  destruct (Hall k (or_introl eq_refl)) as [e [He [Ek [[a [b [Ev Hab]]] Hold]]]].
  rewrite <- (find_map_idx ed_index (edges m) la k Hidx).
  destruct (find_at ed_index la (k := k)) as [e' [Hat [He' Ei']]]; [eauto|].
  assert (e' = e) by (eapply (@NoDup_idx_inj _ ed_index la); eauto; congruence). subst e'.
  unfold switch1_body at 1, redirect_erase at 1. simpl edges. rewrite Hat. cbn [bind].
  assert (Hsw : swap_end old new e = Ok (ed_set_vertind (replace_all old new (ed_vertind e)) e)).
  { unfold swap_end. rewrite Ev in *. simpl. destruct (Z.eqb_spec b old) as [Eb|Eb].
    - subst b. destruct (Z.eqb_spec a old); [congruence|]. reflexivity.
    - destruct Hold as [->|[->|[]]]; [|congruence]. rewrite Z.eqb_refl. reflexivity. }
  assert (Hcp : copies (ed_index e) old (ed_vertind e) = [ed_index e]).
  { unfold copies. rewrite Ev in *. simpl. destruct (Z.eqb_spec b old) as [Eb|Eb].
    - subst b. destruct (Z.eqb_spec a old); [congruence|]. reflexivity.
    - destruct Hold as [->|[->|[]]]; [|congruence]. rewrite Z.eqb_refl. reflexivity. }
  rewrite Hsw, Hcp. cbn [bind]. simpl verts.
  destruct (modify lb ns _) as [lb1| | |]; simpl; auto.
  destruct (modify lb1 os _) as [lb2| | |]; simpl; auto.
  unfold set_verts, set_edges. simpl.
  set (la1 := upd la _ _).
  assert (Hla1 : la1 = on ed_index k (fun e => ed_set_vertind (replace_all old new (ed_vertind e)) e) la).
  { apply at_Ok in Hat. destruct Hat as [H0 Hn].
    apply (upd_found ed_index la k (fun e => ed_set_vertind (replace_all old new (ed_vertind e)) e) Hnd eq_refl H0 Hn). }
  assert (Hi1 : map ed_index la1 = map ed_index la) by (rewrite Hla1; apply map_on; auto).
  apply (IH m la1 lb2); auto.
  - rewrite Hi1; auto.
  - rewrite Hi1; auto.
  - intros k' Hk'. destruct (Hall k' (or_intror Hk')) as [e2 [He2 [Ek2 H2]]].
    exists e2. split; auto. rewrite Hla1. unfold on. apply in_map_iff. exists e2. split; auto.
    destruct (Z.eqb_spec (ed_index e2) k); auto. congruence.
Qed.

Lemma switch1_full m old new :
  well_connected m -> old <> new -> has_vert m old -> has_vert m new ->
  (forall v, In v (verts m) -> ve_index v = old -> NoDup (ve_edgeind v)) ->
  (forall e, In e (edges m) -> In old (ed_vertind e) -> two_ended e) ->
  exists m', switch1 old new m = Ok m' /\ same_objects m m' /\
    volus m' = volus m /\ surfs m' = surfs m /\ map ed_surfind (edges m') = map ed_surfind (edges m) /\
    (forall e v, EV m' e v <-> renamed old new (EV m e) v) /\
    (forall v e, VE m' v e <-> (VE m v e /\ v <> old) \/ (v = new /\ VE m old e)) /\
    edges m' = map (fun e => ed_set_vertind (replace_all old new (ed_vertind e)) e) (edges m) /\
    (forall v, In v (verts m') -> In v (verts m) \/ NoDup (ve_edgeind v)).
Proof.
  intros [[Uv [Us [Ue [Un [Zv [Zs [Ze Zn]]]]]]] [[M1 [M2 [M3 [M4 [M5 M6]]]]] [X1 [X2 [X3 [X4 X5]]]]]] Hne Ho Hn Hnd2 Htwo.
  unfold switch1. destruct (find_at ve_index (verts m) Ho) as [vo [Hat [Hin Hidx]]].
  rewrite Hat. cbn [bind].
  pose proof (@owner _ ve_index ve_edgeind (verts m) _ _ Un Hin Hidx) as Hown.
  assert (Hks : forall k, In k (ve_edgeind vo) <-> EV m k old).
  { intros k. rewrite Hown. split.
    - intros H. apply M1; auto. intros ->. apply (X1 old). exact H.
    - intros H. apply M2; auto. intros ->. apply Zn. exact Ho. }
  pose proof (@switch1_loop old new (find ve_index (verts m) new) (find ve_index (verts m) old) Hne
                (ve_edgeind vo) m (edges m) (verts m)) as Hloop.
  replace (mkMesh (volus m) (surfs m) (edges m) (verts m) (meshDim m)) with m in Hloop by (destruct m; reflexivity).
  rewrite Hloop; auto.
  2:{ intros k Hk. apply Hks in Hk. destruct Hk as [e [He [Ek Hv]]]. exists e. auto. }
  destruct (@redirect_erase_loop _ _ ed_index ed_vertind ed_set_vertind ve_index ve_edgeind ve_set_edgeind
              ltac:(reflexivity) ltac:(reflexivity) ltac:(reflexivity) ltac:(reflexivity)
              ltac:(intros []; reflexivity) ltac:(reflexivity) old new Hne
              (edges m) (verts m) (ve_edgeind vo) Ue Un (proj1 (has_vert_In m new) Hn) (proj1 (has_vert_In m old) Ho))
    as [c [Hc Hrun]].
  { intros k Hk. apply has_edge_In. apply Hks in Hk. apply lists_has in Hk. exact Hk. }
  rewrite Hrun. cbn [bind]. simpl verts.
  set (vs := map _ (verts m)).
  assert (Hvs : map ve_index vs = map ve_index (verts m)).
  { unfold vs. apply map_same. intros a _. unfold moved. destruct (_ =? _); auto. destruct (_ =? _); auto. }
  rewrite <- (find_map_idx ve_index (verts m) vs new Hvs).
  rewrite modify_find; [|rewrite Hvs; auto|rewrite Hvs; apply has_vert_In; auto]. cbn [bind].
  eexists. split; [reflexivity|].
  split; [|split; [reflexivity|split; [reflexivity|split; [|split; [|split; [|split]]]]]]; simpl.
  - repeat split; simpl; auto.
    + apply map_same. intros a _. dredirected; auto.
    + unfold on. rewrite map_same by (intros a _; destruct (_ =? _); auto).
      unfold vs. apply map_same. intros a _. unfold moved. destruct (_ =? _); auto. destruct (_ =? _); auto.
  - apply map_same. intros a _. dredirected; auto.
  - intros e v. unfold EV at 1. simpl. rewrite lists_redirected; auto.
    change (lists ed_index ed_vertind (edges m) e) with (EV m e). split.
    + intros [[H1 H2]|[_ H]]; auto. left. split; auto. intros ->. apply H1. apply Hks. exact H2.
    + intros H. destruct (in_dec Z.eq_dec e (ve_edgeind vo)) as [Hi|Hi]; [right; auto|].
      left. split; auto. destruct H as [[H _]|[_ H]]; auto. exfalso; apply Hi, Hks, H.
  - intros v e. unfold VE at 1. simpl.
    assert (Ht : lists ve_index ve_edgeind (on ve_index new (fun v => ve_set_edgeind (tighten (ve_edgeind v)) v) vs) v e
                 <-> lists ve_index ve_edgeind vs v e).
    { unfold on, lists. split.
      - intros [a' [Ha [Hi Hx]]]. apply in_map_iff in Ha. destruct Ha as [a [Ea Ha]].
        destruct (_ =? _); subst a'; simpl in *; exists a; repeat split; auto. apply tighten_In; auto.
      - intros [a [Ha [Hi Hx]]]. eexists. split; [apply in_map_iff; exists a; split; [reflexivity|auto]|].
        destruct (_ =? _); simpl; split; auto. apply tighten_In; auto. }
    rewrite Ht. unfold vs. rewrite lists_moved; auto; [|apply has_vert_In; auto].
    assert (Hcs : In e c <-> VE m old e).
    { rewrite Hc. unfold referring. rewrite Hks.
      change (exists a, In a (edges m) /\ ed_index a = e /\ In old (ed_vertind a)) with (EV m e old).
      unfold VE. rewrite <- Hown, Hks. tauto. }
    rewrite Hcs. change (lists ve_index ve_edgeind (verts m) v e) with (VE m v e). split.
    + intros [[H1 H2]|[H1 H2]]; [left; split; auto|right; auto]. intros ->. auto.
    + intros [[H1 H2]|[H1 H2]]; [left; split; auto|right; auto]. intros [? _]; auto.
  - apply map_ext_in. intros a Ha. unfold redirected. destruct (mem_z old (ed_vertind a)) eqn:Em.
    + apply mem_z_In in Em. assert (Hi : In (ed_index a) (ve_edgeind vo)) by (apply Hks; exists a; auto).
      apply mem_z_In in Hi. rewrite Hi. reflexivity.
    + rewrite andb_false_r. apply mem_z_not_In in Em. unfold replace_all.
      rewrite (map_ext_in _ (fun x => x)); [rewrite map_id; destruct a; reflexivity|].
      intros x Hx. destruct (Z.eqb_spec x old); [subst; contradiction | reflexivity].
  - intros v Hv. unfold on in Hv. apply in_map_iff in Hv. destruct Hv as [a [Ea Ha]].
    unfold vs in Ha. apply in_map_iff in Ha. destruct Ha as [b [Eb Hb]].
    destruct (Z.eqb_spec (ve_index a) new) as [E|E].
    + right. subst v. simpl. pose proof (tighten_strict (ve_edgeind a)) as Ts. clear - Ts.
      induction Ts as [|x l Hl IH Hx]; constructor; auto. rewrite Forall_forall in Hx. intro Hi. specialize (Hx x Hi). lia.
    + subst v a. revert E. unfold moved. destruct (Z.eqb_spec (ve_index b) new) as [E1|E1]; [simpl; congruence|].
      destruct (Z.eqb_spec (ve_index b) old) as [E2|E2]; [|auto]. intros _. right. simpl. unfold drop_list.
      apply NoDup_filter. eapply Hnd2; eauto.
Qed.
Lemma switch1_spec m old new :
  well_connected m -> old <> new -> has_vert m old -> has_vert m new ->
  (forall v, In v (verts m) -> ve_index v = old -> NoDup (ve_edgeind v)) ->
  (forall e, In e (edges m) -> In old (ed_vertind e) -> two_ended e) ->
  exists m', switch1 old new m = Ok m' /\ same_objects m m' /\
    volus m' = volus m /\ surfs m' = surfs m /\ map ed_surfind (edges m') = map ed_surfind (edges m) /\
    (forall e v, EV m' e v <-> renamed old new (EV m e) v) /\
    (forall v e, VE m' v e <-> (VE m v e /\ v <> old) \/ (v = new /\ VE m old e)).
Proof.
  intros H1 H2 H3 H4 H5 H6. destruct (switch1_full H1 H2 H3 H4 H5 H6) as [m' [A1 [A2 [A3 [A4 [A5 [A6 [A7 _]]]]]]]].
  exists m'. auto 9.
Qed.
