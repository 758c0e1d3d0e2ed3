(** Proofs about FindSpawnVerts. *)
From Coq Require Import ZArith List QArith Qabs Lia Bool.
From Verif Require Import Base Containers ContainersProofs Mesh SpecMesh MeshProofs SwitchProofs CoarsenProofs Num Snake Flood SpecFlood BorderProofs PropsFlood
  Edit SpecEdit EditProofs Family SpecFamily FamilyProofs FamilyMapProofs PropsFamily PropsEdit
  Spawn SpecSpawn SpawnProofs SpawnVerts SpecSpawnVerts.
Import ListNotations.
Import Mesh.
Set Implicit Arguments.
Open Scope Z_scope.

Lemma fixed_borders m0 m : well_connected m0 -> volus m0 <> [] -> set_borders m0 = Ok m ->
  set_borders m = Ok m /\ same_but_borders m0 m.
Proof.
  intros W V E. destruct (C16_borders_3d W V) as [m' [E' [Sm _]]]. rewrite E in E'. injection E' as <-.
  split; auto. destruct (C16_borders_fresh W Sm) as [m' [E1 E2]]. congruence.
Qed.

Section Lists.
Variables (A : Type) (idx : A -> Z) (get : A -> list Z) (f : A -> A).
Hypothesis Fi : forall a, idx (f a) = idx a.
Hypothesis Fg : forall a, get (f a) = get a.
Lemma lists_alike l l' i x : map f l' = map f l -> lists idx get l i x -> lists idx get l' i x.
Proof using Fi Fg.
  intros E [a [Ha [Ia Xa]]]. apply (in_map f) in Ha. rewrite <- E in Ha. apply in_map_iff in Ha. destruct Ha as [b [Eb Hb]].
  exists b. split; auto. rewrite <- Fi, <- Fg, Eb, Fi, Fg. auto.
Qed.
Lemma idx_alike l l' : map f l' = map f l -> map idx l' = map idx l.
Proof using Fi.
  intros E. assert (G : forall q, map idx q = map idx (map f q)) by (intros q; rewrite map_map; apply map_ext; intros; rewrite Fi; auto).
  rewrite (G l'), (G l), E. auto.
Qed.
End Lists.

Lemma alike_connected m m' : same_but_borders m m' -> well_connected m -> well_connected m'.
Proof.
  intros [E1 [E2 [E3 [E4 _]]]] [[U1 [U2 [U3 [U4 U5]]]] [[M1 [M2 [M3 [M4 [M5 M6]]]]] [X1 [X2 [X3 [X4 X5]]]]]].
  assert (I1 : map vo_index (volus m') = map vo_index (volus m)) by (eapply idx_alike; [|exact E1]; reflexivity).
  assert (I2 : map su_index (surfs m') = map su_index (surfs m)) by (eapply idx_alike; [|exact E2]; reflexivity).
  assert (I3 : map ed_index (edges m') = map ed_index (edges m)) by (eapply idx_alike; [|exact E3]; reflexivity).
  assert (I4 : map ve_index (verts m') = map ve_index (verts m)) by (eapply idx_alike; [|exact E4]; reflexivity).
  assert (L1 : forall a b, VE m' a b <-> VE m a b) by (intros; split; [apply lists_alike with (f := ve_set_border false)|apply lists_alike with (f := ve_set_border false)]; auto).
  assert (L2 : forall a b, EV m' a b <-> EV m a b) by (intros; split; [apply lists_alike with (f := ed_set_border false)|apply lists_alike with (f := ed_set_border false)]; auto).
  assert (L3 : forall a b, ES m' a b <-> ES m a b) by (intros; split; [apply lists_alike with (f := ed_set_border false)|apply lists_alike with (f := ed_set_border false)]; auto).
  assert (L4 : forall a b, SE m' a b <-> SE m a b) by (intros; split; [apply lists_alike with (f := su_set_border false)|apply lists_alike with (f := su_set_border false)]; auto).
  assert (L5 : forall a b, SV m' a b <-> SV m a b) by (intros; split; [apply lists_alike with (f := su_set_border false)|apply lists_alike with (f := su_set_border false)]; auto).
  assert (L6 : forall a b, VS m' a b <-> VS m a b) by (intros; split; [apply lists_alike with (f := vo_set_border false)|apply lists_alike with (f := vo_set_border false)]; auto).
  split; [|split].
  - unfold unique_indices in *. rewrite I1, I2, I3, I4. do 4 (split; [assumption|]).
    assert (Hh : forall A (idx : A -> Z) l l', map idx l' = map idx l -> ~ (exists a, In a l /\ idx a = 0) -> ~ exists a, In a l' /\ idx a = 0).
    { intros A idx l l' E N [a [Ha Ia]]. apply N. assert (Hm : In 0 (map idx l)) by (rewrite <- E, <- Ia; apply in_map; auto).
      apply in_map_iff in Hm. destruct Hm as [b [Eb Hb]]. exists b; auto. }
    destruct U5 as [U5 [U6 [U7 U8]]]. repeat split; [apply (Hh _ vo_index _ _ I1 U5)|apply (Hh _ su_index _ _ I2 U6)|apply (Hh _ ed_index _ _ I3 U7)|apply (Hh _ ve_index _ _ I4 U8)].
  - repeat split; intros a b; rewrite ?L1, ?L2, ?L3, ?L4, ?L5, ?L6; eauto.
  - repeat split; intros; rewrite ?L1, ?L2, ?L3, ?L4, ?L5, ?L6; eauto. apply X5. intros Z0. apply H.
    apply (f_equal (map vo_index)) in Z0. rewrite <- I1 in Z0. destruct (volus m'); auto. discriminate.
Qed.

Section One.
Variables (m : mesh) (t : tree) (h : cells) (o : Z).
Hypothesis W : well_connected m.
Hypothesis V : volus m <> [].
Hypothesis D : meshDim m = 3.
Hypothesis F : family_ready m t.
Hypothesis P : parents_ready t h.
Hypothesis K : sides_known m.
Hypothesis B : set_borders m = Ok m.
Hypothesis L : cellular m.
Hypothesis O : o = 0 \/ o = 1.

Lemma vert_flag n : inner_vert m n <-> has_vert m n /\ ~ at_outside m n.
Proof using W V B.
  destruct (C16_borders_3d W V) as [m' [E [_ [_ [_ [Hv _]]]]]]. rewrite B in E. injection E as <-.
  pose proof W as [[_ [_ [_ [Un _]]]] _].
  assert (A : at_outside m n <-> SpecFlood.border_vert m n).
  { rewrite Hv. unfold at_outside, touches. split.
    - intros [s [[e [He Hs]] Hz]]. eauto.
    - intros [e [s [H1 [H2 H3]]]]. exists s. eauto. }
  rewrite A. split.
  - intros [x [Hx [Ix Bx]]]. split; [exists x; auto|]. intros [y [Hy [Iy By]]].
    assert (x = y) by (eapply (@NoDup_idx_inj _ ve_index); eauto; congruence). congruence.
  - intros [[x [Hx Ix]] N]. exists x. split; auto. split; auto. destruct (ve_border x) eqn:Q; auto.
    exfalso. apply N. exists x. auto.
Qed.
Lemma volu_flag c : (exists x, In x (volus m) /\ vo_index x = c /\ vo_border x = true) <-> outer_cell m c.
Proof using W V B.
  destruct (C16_borders_3d W V) as [m' [E [_ [_ [_ [Hv Hw]]]]]]. rewrite B in E. injection E as <-.
  change (SpecFlood.border_volu m c <-> outer_cell m c). rewrite Hw. unfold outer_cell.
  assert (A : forall n, at_outside m n <-> SpecFlood.border_vert m n).
  { intros n. rewrite Hv. unfold at_outside, touches. split.
    - intros [s [[e [He Hs]] Hz]]. eauto.
    - intros [e [s [H1 [H2 H3]]]]. exists s. eauto. }
  split; (intros [H|[s [e [n [H1 [H2 [H3 H4]]]]]]]; [left; auto|right; exists s, e, n; rewrite A in *; auto]).
Qed.

Lemma off_test_wanted q : off_test 3 o q = true <-> wanted o q.
Proof using O.
  unfold off_test, wanted. change (3 =? 3) with true. cbn iota. destruct O as [-> | ->]; cbn [Z.eqb].
  - unfold near. destruct (Qlt_le_dec _ _) as [H|H]; split; auto; [discriminate|]. intros C. exfalso. apply (Qlt_not_le _ _ C H).
  - destruct (Qlt_le_dec _ _) as [H|H]; split; auto; [discriminate|]. intros C. exfalso. apply (Qlt_not_le _ _ C H).
Qed.

Lemma border_values_ok : exists vals, border_values m t h = Ok vals /\
  forall c, (exists x, In x (volus m) /\ vo_index x = c /\ vo_border x = true) ->
    (passes 3 o vals c = true <-> exists j q, Z.of_nat j < nParents t /\ parent_target m t h j c q /\ wanted o q).
Proof using W D F P O.
  pose proof W as [[Uv _] _]. unfold border_values. rewrite D. change (3 =? 3) with true. cbn iota.
  assert (One : forall c, In c (map vo_index (volus m)) -> exists l, parent_values h t Target (find vo_index (volus m) c) (Z.to_nat (nParents t)) 0 = Ok l /\
    (existsb (off_test 3 o) l = true <-> exists j q, Z.of_nat j < nParents t /\ parent_target m t h j c q /\ wanted o q)).
  { intros c Hc. destruct F as (_ & _ & _ & R4 & _).
    destruct (@parent_values_ok m t F h P c Hc (Z.to_nat (nParents t)) 0) as (l & E & Len & T); [lia|].
    exists l. split; [exact E|]. rewrite existsb_exists. split.
    - intros [q [Hq Tq]]. apply In_nth_error in Hq. destruct Hq as [j Hj]. exists j, q. split.
      + assert (j < length l)%nat by (apply nth_error_Some; congruence). lia.
      + split; [apply (T _ _ Hj)|apply off_test_wanted; auto].
    - intros [j [q [Hj [Tq Wq]]]]. destruct (nth_error l j) as [q'|] eqn:Q.
      + exists q'. split; [eapply nth_error_In; eauto|]. assert (q = q') by (eapply (@parent_target_unique m t F h P); [exact Tq|apply (T _ _ Q)]). subst q'. apply off_test_wanted; auto.
      + apply nth_error_None in Q. lia. }
  assert (G : forall l, (forall x, In x l -> In x (volus m)) -> exists vals,
    omap_list (fun v => do q <- parent_values h t Target (find vo_index (volus m) (vo_index v)) (Z.to_nat (nParents t)) 0 ; Ok (vo_index v, q)) (filter vo_border l) = Ok vals /\
    forall c, passes 3 o vals c = true <-> (exists x, In x l /\ vo_index x = c /\ vo_border x = true) /\
       exists j q, Z.of_nat j < nParents t /\ parent_target m t h j c q /\ wanted o q).
  { induction l as [|x l IH]; intros H; cbn [filter].
    - exists []. split; auto. intros c. simpl. split; [discriminate|intros [[x [[] _]] _]].
    - destruct IH as [vals [E Hv]]; [intros; apply H; simpl; auto|].
      destruct (vo_border x) eqn:Bx.
      + destruct (One (vo_index x)) as [l0 [E0 H0]]; [apply in_map, H; simpl; auto|].
        cbn [omap_list]. rewrite E0. cbn [bind]. rewrite E. cbn [bind]. eexists. split; [reflexivity|].
        intros c. unfold passes. cbn [existsb fst snd]. rewrite orb_true_iff. fold (passes 3 o vals c). rewrite Hv, andb_true_iff, Z.eqb_eq. split.
        * intros [[<- X]|[[y [Hy Iy]] T]]; (split; [|]); [exists x; simpl; auto|apply H0; auto|exists y; simpl; tauto|auto].
        * intros [[y [[<-|Hy] [Iy By]]] T]; [left|right].
          -- split; auto. apply H0. rewrite Iy. auto.
          -- split; auto. exists y; auto.
      + exists vals. split; auto. intros c. rewrite Hv. split.
        * intros [[y [Hy Iy]] T]. split; auto. exists y; simpl; auto.
        * intros [[y [[<-|Hy] [Iy By]]] T]; [congruence|]. split; auto. exists y; auto. }
  destruct (G (volus m) (fun x Hx => Hx)) as [vals [E Hv]]. exists vals. split; auto. intros c Hc. rewrite Hv. tauto.
Qed.

Lemma free_ends_ok e : has_edge m e -> exists r, free_ends m e = Ok r /\ forall n, In n r <-> inner_vert m n /\ EV m e n.
Proof using W L O.
  intros He. pose proof W as [[_ [_ [Ue [Un _]]]] _]. unfold free_ends.
  destruct (isearch_ok ed_index (edges m) He) as [x [Ex [Ix Xx]]]. rewrite Ex. cbn [bind].
  assert (Ho : forall n, In n (ed_vertind x) <-> EV m e n) by (apply (@owner _ ed_index ed_vertind (edges m) e x Ue Ix Xx)).
  destruct L as [_ L2]. destruct (L2 x Ix) as [a [b Ev]].
  assert (End : forall k n, at_ (ed_vertind x) k = Ok n -> In n (ed_vertind x) -> exists r, free_end m x k = Ok r /\ forall y, In y r <-> y = n /\ inner_vert m n).
  { intros k n En Hn. unfold free_end. rewrite En. cbn [bind]. apply Ho, (ev_vert W) in Hn.
    destruct (isearch_ok ve_index (verts m) Hn) as [y [Ey [Iy Xy]]]. rewrite Ey. cbn [bind]. eexists. split; [reflexivity|].
    intros z. destruct (ve_border y) eqn:Eb; simpl.
    - split; [tauto|]. intros [_ [u [Iu [Xu Bu]]]].
      assert (y = u) by (eapply (@NoDup_idx_inj _ ve_index); eauto; congruence). congruence.
    - split; [intros [<-|[]]; split; auto; exists y; auto|intros [-> _]; auto]. }
  destruct (End 0 a) as [r0 [E0 H0]]; [rewrite Ev; reflexivity|rewrite Ev; simpl; auto|].
  destruct (End 1 b) as [r1 [E1 H1]]; [rewrite Ev; reflexivity|rewrite Ev; simpl; auto|].
  rewrite E0, E1. cbn [bind]. eexists. split; [reflexivity|]. intros n. rewrite in_app_iff, H0, H1, <- Ho, Ev. simpl.
  split; [intros [[-> H]|[-> H]]; auto|intros [H [->|[->|[]]]]; auto].
Qed.

Lemma surf_ends_ok s : has_surf m s -> exists r,
  (do su <- at_ (surfs m) (find su_index (surfs m) s) ; do l <- omap_list (free_ends m) (su_edgeind su) ; Ok (concat l)) = Ok r /\
  forall n, In n r <-> inner_vert m n /\ exists e, SE m s e /\ EV m e n.
Proof using W L O.
  intros Hs. pose proof W as [[_ [Us _]] _].
  destruct (@find_at _ su_index (surfs m) s Hs) as [x [Ex [Ix Xx]]]. rewrite Ex. cbn [bind].
  assert (Ho : forall n, In n (su_edgeind x) <-> SE m s n) by (apply (@owner _ su_index su_edgeind (surfs m) s x Us Ix Xx)).
  destruct (@omap_concat _ _ (free_ends m) (fun e n => inner_vert m n /\ EV m e n) (su_edgeind x)) as [bs [E Hb]].
  { intros e He. apply free_ends_ok. apply Ho in He. apply (se_edge W He). }
  rewrite E. cbn [bind]. eexists. split; [reflexivity|]. intros n. rewrite Hb. split.
  - intros [e [He [In_ Ev]]]. split; auto. exists e. rewrite <- Ho. auto.
  - intros [In_ [e [He Ev]]]. exists e. rewrite Ho. auto.
Qed.

Lemma find_spawn_verts_ok : exists vs os bs, find_spawn_verts m t h o = Ok (vs, os, bs) /\
  Sorted.StronglySorted Z.lt vs /\ Sorted.StronglySorted Z.lt os /\ Sorted.StronglySorted Z.lt bs /\
  (forall n, In n vs <-> has_vert m n /\ ~ at_outside m n /\ (on_front m t h o n \/ off_outside m t h o n)) /\
  (forall n, In n bs <-> has_vert m n /\ ~ at_outside m n /\ off_outside m t h o n) /\
  (forall c, wanted_cell m t h o c -> In c os) /\
  (forall c, In c os -> wanted_cell m t h o c \/
     (c <> 0 /\ exists s v0 v1 j q, In s (surfs m) /\ sides s v0 v1 /\ (c = v0 \/ c = v1) /\
        Z.of_nat j < nParents t /\ parent_target m t h j c q /\ at_bound (o =? 1) q)).
Proof using All.
  unfold find_spawn_verts. replace ((o =? 1) || (o =? 0)) with true by (destruct O as [-> | ->]; reflexivity).
  destruct border_values_ok as [vals [Ev Hv]]. rewrite Ev. cbn [bind]. rewrite D.
  destruct (@C51_const_3d m (passes 3 o vals) o W D) as [vs [os [Eo [Ho1 Ho2]]]]; [tauto|intros; lia|]. rewrite Eo. cbn [bind fst snd].
  destruct (@C45_bound m t h false (o =? 1) F P K) as [is [vi [Ei [Hi1 Hi2]]]].
  unfold elm_on_bound. rewrite D. change (3 =? 3) with true. cbn iota. rewrite Ei. cbn [bind fst snd].
  assert (Wc : forall c, SpecEdit.border_volu m (fun i => passes 3 o vals i = true) c <-> wanted_cell m t h o c).
  { intros c. unfold SpecEdit.border_volu, wanted_cell. rewrite <- volu_flag. split.
    - intros [x [H1 [H2 [H3 H4]]]]. split; [exists x; auto|]. apply Hv; auto. exists x; auto.
    - intros [[x [H1 [H2 H3]]] H4]. exists x. rewrite Hv; auto. exists x; auto. }
  match goal with |- context [omap_list ?f is] =>
    destruct (@omap_concat _ _ f (fun s n => inner_vert m n /\ exists e, SE m s e /\ EV m e n) is) as [bs [E Hb]] end.
  { intros s Hs. apply surf_ends_ok. apply Hi1 in Hs. destruct Hs as [x [_ [_ [Hx [Ix _]]]]]. exists x; auto. }
  rewrite E. cbn [bind]. eexists _, _, _. split; [reflexivity|].
  split; [apply tighten_strict|]. split; [apply tighten_strict|]. split; [apply tighten_strict|].
  assert (Off : forall n, In n vs <-> has_vert m n /\ ~ at_outside m n /\ off_outside m t h o n).
  { intros n. rewrite Ho1, vert_flag. unfold off_outside. split.
    - intros [[H1 H2] [c [s [e [H3 H4]]]]]. split; auto. split; auto. exists c, s, e. rewrite <- Wc. auto.
    - intros [H1 [H2 [c [s [e [H3 H4]]]]]]. split; auto. exists c, s, e. rewrite Wc. auto. }
  pose proof W as [[_ [Us _]] _].
  assert (Fr : forall n, In n (concat bs) <-> has_vert m n /\ ~ at_outside m n /\ on_front m t h o n).
  { intros n. rewrite Hb. split.
    - intros [i [Hi [Hn [e [He Hev]]]]]. apply vert_flag in Hn. split; [tauto|]. split; [tauto|].
      apply Hi1 in Hi. destruct Hi as [s [v0 [v1 [Hs [Is [Sd [[_ C]|[N0 [N1 Ob]]]]]]]]]; [discriminate|].
      exists s, v0, v1. split; auto. split.
      + exists e. split; auto. apply (@owner _ su_index su_edgeind (surfs m) i s Us Hs Is). exact He.
      + repeat (split; [assumption|]). exact Ob.
    - intros [Hn [Nn [s [v0 [v1 [Hs [[e [He Hev]] [Sd [N0 [N1 Ob]]]]]]]]]]. exists (su_index s). split.
      + apply Hi1. exists s, v0, v1. repeat (split; [auto; fail|]). right. auto.
      + split; [apply vert_flag; auto|]. exists e. split; auto. exists s. auto. }
  split; [|split; [|split]].
  - intros n. rewrite tighten_In, in_app_iff, tighten_In, Off, Fr. tauto.
  - intros n. rewrite tighten_In. apply Off.
  - intros c Hc. apply tighten_In, in_app_iff. left. apply Ho2, Wc. auto.
  - intros c Hc. apply tighten_In, in_app_iff in Hc. destruct Hc as [Hc|Hc]; [left; apply Wc, Ho2; auto|right].
    apply Hi2 in Hc. destruct Hc as [s [v0 [v1 [Hs [Is [Sd [N0 [Or_ Bd]]]]]]]]. split; auto.
    apply Hi1 in Is. destruct Is as [s' [w0 [w1 [Hs' [Is' [Sd' [[_ C]|[M0 [M1 _]]]]]]]]]; [discriminate|].
    assert (s' = s) by (eapply (@NoDup_idx_inj _ su_index); eauto). subst s'.
    assert (w0 = v0 /\ w1 = v1) as [-> ->] by (destruct Sd as [r Er], Sd' as [r' Er']; rewrite Er in Er'; injection Er'; auto).
    destruct (Bd M0 M1) as [j [q Hq]]. exists s, v0, v1, j, q. tauto.
Qed.
End One.
