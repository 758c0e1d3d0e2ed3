(** Properties C10 (meshes) to C15: connectivity of meshes. *)
From Verif Require Import Base Containers ContainersProofs Mesh SpecMesh MeshProofs SwitchProofs RemoveProofs MergeProofs.
Set Implicit Arguments.
Open Scope Z_scope.

(** A three-sheet pillow: three triangles on the same three edges, enclosing
    two volumes, with the exterior on both ends. *)
Definition pillow : mesh := mkMesh
  [mkVolu 1 false [1; 2]; mkVolu 2 false [2; 3]]
  [mkSurf 1 true true [0; 1] [1; 2; 3]; mkSurf 2 false true [1; 2] [1; 2; 3]; mkSurf 3 true true [2; 0] [1; 2; 3]]
  [mkEdge 1 true [1; 2; 3] [1; 2]; mkEdge 2 true [1; 2; 3] [2; 3]; mkEdge 3 true [1; 2; 3] [3; 1]]
  [mkVert 1 true [1; 3]; mkVert 2 true [1; 2]; mkVert 3 true [2; 3]] 3.

Ltac concrete_lists :=
  repeat match goal with
  | H : lists _ _ _ _ _ |- _ => destruct H as [? [? [? ?]]]; simpl in *
  | H : _ \/ _ |- _ => destruct H
  | H : False |- _ => destruct H
  end; subst; simpl in *; try lia; try discriminate.

Ltac concrete_nodup := simpl; repeat constructor; simpl; intuition lia.

Lemma concrete_well_connected m :
  unique_indices m -> exterior_only m -> test_bidir true m = (0, 0) -> well_connected m.
Proof.
  intros Hu Hx Ht. split; auto. split; auto.
  apply (test_bidir_spec true Hu).
  - apply (fst_bidir_known true). rewrite Ht. reflexivity.
  - rewrite Ht. reflexivity.
Qed.

Lemma pillow_unique : unique_indices pillow.
Proof.
  repeat apply conj; try concrete_nodup;
    intros [a [Ha Ea]]; simpl in Ha; intuition; subst; discriminate.
Qed.
Lemma pillow_exterior : exterior_only pillow.
Proof. unfold exterior_only, VE, EV, ES, SE, VS. repeat apply conj; intros; intro; concrete_lists. Qed.
Lemma pillow_ok : well_connected pillow.
Proof. apply concrete_well_connected; [apply pillow_unique|apply pillow_exterior|reflexivity]. Qed.
Lemma pillow_positive : positive_indices pillow.
Proof.
  split.
  - intros i H. unfold has_volu, has_surf, has_edge, has_vert in H. simpl in H.
    repeat match goal with H : _ \/ _ |- _ => destruct H | H : exists _, _ |- _ => destruct H
      | H : _ /\ _ |- _ => destruct H | H : False |- _ => destruct H end; subst; simpl; lia.
  - unfold VE, EV, ES, SE, SV, VS. intros i x H.
    repeat match goal with H : _ \/ _ |- _ => destruct H end; concrete_lists.
Qed.

(** ** C10: tightening a mesh keeps every reference, is idempotent and leaves
    strictly increasing lists; it throws exactly when an edge has more than two
    vertices. *)
Theorem C10_tighten_mesh m :
  ((exists e, In e (edges m) /\ (2 < length (ed_vertind e))%nat) <-> mesh_tighten m = Throw) /\
  ((forall e, In e (edges m) -> (length (ed_vertind e) <= 2)%nat) ->
   exists m', mesh_tighten m = Ok m' /\ same_objects m m' /\ same_refs m m' /\
     mesh_tighten m' = Ok m' /\
     (forall v, In v (volus m') -> StronglySorted Z.lt (vo_surfind v)) /\
     (forall s, In s (surfs m') -> StronglySorted Z.lt (su_voluind s) /\ StronglySorted Z.lt (su_edgeind s)) /\
     (forall e, In e (edges m') -> StronglySorted Z.lt (ed_surfind e)) /\
     map ed_vertind (edges m') = map ed_vertind (edges m) /\
     (forall v, In v (verts m') -> StronglySorted Z.lt (ve_edgeind v))).
Proof.
  assert (HOk : (forall e, In e (edges m) -> (length (ed_vertind e) <= 2)%nat) \/
                (exists e, In e (edges m) /\ (2 < length (ed_vertind e))%nat)).
  { destruct (Exists_dec (fun e => (2 < length (ed_vertind e))%nat) (edges m)) as [H|H].
    - intros e. destruct (lt_dec 2 (length (ed_vertind e))); auto.
    - right. apply Exists_exists in H. exact H.
    - left. intros e He. destruct (le_lt_dec (length (ed_vertind e)) 2); auto. exfalso. apply H.
      apply Exists_exists. eauto. }
  split.
  - split.
    + intros [e [He H]]. eapply mesh_tighten_Throw; eauto.
    + destruct HOk as [H|H]; auto. rewrite mesh_tighten_Ok by auto. discriminate.
  - intros H. exists (tightened m). split; [apply mesh_tighten_Ok; auto|].
    split; [apply tightened_objects|]. split; [apply tightened_refs|]. split.
    + rewrite mesh_tighten_Ok.
      * f_equal. unfold tightened. simpl. rewrite !map_map. f_equal; apply map_ext; intros a; simpl;
        unfold volu_tighten, vo_set_surfind, surf_tighten, ed_set_surfind, vert_tighten, ve_set_edgeind; simpl;
        rewrite !tighten_idem; reflexivity.
      * intros e He. unfold tightened in He. simpl in He. apply in_map_iff in He.
        destruct He as [e0 [<- He0]]. simpl. auto.
    + unfold tightened. simpl. repeat apply conj.
      * intros v Hv. apply in_map_iff in Hv. destruct Hv as [v0 [<- _]]. apply tighten_strict.
      * intros v Hv. apply in_map_iff in Hv. destruct Hv as [v0 [<- _]]. split; apply tighten_strict.
      * intros v Hv. apply in_map_iff in Hv. destruct Hv as [v0 [<- _]]. apply tighten_strict.
      * rewrite map_map. reflexivity.
      * intros v Hv. apply in_map_iff in Hv. destruct Hv as [v0 [<- _]]. apply tighten_strict.
Qed.
Print Assumptions C10_tighten_mesh.
Example C10_tighten_mesh_used : forall e, In e (edges pillow) -> (length (ed_vertind e) <= 2)%nat.
Proof. simpl. intros e [<-|[<-|[<-|[]]]]; simpl; lia. Qed.

(** A border surface loses one of its two sides in the list: {0,0} becomes
    {0}. The set of references is kept, the number of sides is not. *)
Theorem C10_tighten_two_sides_refuted :
  exists m m', mesh_tighten m = Ok m' /\
    map (fun s => length (su_voluind s)) (surfs m) = [2%nat] /\
    map (fun s => length (su_voluind s)) (surfs m') = [1%nat].
Proof.
  exists (mkMesh [] [mkSurf 1 true true [0; 0] [1]] [] [] 2). eexists. split; [reflexivity|]. split; reflexivity.
Qed.
Print Assumptions C10_tighten_two_sides_refuted.

(** ** C11 *)
Theorem C11_merge a b :
  unique_indices a -> unique_indices b -> positive_indices b ->
  (forall v, ~ VE b v 0) -> (forall e, ~ EV b e 0) -> (forall s, ~ SE b s 0) ->
  let b' := make_compatible a b in
  let c := concatenate a b' in
  unique_indices c /\
  (exists dvert dedge dsurf dvolu, shifted dvert dedge dsurf dvolu b b' /\
     0 <= dvert /\ 0 <= dedge /\ 0 <= dsurf /\ 0 <= dvolu) /\
  volus c = volus a ++ volus b' /\ surfs c = surfs a ++ surfs b' /\
  edges c = edges a ++ edges b' /\ verts c = verts a ++ verts b' /\
  (well_connected a -> well_connected b -> mutual c).
Proof.
  intros Ha Hb Hp X1 X2 X3 b' c. split; [apply merged_unique; auto|]. split.
  - exists (max_index ve_index (verts a)), (max_index ed_index (edges a)),
      (max_index su_index (surfs a)), (max_index vo_index (volus a)).
    split; [apply change_shifted; auto|]. repeat split; apply max_index_nonneg.
  - repeat split; auto; intros Hwa Hwb; apply merged_mutual; auto.
Qed.
Print Assumptions C11_merge.
Example C11_merge_used :
  unique_indices pillow /\ positive_indices pillow /\ well_connected pillow /\
  map su_voluind (surfs (concatenate pillow (make_compatible pillow pillow))) =
    [[0; 1]; [1; 2]; [2; 0]; [0; 3]; [3; 4]; [4; 0]].
Proof. repeat split; try apply pillow_ok; try apply pillow_positive; apply pillow_unique. Qed.

(** Without the condition on 0: a vertex that lists edge 0 passes
    TestConnectivity, yet after merging that 0 has become a real edge of the
    first mesh. *)
Theorem C11_zero_reference_refuted :
  exists a b, unique_indices a /\ unique_indices b /\ positive_indices a /\ positive_indices b /\
    references_known b /\ no_empty b /\
    exists v e, VE (make_compatible a b) v e /\ e <> 0 /\ has_edge a e /\ ~ has_edge b e /\
      has_vert (make_compatible a b) v /\ ~ has_vert a v.
Proof.
  exists pillow, (mkMesh [] [] [] [mkVert 1 true [0]] 2).
  split; [apply pillow_unique|]. split.
  { repeat apply conj; try concrete_nodup; intros [a [Ha Ea]]; simpl in Ha; intuition; subst; discriminate. }
  split; [apply pillow_positive|]. split.
  { split.
    - intros i [[x [[] _]]|[[x [[] _]]|[[x [[] _]]|[x [[<-|[]] <-]]]]]. simpl; lia.
    - unfold VE, EV, ES, SE, SV, VS. intros i x H.
      repeat match goal with H : _ \/ _ |- _ => destruct H end; concrete_lists. }
  split.
  { unfold references_known, VE, EV, ES, SE, SV, VS. repeat apply conj; intros; concrete_lists; auto. }
  split.
  { split; [intros v [<-|[]]; discriminate|intros s []]. }
  exists 4, 3. split.
  { exists (mkVert 4 true [3]). vm_compute. tauto. }
  split; [lia|]. split; [exists (mkEdge 3 true [1; 2; 3] [3; 1]); simpl; tauto|].
  split; [intros [e [[] _]]|]. split; [exists (mkVert 4 true [3]); vm_compute; tauto|].
  intros [v [Hv Ev]]. simpl in Hv. intuition; subst; discriminate.
Qed.
Print Assumptions C11_zero_reference_refuted.

(** ** C12: one theorem per object type. *)

(** Type 4, volumes. *)
Theorem C12_switch_volume m old new scope :
  well_connected m -> old <> new -> has_volu m old -> has_volu m new ->
  exists m', switch_index 4 old new scope m = Ok m' /\ same_objects m m' /\
    (* nothing else moves *)
    edges m' = edges m /\ verts m' = verts m /\
    map su_ordered (surfs m') = map su_ordered (surfs m) /\
    map su_edgeind (surfs m') = map su_edgeind (surfs m) /\
    (* references to old become references to new *)
    (forall s v, SV m' s v <-> renamed old new (SV m s) v) /\
    (* the new volume gains the surfaces of the old one; other volumes keep theirs *)
    (forall v s, VS m' v s <-> VS m v s \/ (v = new /\ VS m old s)) /\
    (* references to new are mutual *)
    (forall s, SV m' s new <-> VS m' new s).
Proof.
  intros Hw Hne Ho Hn. destruct (switch4_spec Hw Hne Ho Hn) as [m' [Hr [Hs [He [Hv [Hor [Hse [Hsv Hvs]]]]]]]].
  exists m'. split; auto. do 7 (split; [assumption|]).
  intros s. rewrite Hsv, Hvs. destruct Hw as [[_ [_ [_ [_ [Z1 _]]]]] [[_ [_ [_ [_ [M5 M6]]]]] [_ [_ [_ [X4 _]]]]]].
  assert (Hon : forall v, has_volu m v -> (SV m s v <-> VS m v s)).
  { intros v Hv0. split; intros H; [apply M5; auto; intros ->; auto|apply M6; auto; intros ->; apply (X4 v H)]. }
  unfold renamed. rewrite (Hon new Hn), (Hon old Ho). split; [tauto|]. intros [H|[_ H]]; [|tauto].
  left. split; auto.
Qed.
Print Assumptions C12_switch_volume.
Example C12_switch_volume_used :
  exists m', switch_index 4 1 2 [] pillow = Ok m' /\
    map su_voluind (surfs m') = [[0; 2]; [2; 2]; [2; 0]] /\
    map vo_surfind (volus m') = [[1; 2]; [2; 3; 1; 2]] /\
    well_connected pillow /\ has_volu pillow 1 /\ has_volu pillow 2.
Proof.
  eexists. split; [reflexivity|]. repeat split; try apply pillow_ok;
  [exists (mkVolu 1 false [1; 2])|exists (mkVolu 2 false [2; 3])]; simpl; tauto.
Qed.

(** Type 3, surfaces. *)
Theorem C12_switch_surface m old new scope :
  well_connected m -> old <> new -> has_surf m old -> has_surf m new ->
  exists m', switch_index 3 old new scope m = Ok m' /\ same_objects m m' /\
    verts m' = verts m /\ map ed_vertind (edges m') = map ed_vertind (edges m) /\
    (forall e s, ES m' e s <-> renamed old new (ES m e) s) /\
    (forall v s, VS m' v s <-> renamed old new (VS m v) s) /\
    (forall s e, SE m' s e <-> SE m s e \/ (s = new /\ SE m old e)) /\
    (forall s v, SV m' s v <-> SV m s v \/ (s = new /\ SV m old v /\ v <> 0)) /\
    (forall e, ES m' e new <-> SE m' new e) /\
    (forall v, v <> 0 -> (VS m' v new <-> SV m' new v)) /\
    (forall s, In s (surfs m') -> su_index s = new -> su_ordered s = false).
Proof.
  intros Hw Hne Ho Hn. destruct (switch3_spec Hw Hne Ho Hn) as [m' [Hr [Hs [Hv [Hev [Hes [Hse [Hvs [Hsv Hor]]]]]]]]].
  exists m'. split; auto. do 7 (split; [assumption|]).
  destruct Hw as [[_ [_ [_ [_ [Z1 [Z2 _]]]]]] [[_ [_ [M3 [M4 [M5 M6]]]]] [_ [_ [X3 [X4 _]]]]]].
  split; [|split; auto].
  - intros e. rewrite Hes, Hse.
    assert (Hon : forall s, has_surf m s -> (ES m e s <-> SE m s e)).
    { intros s Hs0. split; intros H; [apply M3; auto; intros ->; auto|apply M4; auto; intros ->; apply (X3 s H)]. }
    unfold renamed. rewrite (Hon new Hn), (Hon old Ho). split; [tauto|]. intros [H|[_ H]]; [|tauto].
    left. split; auto.
  - intros v Hv0. rewrite Hvs, Hsv.
    assert (Hon : forall s, has_surf m s -> (VS m v s <-> SV m s v)).
    { intros s Hs0. split; intros H; [apply M6; auto; intros ->; auto|apply M5; auto]. }
    unfold renamed. rewrite (Hon new Hn), (Hon old Ho). split; [tauto|]. intros [H|[_ H]]; [|tauto].
    left. split; auto.
Qed.
Print Assumptions C12_switch_surface.
Example C12_switch_surface_used :
  exists m', switch_index 3 1 2 [] pillow = Ok m' /\
    map ed_surfind (edges m') = [[2; 2; 3]; [2; 2; 3]; [2; 2; 3]] /\
    map vo_surfind (volus m') = [[2; 2]; [2; 3]] /\
    map su_voluind (surfs m') = [[0; 1]; [1; 2; 1]; [2; 0]] /\
    well_connected pillow /\ has_surf pillow 1 /\ has_surf pillow 2.
Proof.
  eexists. split; [reflexivity|]. repeat split; try apply pillow_ok;
  [exists (mkSurf 1 true true [0; 1] [1; 2; 3])|exists (mkSurf 2 false true [1; 2] [1; 2; 3])]; simpl; tauto.
Qed.
(** The surface that receives the references ends with more than two sides (line
    2127 appends), as the example shows: [1; 2; 1]. *)

(** Type 2, edges.  Missing from the full statement: the vertices of the old
    edge that the new edge does not list end up with a one-way reference. *)
Theorem C12_switch_edge_partial m old new scope :
  well_connected m -> old <> new -> has_edge m old -> has_edge m new ->
  exists m', switch_index 2 old new scope m = Ok m' /\ same_objects m m' /\
    volus m' = volus m /\ map ed_vertind (edges m') = map ed_vertind (edges m) /\
    map su_voluind (surfs m') = map su_voluind (surfs m) /\
    (forall v e, VE m' v e <-> renamed old new (VE m v) e) /\
    (forall s e, SE m' s e <-> renamed old new (SE m s) e) /\
    (forall e s, ES m' e s <-> ES m e s \/ (e = new /\ ES m old s /\ s <> 0)) /\
    (forall s, s <> 0 -> (SE m' s new <-> ES m' new s)) /\
    ((forall v, EV m old v -> EV m new v) -> forall v, VE m' v new <-> EV m' new v).
Proof.
  intros Hw Hne Ho Hn. destruct (switch2_spec Hw Hne Ho Hn) as [m' [Hr [Hs [Hvo [Hev [Hsvo [Hve [Hse [Hes Hor]]]]]]]]].
  exists m'. split; auto. do 7 (split; [assumption|]).
  destruct Hw as [[_ [_ [U3 [_ [Z1 [Z2 [Z3 _]]]]]]] [[M1 [M2 [M3 [M4 _]]]] [X1 [X2 [X3 _]]]]].
  split.
  - intros s Hs0. rewrite Hse, Hes.
    assert (Hon : forall e, has_edge m e -> (SE m s e <-> ES m e s)).
    { intros e He. split; intros H; [apply M4; auto; intros ->; auto|apply M3; auto]. }
    unfold renamed. rewrite (Hon new Hn), (Hon old Ho). split; [tauto|]. intros [H|[_ H]]; [|tauto].
    left. split; auto.
  - intros Hsub v. rewrite Hve.
    assert (Hon : forall e, has_edge m e -> (VE m v e <-> EV m e v)).
    { intros e He. split; intros H; [apply M1; auto; intros ->; auto|apply M2; auto; intros ->; apply (X2 e H)]. }
    assert (Hev' : EV m' new v <-> EV m new v).
    { unfold EV. clear - Hev Hs. destruct Hs as [_ [_ [Hed _]]].
      assert (Hi : map (fun e => (ed_index e, ed_vertind e)) (edges m') = map (fun e => (ed_index e, ed_vertind e)) (edges m)).
      { revert Hev Hed. generalize (edges m') (edges m). induction l as [|x r IH]; intros [|y r'] H1 H2; simpl in *; try discriminate; auto.
        injection H1 as ? ?. injection H2 as ? ? ?. f_equal; [congruence|auto]. }
      assert (Hl : forall l, lists ed_index ed_vertind l new v <->
                exists p, In p (map (fun e => (ed_index e, ed_vertind e)) l) /\ fst p = new /\ In v (snd p)).
      { intros l. unfold lists. split.
        - intros [a [Ha H]]. exists (ed_index a, ed_vertind a). split; auto. apply in_map_iff. eauto.
        - intros [p [Hp H]]. apply in_map_iff in Hp. destruct Hp as [a [<- Ha]]. exists a; auto. }
      rewrite !Hl, Hi. reflexivity. }
    rewrite Hev'. unfold renamed. rewrite (Hon new Hn), (Hon old Ho). split; [intros [[? _]|[_ ?]]; auto|].
    intros H. left. split; auto.
Qed.
Print Assumptions C12_switch_edge_partial.

(** A pillow whose edge 3 is doubled by edge 4. *)
Definition pillow4 : mesh := mkMesh
  [] [mkSurf 1 true true [0; 0] [1; 2; 3]; mkSurf 2 true true [0; 0] [1; 2; 4]]
  [mkEdge 1 true [1; 2] [1; 2]; mkEdge 2 true [1; 2] [2; 3]; mkEdge 3 true [1; 0] [3; 1]; mkEdge 4 true [2; 0] [3; 1]]
  [mkVert 1 true [1; 3; 4]; mkVert 2 true [1; 2]; mkVert 3 true [2; 3; 4]] 2.
Lemma pillow4_ok : well_connected pillow4.
Proof.
  apply concrete_well_connected; [| |reflexivity].
  - repeat apply conj; try concrete_nodup; intros [a [Ha Ea]]; simpl in Ha; intuition; subst; discriminate.
  - unfold exterior_only, VE, EV, ES, SE, VS. repeat apply conj; intros; try intro;
      try solve [match goal with H : volus _ <> [] |- _ => elim H; reflexivity end]; concrete_lists.
Qed.
Example C12_switch_edge_used :
  exists m', switch_index 2 4 3 [] pillow4 = Ok m' /\
    map ve_edgeind (verts m') = [[1; 3; 3]; [1; 2]; [2; 3; 3]] /\
    map ed_surfind (edges m') = [[1; 2]; [1; 2]; [1; 0; 2]; [2; 0]] /\
    map su_edgeind (surfs m') = [[1; 2; 3]; [1; 2; 3]] /\
    well_connected pillow4 /\ has_edge pillow4 3 /\ has_edge pillow4 4 /\
    (forall v, EV pillow4 4 v -> EV pillow4 3 v).
Proof.
  eexists. split; [reflexivity|]. repeat split; try apply pillow4_ok.
  - exists (mkEdge 3 true [1; 0] [3; 1]); simpl; tauto.
  - exists (mkEdge 4 true [2; 0] [3; 1]); simpl; tauto.
  - intros v [a [Ha [Ei Hv]]]. simpl in Ha. intuition; subst; try discriminate.
    exists (mkEdge 3 true [1; 0] [3; 1]). simpl in *. tauto.
Qed.

(** In general the switch of an edge leaves a one-way reference: vertex 3
    lists edge 1, which does not list vertex 3. *)
Theorem C12_switch_edge_refuted :
  exists m old new m' v, well_connected m /\ old <> new /\ has_edge m old /\ has_edge m new /\
    switch_index 2 old new [] m = Ok m' /\ VE m' v new /\ ~ EV m' new v.
Proof.
  exists pillow, 2, 1. eexists. exists 3. split; [apply pillow_ok|]. split; [lia|].
  split; [exists (mkEdge 2 true [1; 2; 3] [2; 3]); simpl; tauto|].
  split; [exists (mkEdge 1 true [1; 2; 3] [1; 2]); simpl; tauto|].
  split; [reflexivity|]. split.
  - exists (mkVert 3 true [1; 3]). vm_compute. tauto.
  - intros [a [Ha [Ei Hv]]]. vm_compute in Ha. intuition; subst; simpl in *; try discriminate; intuition discriminate.
Qed.
Print Assumptions C12_switch_edge_refuted.

(** Type 1, vertices.  The whole mesh stays mutual. *)
Theorem C12_switch_vertex_partial m old new scope :
  well_connected m -> old <> new -> has_vert m old -> has_vert m new ->
  (* missing: vertices listing an edge twice, and edges of the old vertex
     without two different ends *)
  (forall v, In v (verts m) -> ve_index v = old -> NoDup (ve_edgeind v)) ->
  (forall e, In e (edges m) -> In old (ed_vertind e) -> exists a b, ed_vertind e = [a; b] /\ a <> b) ->
  exists m', switch_index 1 old new scope m = Ok m' /\ same_objects m m' /\
    volus m' = volus m /\ surfs m' = surfs m /\ map ed_surfind (edges m') = map ed_surfind (edges m) /\
    (forall e v, EV m' e v <-> renamed old new (EV m e) v) /\
    (forall v e, VE m' v e <-> (VE m v e /\ v <> old) \/ (v = new /\ VE m old e)) /\
    (forall v e, VE m' v e <-> EV m' e v).
Proof.
  intros Hw Hne Ho Hn Hnd Htwo.
  destruct (switch1_spec Hw Hne Ho Hn Hnd Htwo) as [m' [Hr [Hs [Hvo [Hsu [Hsf [Hev Hve]]]]]]].
  exists m'. split; auto. do 6 (split; [assumption|]).
  destruct Hw as [[_ [_ [_ [_ [_ [_ [Z3 Z4]]]]]]] [[M1 [M2 _]] [X1 [X2 _]]]].
  assert (Hon : forall v e, VE m v e <-> EV m e v).
  { intros v e. split; intros H; [apply M1; auto; intros ->; apply (X1 v H)|apply M2; auto; intros ->; apply (X2 e H)]. }
  intros v e. rewrite Hve, Hev. unfold renamed. rewrite !Hon. tauto.
Qed.
Print Assumptions C12_switch_vertex_partial.
Example C12_switch_vertex_used :
  exists m', switch_index 1 1 2 [] pillow = Ok m' /\
    map ve_edgeind (verts m') = [[]; [1; 2; 3]; [2; 3]] /\
    map ed_vertind (edges m') = [[2; 2]; [2; 3]; [3; 2]] /\
    well_connected pillow /\ has_vert pillow 1 /\ has_vert pillow 2 /\
    (forall v, In v (verts pillow) -> ve_index v = 1 -> NoDup (ve_edgeind v)) /\
    (forall e, In e (edges pillow) -> In 1 (ed_vertind e) -> exists a b, ed_vertind e = [a; b] /\ a <> b).
Proof.
  eexists. split; [reflexivity|]. repeat split; try apply pillow_ok.
  - exists (mkVert 1 true [1; 3]); simpl; tauto.
  - exists (mkVert 2 true [1; 2]); simpl; tauto.
  - intros v Hv _. simpl in Hv. destruct Hv as [<-|[<-|[<-|[]]]]; concrete_nodup.
  - intros e He _. simpl in He. destruct He as [<-|[<-|[<-|[]]]]; do 2 eexists; (split; [reflexivity|lia]).
Qed.

(** An edge whose two ends are the same vertex keeps one reference to it. *)
Theorem C12_switch_vertex_refuted :
  exists m old new m' e, well_connected m /\ old <> new /\ has_vert m old /\ has_vert m new /\
    switch_index 1 old new [] m = Ok m' /\ EV m' e old.
Proof.
  exists (mkMesh [] [] [mkEdge 1 true [] [1; 1]] [mkVert 1 true [1]; mkVert 2 true []] 2), 1, 2.
  eexists. exists 1. split.
  { split; [|split].
    - repeat apply conj; try concrete_nodup; intros [a [Ha Ea]]; simpl in Ha; intuition; subst; discriminate.
    - unfold mutual, VE, EV, ES, SE, SV, VS. repeat apply conj; intros; concrete_lists;
        solve [exists (mkEdge 1 true [] [1; 1]); simpl; tauto | exists (mkVert 1 true [1]); simpl; tauto].
    - unfold exterior_only, VE, EV, ES, SE, VS. repeat apply conj; intros; try intro;
      try solve [match goal with H : volus _ <> [] |- _ => elim H; reflexivity end]; concrete_lists. }
  split; [lia|]. split; [exists (mkVert 1 true [1]); simpl; tauto|].
  split; [exists (mkVert 2 true []); simpl; tauto|]. split; [reflexivity|].
  exists (mkEdge 1 true [] [1; 2]). vm_compute. tauto.
Qed.
Print Assumptions C12_switch_vertex_refuted.

(** Types 5, 6 and 7: the switch restricted to referring objects in a list. *)
Theorem C12_switch_vertex_scoped m old new scope :
  well_connected m -> old <> new -> has_vert m old -> has_vert m new ->
  exists m', switch_index 5 old new scope m = Ok m' /\ same_objects m m' /\
    volus m' = volus m /\ surfs m' = surfs m /\ map ed_surfind (edges m') = map ed_surfind (edges m) /\
    (forall e v, EV m' e v <-> if in_dec Z.eq_dec e scope then renamed old new (EV m e) v else EV m e v) /\
    (forall v e, VE m' v e <-> (VE m v e /\ ~ (v = old /\ In e scope)) \/
                               (v = new /\ VE m old e /\ In e scope)) /\
    (forall v e, VE m' v e <-> EV m' e v).
Proof.
  intros Hw Hne Ho Hn.
  destruct (switch5_spec scope Hw Hne Ho Hn) as [m' [Hr [Hs [Hvo [Hsu [Hsf [Hev Hve]]]]]]].
  exists m'. split; auto. do 6 (split; [assumption|]).
  destruct Hw as [[_ [_ [_ [_ [_ [_ [Z3 Z4]]]]]]] [[M1 [M2 _]] [X1 [X2 _]]]].
  assert (Hon : forall v e, VE m v e <-> EV m e v).
  { intros v e. split; intros H; [apply M1; auto; intros ->; apply (X1 v H)|apply M2; auto; intros ->; apply (X2 e H)]. }
  intros v e. rewrite Hve, Hev. unfold renamed. rewrite !Hon. destruct (in_dec Z.eq_dec e scope); tauto.
Qed.
Print Assumptions C12_switch_vertex_scoped.
Example C12_switch_vertex_scoped_used :
  exists m', switch_index 5 1 2 [3] pillow = Ok m' /\
    map ve_edgeind (verts m') = [[1]; [1; 2; 3]; [2; 3]] /\
    map ed_vertind (edges m') = [[1; 2]; [2; 3]; [3; 2]].
Proof. eexists. split; [reflexivity|]. split; reflexivity. Qed.

Theorem C12_switch_volume_scoped m old new scope :
  well_connected m -> old <> new -> has_volu m old -> has_volu m new ->
  (forall s, In s scope -> has_surf m s) ->
  exists m', switch_index 7 old new scope m = Ok m' /\ same_objects m m' /\
    edges m' = edges m /\ verts m' = verts m /\
    map su_ordered (surfs m') = map su_ordered (surfs m) /\
    map su_edgeind (surfs m') = map su_edgeind (surfs m) /\
    (forall s v, SV m' s v <-> if in_dec Z.eq_dec s scope then renamed old new (SV m s) v else SV m s v) /\
    (forall v s, VS m' v s <-> (VS m v s /\ ~ (v = old /\ In s scope)) \/
                               (v = new /\ VS m old s /\ In s scope)) /\
    (forall v s, v <> 0 -> (VS m' v s <-> SV m' s v)).
Proof.
  intros Hw Hne Ho Hn Hsc.
  destruct (switch7_spec scope Hw Hne Ho Hn Hsc) as [m' [Hr [Hs [He [Hv [Hor [Hse [Hsv Hvs]]]]]]]].
  exists m'. split; auto. do 7 (split; [assumption|]).
  destruct Hw as [[_ [_ [_ [_ [Z1 [Z2 _]]]]]] [[_ [_ [_ [_ [M5 M6]]]]] [_ [_ [_ [X4 _]]]]]].
  assert (Ho0 : old <> 0) by (intros ->; auto).
  assert (Hon : forall v s, v <> 0 -> (VS m v s <-> SV m s v)).
  { intros v s Hv0. split; intros H; [apply M6; auto; intros ->; apply (X4 v H)|apply M5; auto]. }
  intros v s Hv0. rewrite Hvs, Hsv. unfold renamed. rewrite (Hon v s Hv0), (Hon old s Ho0).
  destruct (in_dec Z.eq_dec s scope); tauto.
Qed.
Print Assumptions C12_switch_volume_scoped.
Example C12_switch_volume_scoped_used :
  exists m', switch_index 7 1 2 [1] pillow = Ok m' /\
    map su_voluind (surfs m') = [[0; 2]; [1; 2]; [2; 0]] /\
    map vo_surfind (volus m') = [[2]; [2; 3; 1]].
Proof. eexists. split; [reflexivity|]. split; reflexivity. Qed.

Theorem C12_switch_surface_scoped m old new scope :
  well_connected m -> old <> new -> has_surf m old -> has_surf m new ->
  (forall e, In e scope -> has_edge m e) ->
  exists m', switch_index 6 old new scope m = Ok m' /\ same_objects m m' /\
    verts m' = verts m /\ map ed_vertind (edges m') = map ed_vertind (edges m) /\
    map su_voluind (surfs m') = map su_voluind (surfs m) /\
    (forall e s, ES m' e s <-> if in_dec Z.eq_dec e scope then renamed old new (ES m e) s else ES m e s) /\
    (forall s e, SE m' s e <-> (SE m s e /\ ~ (s = old /\ In e scope)) \/
                               (s = new /\ SE m old e /\ In e scope)) /\
    (forall v s, VS m' v s <-> VS m v s \/ (s = new /\ 0 < v /\ SV m new v)) /\
    (forall s e, s <> 0 -> (SE m' s e <-> ES m' e s)).
Proof.
  intros Hw Hne Ho Hn Hsc.
  destruct (switch6_spec scope Hw Hne Ho Hn Hsc) as [m' [Hr [Hs [Hv [Hev [Hsv [Hes [Hse Hvs]]]]]]]].
  exists m'. split; auto. do 7 (split; [assumption|]).
  destruct Hw as [[_ [_ [_ [_ [Z1 [Z2 _]]]]]] [[_ [_ [M3 [M4 _]]]] [_ [_ [X3 _]]]]].
  assert (Ho0 : old <> 0) by (intros ->; auto).
  assert (Hon : forall s e, s <> 0 -> (SE m s e <-> ES m e s)).
  { intros s e Hs0. split; intros H; [apply M4; auto; intros ->; apply (X3 s H)|apply M3; auto]. }
  intros s e Hs0. rewrite Hse, Hes. unfold renamed. rewrite (Hon s e Hs0), (Hon old e Ho0).
  destruct (in_dec Z.eq_dec e scope); tauto.
Qed.
Print Assumptions C12_switch_surface_scoped.
Example C12_switch_surface_scoped_used :
  exists m', switch_index 6 1 2 [1; 2] pillow = Ok m' /\
    map ed_surfind (edges m') = [[2; 2; 3]; [2; 2; 3]; [1; 2; 3]] /\
    map su_edgeind (surfs m') = [[3]; [1; 2; 3; 1; 2]; [1; 2; 3]].
Proof. eexists. split; [reflexivity|]. split; reflexivity. Qed.

(** ** C13 *)
Theorem C13_remove_vertex m i :
  well_connected m -> has_vert m i ->
  exists m', remove_index 1 i m = Ok m' /\ same_objects m m' /\
    (forall e, ~ EV m' e i) /\
    (forall e v, v <> i -> (EV m' e v <-> EV m e v)) /\
    volus m' = volus m /\ surfs m' = surfs m /\ verts m' = verts m /\
    map ed_surfind (edges m') = map ed_surfind (edges m).
Proof.
  intros Hw Hi. destruct (remove1_spec Hw Hi) as [m' [Hr [Hs [Hvo [Hsu [Hve [Hes Hev]]]]]]].
  exists m'. split; auto. split; auto. split; [intros e H; apply Hev in H; tauto|].
  split; [intros e v Hne; rewrite Hev; tauto|]. auto.
Qed.
Print Assumptions C13_remove_vertex.

Theorem C13_remove_edge m i :
  well_connected m -> has_edge m i ->
  exists m', remove_index 2 i m = Ok m' /\ same_objects m m' /\
    (forall v, ~ VE m' v i) /\ (forall s, ~ SE m' s i) /\
    (forall x, ~ EV m' i x /\ ~ ES m' i x) /\
    (forall v e, e <> i -> (VE m' v e <-> VE m v e)) /\
    (forall s e, e <> i -> (SE m' s e <-> SE m s e)) /\
    (forall e x, e <> i -> (EV m' e x <-> EV m e x) /\ (ES m' e x <-> ES m e x)) /\
    volus m' = volus m /\ map su_voluind (surfs m') = map su_voluind (surfs m) /\
    (* a surface keeps its ordered flag exactly when it did not list the edge *)
    (forall s s', In s (surfs m) -> In s' (surfs m') -> su_index s' = su_index s ->
       su_ordered s' = su_ordered s && negb (mem_z i (su_edgeind s))).
Proof.
  intros Hw Hi. destruct (remove2_spec Hw Hi) as [m' [Hr [Hs [Hvo [Hsv [Hve [Hse [Hev [Hes Hor]]]]]]]]].
  exists m'. split; auto. split; auto.
  split; [intros v H; apply Hve in H; tauto|]. split; [intros v H; apply Hse in H; tauto|].
  split; [intros x; split; intros H; [apply Hev in H|apply Hes in H]; tauto|].
  split; [intros v e Hne; rewrite Hve; tauto|]. split; [intros v e Hne; rewrite Hse; tauto|].
  split; [intros e x Hne; rewrite Hev, Hes; tauto|]. auto.
Qed.
Print Assumptions C13_remove_edge.

Theorem C13_remove_surface m i :
  well_connected m -> has_surf m i ->
  exists m', remove_index 3 i m = Ok m' /\ same_objects m m' /\
    (forall e, ~ ES m' e i) /\ (forall v, ~ VS m' v i) /\
    (forall x, ~ SE m' i x /\ ~ SV m' i x) /\
    (forall e s, s <> i -> (ES m' e s <-> ES m e s)) /\
    (forall v s, s <> i -> (VS m' v s <-> VS m v s)) /\
    (forall s x, s <> i -> (SE m' s x <-> SE m s x) /\ (SV m' s x <-> SV m s x)) /\
    verts m' = verts m /\ map ed_vertind (edges m') = map ed_vertind (edges m).
Proof.
  intros Hw Hi. destruct (remove3_spec Hw Hi) as [m' [Hr [Hs [Hve [Hev [Hes [Hvs [Hse Hsv]]]]]]]].
  exists m'. split; auto. split; auto.
  split; [intros v H; apply Hes in H; tauto|]. split; [intros v H; apply Hvs in H; tauto|].
  split; [intros x; split; intros H; [apply Hse in H|apply Hsv in H]; tauto|].
  split; [intros v e Hne; rewrite Hes; tauto|]. split; [intros v e Hne; rewrite Hvs; tauto|].
  split; [intros e x Hne; rewrite Hse, Hsv; tauto|]. auto.
Qed.
Print Assumptions C13_remove_surface.

Theorem C13_remove_volume m i :
  well_connected m -> has_volu m i ->
  exists m', remove_index 4 i m = Ok m' /\ same_objects m m' /\
    (forall s, ~ SV m' s i) /\ (forall s, ~ VS m' i s) /\
    (forall s v, v <> i -> v <> 0 -> (SV m' s v <-> SV m s v)) /\
    (forall v s, v <> i -> (VS m' v s <-> VS m v s)) /\
    verts m' = verts m /\ edges m' = edges m /\
    map su_edgeind (surfs m') = map su_edgeind (surfs m) /\
    (* a surface with two sides keeps two sides; the remaining sides keep
       their order and the exterior is put last; other surfaces are untouched *)
    Forall2 (fun s s' =>
       (length (su_voluind s) = 2 -> length (su_voluind s') = 2)%nat /\
       (~ In i (su_voluind s) -> su_voluind s' = su_voluind s) /\
       (exists k, su_voluind s' = filter (fun x => negb (x =? i)) (su_voluind s) ++ repeat 0 k))
      (surfs m) (surfs m').
Proof.
  intros Hw Hi. destruct (remove4_spec Hw Hi) as [m' [Hr [Hs [Hve [Hed [Hse [Hsv Hvs]]]]]]].
  assert (Hi0 : i <> 0) by (destruct Hw as [[_ [_ [_ [_ [Z1 _]]]]] _]; intros ->; auto).
  assert (Hlen : length (surfs m') = length (surfs m)).
  { erewrite <- (map_length su_voluind), Hsv, map_length. reflexivity. }
  assert (HF : Forall2 (fun s s' => su_index s' = su_index s /\ su_voluind s' = sides (su_voluind s) i) (surfs m) (surfs m')).
  { destruct Hs as [_ [Hsi _]]. revert Hsv Hsi. clear. generalize (surfs m) (surfs m').
    induction l as [|x r IH]; intros [|y r'] H1 H2; simpl in *; try discriminate; constructor.
    - injection H1 as ? ?. injection H2 as ? ? ?. auto.
    - apply IH; congruence. }
  assert (HSV : forall s v, SV m' s v <-> exists a, In a (surfs m) /\ su_index a = s /\ In v (sides (su_voluind a) i)).
  { intros s v. unfold SV, lists. clear - HF. induction HF as [|x y l l' [H1 H2] HF IH].
    - split; intros [a [[] _]].
    - simpl. split; intros [a [[<-|Ha] [E Hv]]].
      + exists x. rewrite <- H1, <- H2. auto.
      + destruct (proj1 IH) as [b [Hb H]]; [eauto|]. exists b; auto.
      + exists y. rewrite H1, H2. auto.
      + destruct (proj2 IH) as [b [Hb H]]; [eauto|]. exists b; auto. }
  exists m'. split; auto. split; auto.
  split; [intros s H; apply HSV in H; destruct H as [a [_ [_ H]]]; apply sides_not_old in H; auto|].
  split; [intros s H; apply Hvs in H; tauto|].
  split.
  { intros s v H1 H2. rewrite HSV. unfold SV, lists. split; intros [a [Ha [E Hv]]]; exists a; rewrite sides_In in * by auto; tauto. }
  split; [intros v s H; rewrite Hvs; tauto|]. split; auto. split; auto. split; auto.
  clear - HF Hi0. induction HF as [|s s' l l' [_ E] HF IH]; constructor; auto. rewrite E. repeat split.
  - intros H. rewrite sides_length by lia. rewrite H. lia.
  - intros H. apply sides_absent; auto.
  - eexists. reflexivity.
Qed.
Print Assumptions C13_remove_volume.
Example C13_remove_used :
  (exists m', remove_index 4 1 pillow = Ok m' /\
     map su_voluind (surfs m') = [[0; 0]; [2; 0]; [2; 0]] /\ map vo_surfind (volus m') = [[]; [2; 3]]) /\
  (exists m', remove_index 2 1 pillow = Ok m' /\
     map ve_edgeind (verts m') = [[3]; [2]; [2; 3]] /\ map su_edgeind (surfs m') = [[2; 3]; [2; 3]; [2; 3]]) /\
  (exists m', remove_index 3 2 pillow = Ok m' /\
     map ed_surfind (edges m') = [[1; 3]; [1; 3]; [1; 3]] /\ map vo_surfind (volus m') = [[1]; [3]]) /\
  (exists m', remove_index 1 3 pillow = Ok m' /\
     map ed_vertind (edges m') = [[1; 2]; [2]; [1]]) /\
  well_connected pillow /\ has_volu pillow 1 /\ has_edge pillow 1 /\ has_surf pillow 2 /\ has_vert pillow 3.
Proof.
  repeat split; try apply pillow_ok; try (eexists; split; [reflexivity|repeat split; reflexivity]).
  - exists (mkVolu 1 false [1; 2]); simpl; tauto.
  - exists (mkEdge 1 true [1; 2; 3] [1; 2]); simpl; tauto.
  - exists (mkSurf 2 false true [1; 2] [1; 2; 3]); simpl; tauto.
  - exists (mkVert 3 true [2; 3]); simpl; tauto.
Qed.

(** RemoveIndex follows the removed object's own lists: without mutual
    references an object can keep a reference to it. *)
Theorem C13_one_way_refuted :
  exists m m', unique_indices m /\ references_known m /\ has_edge m 1 /\
    remove_index 2 1 m = Ok m' /\ VE m' 1 1.
Proof.
  exists (mkMesh [] [] [mkEdge 1 true [] [2; 2]] [mkVert 1 true [1]; mkVert 2 true [1]] 2). eexists.
  split.
  { repeat apply conj; try concrete_nodup; intros [a [Ha Ea]]; simpl in Ha; intuition; subst; discriminate. }
  split.
  { unfold references_known, VE, EV, ES, SE, SV, VS. repeat apply conj; intros; concrete_lists; right;
      first [exists (mkEdge 1 true [] [2; 2]); simpl; tauto | exists (mkVert 2 true [1]); simpl; tauto]. }
  split; [exists (mkEdge 1 true [] [2; 2]); simpl; tauto|]. split; [reflexivity|].
  exists (mkVert 1 true [1]). vm_compute. tauto.
Qed.
Print Assumptions C13_one_way_refuted.

(** ** C14 *)
Theorem C14_test_connectivity m :
  test_connectivity m = 0 <-> references_known m /\ no_empty m.
Proof. apply test_connectivity_spec. Qed.
Print Assumptions C14_test_connectivity.
Example C14_test_connectivity_used :
  test_connectivity pillow = 0 /\ 0 < test_connectivity (mkMesh [] [mkSurf 1 true true [0; 7] [1; 9]] [] [mkVert 1 true []] 2).
Proof. split; reflexivity. Qed.

(** ** C15: the function returns 0 on a mesh with a one-way reference. *)
Theorem C15_bidir_refuted :
  exists m v e, unique_indices m /\ test_connectivity_bidir true m = 0 /\ VE m v e /\ ~ EV m e v.
Proof.
  exists (mkMesh [] [] [mkEdge 1 true [] [1; 2]] [mkVert 1 true [1]; mkVert 2 true [1]; mkVert 3 true [1]] 2), 3, 1.
  split.
  { repeat apply conj; try concrete_nodup; intros [a [Ha Ea]]; simpl in Ha; intuition; subst; discriminate. }
  split; [reflexivity|]. split; [exists (mkVert 3 true [1]); simpl; tauto|].
  intros [a [[<-|[]] [_ Hv]]]. simpl in Hv. intuition discriminate.
Qed.
Print Assumptions C15_bidir_refuted.

(** What does hold: the returned total is 0 only if every reference is known,
    and the second total (printed, not returned) is then 0 exactly when every
    reference is mutual.  Missing: the returned value says nothing of one-way
    references. *)
Theorem C15_bidir_partial b m :
  unique_indices m -> test_connectivity_bidir b m = 0 ->
  references_known m /\ (snd (test_bidir b m) = 0 <-> mutual m).
Proof.
  intros Hu H. assert (Hk : references_known m) by (apply (fst_bidir_known b); exact H).
  split; auto. apply test_bidir_spec; auto.
Qed.
Print Assumptions C15_bidir_partial.
Example C15_bidir_used : unique_indices pillow /\ test_connectivity_bidir true pillow = 0 /\ snd (test_bidir true pillow) = 0.
Proof. split; [apply pillow_unique|]. split; reflexivity. Qed.
