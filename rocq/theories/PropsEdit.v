(** C17, C18, C23, C24, C51 and more of C22: renumbering, cropping, searching,
    comparing cycles, vertices next to the border. *)
From Verif Require Import Base Containers ContainersProofs Mesh SpecMesh MeshProofs SwitchProofs PropsMesh
  Order SpecOrder OrderMeshProofs Edit SpecEdit ReorderProofs CropProofs EditProofs.
Set Implicit Arguments.
Open Scope Z_scope.

(** Two tetrahedra with a common face.  Vertex 5 is inside for the examples. *)
Definition two_tets : mesh := mkMesh
  [mkVolu 1 true [1; 2; 3; 4]; mkVolu 2 true [4; 5; 6; 7]]
  [mkSurf 1 true true [1; 0] [1; 2; 4]; mkSurf 2 true true [1; 0] [1; 3; 5]; mkSurf 3 true true [1; 0] [2; 3; 6];
   mkSurf 4 false true [1; 2] [4; 5; 6];
   mkSurf 5 true true [2; 0] [7; 8; 4]; mkSurf 6 true true [2; 0] [7; 9; 5]; mkSurf 7 true true [2; 0] [8; 9; 6]]
  [mkEdge 1 true [1; 2] [1; 2]; mkEdge 2 true [1; 3] [1; 3]; mkEdge 3 true [2; 3] [1; 4];
   mkEdge 4 true [1; 4; 5] [2; 3]; mkEdge 5 true [2; 4; 6] [2; 4]; mkEdge 6 true [3; 4; 7] [3; 4];
   mkEdge 7 true [5; 6] [5; 2]; mkEdge 8 true [5; 7] [5; 3]; mkEdge 9 true [6; 7] [5; 4]]
  [mkVert 1 true [1; 2; 3]; mkVert 2 true [1; 4; 5; 7]; mkVert 3 true [2; 4; 6; 8]; mkVert 4 true [3; 5; 6; 9];
   mkVert 5 false [7; 8; 9]] 3.
Lemma two_tets_unique : unique_indices two_tets.
Proof.
  repeat apply conj; try concrete_nodup;
    intros [a [Ha Ea]]; simpl in Ha; intuition; subst; discriminate.
Qed.
Lemma two_tets_exterior : exterior_only two_tets.
Proof. unfold exterior_only, VE, EV, ES, SE, VS. repeat apply conj; intros; intro; concrete_lists. Qed.
Lemma two_tets_ok : well_connected two_tets.
Proof. apply concrete_well_connected; [apply two_tets_unique|apply two_tets_exterior|reflexivity]. Qed.
Lemma two_tets_vert i : 1 <= i <= 5 -> has_vert two_tets i.
Proof. intros H. apply has_vert_In. simpl. lia. Qed.
Lemma two_tets_edge i : 1 <= i <= 9 -> has_edge two_tets i.
Proof. intros H. apply has_edge_In. simpl. lia. Qed.
Lemma two_tets_volu i : 1 <= i <= 2 -> has_volu two_tets i.
Proof. intros H. apply has_volu_In. simpl. lia. Qed.

(** ** C17: ReOrder, whatever orders std::sort gives, renumbers the objects 1..n
    in array order and maps every reference by the same numbering. *)
Theorem C17_reorder : forall m vos sus eds ves, unique_indices m ->
  Permutation vos (volus m) -> Permutation sus (surfs m) -> Permutation eds (edges m) -> Permutation ves (verts m) ->
  let m' := reorder vos sus eds ves m in
  exists fn fe fs fv,
    relabelled fn fe fs fv m m' /\
    numbering fn (has_vert m) (length (verts m)) /\ numbering fe (has_edge m) (length (edges m)) /\
    numbering fs (has_surf m) (length (surfs m)) /\ numbering fv (has_volu m) (length (volus m)) /\
    numbered (map ve_index (verts m')) /\ numbered (map ed_index (edges m')) /\
    numbered (map su_index (surfs m')) /\ numbered (map vo_index (volus m')).
Proof. intros. apply reorder_spec; auto. Qed.
Print Assumptions C17_reorder.

(** The mesh before and after are isomorphic, exterior references included. *)
Theorem C17_isomorphic : forall m vos sus eds ves, unique_indices m -> references_known m ->
  Permutation vos (volus m) -> Permutation sus (surfs m) -> Permutation eds (edges m) -> Permutation ves (verts m) ->
  let m' := reorder vos sus eds ves m in
  exists fn fe fs fv,
    numbering fn (has_vert m) (length (verts m)) /\ numbering fe (has_edge m) (length (edges m)) /\
    numbering fs (has_surf m) (length (surfs m)) /\ numbering fv (has_volu m) (length (volus m)) /\
    (forall n e, has_vert m n -> e = 0 \/ has_edge m e -> VE m' (fn n) (fe e) <-> VE m n e) /\
    (forall e n, has_edge m e -> n = 0 \/ has_vert m n -> EV m' (fe e) (fn n) <-> EV m e n) /\
    (forall e s, has_edge m e -> s = 0 \/ has_surf m s -> ES m' (fe e) (fs s) <-> ES m e s) /\
    (forall s e, has_surf m s -> e = 0 \/ has_edge m e -> SE m' (fs s) (fe e) <-> SE m s e) /\
    (forall s v, has_surf m s -> v = 0 \/ has_volu m v -> SV m' (fs s) (fv v) <-> SV m s v) /\
    (forall v s, has_volu m v -> s = 0 \/ has_surf m s -> VS m' (fv v) (fs s) <-> VS m v s).
Proof.
  intros m vos sus eds ves U [K1 [K2 [K3 [K4 [K5 K6]]]]] P1 P2 P3 P4 m'.
  destruct (reorder_spec U P1 P2 P3 P4) as [fn [fe [fs [fv [[R1 [R2 [R3 [R4 _]]]] [N1 [N2 [N3 [N4 _]]]]]]]]].
  fold m' in R1, R2, R3, R4. exists fn, fe, fs, fv.
  split; [exact N1|]. split; [exact N2|]. split; [exact N3|]. split; [exact N4|]. repeat apply conj.
  - exact (@lists_relabelled _ ve_index ve_edgeind (verts m) (verts m') _ _ _ _ _ _ _ R1 (fun a => eq_refl) (fun a => eq_refl) (fun i => iff_refl _) N1 N2 K1).
  - exact (@lists_relabelled _ ed_index ed_vertind (edges m) (edges m') _ _ _ _ _ _ _ R2 (fun a => eq_refl) (fun a => eq_refl) (fun i => iff_refl _) N2 N1 K2).
  - exact (@lists_relabelled _ ed_index ed_surfind (edges m) (edges m') _ _ _ _ _ _ _ R2 (fun a => eq_refl) (fun a => eq_refl) (fun i => iff_refl _) N2 N3 K3).
  - exact (@lists_relabelled _ su_index su_edgeind (surfs m) (surfs m') _ _ _ _ _ _ _ R3 (fun a => eq_refl) (fun a => eq_refl) (fun i => iff_refl _) N3 N2 (fun i x H => or_intror (K4 i x H))).
  - exact (@lists_relabelled _ su_index su_voluind (surfs m) (surfs m') _ _ _ _ _ _ _ R3 (fun a => eq_refl) (fun a => eq_refl) (fun i => iff_refl _) N3 N4 K5).
  - exact (@lists_relabelled _ vo_index vo_surfind (volus m) (volus m') _ _ _ _ _ _ _ R4 (fun a => eq_refl) (fun a => eq_refl) (fun i => iff_refl _) N4 N3 K6).
Qed.
Print Assumptions C17_isomorphic.

(** A reference to an object that does not exist silently becomes the
    exterior: without valid references the meshes are not isomorphic. *)
Theorem C17_dangling_refuted : exists m, unique_indices m /\
  VE m 1 7 /\ ~ has_edge m 7 /\ verts (reorder (volus m) (surfs m) (edges m) (verts m) m) = [mkVert 1 false [0]].
Proof.
  exists (mkMesh [] [] [] [mkVert 1 false [7]] 2). split; [|split; [|split]].
  - repeat apply conj; try concrete_nodup; intros [a [Ha Ea]]; simpl in Ha; intuition; subst; discriminate.
  - exists (mkVert 1 false [7]). simpl. tauto.
  - intros [a [[] _]].
  - reflexivity.
Qed.
Print Assumptions C17_dangling_refuted.
Example C17_used :
  let m' := reorder (rev (volus two_tets)) (surfs two_tets) (rev (edges two_tets)) (rev (verts two_tets)) two_tets in
  unique_indices two_tets /\ references_known two_tets /\ Permutation (rev (verts two_tets)) (verts two_tets) /\
  map ve_edgeind (verts m') = [[3; 2; 1]; [7; 5; 4; 1]; [8; 6; 4; 2]; [9; 6; 5; 3]; [9; 8; 7]] /\
  map su_voluind (surfs m') = [[2; 0]; [2; 0]; [2; 0]; [2; 1]; [1; 0]; [1; 0]; [1; 0]].
Proof.
  split; [apply two_tets_unique|]. split; [|split; [apply Permutation_sym, Permutation_rev|split; reflexivity]].
  pose proof two_tets_ok as W. repeat apply conj; intros.
  - right. eapply ve_edge; eauto.
  - right. eapply ev_vert; eauto.
  - destruct (Z.eq_dec s 0); auto. right. eapply es_surf; eauto.
  - eapply se_edge; eauto.
  - destruct (Z.eq_dec v 0); auto. right. eapply sv_volu; eauto.
  - right. eapply vs_surf; eauto.
Qed.

(** ** C18: Crop.  When the objects asked for touch the exterior (or no volume at
    all), what is left is exactly: the objects not asked for that still hold
    something, with the old references between objects left.  No object left
    refers to a deleted one, and the mesh is still consistent. *)
Theorem C18_crop_core : forall m t L, well_connected m -> 1 <= t <= 4 ->
  (forall i, In i L -> crop_target m t i) -> (forall e, plan_edge m t L e -> ~ ES m e 0) ->
  (forall v, has_volu m v -> 0 < v) ->
  plan_volu m t L 0 \/ (forall v, ~ plan_volu m t L v) ->
  exists m', crop_core t L m = Ok m' /\ well_connected m' /\ cropped m t L m' /\ restricted m m' /\ meshDim m' = meshDim m.
Proof. exact crop_core_spec. Qed.
Print Assumptions C18_crop_core.

(** The rest of Crop has nothing to do when no degenerate object is left.
    Partial: what RemoveSingularConnectors does to degenerate objects is in the
    model but not covered by a theorem. *)
Theorem C18_crop_partial : forall m t L, well_connected m -> 1 <= t <= 4 ->
  (forall i, In i L -> crop_target m t i) -> (forall e, plan_edge m t L e -> ~ ES m e 0) ->
  (forall v, has_volu m v -> 0 < v) ->
  plan_volu m t L 0 \/ (forall v, ~ plan_volu m t L v) ->
  (forall m', crop_core t L m = Ok m' -> not_singular m') ->
  exists m', crop t L m = Ok m' /\ well_connected m' /\ cropped m t L m' /\ restricted m m' /\ meshDim m' = meshDim m.
Proof.
  intros m t L W Ht HL H0 Hp He Hs.
  destruct (crop_core_spec W Ht HL H0 Hp He) as [m' [E H]]. exists m'. split; auto.
  unfold crop. rewrite E. cbn [bind]. apply remove_singular_id. apply Hs; auto.
Qed.
Print Assumptions C18_crop_partial.

Definition one_tet : mesh := mkMesh
  [mkVolu 1 true [1; 2; 3; 4]]
  [mkSurf 1 true true [1; 0] [1; 2; 4]; mkSurf 2 true true [1; 0] [1; 3; 5]; mkSurf 3 true true [1; 0] [2; 3; 6];
   mkSurf 4 false true [1; 0] [4; 5; 6]]
  [mkEdge 1 true [1; 2] [1; 2]; mkEdge 2 true [1; 3] [1; 3]; mkEdge 3 true [2; 3] [1; 4];
   mkEdge 4 true [1; 4] [2; 3]; mkEdge 5 true [2; 4] [2; 4]; mkEdge 6 true [3; 4] [3; 4]]
  [mkVert 1 true [1; 2; 3]; mkVert 2 true [1; 4; 5]; mkVert 3 true [2; 4; 6]; mkVert 4 true [3; 5; 6]] 3.
Lemma one_tet_regular : not_singular one_tet.
Proof.
  split; [|split]; intros x Hx; simpl in Hx;
    repeat (destruct Hx as [<-|Hx]; [simpl; try lia; try (eexists _, _, _; split; [reflexivity|lia])|]); destruct Hx.
Qed.
Example C18_crop_used :
  well_connected two_tets /\ (forall i, In i [5] -> crop_target two_tets 1 i) /\
  (forall e, plan_edge two_tets 1 [5] e -> ~ ES two_tets e 0) /\
  (forall v, has_volu two_tets v -> 0 < v) /\ plan_volu two_tets 1 [5] 0 /\
  crop_core 1 [5] two_tets = Ok one_tet /\ not_singular one_tet /\ crop 1 [5] two_tets = Ok one_tet.
Proof.
  split; [apply two_tets_ok|]. split; [|split; [|split; [|split; [|split; [|split]]]]].
  - intros i [<-|[]]. left. split; auto. apply two_tets_vert. lia.
  - intros e _ H. destruct two_tets_ok as [_ [_ [_ [_ [_ [_ X]]]]]]. apply (X ltac:(discriminate) e). auto.
  - intros v [x [Hx <-]]. simpl in Hx. intuition; subst; simpl; lia.
  - right. exists 5. split.
    + right. exists 7. split.
      * right. exists 5. split; [split; simpl; auto|]. exists (mkVert 5 false [7; 8; 9]). simpl. tauto.
      * exists (mkEdge 7 true [5; 6] [5; 2]). simpl. tauto.
    + exists (mkSurf 5 true true [2; 0] [7; 8; 4]). simpl. tauto.
  - vm_compute; reflexivity.
  - apply one_tet_regular.
  - vm_compute; reflexivity.
Qed.

(** When the objects asked for do not touch the exterior, the count is lowered
    all the same: the last volume is deleted but stays referenced by its
    surfaces (mesh.cpp:5756-5764). *)
Theorem C18_dangling_refuted : exists m t L m' s v,
  well_connected m /\ (forall i, In i L -> crop_target m t i) /\ (forall v, has_volu m v -> 0 < v) /\
  crop t L m = Ok m' /\ SV m' s v /\ v <> 0 /\ ~ has_volu m' v.
Proof.
  exists two_tets, 4, [2]. eexists. exists 4, 2. split; [apply two_tets_ok|]. split; [|split; [|split; [vm_compute; reflexivity|]]].
  - intros i [<-|[]]. do 3 right. split; auto. right. apply two_tets_volu. lia.
  - intros v [x [Hx <-]]. simpl in Hx. intuition; subst; simpl; lia.
  - split; [|split; [lia|]].
    + exists (mkSurf 4 false true [1; 2] [4; 5; 6]). simpl. tauto.
    + intros [x [Hx Ex]]. simpl in Hx. intuition; subst; discriminate.
Qed.
Print Assumptions C18_dangling_refuted.

(** A surface between two deleted volumes, or between a deleted volume and the
    exterior, is kept with the exterior on both sides. *)
Theorem C18_orphan_surface_refuted : exists m t L m' s,
  well_connected m /\ (forall i, In i L -> crop_target m t i) /\ plan_volu m t L 0 /\
  crop t L m = Ok m' /\ has_surf m' s /\ (forall v, SV m' s v -> v = 0).
Proof.
  exists two_tets, 4, [0; 2]. eexists. exists 5. split; [apply two_tets_ok|]. split; [|split; [|split; [vm_compute; reflexivity|]]].
  - intros i [<-|[<-|[]]]; do 3 right; split; auto. right. apply two_tets_volu. lia.
  - left. simpl. auto.
  - split.
    + exists (mkSurf 5 true true [0; 0] [7; 8; 4]). simpl. tauto.
    + intros v [x [Hx [Ex Hv]]]. simpl in Hx. intuition; subst; try discriminate. simpl in Hv. intuition.
Qed.
Print Assumptions C18_orphan_surface_refuted.

(** In two dimensions an edge on the border lists surface 0, which is looked up
    (mesh.cpp:5724). *)
Theorem C18_border_edge_refuted : exists m t L,
  well_connected m /\ (forall i, In i L -> crop_target m t i) /\ crop t L m = UB.
Proof.
  exists pillow4, 1, [1]. split; [apply pillow4_ok|]. split; [|vm_compute; reflexivity].
  intros i [<-|[]]. left. split; auto. exists (mkVert 1 true [1; 3; 4]). simpl. tauto.
Qed.
Print Assumptions C18_border_edge_refuted.

(** ** C23: searching an edge by its vertices, a surface by two edges. *)
Theorem C23_edge_from_verts : forall m v1 v2, well_connected m -> has_vert m v1 -> has_vert m v2 ->
  (forall e, has_edge m e -> exists a b, edge_is m e a b) ->
  exists r, edge_from_verts m v1 v2 = Ok r /\
    ((has_edge m r /\ edge_joins m r v1 v2) \/ (r = -1 /\ forall e, ~ edge_joins m e v1 v2)).
Proof. exact edge_from_verts_spec. Qed.
Print Assumptions C23_edge_from_verts.
Lemma two_tets_ends e : has_edge two_tets e -> exists a b, edge_is two_tets e a b.
Proof.
  intros [x [Hx <-]]. simpl in Hx.
  repeat (destruct Hx as [<-|Hx]; [eexists _, _; eexists; split; [|split; reflexivity]; simpl; tauto|]). destruct Hx.
Qed.
Example C23_edge_used : well_connected two_tets /\ has_vert two_tets 3 /\ has_vert two_tets 4 /\
  (forall e, has_edge two_tets e -> exists a b, edge_is two_tets e a b) /\
  edge_from_verts two_tets 4 3 = Ok 6 /\ edge_from_verts two_tets 1 5 = Ok (-1).
Proof.
  split; [apply two_tets_ok|]. split; [apply two_tets_vert; lia|]. split; [apply two_tets_vert; lia|].
  split; [apply two_tets_ends|]. split; reflexivity.
Qed.

(** The surface in common: none, one, or several with the three policies. *)
Theorem C23_surf_from_edges : forall m e1 e2 rep, well_connected m -> has_edge m e1 -> has_edge m e2 ->
  (forall e, In e (edges m) -> NoDup (ed_surfind e)) -> ~ ES m e1 0 -> ~ ES m e2 0 ->
  ((forall s, ~ common_surf m e1 e2 s) -> surf_from_edges m e1 e2 rep = Ok (-1)) /\
  (forall s, common_surf m e1 e2 s -> (forall s', common_surf m e1 e2 s' -> s' = s) -> surf_from_edges m e1 e2 rep = Ok s) /\
  (forall s s', common_surf m e1 e2 s -> common_surf m e1 e2 s' -> s <> s' ->
     (rep = 0 -> exists r, surf_from_edges m e1 e2 rep = Ok r /\ common_surf m e1 e2 r) /\
     (rep = 1 -> surf_from_edges m e1 e2 rep = Ok (-1)) /\
     (rep <> 0 -> rep <> 1 -> surf_from_edges m e1 e2 rep = Throw)).
Proof.
  intros m e1 e2 rep W H1 H2 HN Z1 Z2.
  destruct (@surf_from_edges_spec m e1 e2 rep W H1 H2 HN Z1 Z2) as [c [Hnd [HI E]]]. rewrite E.
  split; [|split].
  - intros Hn. destruct c as [|s c]; auto. exfalso. apply (Hn s), HI. left; auto.
  - intros s Hs Hu. apply HI in Hs. destruct c as [|x [|y c]]; [destruct Hs| |].
    + f_equal. apply Hu, HI. left; auto.
    + exfalso. inversion Hnd as [|? ? Hx _]; subst. apply Hx.
      assert (x = s) by (apply Hu, HI; left; auto). assert (y = s) by (apply Hu, HI; right; left; auto). subst. left; auto.
  - intros s s' Hs Hs' Hne. apply HI in Hs, Hs'.
    destruct c as [|x [|y c]]; [destruct Hs|simpl in Hs, Hs'; intuition congruence|].
    split; [|split].
    + intros ->. exists x. split; auto. apply HI. left; auto.
    + intros ->. reflexivity.
    + intros R0 R1. destruct (Z.eqb_spec rep 0); [congruence|]. destruct (Z.eqb_spec rep 1); [congruence|]. reflexivity.
Qed.
Print Assumptions C23_surf_from_edges.
Example C23_surf_used : well_connected two_tets /\ has_edge two_tets 4 /\ has_edge two_tets 6 /\
  (forall e, In e (edges two_tets) -> NoDup (ed_surfind e)) /\ ~ ES two_tets 4 0 /\
  surf_from_edges two_tets 4 6 (-1) = Ok 4 /\ surf_from_edges two_tets 1 6 (-1) = Ok (-1).
Proof.
  split; [apply two_tets_ok|]. split; [apply two_tets_edge; lia|]. split; [apply two_tets_edge; lia|].
  split; [|split; [|split; reflexivity]].
  - intros e He. simpl in He. repeat (destruct He as [<-|He]; [concrete_nodup|]). destruct He.
  - apply two_tets_ok. discriminate.
Qed.
(** Edges of pillow4 lie on the border: the exterior is looked up. *)
Theorem C23_exterior_refuted : exists m e1 e2, well_connected m /\ has_edge m e1 /\ has_edge m e2 /\
  surf_from_edges m e1 e2 (-1) = UB.
Proof.
  exists pillow4, 3, 4. split; [apply pillow4_ok|]. split; [|split; [|reflexivity]].
  - exists (mkEdge 3 true [1; 0] [3; 1]); simpl; tauto.
  - exists (mkEdge 4 true [2; 0] [3; 1]); simpl; tauto.
Qed.
Print Assumptions C23_exterior_refuted.

(** The other end of an edge; a vertex that is no end gets the first one. *)
Theorem C23_other_end : forall m v e a b, NoDup (map ed_index (edges m)) -> edge_is m e a b ->
  (v = a -> vert_from_vert_edge m v e = Ok b) /\ (v <> a -> vert_from_vert_edge m v e = Ok a).
Proof.
  intros m v e a b Hnd He. unfold vert_from_vert_edge. destruct (isearch_edge Hnd He) as [x [-> E]].
  cbn [bind]. rewrite E. change (at_ [a; b] 0) with (Ok a). cbn [bind].
  destruct (Z.eqb_spec a v); split; intros; try congruence; reflexivity.
Qed.
Print Assumptions C23_other_end.
Example C23_other_end_used : edge_is two_tets 7 5 2 /\ vert_from_vert_edge two_tets 2 7 = Ok 5.
Proof. split; [exists (mkEdge 7 true [5; 6] [5; 2]); simpl; tauto|reflexivity]. Qed.

(** ** C24: two neighbours in a cycle of at least three different entries: -1 when
    the second follows the first, +1 when the first follows the second.  Two
    cycles compare to +1 exactly when the pair has the same direction in both;
    a missing entry is an error. *)
Theorem C24_order_match : forall l p q, (3 <= length l)%nat -> NoDup l ->
  (follows l p q -> order_match l p q = (-1, 2) /\ order_match l q p = (1, 2)) /\
  (~ (follows l p q /\ follows l q p)).
Proof.
  intros l p q HL Hnd. split.
  - intros H. split; [apply order_match_after|apply order_match_before]; auto.
  - intros [H1 H2]. apply order_match_after in H1; auto. apply order_match_before in H2; auto. congruence.
Qed.
Print Assumptions C24_order_match.
Theorem C24_compare : forall l1 l2 p q, (3 <= length l1)%nat -> (3 <= length l2)%nat -> NoDup l1 -> NoDup l2 ->
  follows l1 p q \/ follows l1 q p -> follows l2 p q \/ follows l2 q p ->
  exists r, order_match_lists l1 l2 p q = Ok r /\ (r = 1 \/ r = -1) /\
    (r = 1 <-> (follows l1 p q <-> follows l2 p q)).
Proof.
  intros l1 l2 p q L1 L2 N1 N2 F1 F2. unfold order_match_lists.
  pose proof (proj2 (C24_order_match p q L1 N1)) as X1. pose proof (proj2 (C24_order_match p q L2 N2)) as X2.
  destruct F1 as [F1|F1]; [rewrite (order_match_after L1 N1 F1)|rewrite (order_match_before L1 N1 F1)];
  (destruct F2 as [F2|F2]; [rewrite (order_match_after L2 N2 F2)|rewrite (order_match_before L2 N2 F2)]);
  cbn; eexists; (split; [reflexivity|]); (split; [lia|]); split; intros; try tauto; try discriminate; exfalso; tauto.
Qed.
Print Assumptions C24_compare.
Theorem C24_missing : forall l1 l2 p q, NoDup l1 -> NoDup l2 -> p <> q ->
  ~ (In p l1 /\ In q l1) \/ ~ (In p l2 /\ In q l2) -> order_match_lists l1 l2 p q = Throw.
Proof.
  intros l1 l2 p q N1 N2 Hne H. unfold order_match_lists.
  pose proof (@match_count_lt2 l1 p q N1 Hne) as C1. pose proof (@match_count_lt2 l2 p q N2 Hne) as C2.
  destruct (order_match l1 p q) as [o1 k1], (order_match l2 p q) as [o2 k2]. simpl in C1, C2.
  destruct (Z.eqb_spec k1 2); simpl; auto. destruct (Z.eqb_spec k2 2); simpl; auto. exfalso. tauto.
Qed.
Print Assumptions C24_missing.
Example C24_used : follows [4; 7; 9; 2] 2 4 /\ follows [2; 4; 5] 2 4 /\ order_match_lists [4; 7; 9; 2] [2; 4; 5] 2 4 = Ok 1 /\
  order_match_lists [4; 7; 9; 2] [4; 2; 5] 2 4 = Ok (-1).
Proof.
  split; [|split; [|split; reflexivity]].
  - exists 3%nat. split; reflexivity.
  - exists 0%nat. split; reflexivity.
Qed.
(** With two entries each follows the other and the answer depends on which one
    is stored first. *)
Theorem C24_two_refuted : exists l p q, length l = 2%nat /\ NoDup l /\ follows l q p /\ order_match l p q = (-1, 2).
Proof.
  exists [1; 2], 1, 2. split; auto. split; [concrete_nodup|]. split; [|reflexivity]. exists 1%nat. split; reflexivity.
Qed.
Print Assumptions C24_two_refuted.
(** Entries that are not neighbours are not rejected: the direction is made up. *)
Theorem C24_not_adjacent_refuted : exists l p q, (3 <= length l)%nat /\ NoDup l /\ ~ follows l p q /\ ~ follows l q p /\
  order_match l p q = (1, 2) /\ order_match_lists l (rev l) p q = Ok (-1).
Proof.
  exists [1; 2; 3; 4], 1, 3. split; [simpl; lia|]. split; [concrete_nodup|].
  split; [|split; [|split; reflexivity]]; intros [i [H1 H2]]; do 4 (destruct i as [|i]; [discriminate|]); destruct i; discriminate.
Qed.
Print Assumptions C24_not_adjacent_refuted.

(** ** C22: ConnVertFromConnEdge reads the corners of a polygon, starting from
    the second one. *)
Theorem C22_conn_vert : forall m l vs, NoDup (map ed_index (edges m)) -> (3 <= length l)%nat -> NoDup vs ->
  polygon (edge_joins m) l vs -> conn_vert m l = Ok (tl vs ++ firstn 1 vs).
Proof. intros m l vs Hnd. apply conn_vert_polygon; auto. Qed.
Print Assumptions C22_conn_vert.
Example C22_conn_vert_used : polygon (edge_joins two_tets) [4; 6; 5] [2; 3; 4] /\ conn_vert two_tets [4; 6; 5] = Ok [3; 4; 2].
Proof.
  split; [|reflexivity]. split; auto. intros i e a b H1 H2 H3.
  destruct i as [|[|[|i]]]; simpl in H1, H2, H3; try (destruct i; discriminate);
    injection H1 as <-; injection H2 as <-; injection H3 as <-.
  - left. exists (mkEdge 4 true [1; 4; 5] [2; 3]). simpl. tauto.
  - left. exists (mkEdge 6 true [3; 4; 7] [3; 4]). simpl. tauto.
  - right. exists (mkEdge 5 true [2; 4; 6] [2; 4]). simpl. tauto.
Qed.
(** One edge: the second is read past the end. *)
Theorem C22_conn_one_refuted : forall m e, conn_vert m [e] = UB.
Proof. reflexivity. Qed.
Print Assumptions C22_conn_one_refuted.

(** ** C51: on a mesh that is not const GetOffBorderVert calls itself for ever:
    no depth of calls is enough, whenever SetBorders returns. *)
Theorem C51_never_returns_refuted : forall n setBorders borderIsSet m,
  (forall m, exists m', setBorders m = Ok m') -> get_off_border n setBorders borderIsSet m = OutOfFuel.
Proof. intros. apply get_off_border_never; auto. Qed.
Print Assumptions C51_never_returns_refuted.
Example C51_never_used : get_off_border 100 (fun m => Ok m) false two_tets = OutOfFuel.
Proof. reflexivity. Qed.

(** The const overload returns, in three dimensions, the volumes on the border
    that pass the test and the vertices of those volumes that are not on the
    border. *)
Theorem C51_const_3d : forall m outer o, well_connected m -> meshDim m = 3 ->
  o = -1 \/ o = 0 \/ o = 1 -> (o = -1 -> forall i, outer i = true) ->
  exists vs os, off_border outer o m = Ok (vs, os) /\
    (forall n, In n vs <-> inner_vert m n /\ exists v s e,
       border_volu m (fun i => outer i = true) v /\ VS m v s /\ SE m s e /\ EV m e n) /\
    (forall v, In v os <-> border_volu m (fun i => outer i = true) v).
Proof. intros m outer o W Hd Ho Ht. unfold off_border. rewrite Hd. apply off_border_3d_ok; auto. Qed.
Print Assumptions C51_const_3d.
Example C51_3d_used : well_connected two_tets /\ meshDim two_tets = 3 /\
  off_border (fun _ => true) (-1) two_tets = Ok ([5; 5; 5; 5; 5; 5], [1; 2]).
Proof. split; [apply two_tets_ok|]. split; reflexivity. Qed.
(** In two dimensions: the surfaces on the border that pass the test, or for 0
    the surfaces next to them that are not on the border. *)
Theorem C51_const_2d : forall m outer o, well_connected m -> meshDim m = 2 ->
  o = -1 \/ o = 0 \/ o = 1 -> (o = -1 -> forall i, outer i = true) ->
  (o = 0 -> forall x, In x (edges m) -> exists a b, ed_surfind x = [a; b]) ->
  exists vs os, off_border outer o m = Ok (vs, os) /\
    (forall n, In n vs <-> inner_vert m n /\ exists s e, border_surf m (fun i => outer i = true) s /\ SE m s e /\ EV m e n) /\
    (forall k, In k os <->
       (o <> 0 /\ border_surf m (fun i => outer i = true) k) \/
       (o = 0 /\ k <> 0 /\ inner_surf m k /\ exists s e, border_surf m (fun i => outer i = true) s /\ SE m s e /\ ES m e k)).
Proof. intros m outer o W Hd Ho Ht Hs. unfold off_border. rewrite Hd. apply off_border_2d_ok; auto. Qed.
Print Assumptions C51_const_2d.
Example C51_2d_used : well_connected pillow4 /\ meshDim pillow4 = 2 /\
  off_border (fun _ => true) (-1) pillow4 = Ok ([], [1; 2]).
Proof. split; [apply pillow4_ok|]. split; reflexivity. Qed.
