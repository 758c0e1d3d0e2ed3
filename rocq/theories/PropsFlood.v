(** Properties C16, C19, C20 and C54: border flags, connected blocks and closing
    a mesh. *)
From Verif Require Import Base Containers ContainersProofs Mesh SpecMesh MeshProofs SwitchProofs RemoveProofs MergeProofs PropsMesh Flood SpecFlood FloodProofs BorderProofs CloseProofs.
Set Implicit Arguments.
Open Scope Z_scope.

(** Two triangles glued on edge 1 with a triangle apart, as a 2D mesh. *)
Definition kite : mesh := mkMesh []
  [mkSurf 1 false true [0; 0] [1; 2; 3]; mkSurf 2 false true [0; 0] [1; 4; 5]; mkSurf 3 true true [0; 0] [6; 7; 8]]
  [mkEdge 1 true [1; 2] [1; 2]; mkEdge 2 false [1; 0] [2; 3]; mkEdge 3 false [0; 1] [3; 1];
   mkEdge 4 false [2; 0] [2; 4]; mkEdge 5 false [2; 0] [4; 1];
   mkEdge 6 false [3; 0] [5; 6]; mkEdge 7 false [3; 0] [6; 7]; mkEdge 8 false [3; 0] [7; 5]]
  [mkVert 1 false [1; 3; 5]; mkVert 2 false [1; 2; 4]; mkVert 3 false [2; 3]; mkVert 4 false [4; 5];
   mkVert 5 false [6; 8]; mkVert 6 false [6; 7]; mkVert 7 false [7; 8]] 2.
Lemma kite_unique : unique_indices kite.
Proof.
  repeat apply conj; try concrete_nodup;
    intros [a [Ha Ea]]; simpl in Ha; intuition; subst; discriminate.
Qed.
Lemma kite_exterior : exterior_only kite.
Proof. unfold exterior_only, VE, EV, ES, SE, VS. repeat apply conj; try (intros; intro; concrete_lists; fail). intros H; exfalso; apply H; reflexivity. Qed.
Lemma kite_ok : well_connected kite.
Proof. apply concrete_well_connected; [apply kite_unique|apply kite_exterior|reflexivity]. Qed.
Lemma kite_two : forall e, In e (edges kite) -> length (ed_vertind e) = 2%nat.
Proof. simpl. intros e H. repeat destruct H as [<-|H]; try reflexivity. destruct H. Qed.
Lemma pillow_two : forall e, In e (edges pillow) -> length (ed_vertind e) = 2%nat.
Proof. simpl. intros e H. repeat destruct H as [<-|H]; try reflexivity. destruct H. Qed.
Lemma pillow_sides : forall s, In s (surfs pillow) -> length (su_voluind s) = 2%nat.
Proof. simpl. intros e H. repeat destruct H as [<-|H]; try reflexivity. destruct H. Qed.

(** ** C16 *)
(** A mesh with volumes: a surface is a border exactly when one of its sides is
    the exterior; edges, vertices and volumes follow; nothing else changes. *)
Theorem C16_borders_3d m : well_connected m -> volus m <> [] ->
  exists m', set_borders m = Ok m' /\ same_but_borders m m' /\
    (forall s, border_surf m' s <-> SV m s 0) /\
    (forall e, border_edge m' e <-> exists s, ES m e s /\ SV m s 0) /\
    (forall v, border_vert m' v <-> exists e s, VE m v e /\ ES m e s /\ SV m s 0) /\
    (forall w, border_volu m' w <->
       (exists s, VS m w s /\ SV m s 0) \/
       (exists s e v, VS m w s /\ SE m s e /\ EV m e v /\ border_vert m' v)).
Proof. intros Hw. apply set_borders3_spec. apply well_connected_resolvable; auto. Qed.
Print Assumptions C16_borders_3d.
Example C16_borders_3d_used : well_connected pillow /\ volus pillow <> [] /\
  exists m', set_borders pillow = Ok m' /\ map su_border (surfs m') = [true; false; true] /\
    map vo_border (volus m') = [true; true].
Proof. split; [apply pillow_ok|]. split; [discriminate|]. eexists. split; [reflexivity|]. split; reflexivity. Qed.

(** A mesh without volumes. *)
Theorem C16_borders_2d m : well_connected m -> volus m = [] ->
  exists m', set_borders m = Ok m' /\ same_but_borders m m' /\
    (forall e, border_edge m' e <-> ES m e 0) /\
    (forall v, border_vert m' v <-> exists e, VE m v e /\ ES m e 0) /\
    (forall s, border_surf m' s <->
       (exists e, SE m s e /\ ES m e 0) \/
       (exists e v, SE m s e /\ EV m e v /\ border_vert m' v)).
Proof. intros Hw. apply set_borders2_spec. apply well_connected_resolvable; auto. Qed.
Print Assumptions C16_borders_2d.
Example C16_borders_2d_used : well_connected kite /\ volus kite = [] /\
  exists m', set_borders kite = Ok m' /\
    map ed_border (edges m') = [false; true; true; true; true; true; true; true].
Proof. split; [apply kite_ok|]. split; [reflexivity|]. eexists. split; reflexivity. Qed.

(** The flags do not depend on what they were before. *)
Theorem C16_borders_fresh m1 m2 : well_connected m1 -> same_but_borders m1 m2 ->
  exists m', set_borders m1 = Ok m' /\ set_borders m2 = Ok m'.
Proof.
  intros Hw [E1 [E2 [E3 [E4 E5]]]].
  assert (G1 : forall l l', map (vo_set_border false) l' = map (vo_set_border false) l -> forall f : volu -> outcome volu,
    (forall v v', vo_set_border false v = vo_set_border false v' -> f v = f v') -> omap_list f l' = omap_list f l).
  { induction l as [|a l IH]; intros [|b l'] H f Hf; try discriminate; auto. injection H as Ha Hb. simpl.
    rewrite (Hf b a), (IH l'); auto. destruct a, b; unfold vo_set_border in *; simpl in *; congruence. }
  assert (G2 : forall l l', map (su_set_border false) l' = map (su_set_border false) l -> forall f : surf -> outcome surf,
    (forall v v', su_set_border false v = su_set_border false v' -> f v = f v') -> omap_list f l' = omap_list f l).
  { induction l as [|a l IH]; intros [|b l'] H f Hf; try discriminate; auto. injection H as Ha Hb. simpl.
    rewrite (Hf b a), (IH l'); auto. destruct a, b; unfold su_set_border in *; simpl in *; congruence. }
  assert (G3 : forall l l', map (ed_set_border false) l' = map (ed_set_border false) l -> forall f : edge -> outcome edge,
    (forall v v', ed_set_border false v = ed_set_border false v' -> f v = f v') -> omap_list f l' = omap_list f l).
  { induction l as [|a l IH]; intros [|b l'] H f Hf; try discriminate; auto. injection H as Ha Hb. simpl.
    rewrite (Hf b a), (IH l'); auto. destruct a, b; unfold ed_set_border in *; simpl in *; congruence. }
  assert (G4 : forall l l', map (ve_set_border false) l' = map (ve_set_border false) l -> forall f : vert -> outcome vert,
    (forall v v', ve_set_border false v = ve_set_border false v' -> f v = f v') -> omap_list f l' = omap_list f l).
  { induction l as [|a l IH]; intros [|b l'] H f Hf; try discriminate; auto. injection H as Ha Hb. simpl.
    rewrite (Hf b a), (IH l'); auto. destruct a, b; unfold ve_set_border in *; simpl in *; congruence. }
  assert (Gs : forall l l', map (su_set_border false) l' = map (su_set_border false) l ->
    map (fun s => su_set_border (existsb (fun v => v =? 0) (su_voluind s)) s) l' =
    map (fun s => su_set_border (existsb (fun v => v =? 0) (su_voluind s)) s) l).
  { induction l as [|a l IH]; intros [|b l'] H; try discriminate; auto. injection H as Ha Hb. simpl.
    rewrite (IH l') by auto. f_equal. destruct a, b; unfold su_set_border in *; simpl in *; congruence. }
  assert (Ge : forall l l', map (ed_set_border false) l' = map (ed_set_border false) l ->
    map (fun s => ed_set_border (existsb (fun v => v =? 0) (ed_surfind s)) s) l' =
    map (fun s => ed_set_border (existsb (fun v => v =? 0) (ed_surfind s)) s) l).
  { induction l as [|a l IH]; intros [|b l'] H; try discriminate; auto. injection H as Ha Hb. simpl.
    rewrite (IH l') by auto. f_equal. destruct a, b; unfold ed_set_border in *; simpl in *; congruence. }
  assert (HR := well_connected_resolvable Hw).
  destruct (volus m1) as [|v0 vr] eqn:Ev.
  - assert (Ev2 : volus m2 = []) by (destruct (volus m2); [auto|discriminate]).
    destruct (set_borders2_spec HR Ev) as [m' [Hm' _]]. exists m'. split; auto. rewrite <- Hm'.
    unfold set_borders. rewrite Ev, Ev2. simpl Nat.ltb. cbn iota.
    assert (Eb : exists ss es, borders2 m1 = Ok (mkMesh [] ss es (verts m1) (meshDim m1)) /\
                               borders2 m2 = Ok (mkMesh [] ss es (verts m2) (meshDim m2))).
    { destruct (borders2_spec HR) as [ss [es [Hb _]]]. exists ss, es. rewrite Hb, Ev. split; auto.
      rewrite Ev in Hb. rewrite <- (f_equal (fun o => match o with Ok _ => _ | _ => o end) Hb).
      revert Hb. unfold borders2. rewrite Ev, Ev2, E5, (Ge _ _ E3). intros Hb.
      erewrite (G2 _ _ E2) by (intros [] [] H; unfold su_set_border in *; simpl in *; injection H; intros; subst; reflexivity).
      destruct (omap_list _ (surfs m1)); cbn [bind] in *; congruence. }
    destruct Eb as [ss [es [-> ->]]]. cbn [bind]. unfold borders_vert. cbn [verts edges]. rewrite E5.
    erewrite (G4 _ _ E4) by (intros [] [] H; unfold ve_set_border in *; simpl in *; injection H; intros; subst; reflexivity).
    reflexivity.
  - assert (Ev2 : volus m2 <> []) by (destruct (volus m2); discriminate).
    destruct (@set_borders3_spec m1 HR) as [m' [Hm' _]]; [congruence|]. exists m'. split; auto. rewrite <- Hm'.
    unfold set_borders.
    replace (0 <? length (volus m1))%nat with true by (rewrite Ev; reflexivity).
    replace (0 <? length (volus m2))%nat with true by (destruct (volus m2); [congruence|reflexivity]).
    assert (Eb : exists vs ss es, borders3 m1 = Ok (mkMesh vs ss es (verts m1) (meshDim m1)) /\
                               borders3 m2 = Ok (mkMesh vs ss es (verts m2) (meshDim m2))).
    { destruct (@borders3_spec m1 HR) as [vs [ss [es [Hb _]]]]; [congruence|]. exists vs, ss, es. split; auto.
      revert Hb. unfold borders3. rewrite (Gs _ _ E2), E5.
      erewrite (G1 (volus m1) (volus m2)); [|rewrite Ev; auto|intros [] [] H; unfold vo_set_border in *; simpl in *; injection H; intros; subst; reflexivity].
      destruct (omap_list _ (volus m1)); cbn [bind]; try discriminate.
      erewrite (G3 (edges m1) (edges m2)) by (auto || (intros [] [] H; unfold ed_set_border in *; simpl in *; injection H; intros; subst; reflexivity)).
      destruct (omap_list _ (edges m1)); cbn [bind]; congruence. }
    destruct Eb as [vs [ss [es [-> ->]]]]. cbn [bind]. unfold borders_vert. cbn [verts edges]. rewrite E5.
    erewrite (G4 _ _ E4) by (intros [] [] H; unfold ve_set_border in *; simpl in *; injection H; intros; subst; reflexivity).
    reflexivity.
Qed.
Print Assumptions C16_borders_fresh.
Example C16_borders_fresh_used : exists m, same_but_borders pillow m /\ m <> pillow.
Proof.
  exists (set_verts (map (ve_set_border false) (verts pillow)) pillow).
  split; [repeat split|discriminate].
Qed.

(** In a mesh with volumes an edge that lists surface 0 makes the lookup read
    out of range. *)
Theorem C16_edge_exterior_refuted :
  exists m, unique_indices m /\ references_known m /\ set_borders m = UB.
Proof.
  exists (mkMesh [mkVolu 1 false [1]] [mkSurf 1 false true [1; 0] [1]] [mkEdge 1 false [0] [1; 1]] [mkVert 1 false [1]] 3).
  split; [|split].
  - repeat apply conj; try concrete_nodup; intros [a [Ha Ea]]; simpl in Ha; intuition; subst; discriminate.
  - unfold references_known, VE, EV, ES, SE, SV, VS. repeat apply conj; intros; concrete_lists; auto;
    repeat match goal with H : _ \/ _ |- _ => destruct H as [<-|H] | H : False |- _ => destruct H end;
    try (left; reflexivity); try right; eexists; simpl; split; try (left; reflexivity); reflexivity.
  - reflexivity.
Qed.
Print Assumptions C16_edge_exterior_refuted.

(** ** C19 *)
Theorem C19_connected_vertices m block0 : well_connected m ->
  (forall e, In e (edges m) -> length (ed_vertind e) = 2%nat) ->
  (block0 = [] \/ length block0 = length (verts m)) ->
  exists n block, connected_vertex m block0 = Ok (n, block) /\
    component_labels ve_index (verts m) (share_edge m) block0 n block.
Proof. apply connected_vertex_spec. Qed.
Print Assumptions C19_connected_vertices.
Theorem C19_size m block0 : block0 <> [] -> length block0 <> length (verts m) -> connected_vertex m block0 = Throw.
Proof. apply flood_bad_size. Qed.
Print Assumptions C19_size.
Example C19_used : well_connected kite /\ (forall e, In e (edges kite) -> length (ed_vertind e) = 2%nat) /\
  connected_vertex kite [] = Ok (2, [1; 1; 1; 1; 2; 2; 2]) /\
  connected_vertex kite [7; 7; 0; 0; 0; 0; 0] = Ok (3, [7; 7; 1; 2; 3; 3; 3]).
Proof. split; [apply kite_ok|]. split; [apply kite_two|]. split; reflexivity. Qed.

(** New labels always start from 1, so they may repeat a label given by the
    caller: equal labels then do not mean a path between the vertices. *)
Theorem C19_label_clash_refuted :
  exists m block0 n block i j, well_connected m /\
    (forall e, In e (edges m) -> length (ed_vertind e) = 2%nat) /\
    length block0 = length (verts m) /\
    connected_vertex m block0 = Ok (n, block) /\
    label ve_index (verts m) block i 1 /\ label ve_index (verts m) block j 1 /\
    ~ joined (has_vert m) (share_edge m) i j.
Proof.
  exists kite, [0; 0; 0; 0; 1; 1; 1], 1, [1; 1; 1; 1; 1; 1; 1], 1, 5.
  split; [apply kite_ok|]. split; [apply kite_two|]. split; [reflexivity|]. split; [reflexivity|].
  split; [exists 0%nat; eexists; split; [reflexivity|split; reflexivity]|].
  split; [exists 4%nat; eexists; split; [reflexivity|split; reflexivity]|].
  assert (H : forall u v, joined (has_vert kite) (share_edge kite) u v -> u <= 4 -> v <= 4).
  { induction 1 as [|u v w H IH [e [H1 H2]] _]; auto. intros Hu. specialize (IH Hu).
    unfold EV in *. destruct H1 as [a [Ha [Ea Hv]]], H2 as [b [Hb [Eb Hw]]].
    assert (b = a) by (eapply (@NoDup_idx_inj _ ed_index (edges kite)); eauto; [apply kite_unique|congruence]). subst b.
    simpl in Ha. repeat destruct Ha as [<-|Ha]; simpl in *; lia. }
  intros HJ. specialize (H _ _ HJ). lia.
Qed.
Print Assumptions C19_label_clash_refuted.

(** ** C20 *)
Theorem C20_connected_volumes m block0 bound : well_connected m ->
  (forall s, In s (surfs m) -> length (su_voluind s) = 2%nat) ->
  (block0 = [] \/ length block0 = length (volus m)) ->
  (bound = [] \/ length bound = length (surfs m)) ->
  exists n block, connected_volumes m block0 bound = Ok (n, block) /\
    component_labels vo_index (volus m) (share_surface m (stopping m bound)) block0 n block.
Proof. apply connected_volumes_spec. Qed.
Print Assumptions C20_connected_volumes.
Theorem C20_size m block0 bound :
  (bound <> [] /\ length bound <> length (surfs m)) \/ (block0 <> [] /\ length block0 <> length (volus m)) ->
  connected_volumes m block0 bound = Throw.
Proof.
  intros H. unfold connected_volumes.
  destruct ((length bound =? 0)%nat || (length bound =? length (surfs m))%nat)%bool eqn:E; auto.
  destruct H as [[H1 H2]|[H1 H2]]; [|apply flood_bad_size; auto].
  apply orb_true_iff in E. destruct E as [E|E]; apply Nat.eqb_eq in E; [destruct bound; [congruence|discriminate]|congruence].
Qed.
Print Assumptions C20_size.
Example C20_used : well_connected pillow /\ (forall s, In s (surfs pillow) -> length (su_voluind s) = 2%nat) /\
  connected_volumes pillow [] [] = Ok (1, [1; 1]) /\
  connected_volumes pillow [] [false; true; false] = Ok (2, [1; 2]).
Proof. split; [apply pillow_ok|]. split; [apply pillow_sides|]. split; reflexivity. Qed.

(** ** C54 *)
Theorem C54_close_3d m : well_connected m -> volus m <> [] ->
  (forall e, In e (edges m) -> length (ed_vertind e) = 2%nat) ->
  exists m' n block, force_close m = Ok m' /\
    component_labels ve_index (verts m) (share_edge m) [] n block /\
    (* one volume per block of vertices, numbered from 1 *)
    map vo_index (volus m') = upto (Z.to_nat n) 1 /\
    (* which holds the surfaces around its vertices *)
    (forall b s, VS m' b s <-> exists v e, label ve_index (verts m) block v b /\ VE m v e /\ ES m e s) /\
    (* a surface whose vertices are connected is on the inside of their block *)
    (forall s, In s (surfs m') ->
       (forall u v, on_surface m (su_index s) u -> on_surface m (su_index s) v ->
          joined (has_vert m) (share_edge m) u v) ->
       forall v, on_surface m (su_index s) v ->
       exists b, label ve_index (verts m) block v b /\ su_voluind s = [b; 0]) /\
    (* nothing else changes *)
    edges m' = edges m /\ verts m' = verts m /\ meshDim m' = meshDim m /\
    map (su_set_voluind []) (surfs m') = map (su_set_voluind []) (surfs m) /\
    (forall s s', In s (surfs m) -> su_edgeind s = [] -> In s' (surfs m') -> su_index s' = su_index s ->
       su_voluind s' = su_voluind s).
Proof.
  intros Hw Hne H2. destruct (@connected_vertex_spec m [] Hw H2) as [n [block [Hc Hl]]]; [auto|].
  destruct (close3_spec Hw Hne H2 Hl) as [m' [Hr [H3 [H4 [H5 [H6 [H7 [H8 H9]]]]]]]].
  assert (U2 : NoDup (map su_index (surfs m))) by (destruct Hw as [[_ [U _]] _]; auto).
  assert (U4 : NoDup (map ve_index (verts m))) by (destruct Hw as [[_ [_ [_ [U _]]]] _]; auto).
  assert (U3 : NoDup (map ed_index (edges m))) by (destruct Hw as [[_ [_ [U _]]] _]; auto).
  assert (Hidx : Forall2 (fun a a' => su_index a' = su_index a) (surfs m) (surfs m')).
  { revert H7. generalize (surfs m), (surfs m'). induction l as [|a l IH]; intros [|b l'] H; try discriminate; constructor.
    - injection H; intros; congruence.
    - apply IH. simpl in H. congruence. }
  assert (Hidx' : map su_index (surfs m') = map su_index (surfs m)).
  { clear - Hidx. induction Hidx; simpl; congruence. }
  exists m', n, block. split.
  { unfold force_close. rewrite Hc. cbn [bind].
    replace (0 <? length (volus m))%nat with true by (destruct (volus m); [congruence|reflexivity]). auto. }
  assert (Hboth : forall s', In s' (surfs m') -> exists s, In s (surfs m) /\ su_index s = su_index s' /\
     ((su_voluind s' = su_voluind s /\ su_edgeind s = []) \/
       exists v e b, SE m (su_index s) e /\ EV m e v /\ label ve_index (verts m) block v b /\ su_voluind s' = [b; 0])).
  { clear - H9 Hidx. induction H9 as [|a a' l l' Ha F IH]; intros s' Hs'; [destruct Hs'|].
    inversion Hidx; subst. destruct Hs' as [<-|Hs'].
    - exists a. split; [left; auto|]. split; auto.
    - destruct IH with (s' := s') as [s [Hs G]]; auto. exists s. split; [right; auto|auto]. }
  split; auto. split; auto. split; auto. split.
  { intros s' Hs' Hconn v Hv. destruct (Hboth s' Hs') as [s [Hs [Ei [[Ev En]|[u [e [b [G1 [G2 [G3 G4]]]]]]]]]].
    - exfalso. destruct Hv as [e [He _]]. rewrite <- Ei in He.
      apply (@owner _ su_index su_edgeind (surfs m) _ _ U2 Hs eq_refl) in He. rewrite En in He. destruct He.
    - rewrite Ei in G1. exists b. split; auto.
      assert (Hu : on_surface m (su_index s') u) by (exists e; auto).
      specialize (Hconn u v Hu Hv).
      destruct Hl as [_ [_ [L3 [_ L5]]]].
      assert (Hfree : forall x, has_vert m x -> free_elem ve_index (verts m) [] x) by (intros; apply free_all; auto).
      assert (HJ : joined (free_elem ve_index (verts m) []) (share_edge m) u v).
      { clear - Hconn Hfree. induction Hconn; [apply joined_refl; auto|]. eapply joined_step; eauto. }
      assert (Hends : has_vert m u /\ has_vert m v).
      { clear - Hconn. induction Hconn; [auto|]. split; [tauto|auto]. }
      destruct Hends as [Hu1 Hv1].
      apply (proj2 (L5 u v (Hfree _ Hu1) (Hfree _ Hv1))) in HJ. destruct HJ as [x [Hx1 Hx2]].
      rewrite (label_fun U4 G3 Hx1). auto. }
  do 4 (split; [assumption|]).
  intros s s' Hs En Hs' Ei. destruct (Hboth s' Hs') as [s0 [Hs0 [E0 [[Ev _]|[u [e [b [G1 _]]]]]]]].
  - assert (s0 = s) by (eapply (@NoDup_idx_inj _ su_index (surfs m)); eauto; congruence). congruence.
  - exfalso. rewrite E0, Ei in G1.
    apply (@owner _ su_index su_edgeind (surfs m) _ _ U2 Hs eq_refl) in G1. rewrite En in G1. destruct G1.
Qed.
Print Assumptions C54_close_3d.
Example C54_close_3d_used : well_connected pillow /\ volus pillow <> [] /\
  (forall e, In e (edges pillow) -> length (ed_vertind e) = 2%nat) /\
  (exists m', force_close pillow = Ok m' /\ map su_voluind (surfs m') = [[1; 0]; [1; 0]; [1; 0]]).
Proof.
  split; [apply pillow_ok|]. split; [discriminate|]. split; [apply pillow_two|].
  eexists. split; [vm_compute; reflexivity|reflexivity].
Qed.

Theorem C54_close_2d m : well_connected m -> volus m = [] ->
  (forall e, In e (edges m) -> length (ed_vertind e) = 2%nat) ->
  exists m' n block, force_close m = Ok m' /\
    component_labels ve_index (verts m) (share_edge m) [] n block /\
    map su_index (surfs m') = upto (Z.to_nat n) 1 /\
    (forall b e, SE m' b e <-> exists v, label ve_index (verts m) block v b /\ VE m v e) /\
    (forall e v, In e (edges m') -> EV m (ed_index e) v ->
       exists b, label ve_index (verts m) block v b /\ ed_surfind e = [b; 0]) /\
    volus m' = volus m /\ verts m' = verts m /\ meshDim m' = meshDim m /\
    map (ed_set_surfind []) (edges m') = map (ed_set_surfind []) (edges m).
Proof.
  intros Hw Hne H2. destruct (@connected_vertex_spec m [] Hw H2) as [n [block [Hc Hl]]]; [auto|].
  destruct (close2_spec Hw Hl) as [m' [Hr [H3 [H4 [H5 [H6 [H7 [H8 H9]]]]]]]].
  assert (U3 : NoDup (map ed_index (edges m))) by (destruct Hw as [[_ [_ [U _]]] _]; auto).
  assert (U4 : NoDup (map ve_index (verts m))) by (destruct Hw as [[_ [_ [_ [U _]]]] _]; auto).
  assert (Hidx : Forall2 (fun a a' => ed_index a' = ed_index a) (edges m) (edges m')).
  { revert H7. generalize (edges m), (edges m'). induction l as [|a l IH]; intros [|b l'] H; try discriminate; constructor.
    - injection H; intros; congruence.
    - apply IH. simpl in H. congruence. }
  exists m', n, block. split.
  { unfold force_close. rewrite Hc. cbn [bind]. rewrite Hne. auto. }
  assert (Hboth : forall s', In s' (edges m') -> exists s, In s (edges m) /\ ed_index s = ed_index s' /\
     ((ed_surfind s' = ed_surfind s /\ ed_vertind s = []) \/
       exists v b, EV m (ed_index s) v /\ label ve_index (verts m) block v b /\ ed_surfind s' = [b; 0])).
  { clear - H9 Hidx. induction H9 as [|a a' l l' Ha F IH]; intros s' Hs'; [destruct Hs'|].
    inversion Hidx; subst. destruct Hs' as [<-|Hs'].
    - exists a. split; [left; auto|]. split; auto.
    - destruct IH with (s' := s') as [s [Hs G]]; auto. exists s. split; [right; auto|auto]. }
  split; auto. split; auto. split; auto. split; [|auto].
  intros s' v Hs' Hv. destruct (Hboth s' Hs') as [s [Hs [Ei [[Ev En]|[u [b [G1 [G2 G3]]]]]]]].
  - exfalso. specialize (H2 s Hs). rewrite En in H2. discriminate.
  - rewrite Ei in G1. exists b. split; auto.
    destruct Hl as [_ [_ [L3 [_ L5]]]].
    assert (Hk : forall x, EV m (ed_index s') x -> free_elem ve_index (verts m) [] x).
    { intros x Hx. apply free_all. destruct (well_connected_resolvable Hw) as [_ [_ [_ [_ [_ [_ [_ [_ K]]]]]]]].
      apply (K _ _ Hx). }
    assert (HJ : joined (free_elem ve_index (verts m) []) (share_edge m) u v).
    { eapply joined_step; [apply joined_refl; auto| |auto]. exists (ed_index s'). auto. }
    apply (proj2 (L5 u v (Hk _ G1) (Hk _ Hv))) in HJ. destruct HJ as [x [Hx1 Hx2]].
    rewrite (label_fun U4 G2 Hx1). auto.
Qed.
Print Assumptions C54_close_2d.
Example C54_close_2d_used : well_connected kite /\ volus kite = [] /\
  (forall e, In e (edges kite) -> length (ed_vertind e) = 2%nat) /\
  (exists m', force_close kite = Ok m' /\ map su_index (surfs m') = [1; 2] /\
     map ed_surfind (edges m') = [[1; 0]; [1; 0]; [1; 0]; [1; 0]; [1; 0]; [2; 0]; [2; 0]; [2; 0]]).
Proof.
  split; [apply kite_ok|]. split; [reflexivity|]. split; [apply kite_two|].
  eexists. split; [vm_compute; reflexivity|split; reflexivity].
Qed.

(** The lists of the new containers hold each entry several times. *)
Theorem C54_duplicates_refuted :
  exists m m' s, well_connected m /\ (forall e, In e (edges m) -> length (ed_vertind e) = 2%nat) /\
    force_close m = Ok m' /\ In s (surfs m') /\ ~ NoDup (su_edgeind s).
Proof.
  exists kite. eexists. eexists. split; [apply kite_ok|]. split; [apply kite_two|]. split; [vm_compute; reflexivity|].
  split; [left; reflexivity|]. simpl. intros H. inversion H as [|? ? Hn _]. apply Hn. simpl. tauto.
Qed.
Print Assumptions C54_duplicates_refuted.

(** A surface with two separate boundary loops (an annulus) is listed by two
    volumes but only keeps the last one as its side. *)
Definition annulus : mesh := mkMesh
  [mkVolu 1 false [1]] [mkSurf 1 true false [1; 0] [1; 2; 3; 4]]
  [mkEdge 1 true [1] [1; 2]; mkEdge 2 true [1] [2; 1]; mkEdge 3 true [1] [3; 4]; mkEdge 4 true [1] [4; 3]]
  [mkVert 1 true [1; 2]; mkVert 2 true [1; 2]; mkVert 3 true [3; 4]; mkVert 4 true [3; 4]] 3.
Lemma annulus_ok : well_connected annulus.
Proof.
  apply concrete_well_connected; [| |reflexivity].
  - repeat apply conj; try concrete_nodup; intros [a [Ha Ea]]; simpl in Ha; intuition; subst; discriminate.
  - unfold exterior_only, VE, EV, ES, SE, VS. repeat apply conj; intros; intro; concrete_lists.
Qed.
Theorem C54_two_loops_refuted :
  exists m m' b s, well_connected m /\ volus m <> [] /\
    (forall e, In e (edges m) -> length (ed_vertind e) = 2%nat) /\
    force_close m = Ok m' /\ VS m' b s /\ ~ SV m' s b.
Proof.
  exists annulus. eexists. exists 1, 1. split; [apply annulus_ok|]. split; [discriminate|].
  split; [simpl; intros e H; repeat destruct H as [<-|H]; try reflexivity; destruct H|].
  split; [vm_compute; reflexivity|]. split.
  - eexists. simpl. split; [left; reflexivity|]. simpl. tauto.
  - intros [a [[<-|[]] [_ H]]]. simpl in H. lia.
Qed.
Print Assumptions C54_two_loops_refuted.
