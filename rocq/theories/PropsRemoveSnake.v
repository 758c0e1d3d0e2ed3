(** C99: taking parts of a snake away (RemoveSnakeInVolu). *)
From Coq Require Import ZArith QArith List Lia Bool.
From Verif Require Import Base Containers ContainersProofs Mesh SpecMesh MeshProofs SwitchProofs RemoveProofs MergeProofs MeshCheck
  Flood SpecFlood FloodProofs CloseProofs PropsFlood Edit SpecEdit EditProofs CropProofs
  Num Snake SpecSnake SnakeProofs PropsSnake Spawn SpecSpawn SpawnProofs PropsSpawn RemoveSnake SpecRemoveSnake RemoveSnakeProofs.
Import ListNotations.
Import Mesh.
Set Implicit Arguments.
Open Scope Z_scope.

(** Exactly the parts with a surface in one of the cells go (outerBorder 1), or exactly the
    others (outerBorder 0).  What is left is a snake again, as it was before except that for
    outerBorder 1 the snaxels are turned round. *)
Theorem C99_parts N (rng : list (snax N) -> Z -> list Z) fuel m k cells o :
  well_connected (k_conn k) -> volus (k_conn k) <> [] -> closed (k_conn k) -> in_step k -> whole (k_conn k) ->
  well_connected m -> (forall e, In e (edges m) -> length (ed_vertind e) = 2%nat) -> on_edges m k ->
  (forall l, legal_rng l (rng l)) -> (2 * length (verts m) <= fuel)%nat ->
  let c := k_conn k in let gone := goes k cells o in
  exists k', remove_in_volu rng fuel m k cells o = Ok k' /\
    (* what stays *)
    (forall x', In x' (k_snaxs k') <-> exists x, In x (k_snaxs k) /\ ~ gone (sx_index x) /\ x' = turned o x) /\
    (forall p, In p (k_edges k') <-> In p (k_edges k) /\ forall v, EV c (fst p) v -> ~ gone v) /\
    (forall p, In p (k_surfs k') <-> In p (k_surfs k) /\ forall v, on_surface c (fst p) v -> ~ gone v) /\
    (forall v, has_vert (k_conn k') v <-> has_vert c v /\ ~ gone v) /\
    (forall v e, VE (k_conn k') v e <-> VE c v e /\ ~ gone v) /\
    (forall e v, EV (k_conn k') e v <-> EV c e v /\ ~ gone v) /\
    (forall e s, ES (k_conn k') e s <-> ES c e s /\ forall v, EV c e v -> ~ gone v) /\
    (forall s e, SE (k_conn k') s e <-> SE c s e /\ forall v, EV c e v -> ~ gone v) /\
    (* is a snake *)
    well_connected (k_conn k') /\ closed (k_conn k') /\ in_step k' /\ on_edges m k' /\ meshDim (k_conn k') = meshDim c /\
    (* with one volume for each part *)
    (exists cell, (forall b, has_volu (k_conn k') b <-> exists v, has_vert (k_conn k') v /\ cell v = b) /\
       (forall u v, has_vert (k_conn k') u -> has_vert (k_conn k') v -> (cell u = cell v <-> same_part c u v)) /\
       (forall s v, In s (surfs (k_conn k')) -> on_surface (k_conn k') (su_index s) v -> su_voluind s = [cell v; 0])) /\
    (* and the inside is found anew *)
    k_flipped k' = false /\ length (k_in k') = length (verts m) /\
    (forall q v, nth_error (verts m) q = Some v -> nth_error (k_in k') q = Some true -> enclosed m (k_snaxs k') (ve_index v)) /\
    (forall x, In x (k_snaxs k') -> exists q v, nth_error (verts m) q = Some v /\ ve_index v = sx_from x /\ nth_error (k_in k') q = Some true).
Proof.
  intros W V C I Wh Wm Tm Oe Lr Hf c gone.
  destruct (@remove_parts_ok N k cells o W V C I Wh) as [k1 [E1 [[A1 [A2 [A3 [A4 [A5 [A6 [A7 [A8 [A9 [A10 [A11 [A12 A13]]]]]]]]]]]] _]]].
  unfold remove_in_volu. rewrite E1. cbn [bind]. set (k2 := if 0 <? o then snake_flip k1 else k1).
  assert (S2 : k_snaxs k2 = map (turned o) (k_snaxs k1)).
  { unfold k2, turned. destruct (0 <? o); [reflexivity|]. rewrite map_id. reflexivity. }
  assert (Q2 : k_edges k2 = k_edges k1 /\ k_surfs k2 = k_surfs k1 /\ k_conn k2 = k_conn k1) by (unfold k2; destruct (0 <? o); auto).
  destruct Q2 as [Q2 [Q3 Q4]].
  assert (Oe2 : forall x, In x (k_snaxs k2) -> has_edge m (sx_edge x) /\ EV m (sx_edge x) (sx_from x) /\ EV m (sx_edge x) (sx_to x) /\ sx_from x <> sx_to x).
  { intros x Hx. rewrite S2 in Hx. apply in_map_iff in Hx. destruct Hx as [y [<- Hy]]. apply A1 in Hy. destruct (Oe y (proj1 Hy)) as [B1 [B2 [B3 B4]]].
    unfold turned. destruct (0 <? o); cbn [flip_snax sx_edge sx_from sx_to]; auto. }
  destruct (@C42_sound_partial N (rng (k_snaxs k2)) m (k_snaxs k2) fuel (Lr _) Wm Tm) as [ins [Ei [Li [Si So]]]]; auto.
  { intros x Hx. destruct (Oe2 x Hx) as [_ [B _]]. destruct Wm as [_ [[_ [M2 _]] [_ [X2 _]]]].
    assert (Hv : VE m (sx_from x) (sx_edge x)) by (apply M2; auto; intros Q; rewrite Q in B; apply (X2 _ B)).
    destruct Hv as [v [H1 [H2 H3]]]. exists v. auto. }
  rewrite Ei. cbn [bind fst snd]. eexists. split; [reflexivity|]. cbn [k_snaxs k_edges k_surfs k_conn k_in k_flipped].
  assert (GE : forall e, ~ goneE k cells o e <-> forall v, EV c e v -> ~ gone v).
  { intros e. unfold goneE. split.
    - intros H v Hv G. apply H. exists v. split; auto. apply (ve_ev k W). auto.
    - intros H [v [G Hv]]. apply (H v); auto. apply (ve_ev k W). auto. }
  split; [|split; [|split; [|split; [|split; [|split; [|split; [|split; [|split; [|split; [|split; [|split; [|split; [|split; [|split; [|split; [|split]]]]]]]]]]]]]]]]; auto;
    rewrite ?Q2, ?Q3, ?Q4; auto.
  - intros x'. rewrite S2, in_map_iff. split.
    + intros [x [<- Hx]]. apply A1 in Hx. exists x. tauto.
    + intros [x [H1 [H2 ->]]]. exists x. split; auto. apply A1. auto.
  - intros p. rewrite A2, GE. tauto.
  - intros p. rewrite A3. unfold goneS. split.
    + intros [H1 H2]. split; auto. intros v Hv G. apply H2. exists v. auto.
    + intros [H1 H2]. split; auto. intros [v [G Hv]]. apply (H2 v); auto.
  - intros e s. rewrite A7, GE. tauto.
  - intros s e. rewrite A8, GE. tauto.
  - destruct A11 as [I1 [I2 I3]]. unfold in_step. cbn [k_snaxs k_edges k_surfs k_conn]. rewrite S2, ?Q2, ?Q3, ?Q4, map_map. split; [|auto].
    rewrite <- I1. apply map_ext. intros x. unfold turned. destruct (0 <? o); reflexivity.
Qed.
Print Assumptions C99_parts.

(** Whether no surface has corners in two parts. *)
Definition wholeb (c : mesh) : bool :=
  match connected_vertex c [] with
  | Ok (_, blocks) =>
      forallb (fun s =>
        match omap_list (at_ blocks) (find_list ve_index (verts c) (concat (map ed_vertind (filter (fun e => mem_z (ed_index e) (su_edgeind s)) (edges c))))) with
        | Ok (x :: l) => forallb (Z.eqb x) l
        | _ => false
        end) (surfs c)
  | _ => false
  end.
Lemma wholeb_whole c : well_connected c -> (forall e, In e (edges c) -> length (ed_vertind e) = 2%nat) -> wholeb c = true -> whole c.
Proof.
  intros W T2 H. unfold wholeb in H. destruct (@C19_connected_vertices c [] W T2) as [n [blocks [E L]]]; [auto|]. rewrite E in H.
  rewrite forallb_forall in H. pose proof W as [[_ [Us [Ue [Un _]]]] _].
  intros s [x [Hx <-]]. specialize (H x Hx).
  set (vs := concat (map ed_vertind (filter (fun e => mem_z (ed_index e) (su_edgeind x)) (edges c)))) in *.
  assert (Hvs : forall v, In v vs <-> on_surface c (su_index x) v).
  { intros v. unfold vs. rewrite concat_In. split.
    - intros [e [He Hv]]. apply filter_In in He. destruct He as [He Hm]. apply mem_z_In in Hm. exists (ed_index e). split; [exists x; auto|exists e; auto].
    - intros [e [He [y [Hy [<- Hv]]]]]. apply (@lists_one _ su_index su_edgeind (surfs c) x _ Us Hx) in He. exists y. split; auto. apply filter_In. split; auto. apply mem_z_In. auto. }
  assert (Hv : forall v, In v vs -> has_vert c v). { intros v Q. apply Hvs in Q. destruct Q as [e [_ Q]]. apply (ev_vert W Q). }
  assert (Lb : forall v, has_vert c v -> exists b, at_ blocks (find ve_index (verts c) v) = Ok b /\ label ve_index (verts c) blocks v b).
  { intros v Hvv. destruct L as [_ [_ [L3 _]]]. destruct (L3 v (free_all _ _ Hvv)) as [b [Lv _]]. exists b. split; auto.
    destruct (find_spec ve_index (verts c) v) as [[_ F]|[j [y [Ej [Hy Iy]]]]]; [exfalso; apply F; auto|].
    rewrite <- Iy in Lv. apply (@label_at _ ve_index (verts c) Un j y blocks b Hy) in Lv. rewrite Ej. apply at_of; [lia|]. rewrite Nat2Z.id. auto. }
  destruct (omap_list (at_ blocks) (find_list ve_index (verts c) vs)) as [[|b r]| | |] eqn:Em; try discriminate.
  assert (All_ : forall v, In v vs -> at_ blocks (find ve_index (verts c) v) = Ok b).
  { rewrite forallb_forall in H. intros v Q. destruct (Lb v (Hv v Q)) as [b' [Eb _]]. rewrite Eb. f_equal.
    assert (Hb : In b' (b :: r)).
    { clear - Em Q Eb. revert Em. generalize (b :: r). clear b r. induction vs as [|u l IH]; intros r Em; [destruct Q|]. cbn [find_list map omap_list] in Em.
      destruct (at_ blocks (find ve_index (verts c) u)) as [z| | |] eqn:Ez; try discriminate. cbn [bind] in Em.
      destruct (omap_list (at_ blocks) (find_list ve_index (verts c) l)) as [zs| | |] eqn:Ezs; try (change (map (find ve_index (verts c)) l) with (find_list ve_index (verts c) l) in Em; rewrite Ezs in Em; discriminate).
      change (map (find ve_index (verts c)) l) with (find_list ve_index (verts c) l) in Em. rewrite Ezs in Em. injection Em as <-.
      destruct Q as [->|Q]; [left; congruence|right; apply IH; auto]. }
    destruct Hb as [<-|Hb]; auto. specialize (H b' Hb). lia. }
  split.
  - destruct vs as [|v l]; [discriminate|]. exists v. apply Hvs. left. auto.
  - intros u v Hu Hw. apply Hvs in Hu. apply Hvs in Hw. destruct (Lb u (Hv u Hu)) as [b1 [E1 L1]]. destruct (Lb v (Hv v Hw)) as [b2 [E2 L2]].
    rewrite (All_ u Hu) in E1. rewrite (All_ v Hw) in E2. injection E1 as <-. injection E2 as <-.
    destruct L as [_ [_ [_ [_ L5]]]]. unfold same_part. apply (@joined_ext (free_elem ve_index (verts c) []) (has_vert c)).
    + intros y. split; [intros [Q _]; exact Q|apply free_all].
    + apply (L5 u v (free_all _ _ (Hv u Hu)) (free_all _ _ (Hv v Hw))). exists b. auto.
Qed.

(** The snake of C96_used has two parts, around vertices 6 and 1. *)
Definition two_parts : snake Qn := match for_each [6; 1] (@spawn_at_vertex Qn ball) (new_snake Qn 6) with Ok k => k | _ => new_snake Qn 0 end.
Example C99_used : well_connected (k_conn two_parts) /\ volus (k_conn two_parts) <> [] /\ closed (k_conn two_parts) /\ in_step two_parts /\
  whole (k_conn two_parts) /\ well_connected ball /\ (forall e, In e (edges ball) -> length (ed_vertind e) = 2%nat) /\ on_edges ball two_parts /\
  (forall l : list (snax Qn), legal_rng l (rng_of l)) /\ k_surfs two_parts = [(1, 4); (2, 5); (3, 6); (4, 7); (5, 1); (6, 2); (7, 3); (8, 4); (9, 5); (10, 6)] /\
  (exists k', remove_in_volu (@rng_of Qn) 12 ball two_parts [7] 0 = Ok k' /\
     map (fun x => (sx_from x, sx_to x)) (k_snaxs k') = [(6, 1); (6, 2); (6, 3); (6, 4)] /\ k_in k' = [false; false; false; false; false; true]) /\
  (exists k', remove_in_volu (@rng_of Qn) 12 ball two_parts [7] 1 = Ok k' /\
     map (fun x => (sx_from x, sx_to x)) (k_snaxs k') = [(2, 1); (3, 1); (4, 1); (5, 1); (6, 1)] /\ k_in k' = [false; true; true; true; true; true]) /\
  (exists k', remove_in_volu (@rng_of Qn) 12 ball two_parts [4] 1 = Ok k' /\ k_snaxs k' = []).
Proof.
  destruct (@C96_history Qn ball [6; 1] ball_connected) as [k [Ek [W [C [_ [I [O [_ [V _]]]]]]]]];
    [discriminate|constructor; [simpl; intuition discriminate|constructor; [simpl; tauto|constructor]]|intros v [<-|[<-|[]]]; apply ball_inside; auto|].
  assert (E : two_parts = k) by (unfold two_parts; change 6%nat with (length (verts ball)); rewrite Ek; reflexivity).
  rewrite <- E in *. clear Ek.
  assert (T : forall e, In e (edges (k_conn two_parts)) -> length (ed_vertind e) = 2%nat) by (intros e He; destruct (C e He) as [[a [b [_ [_ [_ ->]]]]] _]; reflexivity).
  split; [exact W|]. split; [vm_compute; discriminate|]. split; [exact C|]. split; [exact I|].
  split; [apply (wholeb_whole W T); vm_compute; reflexivity|]. split; [exact ball_connected|].
  split; [intros e He; simpl in He; repeat destruct He as [<-|He]; try contradiction; reflexivity|]. split; [exact O|].
  split; [intros; apply rng_of_legal|]. split; [vm_compute; reflexivity|].
  split; [eexists; split; [vm_compute; reflexivity|split; reflexivity]|]. split; [eexists; split; [vm_compute; reflexivity|split; reflexivity]|].
  eexists; split; [vm_compute; reflexivity|reflexivity].
Qed.

(** A surface with corners in two parts goes with either of them, and leaves the edges of
    the other with one surface. *)
Definition annulus : mesh := mkMesh [mkVolu 1 false [1; 2; 3]]
  [mkSurf 1 false false [1; 0] [1; 2]; mkSurf 2 false false [1; 0] [1; 2; 3; 4]; mkSurf 3 false false [1; 0] [3; 4]]
  [mkEdge 1 false [1; 2] [1; 2]; mkEdge 2 false [1; 2] [1; 2]; mkEdge 3 false [2; 3] [3; 4]; mkEdge 4 false [2; 3] [3; 4]]
  [mkVert 1 false [1; 2]; mkVert 2 false [1; 2]; mkVert 3 false [3; 4]; mkVert 4 false [3; 4]] 3.
Definition on_annulus : snake Qn :=
  mkSnake [@mkSnax Qn 1 0%Q 0%Q 1 2 1 0 (-1); @mkSnax Qn 2 0%Q 0%Q 1 3 2 0 (-1); @mkSnax Qn 3 0%Q 0%Q 6 2 9 0 (-1); @mkSnax Qn 4 0%Q 0%Q 6 3 12 0 (-1)]
          [(1, 1); (2, 2); (3, 3); (4, 4)] [(1, 1); (2, 2); (3, 3)] annulus (repeat false 6) false.
Theorem C99_annulus_refuted : exists (k k' : snake Qn) m, well_connected (k_conn k) /\ volus (k_conn k) <> [] /\ closed (k_conn k) /\ in_step k /\
  well_connected m /\ on_edges m k /\ remove_in_volu (@rng_of Qn) 12 m k [1] 1 = Ok k' /\
  map (@sx_index Qn) (k_snaxs k') = [3; 4] /\ map ed_surfind (edges (k_conn k')) = [[3]; [3]] /\ ~ closed (k_conn k').
Proof.
  exists on_annulus. eexists. exists ball.
  split; [apply well_connectedb_spec; vm_compute; reflexivity|]. split; [discriminate|]. split.
  { intros e He. simpl in He. repeat destruct He as [<-|He]; try contradiction; split; do 2 eexists; (split; [|split; [|split; [|reflexivity]]]); discriminate. }
  split; [repeat split|]. split; [exact ball_connected|]. split.
  { intros x Hx. simpl in Hx. repeat destruct Hx as [<-|Hx]; try contradiction; cbn [sx_edge sx_from sx_to];
    (split; [apply has_edge_In; vm_compute; tauto|split; [|split; [|discriminate]]]; apply listsb_spec; vm_compute; reflexivity). }
  split; [vm_compute; reflexivity|]. split; [reflexivity|]. split; [reflexivity|].
  intros Q. cbn [k_conn] in Q. edestruct Q as [_ [a [b [_ [_ [_ Q2]]]]]]; [left; reflexivity|]. discriminate Q2.
Qed.
Print Assumptions C99_annulus_refuted.
