(** Property C96: growth of a snake around vertices of its mesh. *)
From Verif Require Import Base Containers ContainersProofs Mesh MeshProofs MergeProofs Num Snake SpecSnake SpecMesh Spawn SpecSpawn SpawnProofs SpawnMore PropsSnake MeshCheck.
Import Mesh.
Set Implicit Arguments.
Open Scope Z_scope.

Lemma nodup_app_r A (l l' : list A) : NoDup (l ++ l') -> NoDup l'.
Proof. induction l; simpl; auto. intros H. inversion H; auto. Qed.

(** A closed surface with one cell is added around the vertex.  A vertex that was inside
    already is left as the only one that is. *)
Theorem C96_spawn : forall N m v (k : snake N),
  well_connected m -> volus m <> [] -> interior m v -> length (k_in k) = length (verts m) ->
  exists k' new fe fs fc cell, spawn_at_vertex m v k = Ok k' /\
    appended k new k' /\ grown m v fe fs fc cell new /\ in_step new /\ closed (k_conn new) /\ above (k_conn k) (k_conn new) /\
    (well_connected (k_conn k) -> closed (k_conn k) -> well_connected (k_conn k')) /\
    (positive_indices (k_conn k) -> positive_indices (k_conn k')) /\
    k_flipped k' = k_flipped k /\ length (k_in k') = length (verts m) /\
    forall w, has_vert m w -> (vert_inside m k' w <-> w = v \/ (vert_inside m k w /\ ~ vert_inside m k v)).
Proof.
  intros N m v k W V3 I L.
  destruct (spawn_ok N W I V3) as [s [fe [fs [fc [Es [G [St [Cl [U [P1 [P2 [P3 [Ein Efl]]]]]]]]]]]]].
  assert (F : fresh m v fe fs fc s) by (constructor; auto).
  unfold spawn_at_vertex. rewrite Es. cbn [bind].
  set (new := snake_compatible k s).
  assert (Lr : length (k_in s) = length (verts m)) by (rewrite Ein, upd_length, repeat_length; auto).
  destruct (C39_inside (k_in k) (k_flipped k) (k_in s) (k_flipped s) 0) as [r [Er [Lr' Hr]]]; [lia|].
  unfold snake_concat. change (k_in new) with (k_in s). change (k_flipped new) with (k_flipped s). rewrite Er. cbn [bind].
  eexists. exists new. do 4 eexists. split; [reflexivity|]. split; [repeat split|]. split; [apply grown_shift; exact F|].
  split; [apply step_shift; auto|]. split; [eapply closed_shift; eauto|]. split; [apply above_shift; eapply fresh_pos; eauto|].
  split.
  { intros Wk Ck. cbn [k_conn]. unfold new. cbn [snake_compatible k_conn].
    assert (Wn := fresh_connected F). assert (Pn := fresh_pos F).
    split; [apply merged_unique; [apply Wk|apply Wn|auto]|]. split; [apply merged_mutual; auto|].
    assert (Xn : exterior_only (k_conn new) /\ (forall e, ~ ES (k_conn new) e 0)).
    { pose proof (max_index_nonneg ve_index (verts (k_conn k))). pose proof (max_index_nonneg ed_index (edges (k_conn k))). pose proof (max_index_nonneg su_index (surfs (k_conn k))).
      eapply grown_exterior; [apply (grown_shift k F)| | |]; simpl; intros x Hx; [specialize (P1 _ Hx)|specialize (P2 _ Hx)|specialize (P3 _ Hx)]; lia. }
    destruct Xn as [[X1 [X2 [X3 [X4 _]]]] X5]. destruct Wk as [_ [_ [Y1 [Y2 [Y3 [Y4 _]]]]]].
    assert (Y5 : forall e, ~ ES (k_conn k) e 0).
    { intros e [a [Ha [_ H]]]. destruct (Ck a Ha) as [_ [c [d [_ [Hc [Hd E]]]]]]. rewrite E in H. simpl in H. intuition. }
    unfold new in *. cbn [snake_compatible k_conn] in *.
    unfold exterior_only, VE, EV, SE, VS, ES in *. cbn [concatenate verts edges surfs volus].
    
    split; [intros i; rewrite lists_app; intros [Hq|Hq]; [apply (Y1 i Hq)|apply (X1 i Hq)]|].
    split; [intros i; rewrite lists_app; intros [Hq|Hq]; [apply (Y2 i Hq)|apply (X2 i Hq)]|].
    split; [intros i; rewrite lists_app; intros [Hq|Hq]; [apply (Y3 i Hq)|apply (X3 i Hq)]|].
    split; [intros i; rewrite lists_app; intros [Hq|Hq]; [apply (Y4 i Hq)|apply (X4 i Hq)]|].
    intros _ i; rewrite lists_app; intros [Hq|Hq]; [apply (Y5 i Hq)|apply (X5 i Hq)]. }
  split; [intros Pk; cbn [k_conn]; apply positive_merged; [auto|eapply fresh_pos; eauto|eapply fresh_connected; eauto]|].
  cbn [k_flipped k_in]. split; auto. split; [congruence|].
  destruct W as [[_ [_ [_ [Uv _]]]] _]. destruct I as [Hv _].
  assert (Here := only_here Hv Uv). rewrite <- Ein in Here. rewrite Efl in *.
  assert (VI : forall (q : snake N) i x, nth_error (verts m) i = Some x -> (vert_inside m q (ve_index x) <-> SpecSnake.inside (k_in q) (k_flipped q) i)).
  { intros q i x Hx. split.
    - intros [j [y [b [Hy [E [Hb X]]]]]]. assert (j = i).
      { apply (proj1 (NoDup_nth_error (map ve_index (verts m))) Uv); [rewrite map_length; apply nth_error_Some; congruence|].
        rewrite !nth_error_map, Hx, Hy. simpl. congruence. }
      subst j. exists b. auto.
    - intros [b [Hb X]]. exists i, x, b. auto. }
  destruct Hv as [xv [Hxv Ixv]]. destruct (In_nth_error _ _ Hxv) as [iv Hiv].
  intros w [xw [Hw <-]]. destruct (In_nth_error _ _ Hw) as [i Hi].
  rewrite (VI _ _ _ Hi). rewrite (VI k _ _ Hi), <- Ixv, (VI k _ _ Hiv). cbn [k_in k_flipped].
  assert (Li : (i < length (k_in k))%nat) by (rewrite L; apply nth_error_Some; congruence).
  assert (Lv : (iv < length (k_in k))%nat) by (rewrite L; apply nth_error_Some; congruence).
  rewrite (Hr i Li). simpl. rewrite (Here _ _ Hi). rewrite Ixv.
  assert (B : SpecSnake.inside (k_in k) (k_flipped k) iv \/ ~ SpecSnake.inside (k_in k) (k_flipped k) iv).
  { unfold SpecSnake.inside. destruct (nth_error (k_in k) iv) as [b|]; [|right; intros [b [E _]]; discriminate].
    destruct (xorb b (k_flipped k)) eqn:Q; [left; eauto|right; intros [b' [E X]]; congruence]. }
  assert (Ii : ve_index xw = v -> i = iv).
  { intros E. apply (proj1 (NoDup_nth_error (map ve_index (verts m))) Uv); [rewrite map_length; apply nth_error_Some; congruence|].
    rewrite !nth_error_map, Hi, Hiv. simpl. congruence. }
  destruct B as [B|B].
  - split.
    + intros [[_ H]|[_ H]]; [auto|]. exfalso. apply (H iv Lv). split; auto. apply (Here _ _ Hiv). auto.
    + intros [H|[_ H]]; [|contradiction]. left. split; auto. rewrite (Ii H). auto.
  - split.
    + intros [[H1 H]|[[H|H] _]]; auto.
    + intros H. right. split; [tauto|]. intros j Hj [A C].
      destruct (nth_error (verts m) j) as [x|] eqn:Ex; [|apply nth_error_None in Ex; lia].
      apply (Here _ _ Ex) in C. apply B. replace iv with j; auto.
      apply (proj1 (NoDup_nth_error (map ve_index (verts m))) Uv); [rewrite map_length; apply nth_error_Some; congruence|].
      rewrite !nth_error_map, Ex, Hiv. simpl. congruence.
Qed.
Print Assumptions C96_spawn.

(** Spawning at distinct vertices, one after the other. *)
Theorem C96_history : forall N m vs,
  well_connected m -> volus m <> [] -> NoDup vs -> (forall v, In v vs -> interior m v) ->
  exists k : snake N, for_each vs (@spawn_at_vertex N m) (new_snake N (length (verts m))) = Ok k /\
    well_connected (k_conn k) /\ closed (k_conn k) /\ positive_indices (k_conn k) /\ in_step k /\ on_edges m k /\ length (k_in k) = length (verts m) /\
    length (volus (k_conn k)) = length vs /\ k_flipped k = false /\
    (forall v e, (exists x, In x (k_snaxs k) /\ sx_from x = v /\ sx_edge x = e) <-> In v vs /\ VE m v e) /\
    (forall x y, In x (k_snaxs k) -> In y (k_snaxs k) -> sx_from x = sx_from y -> sx_edge x = sx_edge y -> x = y) /\
    (forall x, In x (k_snaxs k) -> sx_d x = n0 /\ sx_v x = nhalf /\ sx_freeze x = 0) /\
    (forall w, has_vert m w -> (vert_inside m k w <-> In w vs)).
Proof.
  intros N m vs W V3 D I.
  set (P := fun done (k : snake N) => length (k_in k) = length (verts m) /\
    well_connected (k_conn k) /\ closed (k_conn k) /\ positive_indices (k_conn k) /\ in_step k /\ on_edges m k /\
    length (volus (k_conn k)) = length done /\ k_flipped k = false /\
    (forall v e, (exists x, In x (k_snaxs k) /\ sx_from x = v /\ sx_edge x = e) <-> In v done /\ VE m v e) /\
    (forall x y, In x (k_snaxs k) -> In y (k_snaxs k) -> sx_from x = sx_from y -> sx_edge x = sx_edge y -> x = y) /\
    (forall x, In x (k_snaxs k) -> sx_d x = n0 /\ sx_v x = nhalf /\ sx_freeze x = 0) /\
    (forall w, has_vert m w -> (vert_inside m k w <-> In w done))).
  assert (Step : forall v done k, P done k -> ~ In v done -> interior m v -> exists k', spawn_at_vertex m v k = Ok k' /\ P (done ++ [v]) k').
  { intros v done k [Hl [Wk [Ck [Pk [Sk [Ok_ [Vk [Fk [Xk [Yk [Zk Ik]]]]]]]]]]] Nv Iv.
    destruct (@C96_spawn N m v k W V3 Iv Hl) as [k' [new [fe [fs [fc [cell [E [[A1 [A2 [A3 [A4 [A5 [A6 A7]]]]]] [G [Sn [Cn [Ab [Wk' [Pk' [Fk' [Hl' Ik']]]]]]]]]]]]]]]].
    exists k'. split; auto. unfold P. split; auto. split; auto.
    assert (Fr : forall x, In x (k_snaxs new) -> sx_from x = v /\ VE m v (sx_edge x) /\ EV m (sx_edge x) (sx_to x) /\ sx_to x <> v /\ sx_d x = n0 /\ sx_v x = nhalf /\ sx_freeze x = 0).
    { intros x Hx. apply (g_snax G) in Hx. destruct Hx as [e [w [He [[Hw Nw] ->]]]]. simpl. auto 10. }
    split; [intros e He; rewrite A5 in He; apply in_app_iff in He; destruct He as [He|He]; [apply (Ck e He)|apply (Cn e He)]|].
    split; auto. split.
    { destruct Sk as [S1 [S2 S3]], Sn as [T1 [T2 T3]]. unfold in_step. rewrite A1, A2, A3, A4, A5, A6, !map_app. repeat split; congruence. }
    split.
    { intros x Hx. rewrite A1 in Hx. apply in_app_iff in Hx. destruct Hx as [Hx|Hx]; [apply (Ok_ x Hx)|].
      destruct (Fr x Hx) as [E1 [E2 [E3 [E4 _]]]]. rewrite E1.
      assert (EV m (sx_edge x) v).
      { destruct W as [_ [[M1 _] [X1 _]]]. apply M1; auto. intros Z0. rewrite Z0 in E2. apply (X1 _ E2). }
      split; [|auto]. destruct H as [e [He [Ie _]]]. exists e. auto. }
    split.
    { rewrite A7, !app_length, Vk. simpl. f_equal.
      assert (H1 : forall i, has_volu (k_conn new) i <-> i = cell) by apply (g_volu G).
      destruct (Wk' Wk Ck) as [[Uc _] _]. rewrite A7, map_app in Uc. apply nodup_app_r in Uc.
      destruct (volus (k_conn new)) as [|a [|b q]] eqn:Q; auto.
      - destruct (proj2 (H1 cell) eq_refl) as [x [Hx _]]. rewrite Q in Hx. destruct Hx.
      - exfalso. assert (vo_index a = cell) by (apply H1; exists a; rewrite Q; simpl; auto).
        assert (vo_index b = cell) by (apply H1; exists b; rewrite Q; simpl; auto).
        simpl in Uc. inversion Uc as [|? ? Hn _]; subst. apply Hn. left. congruence. }
    split; [congruence|]. split; [|split; [|split]].
    - intros u e. rewrite A1, in_app_iff. split.
      + intros [x [Hx [<- <-]]]. apply in_app_iff in Hx. destruct Hx as [Hx|Hx].
        * destruct (proj1 (Xk (sx_from x) (sx_edge x))); [eauto|]. auto.
        * destruct (Fr x Hx) as [-> [E2 _]]. split; auto. simpl. auto.
      + intros [[Hu|Hu] He].
        * destruct (proj2 (Xk u e)) as [x [Hx Ex]]; auto. exists x. rewrite in_app_iff. auto.
        * destruct Hu as [<-|[]]. destruct Iv as [_ [_ [Ends _]]].
          destruct W as [[_ [_ [Ue _]]] [[M1 _] [X1 _]]]. assert (Ev : EV m e v) by (apply M1; auto; intros ->; apply (X1 _ He)).
          destruct Ev as [a [Ha [Ia _]]]. subst e. destruct (Ends a Ha He) as [w [Hw Hvw]].
          eexists. rewrite in_app_iff. split; [right; apply (g_snax G); exists (ed_index a), w; split; auto; split; [|reflexivity]|auto].
          split; auto. exists a. destruct Hvw as [-> | ->]; simpl; auto.
    - intros x y Hx Hy E1 E2. rewrite A1 in Hx, Hy. apply in_app_iff in Hx. apply in_app_iff in Hy.
      assert (Old : forall z, In z (k_snaxs k) -> sx_from z <> v) by (intros z Hz Q; apply Nv; apply (proj1 (Xk v (sx_edge z))); eauto).
      destruct Hx as [Hx|Hx], Hy as [Hy|Hy].
      + apply Yk; auto.
      + exfalso. apply (Old x Hx). rewrite E1. apply (Fr y Hy).
      + exfalso. apply (Old y Hy). rewrite <- E1. apply (Fr x Hx).
      + apply (g_snax G) in Hx. apply (g_snax G) in Hy. destruct Hx as [e [w [He [[Hw Nw] ->]]]]. destruct Hy as [e' [w' [He' [[Hw' Nw'] ->]]]].
        simpl in E2. subst e'. assert (w = w'); [|congruence].
        destruct Iv as [_ [_ [Ends _]]]. destruct W as [[_ [_ [Ue _]]] _].
        destruct Hw as [a [Ha [Ia Hw]]]. destruct Hw' as [b [Hb [Ib Hw']]]. subst e.
        rewrite (NoDup_idx_inj ed_index (edges m) b a Ue Hb Ha) in Hw' by congruence.
        destruct (Ends a Ha He) as [u [_ [Q|Q]]]; rewrite Q in Hw, Hw'; simpl in Hw, Hw'; intuition congruence.
    - intros x Hx. rewrite A1 in Hx. apply in_app_iff in Hx. destruct Hx as [Hx|Hx]; [auto|apply (Fr x Hx)].
    - intros w Hw. rewrite (Ik' w Hw), (Ik w Hw), in_app_iff. assert (Hv : has_vert m v) by apply Iv. rewrite (Ik v Hv). simpl.
      split; [intuition|]. intros [H|[H|[]]]; auto. }
  assert (G : forall r done k, P done k -> NoDup (done ++ r) -> (forall v, In v r -> interior m v) ->
     exists k', for_each r (@spawn_at_vertex N m) k = Ok k' /\ P (done ++ r) k').
  { induction r as [|v r IH]; intros done k Hk Nd Hr; simpl.
    - exists k. rewrite app_nil_r. auto.
    - destruct (Step v done k Hk) as [k1 [E1 H1]]; [|apply Hr; simpl; auto|].
      { apply NoDup_remove_2 in Nd. intros H. apply Nd. apply in_app_iff. auto. }
      rewrite E1. cbn [bind]. destruct (IH (done ++ [v]) k1 H1) as [k2 [E2 H2]]; [rewrite <- app_assoc; auto|intros; apply Hr; simpl; auto|].
      exists k2. split; auto. rewrite <- app_assoc in H2. auto. }
  destruct (G vs [] (new_snake N (length (verts m)))) as [k [E H]]; auto.
  - unfold P, new_snake. cbn [k_in k_conn k_flipped k_snaxs verts edges surfs volus].
    split; [apply repeat_length|]. split.
    { unfold well_connected, unique_indices, mutual, exterior_only, has_volu, has_surf, has_edge, has_vert, VE, EV, ES, SE, SV, VS, lists. simpl.
      repeat split; try constructor; intros; repeat match goal with |- ~ _ => intro | H : exists _, _ |- _ => destruct H | H : _ /\ _ |- _ => destruct H | H : False |- _ => destruct H end. }
    split; [intros e []|]. split.
    { split; [intros i [[x [[] _]]|[[x [[] _]]|[[x [[] _]]|[x [[] _]]]]]|]. intros i x H; repeat destruct H as [H|H]; destruct H as [a [[] _]]. }
    split; [repeat split|]. split; [intros x []|]. split; auto. split; auto.
    split; [intros v e; split; [intros [x [[] _]]|intros [[] _]]|]. split; [intros x y []|]. split; [intros x []|].
    intros w _. split; [|intros []]. intros [i [x [b [_ [_ [Hb X]]]]]]. simpl in *. apply nth_error_In, repeat_spec in Hb. subst b. discriminate.
  - exists k. split; auto. unfold P in H. simpl in H. tauto.
Qed.
Print Assumptions C96_history.

(** A tetrahedron 2 3 4 5 cut into seven cells; vertices 1 and 6 are inside it and joined. *)
Definition ball : mesh := mkMesh
  [mkVolu 1 true [1; 3; 6; 11]; mkVolu 2 true [2; 3; 8; 13]; mkVolu 3 true [5; 6; 8; 15]; mkVolu 4 true [1; 4; 7; 12]; mkVolu 5 true [2; 4; 9; 14]; mkVolu 6 true [5; 7; 9; 16]; mkVolu 7 true [10; 12; 14; 16]]
  [mkSurf 1 false false [1; 4] [1; 2; 6];
   mkSurf 2 false false [2; 5] [1; 3; 7];
   mkSurf 3 false false [1; 2] [1; 4; 8];
   mkSurf 4 false false [4; 5] [1; 5; 9];
   mkSurf 5 false false [3; 6] [2; 3; 10];
   mkSurf 6 false false [1; 3] [2; 4; 11];
   mkSurf 7 false false [4; 6] [2; 5; 12];
   mkSurf 8 false false [2; 3] [3; 4; 13];
   mkSurf 9 false false [5; 6] [3; 5; 14];
   mkSurf 10 true false [7; 0] [6; 7; 10];
   mkSurf 11 true false [1; 0] [6; 8; 11];
   mkSurf 12 false false [4; 7] [6; 9; 12];
   mkSurf 13 true false [2; 0] [7; 8; 13];
   mkSurf 14 false false [5; 7] [7; 9; 14];
   mkSurf 15 true false [3; 0] [10; 11; 13];
   mkSurf 16 false false [6; 7] [10; 12; 14]]
  [mkEdge 1 false [1; 2; 3; 4] [1; 2];
   mkEdge 2 false [1; 5; 6; 7] [1; 3];
   mkEdge 3 false [2; 5; 8; 9] [1; 4];
   mkEdge 4 false [3; 6; 8] [1; 5];
   mkEdge 5 false [4; 7; 9] [1; 6];
   mkEdge 6 true [1; 10; 11; 12] [2; 3];
   mkEdge 7 true [2; 10; 13; 14] [2; 4];
   mkEdge 8 true [3; 11; 13] [2; 5];
   mkEdge 9 false [4; 12; 14] [2; 6];
   mkEdge 10 true [5; 10; 15; 16] [3; 4];
   mkEdge 11 true [6; 11; 15] [3; 5];
   mkEdge 12 false [7; 12; 16] [3; 6];
   mkEdge 13 true [8; 13; 15] [4; 5];
   mkEdge 14 false [9; 14; 16] [4; 6]]
  [mkVert 1 false [1; 2; 3; 4; 5]; mkVert 2 true [1; 6; 7; 8; 9]; mkVert 3 true [2; 6; 10; 11; 12]; mkVert 4 true [3; 7; 10; 13; 14]; mkVert 5 true [4; 8; 11; 13]; mkVert 6 false [5; 9; 12; 14]] 3.
Lemma ball_connected : well_connected ball. Proof. apply well_connectedb_spec. vm_compute. reflexivity. Qed.
Lemma ball_inside v : v = 1 \/ v = 6 -> interior ball v.
Proof. intros [-> | ->]; apply interiorb_spec; vm_compute; reflexivity. Qed.
Example C96_used : well_connected ball /\ volus ball <> [] /\ (forall v, In v [6; 1] -> interior ball v) /\
  exists k, for_each [6; 1] (@spawn_at_vertex Qn ball) (new_snake Qn 6) = Ok k /\
    map (fun x => (sx_from x, sx_to x)) (k_snaxs k) = [(6, 1); (6, 2); (6, 3); (6, 4); (1, 2); (1, 3); (1, 4); (1, 5); (1, 6)] /\
    map su_edgeind (surfs (k_conn k)) = [[1; 2; 4]; [1; 3; 5]; [2; 3; 6]; [4; 5; 6]; [7; 9; 12]; [8; 9; 14]; [11; 12; 14]; [7; 10; 13]; [8; 10; 15]; [11; 13; 15]] /\
    k_in k = [true; false; false; false; false; true].
Proof.
  split; [exact ball_connected|]. split; [discriminate|]. split; [intros v [<-|[<-|[]]]; apply ball_inside; auto|].
  eexists. split; [vm_compute; reflexivity|]. vm_compute. auto.
Qed.

(** A vertex of the border of the mesh: cell 0 is read. *)
Theorem C96_border_refuted : exists m v, well_connected m /\ has_vert m v /\ volus m <> [] /\
  (forall e, In e (edges m) -> exists a b, a <> b /\ ed_vertind e = [a; b]) /\
  forall N (k : snake N), spawn_at_vertex m v k = UB.
Proof.
  exists ball, 2. split; [exact ball_connected|]. split; [exists (nth 1 (verts ball) (mkVert 0 false [])); split; [vm_compute; auto|reflexivity]|]. split; [discriminate|]. split.
  - intros e He. simpl in He. repeat destruct He as [<-|He]; try contradiction; do 2 eexists; (split; [|reflexivity]); discriminate.
  - intros N k. vm_compute. reflexivity.
Qed.
Print Assumptions C96_border_refuted.

(** A second growth around a vertex takes the first one's inside away. *)
Theorem C96_twice_refuted : exists m u v (k k' : snake Qn), well_connected m /\ volus m <> [] /\ interior m u /\ interior m v /\
  for_each [u; v] (@spawn_at_vertex Qn m) (new_snake Qn (length (verts m))) = Ok k /\ vert_inside m k u /\
  spawn_at_vertex m v k = Ok k' /\ ~ vert_inside m k' u.
Proof.
  destruct (@C96_history Qn ball [1; 6] ball_connected) as [k [Ek [_ [_ [_ [_ [_ [L [_ [_ [_ [_ [_ In_]]]]]]]]]]]]];
    [discriminate|constructor; [simpl; intuition discriminate|constructor; [simpl; tauto|constructor]]|intros v [<-|[<-|[]]]; apply ball_inside; auto|].
  assert (H1 : has_vert ball 1) by apply (ball_inside (or_introl eq_refl)). assert (H6 : has_vert ball 6) by apply (ball_inside (or_intror eq_refl)).
  destruct (@C96_spawn Qn ball 6 k ball_connected) as [k' [_ [_ [_ [_ [_ [E [_ [_ [_ [_ [_ [_ [_ [_ [_ In']]]]]]]]]]]]]]]];
    [discriminate|apply ball_inside; auto|auto|].
  exists ball, 1, 6, k, k'. split; [exact ball_connected|]. split; [discriminate|]. split; [apply ball_inside; auto|]. split; [apply ball_inside; auto|].
  split; [exact Ek|]. split; [apply In_; simpl; auto|]. split; [exact E|].
  rewrite (In' 1 H1). rewrite (In_ 6 H6). simpl. intuition discriminate.
Qed.
Print Assumptions C96_twice_refuted.
