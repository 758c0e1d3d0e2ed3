(** C55: grouping close vertices and merging the groups. *)
From Coq Require Import Reals Lra.
From Verif Require Import Base Containers Mesh Edit Geom Group SpecMesh SpecGroup
  ContainersProofs MeshProofs SwitchProofs CropProofs EditProofs GroupProofs GroupLinkProofs GroupMergeProofs.
Set Implicit Arguments.
Open Scope Z_scope.

(** A vertex is in no group iff no edge at it is shorter than the tolerance;
    two vertices are in one group iff a path of such edges joins them. *)
Theorem C55_groups g tol : grid_ready g -> (0 <= tol)%R ->
  exists lab, group_close_vertices g tol = Ok lab /\ length lab = length (verts (gtopo g)) /\
    (forall i, has_vert (gtopo g) i ->
       (in_group (gtopo g) lab i (-1) <-> ~ exists e j, short_edge g tol e i j)) /\
    (forall i j, has_vert (gtopo g) i -> has_vert (gtopo g) j -> i <> j ->
       ((exists k, k <> -1 /\ in_group (gtopo g) lab i k /\ in_group (gtopo g) lab j k) <-> joined g tol i j)).
Proof. intros H1 H2. exact (group_ok H1 H2). Qed.
Print Assumptions C55_groups.

(** Every end of every edge is replaced by the representative of its group, in
    place; vertices and edges refer to each other; nothing else changes; the
    vertices merged into another are the ones returned and, if asked for,
    deleted. *)
Theorem C55_merge m lab findall del :
  well_connected m -> (forall e, In e (edges m) -> exists a b, ed_vertind e = [a; b] /\ a <> b) ->
  (forall v, In v (verts m) -> NoDup (ve_edgeind v)) ->
  length lab = length (verts m) -> findall_of lab findall ->
  exists m' rmv rep, merge_grouped findall lab del m = Ok (m', rmv) /\ representative m lab rep /\
    edges m' = map (fun e => ed_set_vertind (map rep (ed_vertind e)) e) (edges m) /\
    surfs m' = surfs m /\ volus m' = volus m /\ meshDim m' = meshDim m /\
    (forall v e, VE m' v e <-> EV m' e v) /\
    (forall i, In i rmv <-> has_vert m i /\ rep i <> i) /\
    (forall i b, (exists v, In v (verts m') /\ ve_index v = i /\ ve_border v = b) <->
                 (exists v, In v (verts m) /\ ve_index v = i /\ ve_border v = b) /\ ~ (del = true /\ rep i <> i)) /\
    well_connected m'.
Proof.
  intros Wc Two Nde Len All.
  destruct (@positions_ok m lab findall Wc Two Nde Len All (length lab) 0 (m, [], repeat false (length lab)))
    as [ks [m1 [rmv [dn [R O]]]]]; [lia | exists []; apply outer_start; auto |].
  unfold merge_grouped. rewrite R. cbn [bind].
  set (rep := rho (flat_map (pairs m findall) ks)).
  destruct (@representative_ok m lab findall Wc Nde Len All ks (o_ks O)) as [Rp [Id Rm]].
  { intros p Hp Hn. apply (o_seen O); auto. unfold range in Hp. lia. }
  fold rep in Rp, Id, Rm. rewrite <- (o_rmv O) in Rm. pose proof (o_m O) as G.
  assert (Ed : edges m1 = map (fun e => ed_set_vertind (map rep (ed_vertind e)) e) (edges m)) by exact (mg_ed G).
  assert (Both : forall v e, VE m1 v e <-> EV m1 e v).
  { destruct (mg_wc G) as [_ [[M1 [M2 _]] [X1 [X2 _]]]]. intros v e. split; intro H.
    - apply M1; auto. intros ->. exact (X1 v H).
    - apply M2; auto. intros ->. exact (X2 e H). }
  assert (Fix : forall v e, VE m1 v e -> rep v = v).
  { intros v e H. apply Both in H. destruct H as [x [Hx [_ Hv]]]. rewrite Ed in Hx. apply in_map_iff in Hx.
    destruct Hx as [y [<- Hy]]. simpl in Hv. apply in_map_iff in Hv. destruct Hv as [z [<- _]]. apply Id. }
  assert (Vs : forall i b, (exists v, In v (verts m1) /\ ve_index v = i /\ ve_border v = b) <->
                           (exists v, In v (verts m) /\ ve_index v = i /\ ve_border v = b)).
  { intros i b. pose proof (mg_ve G) as E.
    assert (K : forall vs, (exists v, In v vs /\ ve_index v = i /\ ve_border v = b) <-> In (i, b) (map (fun v => (ve_index v, ve_border v)) vs)).
    { intro vs. rewrite in_map_iff. split; intros [v H]; exists v; [|split; [tauto|]].
      - destruct H as [H1 [<- <-]]. auto.
      - destruct H as [H1 H2]. injection H1 as <- <-. auto. }
    rewrite !K, E. tauto. }
  assert (Whole : exists m' rmv', (m' = m1 /\ rmv' = rmv /\ (del = false \/ rmv = []) \/
      m' = set_verts (drop ve_index (tighten rmv) (verts m1)) m1 /\ rmv' = tighten rmv /\ del = true) /\
      match rmv with
      | [] => Ok (m1, rmv)
      | _ => if del then Ok (set_verts (drop ve_index (tighten rmv) (verts m1)) m1, tighten rmv) else Ok (m1, rmv)
      end = Ok (m', rmv')).
  { destruct rmv as [|x r]; [do 2 eexists; split; [|reflexivity]; left; auto|].
    destruct del; do 2 eexists; (split; [|reflexivity]); [right | left]; auto. }
  destruct Whole as [m' [rmv' [Cases ->]]]. exists m', rmv', rep. split; [reflexivity|]. split; [exact Rp|].
  destruct Cases as [[-> [-> D]]|[-> [-> ->]]].
  - split; [exact Ed|]. split; [exact (mg_su G)|]. split; [exact (mg_vo G)|]. split; [exact (mg_dim G)|].
    split; [exact Both|]. split; [exact Rm|]. split; [|exact (mg_wc G)].
    intros i b. rewrite Vs. split; [|tauto]. intros H. split; auto. intros [D1 D2].
    destruct D as [D|D]; [congruence|]. destruct H as [v [H1 [H2 _]]].
    assert (I : In i rmv) by (apply Rm; split; auto; exists v; auto). rewrite D in I. destruct I.
  - assert (Rt : forall i, In i (tighten rmv) <-> has_vert m i /\ rep i <> i) by (intro i; rewrite tighten_In; apply Rm).
    assert (VEd : forall v e, VE (set_verts (drop ve_index (tighten rmv) (verts m1)) m1) v e <-> VE m1 v e).
    { intros v e. unfold VE. simpl. rewrite drop_lists. split; [tauto|]. intro H. split; auto.
      intro I. apply Rt in I. destruct I as [_ I]. apply I. apply (Fix v e). exact H. }
    split; [exact Ed|]. split; [exact (mg_su G)|]. split; [exact (mg_vo G)|]. split; [exact (mg_dim G)|].
    split; [intros v e; rewrite VEd; apply Both|]. split; [exact Rt|]. split.
    + intros i b. rewrite <- Vs. simpl. unfold drop. split.
      * intros [v [H1 [H2 H3]]]. apply filter_In in H1. destruct H1 as [H1 H4]. split; [exists v; auto|].
        intros [_ N]. apply negb_true_iff, mem_z_not_In in H4. apply H4. rewrite H2. apply Rt. split; auto.
        destruct (proj1 (Vs i b)) as [w [W1 [W2 _]]]; [exists v; auto|]. exists w. auto.
      * intros [[v [H1 [H2 H3]]] N]. exists v. split; auto. apply filter_In. split; auto.
        apply negb_true_iff, mem_z_not_In. rewrite H2. intro I. apply Rt in I. apply N. tauto.
    + destruct (mg_wc G) as [[U1 [U2 [U3 [U4 [Z1 [Z2 [Z3 Z4]]]]]]] [[M1 [M2 [M3 [M4 [M5 M6]]]]] [X1 [X2 [X3 [X4 X5]]]]]].
      split; [|split].
      * unfold unique_indices. simpl. do 3 (split; [assumption|]). split; [apply drop_NoDup; auto|].
        do 3 (split; [assumption|]). intros [v [H1 H2]]. simpl in H1. apply filter_In in H1. apply Z4. exists v. tauto.
      * split; [intros v e; rewrite VEd; exact (M1 v e)|]. split; [intros v e; rewrite VEd; exact (M2 v e)|].
        split; [exact M3|]. split; [exact M4|]. split; [exact M5 | exact M6].
      * split; [intro v; rewrite VEd; apply X1|]. auto.
Qed.
Print Assumptions C55_merge.

(** A square with one short side: its two ends are merged. *)
Definition kite : mesh :=
  mkMesh [] [mkSurf 1 false false [0; 0] [1; 2; 3; 4]]
    [mkEdge 1 false [1] [1; 2]; mkEdge 2 false [1] [2; 3]; mkEdge 3 false [1] [3; 4]; mkEdge 4 false [1] [4; 1]]
    [mkVert 1 false [1; 4]; mkVert 2 false [1; 2]; mkVert 3 false [2; 3]; mkVert 4 false [3; 4]] 2.
Ltac find_it := (left; reflexivity) + (right; find_it).
Definition flat_kite : gmesh := mkG kite [[0; 0; 0]; [1; 0; 0]; [1; 1; 0]; [0; 9; 0]]%R.
Example C55_groups_used : grid_ready flat_kite /\ joined flat_kite 2 1 3 /\ ~ joined flat_kite 2 1 4.
Proof.
  assert (Mu : forall v e, VE kite v e <-> EV kite e v).
  { intros v e. split; intros [x [H1 [H2 H3]]]; simpl in H1;
      repeat destruct H1 as [H1|H1]; try (exfalso; exact H1); subst; simpl in H3;
      repeat destruct H3 as [H3|H3]; try (exfalso; exact H3); subst; unfold VE, EV, lists; simpl;
      eexists; (split; [find_it | split; [reflexivity | simpl; solve [auto 6]]]). }
  assert (Rd : grid_ready flat_kite).
  { split; [repeat constructor; simpl; intuition discriminate|].
    split; [repeat constructor; simpl; intuition discriminate|]. split; [exact Mu|].
    split; [intros e [<-|[<-|[<-|[<-|[]]]]]; reflexivity|]. split; [reflexivity|].
    intros p [<-|[<-|[<-|[<-|[]]]]]; simpl; lia. }
  split; [exact Rd|]. split.
  - apply joined_step with (v := 2) (e := 2); [apply joined_step with (v := 1) (e := 1); [constructor|]|].
    + split; [exists (mkEdge 1 false [1] [1; 2]); simpl; auto|].
      exists 0%R, 0%R, 0%R, 1%R, 0%R, 0%R.
      split; [exists 0%nat, (mkVert 1 false [1; 4]), []; simpl; auto|].
      split; [exists 1%nat, (mkVert 2 false [1; 2]), []; simpl; auto|]. unfold distance.
      replace ((0 - 1) * (0 - 1) + (0 - 0) * (0 - 0) + (0 - 0) * (0 - 0))%R with 1%R by ring. rewrite sqrt_1. lra.
    + split; [exists (mkEdge 2 false [1] [2; 3]); simpl; auto|].
      exists 1%R, 0%R, 0%R, 1%R, 1%R, 0%R.
      split; [exists 1%nat, (mkVert 2 false [1; 2]), []; simpl; auto|].
      split; [exists 2%nat, (mkVert 3 false [2; 3]), []; simpl; auto|]. unfold distance.
      replace ((1 - 1) * (1 - 1) + (0 - 1) * (0 - 1) + (0 - 0) * (0 - 0))%R with 1%R by ring. rewrite sqrt_1. lra.
  - assert (At4 : forall x y z, lies_at flat_kite 4 x y z -> (y = 9)%R).
    { intros x y z [k [v [r [H1 [H2 H3]]]]].
      destruct k as [|[|[|[|k]]]]; simpl in H1; try (injection H1 as <-; simpl in H2; discriminate).
      - simpl in H3. injection H3 as _ <- _ _. reflexivity.
      - destruct k; discriminate. }
    assert (Low : forall i x y z, i <> 4 -> lies_at flat_kite i x y z -> (y <= 1)%R).
    { intros i x y z N [k [v [r [H1 [H2 H3]]]]].
      destruct k as [|[|[|[|k]]]]; simpl in H1; simpl in H3; try (injection H3 as _ <- _ _; lra).
      - injection H1 as <-. simpl in H2. congruence.
      - destruct k; discriminate. }
    assert (Inv : forall i j, joined flat_kite 2 i j -> i <> 4 -> j <> 4).
    { intros i j J. induction J as [|u v w e J IH [_ [x [y [z [x' [y' [z' [L1 [L2 D]]]]]]]]]]; auto.
      intros N E. subst w. specialize (IH N). apply At4 in L2. apply (Low v) in L1; auto. unfold distance in D.
      assert (K : (sqrt (8 * 8) <= sqrt ((x - x') * (x - x') + (y - y') * (y - y') + (z - z') * (z - z')))%R).
      { apply sqrt_le_1_alt. pose proof (Rle_0_sqr (x - x')) as Q1. pose proof (Rle_0_sqr (z - z')) as Q2. unfold Rsqr in *.
        assert ((8 * 8 <= (y - y') * (y - y'))%R) by nra. lra. }
      rewrite sqrt_square in K by lra. lra. }
    intro J. apply (Inv _ _ J); lia.
Qed.

Example C55_merge_used :
  well_connected kite /\ (forall e, In e (edges kite) -> exists a b, ed_vertind e = [a; b] /\ a <> b) /\
  (forall v, In v (verts kite) -> NoDup (ve_edgeind v)) /\
  findall_of [1; 1; -1; -1] (fun k => if k =? 1 then [0; 1] else if k =? -1 then [2; 3] else []) /\
  merge_grouped (fun k => if k =? 1 then [0; 1] else if k =? -1 then [2; 3] else []) [1; 1; -1; -1] true kite =
    Ok (mkMesh [] [mkSurf 1 false false [0; 0] [1; 2; 3; 4]]
          [mkEdge 1 false [1] [1; 1]; mkEdge 2 false [1] [1; 3]; mkEdge 3 false [1] [3; 4]; mkEdge 4 false [1] [4; 1]]
          [mkVert 1 false [1; 2; 4]; mkVert 3 false [2; 3]; mkVert 4 false [3; 4]] 2, [2]).
Proof.
  split; [|split; [|split; [|split; [|reflexivity]]]].
  - assert (T : forall x : Z, x <> 0 \/ x = 0) by lia.
    split; [|split].
    + unfold unique_indices. simpl. repeat (split; [repeat constructor; simpl; intuition discriminate|]).
      split; [intros [? [[] _]]|]. split; [intros [? [[<-|[]] H]]; discriminate|].
      split; intros [? [H1 H2]]; simpl in H1; repeat destruct H1 as [<-|H1]; try discriminate; destruct H1.
    + unfold mutual, VE, EV, ES, SE, SV, VS, lists. repeat split; intros ? ? [x [H1 [H2 H3]]] N; simpl in H1;
        repeat destruct H1 as [H1|H1]; try (exfalso; exact H1); subst; simpl in H3;
        repeat destruct H3 as [H3|H3]; try (exfalso; exact H3); subst; try congruence; simpl;
        eexists; (split; [find_it | split; [reflexivity | simpl; solve [auto 6]]]).
    + unfold exterior_only, VE, EV, ES, SE, VS, lists. split; [|split; [|split; [|split]]]; try (intros N; exfalso; apply N; reflexivity);
        intros ? [x [H1 [H2 H3]]]; simpl in H1; repeat destruct H1 as [H1|H1]; try (exfalso; exact H1); subst; simpl in H3; intuition discriminate.
  - intros e [<-|[<-|[<-|[<-|[]]]]]; simpl; do 2 eexists; (split; [reflexivity | lia]).
  - intros v [<-|[<-|[<-|[<-|[]]]]]; repeat constructor; simpl; intuition discriminate.
  - intro k. destruct (Z.eqb_spec k 1) as [->|N1]; [|destruct (Z.eqb_spec k (-1)) as [->|N2]].
    + split; [repeat constructor; simpl; intuition discriminate|]. intro p. split.
      * intros [<-|[<-|[]]]; split; auto; lia.
      * intros [H1 H2]. simpl. destruct (Z.to_nat p) as [|[|[|[|n]]]] eqn:E; simpl in H2; try discriminate; try lia. destruct n; discriminate.
    + split; [repeat constructor; simpl; intuition discriminate|]. intro p. split.
      * intros [<-|[<-|[]]]; split; auto; lia.
      * intros [H1 H2]. simpl. destruct (Z.to_nat p) as [|[|[|[|n]]]] eqn:E; simpl in H2; try discriminate; try lia. destruct n; discriminate.
    + split; [constructor|]. intro p. split; [intros []|]. intros [H1 H2].
      destruct (Z.to_nat p) as [|[|[|[|n]]]] eqn:E; simpl in H2; try (injection H2 as <-; lia). destruct n; discriminate.
Qed.
