(** The steps after the split, for C111. *)
From Coq Require Import Lia.
From Verif Require Import Base Containers Mesh Order MeshTri SplitSurf Flatten SpecMesh SpecOrder SpecMeshTri SpecSplitSurf SpecFlatten
  ContainersProofs MeshProofs OrderProofs OrderMeshProofs SwitchProofs MergeProofs SplitSurfProofs SplitSurfStep SplitSurfLoop SpecTriangulate WalkProofs FlattenProofs.
Import Mesh.
Set Implicit Arguments.
Open Scope Z_scope.

(** ** Meshes that differ in the order of references *)
Lemma map_pair_fst A B C (f : A -> B) (g : A -> C) l l' : map (fun x => (f x, g x)) l' = map (fun x => (f x, g x)) l -> map f l' = map f l.
Proof. intros H. apply (f_equal (map fst)) in H. rewrite !map_map in H. exact H. Qed.
Lemma map_pair2 A B C (f : A -> B) (g : A -> C) : forall l l', map f l' = map f l -> map g l' = map g l -> map (fun x => (f x, g x)) l' = map (fun x => (f x, g x)) l.
Proof. induction l as [|a l IH]; intros [|b l'] H1 H2; try discriminate; auto. simpl in *. injection H1 as Q1 R1. injection H2 as Q2 R2. rewrite Q1, Q2. f_equal. apply IH; auto. Qed.
Lemma map_idx_has A (idx : A -> Z) l l' i : map idx l' = map idx l -> (exists a, In a l' /\ idx a = i) -> exists a, In a l /\ idx a = i.
Proof. intros H [a [I E]]. apply (List.in_map idx) in I. rewrite H, E in I. apply in_map_iff in I. destruct I as [b [Q I]]. exists b. auto. Qed.

Lemma rearranged_refl m : rearranged m m.
Proof. split; [repeat split|]. split; [|reflexivity]. unfold same_refs. repeat apply conj; intros; tauto. Qed.
Lemma rearranged_trans m1 m2 m3 : rearranged m1 m2 -> rearranged m2 m3 -> rearranged m1 m3.
Proof.
  intros [(A1 & A2 & A3 & A4 & A5) [(B1 & B2 & B3 & B4 & B5 & B6) C]] [(D1 & D2 & D3 & D4 & D5) [(E1 & E2 & E3 & E4 & E5 & E6) F]].
  split; [split; [congruence|split; [congruence|split; [congruence|split; congruence]]]|]. split; [|congruence].
  split; [intros; rewrite E1; apply B1|]. split; [intros; rewrite E2; apply B2|]. split; [intros; rewrite E3; apply B3|].
  split; [intros; rewrite E4; apply B4|]. split; [intros; rewrite E5; apply B5|]. intros; rewrite E6; apply B6.
Qed.
Lemma rearranged_wc m m' : rearranged m m' -> well_connected m -> well_connected m'.
Proof.
  intros [(A1 & A2 & A3 & A4 & A5) [(B1 & B2 & B3 & B4 & B5 & B6) C]] [[Uv [Us [Ue [Un [Zv [Zs [Ze Zn]]]]]]] [[M1 [M2 [M3 [M4 [M5 M6]]]]] [X1 [X2 [X3 [X4 X5]]]]]].
  apply map_pair_fst in A1, A2, A3, A4.
  split; [|split].
  - split; [rewrite A1; auto|]. split; [rewrite A2; auto|]. split; [rewrite A3; auto|]. split; [rewrite A4; auto|].
    split; [intros H; apply Zv; revert H; apply map_idx_has; auto|]. split; [intros H; apply Zs; revert H; apply map_idx_has; auto|].
    split; [intros H; apply Ze; revert H; apply map_idx_has; auto|intros H; apply Zn; revert H; apply map_idx_has; auto].
  - split; [intros v e H N; apply B2; apply M1; auto; apply B1; auto|]. split; [intros v e H N; apply B1; apply M2; auto; apply B2; auto|].
    split; [intros v e H N; apply B4; apply M3; auto; apply B3; auto|]. split; [intros v e H N; apply B3; apply M4; auto; apply B4; auto|].
    split; [intros v e H N; apply B6; apply M5; auto; apply B5; auto|intros v e H N; apply B5; apply M6; auto; apply B6; auto].
  - split; [intros v H; apply (X1 v); apply B1; auto|]. split; [intros v H; apply (X2 v); apply B2; auto|].
    split; [intros v H; apply (X3 v); apply B4; auto|]. split; [intros v H; apply (X4 v); apply B6; auto|].
    intros N v H. apply (X5 ltac:(intros Q; apply N; rewrite Q in A1; destruct (volus m'); [auto|discriminate]) v). apply B3; auto.
Qed.
Lemma rearranged_ends m m' : rearranged m m' -> same_ends m m'.
Proof. intros [(_ & _ & A3 & _) [_ C]]. apply map_pair_fst in A3. unfold same_ends. apply map_pair2; auto. Qed.
Lemma rearranged_surf m m' t : rearranged m m' -> well_connected m -> In t (surfs m') ->
  exists s, In s (surfs m) /\ su_index s = su_index t /\ su_border s = su_border t /\
    (forall e, In e (su_edgeind t) <-> In e (su_edgeind s)) /\ (forall c, In c (su_voluind t) <-> In c (su_voluind s)).
Proof.
  intros R W It. pose proof (rearranged_wc R W) as W'. destruct R as [(_ & A2 & _) [(_ & _ & _ & B4 & B5 & _) _]].
  assert (Q : In (su_index t, su_border t) (map (fun v => (su_index v, su_border v)) (surfs m))) by (rewrite <- A2; apply in_map_iff; exists t; auto).
  apply in_map_iff in Q. destruct Q as [s [Q Is]]. injection Q as Q1 Q2. exists s. split; auto. split; auto. split; auto.
  destruct W as [[_ [Us _]] _]. destruct W' as [[_ [Us' _]] _]. split.
  - intros e. split; intros H.
    + assert (X : SE m' (su_index t) e) by (exists t; auto). apply B4 in X. destruct X as [u [Iu [Eu Hu]]].
      assert (u = s) by (apply (@NoDup_idx_inj _ su_index (surfs m)); auto; congruence). subst; auto.
    + assert (X : SE m (su_index t) e) by (exists s; auto). apply B4 in X. destruct X as [u [Iu [Eu Hu]]].
      assert (u = t) by (apply (@NoDup_idx_inj _ su_index (surfs m')); auto). subst; auto.
  - intros c. split; intros H.
    + assert (X : SV m' (su_index t) c) by (exists t; auto). apply B5 in X. destruct X as [u [Iu [Eu Hu]]].
      assert (u = s) by (apply (@NoDup_idx_inj _ su_index (surfs m)); auto; congruence). subst; auto.
    + assert (X : SV m (su_index t) c) by (exists s; auto). apply B5 in X. destruct X as [u [Iu [Eu Hu]]].
      assert (u = t) by (apply (@NoDup_idx_inj _ su_index (surfs m')); auto). subst; auto.
Qed.

(** ** One call of OrderEdges *)
Definition ready (m : mesh) : Prop :=
  forall s, In s (surfs m) -> whole m (su_edgeind s) /\ (su_ordered s = true -> one_polygon m (su_edgeind s)).
Lemma with_surfs_rearranged m f : (forall s, In s (surfs m) -> su_index (f s) = su_index s /\ su_border (f s) = su_border s /\ su_voluind (f s) = su_voluind s /\
    (forall e, In e (su_edgeind (f s)) <-> In e (su_edgeind s))) -> rearranged m (with_surfs m (map f (surfs m))).
Proof.
  intros H. split; [|split; [|reflexivity]].
  - split; [reflexivity|]. split; [|repeat split]. simpl. rewrite map_map. apply map_ext_in. intros s I. destruct (H s I) as (E1 & E2 & _). congruence.
  - assert (G : forall get, (forall s x, In s (surfs m) -> (In x (get (f s)) <-> In x (get s))) ->
      forall i x, lists su_index get (map f (surfs m)) i x <-> lists su_index get (surfs m) i x).
    { intros get Hg i x. split; intros [a [Ia [E1 E2]]].
      - apply in_map_iff in Ia. destruct Ia as [b [<- Ib]]. exists b. split; auto. destruct (H b Ib) as [Q _]. split; [congruence|]. apply Hg; auto.
      - exists (f a). split; [apply List.in_map; auto|]. destruct (H a Ia) as [Q _]. split; [congruence|]. apply Hg; auto. }
    split; [intros; tauto|]. split; [intros; tauto|]. split; [intros; tauto|]. split; [|split; [|intros; tauto]].
    + intros i x. apply G. intros s e I. destruct (H s I) as (_ & _ & _ & Q). apply Q.
    + intros i x. apply G. intros s e I. destruct (H s I) as (_ & _ & Q & _). rewrite Q. tauto.
Qed.
Lemma order_step table m cap : (forall l, is_table l (table l)) -> well_connected m -> ready m ->
  exists m', (forall fuel, (length (surfs m) < fuel)%nat -> order_edges table fuel m cap = Ok (m', cap, [])) /\ rearranged m m' /\ all_in_order m' /\ ready m' /\
    length (surfs m') = length (surfs m) /\ edges m' = edges m.
Proof.
  intros Ht W R. assert (Hu : NoDup (map ed_index (edges m))) by apply W.
  assert (Hw : forall s, In s (surfs m) -> su_ordered s = false -> whole m (su_edgeind s)) by (intros s I _; apply R; auto).
  exists (with_surfs m (map (walked table m) (surfs m))). split; [intros fuel F; apply order_edges_whole; auto|].
  assert (S1 : forall s, In s (surfs m) -> _) by (intros s I; exact (@walked_spec table Ht m Hu Hw s I (proj2 (R s I)))).
  assert (RR : rearranged m (with_surfs m (map (walked table m) (surfs m)))).
  { apply with_surfs_rearranged. intros s I. destruct (S1 s I) as (A & B & C & D & _). auto. }
  split; auto. split; [|split; [|split; [simpl; apply map_length|reflexivity]]].
  - intros t It. simpl in It. apply in_map_iff in It. destruct It as [s [<- I]]. destruct (S1 s I) as (_ & _ & _ & _ & O & P). split; auto.
  - intros t It. simpl in It. apply in_map_iff in It. destruct It as [s [<- I]]. destruct (S1 s I) as (_ & _ & _ & D & O & P). split; [|intros _; exact P].
    apply (@whole_same m _ (su_edgeind s) (su_edgeind (walked table m s))); auto; [reflexivity|]. apply R; auto.
Qed.
Lemma tighten_step m : well_connected m -> ready m -> (forall e, In e (edges m) -> (length (ed_vertind e) <= 2)%nat) ->
  exists m', mesh_tighten m = Ok m' /\ rearranged m m' /\ ready m' /\ length (surfs m') = length (surfs m) /\
    map ed_vertind (edges m') = map ed_vertind (edges m).
Proof.
  intros W R L. exists (tightened m). split; [apply mesh_tighten_Ok; auto|].
  assert (RR : rearranged m (tightened m)).
  { split; [apply tightened_objects|]. split; [apply tightened_refs|]. simpl. rewrite map_map. reflexivity. }
  split; auto. split; [|split; [simpl; apply map_length|apply RR]].
  intros t It. simpl in It. apply in_map_iff in It. destruct It as [s [<- I]]. split; [|intros H; discriminate H].
  apply (@whole_same m _ (su_edgeind s)); [apply rearranged_ends; auto| |apply R; auto]. intros e. simpl. apply tighten_In.
Qed.
Lemma ready_polygonal m : well_connected m -> polygonal m -> ready m.
Proof.
  intros W P s I. destruct (P s I) as [N3 [vs [ND Po]]].
  assert (O : outlined m s vs) by (split; [destruct Po as [-> _]; exact N3|split; auto]).
  assert (Hu : NoDup (map ed_index (edges m))) by apply W.
  split; [apply (@outline_whole m s vs); auto|]. intros _. split; [exact (outline_NoDup Hu O)|]. exists vs. auto.
Qed.
(** The three orderings and the sorting of lists. *)
Lemma settle table m cap1 cap2 cap3 : (forall l, is_table l (table l)) -> well_connected m -> polygonal m ->
  (forall e, In e (edges m) -> (length (ed_vertind e) <= 2)%nat) ->
  exists m', (forall fuel, (length (surfs m) < fuel)%nat ->
      (do a <- order_edges table fuel m cap1 ; do b <- order_edges table fuel (fst (fst a)) cap2 ;
       do m3 <- mesh_tighten (fst (fst b)) ; do c <- order_edges table fuel m3 cap3 ; Ok (fst (fst c))) = Ok m') /\
    rearranged m m' /\ well_connected m' /\ all_in_order m'.
Proof.
  intros Ht W P L. destruct (@order_step table m cap1 Ht W (ready_polygonal W P)) as (m1 & E1 & R1 & _ & Y1 & L1 & Q1).
  pose proof (rearranged_wc R1 W) as W1.
  destruct (@order_step table m1 cap2 Ht W1 Y1) as (m2 & E2 & R2 & _ & Y2 & L2 & Q2).
  pose proof (rearranged_wc R2 W1) as W2.
  destruct (@tighten_step m2 W2 Y2) as (m3 & E3 & R3 & Y3 & L3 & Q3); [rewrite Q2, Q1; auto|].
  pose proof (rearranged_wc R3 W2) as W3.
  destruct (@order_step table m3 cap3 Ht W3 Y3) as (m4 & E4 & R4 & O4 & _).
  exists m4. split; [|split; [|split; auto; eapply rearranged_wc; eauto]].
  - intros fuel F. rewrite E1 by auto. cbn [bind fst]. rewrite E2 by lia. cbn [bind fst]. rewrite E3. cbn [bind]. rewrite E4 by lia. reflexivity.
  - eapply rearranged_trans; [exact R1|]. eapply rearranged_trans; [exact R2|]. eapply rearranged_trans; [exact R3|exact R4].
Qed.
