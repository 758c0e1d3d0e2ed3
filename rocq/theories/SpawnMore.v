(** Lemmas on the snake that a spawned part is added to. *)
From Verif Require Import Base Containers ContainersProofs Mesh MeshProofs MergeProofs Num Snake SpecSnake SpecMesh Spawn SpecSpawn SpawnProofs PropsSnake.
Import Mesh.
Set Implicit Arguments.
Open Scope Z_scope.

Lemma lists_map A (idx : A -> Z) (get : A -> list Z) (f : A -> A) h d l i x :
  (forall a, idx (f a) = idx a + d) -> (forall a, get (f a) = map h (get a)) ->
  (lists idx get (map f l) i x <-> exists y, lists idx get l (i - d) y /\ x = h y).
Proof.
  intros Hi Hg. split.
  - intros [a [Ha [<- Hx]]]. apply in_map_iff in Ha. destruct Ha as [b [<- Hb]]. rewrite Hg in Hx. apply in_map_iff in Hx.
    destruct Hx as [y [<- Hy]]. exists y. split; auto. exists b. split; auto. split; auto. rewrite Hi. lia.
  - intros [y [[b [Hb [Ib Hy]]] ->]]. exists (f b). split; [apply in_map; auto|]. split; [rewrite Hi; lia|]. rewrite Hg. apply in_map; auto.
Qed.
Lemma has_map A (idx : A -> Z) (f : A -> A) d l i : (forall a, idx (f a) = idx a + d) ->
  ((exists a, In a (map f l) /\ idx a = i) <-> exists a, In a l /\ idx a = i - d).
Proof.
  intros Hi. split.
  - intros [a [Ha <-]]. apply in_map_iff in Ha. destruct Ha as [b [<- Hb]]. exists b. split; auto. rewrite Hi. lia.
  - intros [b [Hb Ib]]. exists (f b). split; [apply in_map; auto|]. rewrite Hi. lia.
Qed.

Section Two.
Variable N : num.
Variables (m : mesh) (v : Z).

(** What the new part is like before it is renumbered. *)
Record fresh (fe fs fc : Z -> Z) (s : snake N) : Prop := mkFresh {
  f_grown : grown m v fe fs fc 1 s;
  f_step : in_step s;
  f_closed : closed (k_conn s);
  f_unique : unique_indices (k_conn s);
  f_fe : forall e, VE m v e -> 0 < fe e;
  f_fs : forall f, touches m v f -> 0 < fs f;
  f_fc : forall c, in_cell m v c -> 0 < fc c }.

Lemma fresh_pos fe fs fc s : fresh fe fs fc s -> positive_indices (k_conn s).
Proof.
  intros [G _ _ _ P1 P2 P3]. split.
  - intros i [H|[H|[H|H]]]; [apply (g_volu G) in H|apply (g_surf G) in H|apply (g_edge G) in H|apply (g_vert G) in H];
      [lia|destruct H as [c [Hc ->]]; auto|destruct H as [c [Hc ->]]; auto|destruct H as [c [Hc ->]]; auto].
  - intros i x H. assert (T : forall e f, VE m v e -> ES m e f -> touches m v f) by (intros; eexists; eauto).
    assert (T' : forall f c, touches m v f -> SV m f c -> in_cell m v c) by (intros; eexists; eauto).
    destruct H as [H|[H|[H|[H|[H|H]]]]].
    + apply (g_ve G) in H. destruct H as [e [f [He [Hf [_ ->]]]]]. apply Z.lt_le_incl; eauto.
    + apply (g_ev G) in H. destruct H as [e [f [He [Hf [-> _]]]]]. apply Z.lt_le_incl; eauto.
    + apply (g_es G) in H. destruct H as [e [f [He [Hf [_ ->]]]]]. apply Z.lt_le_incl; eauto.
    + apply (g_se G) in H. destruct H as [e [f [He [Hf [-> _]]]]]. apply Z.lt_le_incl; eauto.
    + apply (g_sv G) in H. destruct H as [_ [-> | ->]]; lia.
    + apply (g_vs G) in H. destruct H as [_ [c [Hc ->]]]. apply Z.lt_le_incl; eauto.
Qed.
Lemma grown_exterior fe fs fc cell (s : snake N) : grown m v fe fs fc cell s ->
  (forall e, VE m v e -> 0 < fe e) -> (forall f, touches m v f -> 0 < fs f) -> (forall c, in_cell m v c -> 0 < fc c) ->
  exterior_only (k_conn s) /\ (forall e, ~ ES (k_conn s) e 0).
Proof.
  intros G P1 P2 P3.
  assert (T : forall e f, VE m v e -> ES m e f -> touches m v f) by (intros; eexists; eauto).
  assert (T' : forall f c, touches m v f -> SV m f c -> in_cell m v c) by (intros; eexists; eauto).
  assert (X : forall e, ~ ES (k_conn s) e 0).
  { intros i H. apply (g_es G) in H. destruct H as [f [c [Hf [Hc [_ E]]]]]. assert (0 < fc c) by eauto. lia. }
  split; auto. unfold exterior_only. repeat apply conj; auto.
  - intros i H. apply (g_ve G) in H. destruct H as [e [f [He [Hf [_ E]]]]]. assert (0 < fs f) by eauto. lia.
  - intros i H. apply (g_ev G) in H. destruct H as [e [f [He [Hf [E _]]]]]. assert (0 < fe e) by eauto. lia.
  - intros i H. apply (g_se G) in H. destruct H as [e [f [He [Hf [E _]]]]]. assert (0 < fs e) by eauto. lia.
  - intros i H. apply (g_vs G) in H. destruct H as [_ [c [Hc E]]]. assert (0 < fc c) by eauto. lia.
Qed.
Lemma fresh_connected fe fs fc s : fresh fe fs fc s -> well_connected (k_conn s).
Proof.
  intros [G _ _ U P1 P2 P3]. split; auto. split; [|apply (grown_exterior G); auto].
  unfold mutual. repeat apply conj.
  - intros i j H _. apply (g_ev G). apply (g_ve G). auto.
  - intros i j H _. apply (g_ve G). apply (g_ev G). auto.
  - intros i j H _. apply (g_se G). apply (g_es G). auto.
  - intros i j H _. apply (g_es G). apply (g_se G). auto.
  - intros i j H Hj. apply (g_sv G) in H. apply (g_vs G). tauto.
  - intros i j H Hj. apply (g_vs G) in H. apply (g_sv G). tauto.
Qed.

(** Renumbering. *)
Lemma grown_shift fe fs fc (s k : snake N) : fresh fe fs fc s ->
  let dv := max_index ve_index (verts (k_conn k)) in let de := max_index ed_index (edges (k_conn k)) in
  let ds := max_index su_index (surfs (k_conn k)) in let dc := max_index vo_index (volus (k_conn k)) in
  grown m v (fun e => fe e + dv) (fun f => fs f + de) (fun c => fc c + ds) (1 + dc) (snake_compatible k s).
Proof.
  intros F dv de ds dc. destruct F as [G _ _ _ P1 P2 P3].
  assert (T : forall e f, VE m v e -> ES m e f -> touches m v f) by (intros; eexists; eauto).
  assert (T' : forall f c, touches m v f -> SV m f c -> in_cell m v c) by (intros; eexists; eauto).
  assert (SP : forall d x, 0 < x -> shift_pos d x = x + d) by (intros d x H; unfold shift_pos; destruct (Z.ltb_spec 0 x); lia).
  constructor; unfold snake_compatible, make_compatible, change_indices; fold dv de ds dc; cbn [k_snaxs k_edges k_surfs k_conn].
  - intros x. rewrite in_map_iff. split.
    + intros [y [<- Hy]]. apply (g_snax G) in Hy. destruct Hy as [e [w [He [Hw ->]]]]. exists e, w. auto.
    + intros [e [w [He [Hw ->]]]]. exists (@mkSnax N (fe e) n0 nhalf v w e 0 (-1)). split; auto. apply (g_snax G). eauto.
  - intros p. rewrite in_map_iff. split.
    + intros [y [<- Hy]]. apply (g_edges G) in Hy. destruct Hy as [f [Hf ->]]. eauto.
    + intros [f [Hf ->]]. exists (fs f, f). split; auto. apply (g_edges G). eauto.
  - intros p. rewrite in_map_iff. split.
    + intros [y [<- Hy]]. apply (g_surfs G) in Hy. destruct Hy as [f [Hf ->]]. eauto.
    + intros [f [Hf ->]]. exists (fc f, f). split; auto. apply (g_surfs G). eauto.
  - intros i. unfold has_vert. cbn [verts]. rewrite has_map with (d := dv) by auto.
    change ((exists a, In a (verts (k_conn s)) /\ ve_index a = i - dv)) with (has_vert (k_conn s) (i - dv)). rewrite (g_vert G).
    split; intros [e [He E]]; exists e; split; auto; lia.
  - intros i. unfold has_edge. cbn [edges]. rewrite has_map with (d := de) by auto.
    change ((exists a, In a (edges (k_conn s)) /\ ed_index a = i - de)) with (has_edge (k_conn s) (i - de)). rewrite (g_edge G).
    split; intros [e [He E]]; exists e; split; auto; lia.
  - intros i. unfold has_surf. cbn [surfs]. rewrite has_map with (d := ds) by auto.
    change ((exists a, In a (surfs (k_conn s)) /\ su_index a = i - ds)) with (has_surf (k_conn s) (i - ds)). rewrite (g_surf G).
    split; intros [e [He E]]; exists e; split; auto; lia.
  - intros i. unfold has_volu. cbn [volus]. rewrite has_map with (d := dc) by auto.
    change ((exists a, In a (volus (k_conn s)) /\ vo_index a = i - dc)) with (has_volu (k_conn s) (i - dc)). rewrite (g_volu G). lia.
  - intros i j. unfold VE at 1. cbn [verts]. rewrite lists_map with (d := dv) (h := fun x => x + de) by auto. split.
    + intros [y [H ->]]. apply (g_ve G) in H. destruct H as [e [f [He [Hf [E ->]]]]]. exists e, f. repeat split; auto. lia.
    + intros [e [f [He [Hf [-> ->]]]]]. exists (fs f). split; auto. apply (g_ve G). exists e, f. repeat split; auto. lia.
  - intros i j. unfold EV at 1. cbn [edges]. rewrite lists_map with (d := de) (h := fun x => x + dv) by auto. split.
    + intros [y [H ->]]. apply (g_ev G) in H. destruct H as [e [f [He [Hf [-> E]]]]]. exists e, f. repeat split; auto. lia.
    + intros [e [f [He [Hf [-> ->]]]]]. exists (fe e). split; auto. apply (g_ev G). exists e, f. repeat split; auto. lia.
  - intros i j. unfold ES at 1. cbn [edges]. rewrite lists_map with (d := de) (h := shift_pos ds) by auto. split.
    + intros [y [H ->]]. apply (g_es G) in H. destruct H as [f [c [Hf [Hc [E ->]]]]]. exists f, c. repeat split; auto; try lia.
      apply SP. eauto.
    + intros [f [c [Hf [Hc [-> ->]]]]]. exists (fc c). split; [|symmetry; apply SP; eauto]. apply (g_es G). exists f, c. repeat split; auto. lia.
  - intros i j. unfold SE at 1. cbn [surfs]. rewrite lists_map with (d := ds) (h := fun x => x + de) by auto. split.
    + intros [y [H ->]]. apply (g_se G) in H. destruct H as [f [c [Hf [Hc [-> E]]]]]. exists f, c. repeat split; auto; try lia.
    + intros [f [c [Hf [Hc [-> ->]]]]]. exists (fs f). split; auto. apply (g_se G). exists f, c. repeat split; auto. lia.
  - intros i j. unfold SV at 1. cbn [surfs]. rewrite lists_map with (d := ds) (h := shift_pos dc) by auto. split.
    + intros [y [H ->]]. apply (g_sv G) in H. destruct H as [[c [Hc E]] Hy]. split; [exists c; split; auto; lia|].
      destruct Hy as [-> | ->]; [left; apply SP; lia|right; auto].
    + intros [[c [Hc ->]] [-> | ->]]; [exists 1|exists 0]; split; auto; try (symmetry; apply SP; lia); apply (g_sv G); split; auto; exists c; split; auto; lia.
  - intros i j. unfold VS at 1. cbn [volus]. rewrite lists_map with (d := dc) (h := shift_pos ds) by auto. split.
    + intros [y [H ->]]. apply (g_vs G) in H. destruct H as [E [c [Hc ->]]]. split; [lia|]. exists c. split; auto.
    + intros [-> [c [Hc ->]]]. exists (fc c). split; [|symmetry; auto]. apply (g_vs G). split; [lia|eauto].
  - intros e e' H H' E. apply (g_fe G); auto. lia.
  - intros e e' H H' E. apply (g_fs G); auto. lia.
  - intros e e' H H' E. apply (g_fc G); auto. lia.
Qed.
Lemma step_shift (s k : snake N) : in_step s -> in_step (snake_compatible k s).
Proof.
  intros [A [B C]]. unfold in_step, snake_compatible, make_compatible, change_indices. cbn [k_snaxs k_edges k_surfs k_conn verts edges surfs].
  rewrite !map_map. cbn [snax_shift pair_shift vert_change edge_change surf_change sx_index ve_index ed_index su_index fst].
  repeat split.
  - rewrite <- (map_map (@sx_index N) (fun i => i + _)), A, map_map. auto.
  - rewrite <- (map_map fst (fun i => i + _)), B, map_map. auto.
  - rewrite <- (map_map fst (fun i => i + _)), C, map_map. auto.
Qed.
Lemma closed_shift (s k : snake N) fe fs fc : fresh fe fs fc s -> closed (k_conn (snake_compatible k s)).
Proof.
  intros F. pose proof (fresh_pos F) as [_ P]. destruct F as [_ _ C _ _ _ _].
  intros e He. cbn [snake_compatible k_conn make_compatible change_indices edges] in He. apply in_map_iff in He. destruct He as [e0 [<- He]].
  destruct (C e0 He) as [[a [b [Hab [Ha [Hb E]]]]] [c [d [Hcd [Hc [Hd F]]]]]].
  assert (0 <= a /\ 0 <= b) as [Pa Pb].
  { split; apply (P (ed_index e0)); right; left; exists e0; rewrite E; simpl; auto. }
  assert (0 <= c /\ 0 <= d) as [Pc Pd].
  { split; apply (P (ed_index e0)); right; right; left; exists e0; rewrite F; simpl; auto. }
  cbn [edge_change ed_vertind ed_surfind]. rewrite E, F. simpl.
  pose proof (max_index_nonneg ve_index (verts (k_conn k))). pose proof (max_index_nonneg su_index (surfs (k_conn k))).
  split; do 2 eexists; repeat split; try reflexivity; unfold shift_pos; repeat match goal with |- context[0 <? ?x] => destruct (Z.ltb_spec 0 x) end; lia.
Qed.
Lemma above_shift (s k : snake N) : positive_indices (k_conn s) -> above (k_conn k) (k_conn (snake_compatible k s)).
Proof.
  intros P. destruct (has_all_pos P) as [P1 [P2 [P3 P4]]].
  unfold above, snake_compatible, make_compatible, change_indices, has_vert, has_edge, has_surf, has_volu. cbn [k_conn verts edges surfs volus].
  repeat split; intros i j [a [Ha <-]] [b [Hb <-]]; apply in_map_iff in Hb; destruct Hb as [b0 [<- Hb]].
  - specialize (P4 _ Hb). pose proof (max_index_ge ve_index _ _ Ha). simpl. lia.
  - specialize (P3 _ Hb). pose proof (max_index_ge ed_index _ _ Ha). simpl. lia.
  - specialize (P2 _ Hb). pose proof (max_index_ge su_index _ _ Ha). simpl. lia.
  - specialize (P1 _ Hb). pose proof (max_index_ge vo_index _ _ Ha). simpl. lia.
Qed.

(** The flags. *)
Lemma only_here : has_vert m v -> NoDup (map ve_index (verts m)) ->
  forall i x, nth_error (verts m) i = Some x ->
    (SpecSnake.inside (upd (repeat false (length (verts m))) (Z.to_nat (find ve_index (verts m) v)) true) false i <-> ve_index x = v).
Proof.
  intros Hv U i x Hx. destruct (find_spec ve_index (verts m) v) as [[_ C]|[j [a [Ej [Hj Ia]]]]]; [contradiction|].
  rewrite Ej, Nat2Z.id. assert (Li : (i < length (verts m))%nat) by (apply nth_error_Some; congruence).
  assert (Hr : forall k, (k < length (verts m))%nat -> nth_error (repeat false (length (verts m))) k = Some false).
  { intros k Hk. destruct (nth_error (repeat false (length (verts m))) k) eqn:E; [apply nth_error_In, repeat_spec in E; congruence|].
    apply nth_error_None in E. rewrite repeat_length in E. lia. }
  unfold SpecSnake.inside. destruct (Nat.eq_dec i j) as [->|Hn].
  - rewrite nth_error_upd_same by (rewrite repeat_length; auto).
    split; [intros _; congruence|]. intros _. exists true. auto.
  - rewrite nth_error_upd_other by auto. rewrite Hr by auto. split.
    + intros [b [E F]]. injection E; intros; subst. discriminate.
    + intros E. exfalso. apply Hn. apply (proj1 (NoDup_nth_error (map ve_index (verts m))) U); [rewrite map_length; auto|].
      rewrite !nth_error_map, Hx, Hj. simpl. congruence.
Qed.
End Two.

(** ** Adding one snake to another *)
Lemma positive_merged a b : positive_indices a -> positive_indices b -> well_connected b -> positive_indices (concatenate a (make_compatible a b)).
Proof.
  intros Pa Pb _. destruct (has_all_pos Pb) as [P1 [P2 [P3 P4]]]. destruct Pb as [_ Pb]. destruct Pa as [Qa Pa].
  pose proof (max_index_nonneg ve_index (verts a)). pose proof (max_index_nonneg ed_index (edges a)).
  pose proof (max_index_nonneg su_index (surfs a)). pose proof (max_index_nonneg vo_index (volus a)).
  assert (SP : forall d x, 0 <= d -> 0 <= x -> 0 <= shift_pos d x) by (intros d x Hd Hx; unfold shift_pos; destruct (Z.ltb_spec 0 x); lia).
  split.
  - unfold has_volu, has_surf, has_edge, has_vert. cbn [concatenate make_compatible change_indices verts edges surfs volus].
    intros i [Q|[Q|[Q|Q]]]; destruct Q as [x [Hx <-]]; apply in_app_iff in Hx; destruct Hx as [Hx|Hx].
    + apply Qa. left. exists x. auto.
    + apply in_map_iff in Hx. destruct Hx as [y [<- Hy]]. specialize (P1 _ Hy). simpl. lia.
    + apply Qa. right; left. exists x. auto.
    + apply in_map_iff in Hx. destruct Hx as [y [<- Hy]]. specialize (P2 _ Hy). simpl. lia.
    + apply Qa. right; right; left. exists x. auto.
    + apply in_map_iff in Hx. destruct Hx as [y [<- Hy]]. specialize (P3 _ Hy). simpl. lia.
    + apply Qa. right; right; right. exists x. auto.
    + apply in_map_iff in Hx. destruct Hx as [y [<- Hy]]. specialize (P4 _ Hy). simpl. lia.
  - unfold VE, EV, ES, SE, SV, VS in *. cbn [concatenate make_compatible change_indices verts edges surfs volus].
    intros i x Q. rewrite !lists_app in Q.
    destruct Q as [[Q|Q]|[[Q|Q]|[[Q|Q]|[[Q|Q]|[[Q|Q]|[Q|Q]]]]]]; try (apply (Pa i x); tauto).
    + apply lists_map with (d := max_index ve_index (verts a)) (h := fun x => x + max_index ed_index (edges a)) in Q; auto.
      destruct Q as [y [Q ->]]. assert (0 <= y) by (eapply Pb; left; eauto). lia.
    + apply lists_map with (d := max_index ed_index (edges a)) (h := fun x => x + max_index ve_index (verts a)) in Q; auto.
      destruct Q as [y [Q ->]]. assert (0 <= y) by (eapply Pb; right; left; eauto). lia.
    + apply lists_map with (d := max_index ed_index (edges a)) (h := shift_pos (max_index su_index (surfs a))) in Q; auto.
      destruct Q as [y [Q ->]]. assert (0 <= y) by (eapply Pb; do 2 right; left; eauto). auto.
    + apply lists_map with (d := max_index su_index (surfs a)) (h := fun x => x + max_index ed_index (edges a)) in Q; auto.
      destruct Q as [y [Q ->]]. assert (0 <= y) by (eapply Pb; do 3 right; left; eauto). lia.
    + apply lists_map with (d := max_index su_index (surfs a)) (h := shift_pos (max_index vo_index (volus a))) in Q; auto.
      destruct Q as [y [Q ->]]. assert (0 <= y) by (eapply Pb; do 4 right; left; eauto). auto.
    + apply lists_map with (d := max_index vo_index (volus a)) (h := shift_pos (max_index su_index (surfs a))) in Q; auto.
      destruct Q as [y [Q ->]]. assert (0 <= y) by (eapply Pb; do 5 right; eauto). auto.
Qed.
Lemma closed_no0 m : closed m -> forall e, ~ ES m e 0.
Proof. intros C e [a [Ha [_ H]]]. destruct (C a Ha) as [_ [c [d [_ [Hc [Hd E]]]]]]. rewrite E in H. simpl in H. intuition. Qed.
Lemma connected_merged a b : well_connected a -> well_connected b -> positive_indices b -> closed a -> closed b ->
  well_connected (concatenate a (make_compatible a b)).
Proof.
  intros Wa Wb Pb Ca Cb. split; [apply merged_unique; [apply Wa|apply Wb|auto]|]. split; [apply merged_mutual; auto|].
  pose proof (max_index_nonneg ve_index (verts a)). pose proof (max_index_nonneg ed_index (edges a)).
  pose proof (max_index_nonneg su_index (surfs a)). pose proof (max_index_nonneg vo_index (volus a)).
  pose proof (closed_no0 Ca) as Y5. pose proof (closed_no0 Cb) as X5.
  destruct Wa as [_ [_ [Y1 [Y2 [Y3 [Y4 _]]]]]]. destruct Wb as [_ [_ [X1 [X2 [X3 [X4 _]]]]]]. destruct Pb as [_ Pb].
  assert (SP : forall d x, 0 <= d -> 0 <= x -> x <> 0 -> shift_pos d x <> 0) by (intros d x Hd Hx; unfold shift_pos; destruct (Z.ltb_spec 0 x); lia).
  unfold exterior_only, VE, EV, ES, SE, SV, VS in *. cbn [concatenate make_compatible change_indices verts edges surfs volus].
  repeat apply conj.
  - intros i Q. apply lists_app in Q. destruct Q as [Q|Q]; [apply (Y1 _ Q)|].
    apply lists_map with (d := max_index ve_index (verts a)) (h := fun x => x + max_index ed_index (edges a)) in Q; auto.
    destruct Q as [y [Q E]]. assert (0 <= y) by (eapply Pb; left; eauto). assert (y <> 0) by (intros ->; apply (X1 _ Q)). lia.
  - intros i Q. apply lists_app in Q. destruct Q as [Q|Q]; [apply (Y2 _ Q)|].
    apply lists_map with (d := max_index ed_index (edges a)) (h := fun x => x + max_index ve_index (verts a)) in Q; auto.
    destruct Q as [y [Q E]]. assert (0 <= y) by (eapply Pb; right; left; eauto). assert (y <> 0) by (intros ->; apply (X2 _ Q)). lia.
  - intros i Q. apply lists_app in Q. destruct Q as [Q|Q]; [apply (Y3 _ Q)|].
    apply lists_map with (d := max_index su_index (surfs a)) (h := fun x => x + max_index ed_index (edges a)) in Q; auto.
    destruct Q as [y [Q E]]. assert (0 <= y) by (eapply Pb; do 3 right; left; eauto). assert (y <> 0) by (intros ->; apply (X3 _ Q)). lia.
  - intros i Q. apply lists_app in Q. destruct Q as [Q|Q]; [apply (Y4 _ Q)|].
    apply lists_map with (d := max_index vo_index (volus a)) (h := shift_pos (max_index su_index (surfs a))) in Q; auto.
    destruct Q as [y [Q E]]. assert (0 <= y) by (eapply Pb; do 5 right; eauto). assert (y <> 0) by (intros ->; apply (X4 _ Q)). symmetry in E. revert E. apply SP; auto.
  - intros _ i Q. apply lists_app in Q. destruct Q as [Q|Q]; [apply (Y5 _ Q)|].
    apply lists_map with (d := max_index ed_index (edges a)) (h := shift_pos (max_index su_index (surfs a))) in Q; auto.
    destruct Q as [y [Q E]]. assert (0 <= y) by (eapply Pb; do 2 right; left; eauto). assert (y <> 0) by (intros ->; apply (X5 _ Q)). symmetry in E. revert E. apply SP; auto.
Qed.
Lemma closed_merged a b : closed a -> closed b -> positive_indices b -> closed (concatenate a (make_compatible a b)).
Proof.
  intros Ca Cb [_ P] e He. cbn [concatenate make_compatible change_indices edges] in He. apply in_app_iff in He. destruct He as [He|He]; [apply (Ca e He)|].
  apply in_map_iff in He. destruct He as [e0 [<- He]].
  destruct (Cb e0 He) as [[x [y [Hab [Ha [Hb E]]]]] [c [d [Hcd [Hc [Hd F]]]]]].
  assert (0 <= x /\ 0 <= y) as [Pa Pb].
  { split; apply (P (ed_index e0)); right; left; exists e0; rewrite E; simpl; auto. }
  assert (0 <= c /\ 0 <= d) as [Pc Pd].
  { split; apply (P (ed_index e0)); right; right; left; exists e0; rewrite F; simpl; auto. }
  cbn [edge_change ed_vertind ed_surfind]. rewrite E, F. simpl.
  pose proof (max_index_nonneg ve_index (verts a)). pose proof (max_index_nonneg su_index (surfs a)).
  split; do 2 eexists; repeat split; try reflexivity; unfold shift_pos; repeat match goal with |- context[0 <? ?x] => destruct (Z.ltb_spec 0 x) end; lia.
Qed.

Section Add.
Variable N : num.
Variable m : mesh.
Hypothesis U : NoDup (map ve_index (verts m)).

Lemma inside_nth (q : snake N) i x : nth_error (verts m) i = Some x -> (vert_inside m q (ve_index x) <-> SpecSnake.inside (k_in q) (k_flipped q) i).
Proof.
  intros Hx. split.
  - intros [j [y [b [Hy [E [Hb X]]]]]]. assert (j = i).
    { apply (proj1 (NoDup_nth_error (map ve_index (verts m))) U); [rewrite map_length; apply nth_error_Some; congruence|].
      rewrite !nth_error_map, Hx, Hy. simpl. congruence. }
    subst j. exists b. auto.
  - intros [b [Hb X]]. exists i, x, b. auto.
Qed.
Lemma inside_dec (q : snake N) w : vert_inside m q w \/ ~ vert_inside m q w.
Proof.
  destruct (find_spec ve_index (verts m) w) as [[_ C]|[j [a [_ [Hj <-]]]]].
  - right. intros [i [x [b [Hx [E _]]]]]. apply C. exists x. split; auto. eapply nth_error_In; eauto.
  - rewrite (inside_nth q _ Hj). unfold SpecSnake.inside. destruct (nth_error (k_in q) j) as [b|]; [|right; intros [b [E _]]; discriminate].
    destruct (xorb b (k_flipped q)) eqn:Q; [left; eauto|right; intros [b' [E X]]; congruence].
Qed.
(** [grow k s] is [s] renumbered and added to [k]. *)
Lemma add_ok (k s : snake N) : length (k_in k) = length (verts m) -> length (k_in s) = length (verts m) ->
  exists k', snake_concat k (snake_compatible k s) = Ok k' /\ appended k (snake_compatible k s) k' /\
    k_conn k' = concatenate (k_conn k) (make_compatible (k_conn k) (k_conn s)) /\
    length (k_in k') = length (verts m) /\ k_flipped k' = k_flipped k /\
    forall w, has_vert m w -> (vert_inside m k' w <->
      (vert_inside m k w /\ vert_inside m s w) \/ ((vert_inside m k w \/ vert_inside m s w) /\ forall u, has_vert m u -> ~ (vert_inside m k u /\ vert_inside m s u))).
Proof using U.
  intros L L'. destruct (C39_inside (k_in k) (k_flipped k) (k_in s) (k_flipped s) 0) as [r [Er [Lr' Hr]]]; [lia|].
  unfold snake_concat. change (k_in (snake_compatible k s)) with (k_in s). change (k_flipped (snake_compatible k s)) with (k_flipped s).
  rewrite Er. cbn [bind]. eexists. split; [reflexivity|]. split; [repeat split|]. split; [reflexivity|]. cbn [k_in k_flipped].
  split; [congruence|]. split; auto.
  intros w [xw [Hw <-]]. destruct (In_nth_error _ _ Hw) as [i Hi]. rewrite !(inside_nth _ _ Hi). cbn [k_in k_flipped].
  rewrite (Hr i) by (rewrite L; apply nth_error_Some; congruence). simpl.
  assert (Q : (forall u, has_vert m u -> ~ (vert_inside m k u /\ vert_inside m s u)) <->
    (forall j, (j < length (k_in k))%nat -> ~ (SpecSnake.inside (k_in k) (k_flipped k) j /\ SpecSnake.inside (k_in s) (k_flipped s) j))).
  { split.
    - intros H j Hj. destruct (nth_error (verts m) j) as [x|] eqn:Ex; [|apply nth_error_None in Ex; lia].
      rewrite <- !(inside_nth _ _ Ex). apply H. exists x. split; auto. eapply nth_error_In; eauto.
    - intros H u [x [Hx <-]]. destruct (In_nth_error _ _ Hx) as [j Hj]. rewrite !(inside_nth _ _ Hj). apply H. rewrite L. apply nth_error_Some. congruence. }
  rewrite Q. tauto.
Qed.
Lemma flip_inside (s : snake N) w : length (k_in s) = length (verts m) -> has_vert m w -> (vert_inside m (snake_flip s) w <-> ~ vert_inside m s w).
Proof using U.
  intros L [x [Hx <-]]. destruct (In_nth_error _ _ Hx) as [i Hi]. rewrite !(inside_nth _ _ Hi). unfold SpecSnake.inside. cbn [snake_flip k_in k_flipped].
  destruct (nth_error (k_in s) i) as [b|] eqn:E.
  - split; [intros [b' [E' X]] [b2 [E2 X2]]|intros H].
    + injection E'; intros; subst b'. injection E2; intros; subst b2. destruct b, (k_flipped s); discriminate.
    + exists b. split; auto. destruct b, (k_flipped s); auto; exfalso; apply H; eexists; eauto.
  - apply nth_error_None in E. assert (i < length (verts m))%nat by (apply nth_error_Some; congruence). lia.
Qed.
End Add.

(** ** The loop over the impacts *)
Section Arrive.
Variable N : num.
Variable m : mesh.
Definition tip (bwd : bool) (x : snax N) : Z := if bwd then sx_from x else sx_to x.
Definition code (bwd : bool) : Z := if bwd then -1 else -2.
Definition borderb (v : Z) : bool := match at_ (verts m) (find ve_index (verts m) v) with Ok x => ve_border x | _ => false end.
Definition haltb (bwd : bool) (impacts : list (Z * Z)) (x : snax N) : bool :=
  existsb (fun p => (fst p =? sx_index x) && (snd p =? code bwd)) impacts && borderb (tip bwd x).
Definition halt (bwd : bool) (impacts : list (Z * Z)) (x : snax N) : snax N := if haltb bwd impacts x then freeze x else x.

Lemma at_there A (l : list A) (k : nat) a : nth_error l k = Some a -> at_ l (Z.of_nat k) = Ok a.
Proof. intros H. apply at_Ok. rewrite Nat2Z.id. split; [lia|exact H]. Qed.
Lemma upd_map A (idx : A -> Z) (f : A -> A) l n a : NoDup (map idx l) -> nth_error l n = Some a ->
  upd l n (f a) = map (fun y => if idx y =? idx a then f y else y) l.
Proof.
  revert n. induction l as [|b r IH]; intros [|n] D H; simpl in *; try discriminate.
  - injection H; intros; subst b. rewrite Z.eqb_refl. f_equal. inversion D as [|? ? D1 _]; subst.
    symmetry. erewrite map_ext_in; [apply map_id|]. intros y Hy. simpl. destruct (Z.eqb_spec (idx y) (idx a)) as [E|_]; auto.
    exfalso. apply D1. rewrite <- E. apply in_map. auto.
  - inversion D as [|? ? D1 D2]; subst. rewrite (IH n D2 H). destruct (Z.eqb_spec (idx b) (idx a)) as [E|_]; auto.
    exfalso. apply D1. rewrite E. apply in_map. eapply nth_error_In; eauto.
Qed.
Lemma freeze_freeze (x : snax N) : freeze (freeze x) = freeze x.
Proof. reflexivity. Qed.
Lemma halt_index bwd imps x : sx_index (halt bwd imps x) = sx_index x.
Proof. unfold halt. destruct (haltb bwd imps x); auto. Qed.
Lemma halt_tip b bwd imps x : tip b (halt bwd imps x) = tip b x.
Proof. unfold halt. destruct (haltb bwd imps x); auto. Qed.

Lemma arrivals_ok bwd imps : forall xs : list (snax N), NoDup (map (@sx_index N) xs) ->
  (forall i t, In (i, t) imps -> t = code bwd -> exists x, In x xs /\ sx_index x = i) ->
  (forall x, In x xs -> has_vert m (tip bwd x)) ->
  (forall v e, VE m v e -> has_edge m e) ->
  exists vs, arrivals m bwd imps xs = Ok (vs, map (halt bwd imps) xs) /\
    forall v, In v vs <-> exists x, In x xs /\ In (sx_index x, code bwd) imps /\ v = tip bwd x /\ borderb v = false.
Proof.
  induction imps as [|[i t] r IH]; intros xs D Hi Ht He.
  - exists []. simpl. split.
    + do 2 f_equal. symmetry. erewrite map_ext; [apply map_id|]. intros x. reflexivity.
    + intros v. split; [intros []|intros [x [_ [[] _]]]].
  - cbn [arrivals]. fold (code bwd).
    destruct (Z.eqb_spec t (code bwd)) as [Et|Et].
    + destruct (Hi i t (or_introl eq_refl) Et) as [x [Hx Ix]].
      destruct (find_spec (@sx_index N) xs i) as [[_ C]|[j [a [Ej [Hj Ia]]]]]; [exfalso; apply C; eauto|].
      rewrite Ej. rewrite (at_there _ _ Hj). cbn [bind]. fold (tip bwd a).
      assert (Ha : In a xs) by (eapply nth_error_In; eauto).
      destruct (@find_at _ ve_index (verts m) (tip bwd a) (Ht a Ha)) as [ve [Eve [Hve Ive]]].
      assert (Eb : borderb (tip bwd a) = ve_border ve) by (unfold borderb; rewrite Eve; auto).
      rewrite Eve. cbn [bind].
      assert (Same : forall y, In y xs -> haltb bwd ((i, t) :: r) y = ((sx_index a =? sx_index y) && ve_border ve) || haltb bwd r y).
      { intros y Hy. unfold haltb. cbn [existsb fst snd]. rewrite Et, Z.eqb_refl, andb_true_r. rewrite andb_orb_distrib_l. f_equal.
        rewrite <- Ia. destruct (Z.eqb_spec (sx_index a) (sx_index y)) as [E|_]; auto. simpl.
        rewrite (NoDup_idx_inj (@sx_index N) xs y a D Hy Ha) by congruence. auto. }
      destruct (ve_border ve) eqn:Bv.
      * rewrite Nat2Z.id. rewrite (@upd_map _ (@sx_index N) (@freeze N) xs j a D Hj).
        set (xs1 := map (fun y : snax N => if sx_index y =? sx_index a then freeze y else y) xs).
        assert (I1 : forall y : snax N, sx_index (if sx_index y =? sx_index a then freeze y else y) = sx_index y) by (intros y; destruct (sx_index y =? sx_index a); auto).
        assert (T1 : forall y : snax N, tip bwd (if sx_index y =? sx_index a then freeze y else y) = tip bwd y) by (intros y; destruct (sx_index y =? sx_index a); auto).
        destruct (IH xs1) as [vs [E Hvs]]; auto.
        { unfold xs1. rewrite map_map. erewrite map_ext; [exact D|]. intros y. apply I1. }
        { intros i' t' H Q. destruct (Hi i' t' (or_intror H) Q) as [y [Hy Iy]].
          exists (if sx_index y =? sx_index a then freeze y else y). rewrite I1. split; auto. unfold xs1. apply in_map_iff. eauto. }
        { intros y Hy. unfold xs1 in Hy. apply in_map_iff in Hy. destruct Hy as [z [<- Hz]]. rewrite T1. auto. }
        rewrite E. cbn [bind]. exists vs. split.
        -- do 2 f_equal. unfold xs1. rewrite map_map. apply map_ext_in. intros y Hy. unfold halt. rewrite (Same y Hy), andb_true_r.
           rewrite (Z.eqb_sym (sx_index a)). assert (Hh : haltb bwd r (freeze y) = haltb bwd r y) by reflexivity.
           destruct (Z.eqb_spec (sx_index y) (sx_index a)) as [Q|_]; simpl; auto.
           destruct (haltb bwd r (freeze y)); auto.
        -- intros v. rewrite Hvs. split.
           ++ intros [y [Hy [Hin [-> Bb]]]]. unfold xs1 in Hy. apply in_map_iff in Hy. destruct Hy as [z [<- Hz]]. rewrite I1 in Hin. rewrite T1 in *.
              exists z. simpl. auto.
           ++ intros [z [Hz [Hin [-> Bb]]]]. exists (if sx_index z =? sx_index a then freeze z else z). rewrite I1, T1.
              split; [unfold xs1; apply in_map_iff; eauto|]. split; auto.
              destruct Hin as [Q|]; auto. exfalso. injection Q; intros Q1 Q2.
              rewrite (NoDup_idx_inj (@sx_index N) xs z a D Hz Ha) in Bb by congruence. congruence.
      * destruct (@fetch _ ed_index (edges m) (ve_edgeind ve)) as [es [Ees _]].
        { intros e Hee. apply (He (ve_index ve) e). exists ve. auto. }
        rewrite Ees. cbn [bind]. destruct (IH xs) as [vs [E Hvs]]; auto. { intros; eapply Hi; eauto. right; eauto. }
        rewrite E. cbn [bind fst snd]. exists (tip bwd a :: vs). split.
        -- do 2 f_equal. apply map_ext_in. intros y Hy. unfold halt. rewrite (Same y Hy), andb_false_r. auto.
        -- intros v. simpl. rewrite Hvs. split.
           ++ intros [<-|[y [Hy [Hin [-> Bb]]]]].
              ** exists a. rewrite Ia, <- Et. auto.
              ** exists y. auto.
           ++ intros [y [Hy [[Q|Hin] [-> Bb]]]].
              ** left. injection Q; intros. f_equal. apply (NoDup_idx_inj (@sx_index N) xs a y D Ha Hy). congruence.
              ** right. exists y. auto.
    + destruct (IH xs) as [vs [E Hvs]]; auto. { intros; eapply Hi; eauto. right; eauto. }
      exists vs. rewrite E. split.
      * do 2 f_equal. apply map_ext. intros y. unfold halt, haltb. cbn [existsb fst snd].
        destruct (Z.eqb_spec t (code bwd)); [contradiction|]. rewrite andb_false_r. auto.
      * intros v. rewrite Hvs. split; intros [y [Hy [Hin R]]]; exists y; repeat split; auto; try apply R; [right; auto|].
        destruct Hin as [Q|]; auto. injection Q; intros. congruence.
Qed.
End Arrive.
