(** Ordering and splitting surfaces: what each step keeps. *)
From Verif Require Import Base Containers ContainersProofs Mesh SpecMesh MeshProofs SwitchProofs FloodProofs
  Order SpecOrder OrderProofs OrderMeshProofs SplitSurf SpecSplitSurf SplitSurfProofs.
Import Mesh.
Set Implicit Arguments.
Open Scope Z_scope.

Lemma map_fst3 A B C D (f : A -> B) (g : A -> C) (h : A -> D) l l' :
  map (fun e => (f e, g e, h e)) l' = map (fun e => (f e, g e, h e)) l ->
  map f l' = map f l /\ map (fun e => (f e, h e)) l' = map (fun e => (f e, h e)) l.
Proof.
  intros E. split.
  - apply (f_equal (map (fun x => fst (fst x)))) in E. rewrite !map_map in E. exact E.
  - apply (f_equal (map (fun x => (fst (fst x), snd x)))) in E. rewrite !map_map in E. exact E.
Qed.
Lemma map_fst2 A B C (f : A -> B) (g : A -> C) l l' :
  map (fun e => (f e, g e)) l' = map (fun e => (f e, g e)) l -> map f l' = map f l.
Proof. intros E. apply (f_equal (map fst)) in E. rewrite !map_map in E. exact E. Qed.

Lemma parts_ends p m m' : parts_of p m m' -> same_ends m m'.
Proof. intros (_ & _ & _ & E & _). exact (proj2 (@map_fst3 _ _ _ _ _ _ _ _ _ E)). Qed.

Lemma length_map_eq A B (f : A -> B) l l' more : map f l' = map f l ++ more -> (length l <= length l')%nat.
Proof. intros E. apply (f_equal (@length _)) in E. rewrite app_length, !map_length in E. lia. Qed.
Lemma parts_length p m m' : parts_of p m m' -> (length (surfs m) <= length (surfs m'))%nat.
Proof. intros (_ & _ & _ & _ & _ & [more E] & _). eapply length_map_eq; eauto. Qed.

(** Composition. *)
Lemma skipn_map_eq A B (f : A -> B) l l' more : map f l' = map f l ++ more -> map f (skipn (length l) l') = more.
Proof.
  revert l'. induction l as [|x r IH]; intros [|y l'] E; simpl in *; try discriminate; auto.
  injection E as _ E. auto.
Qed.
Lemma parts_trans p q m m1 m2 : parts_of p m m1 -> parts_of q m1 m2 -> parts_of (fun x => p (q x)) m m2.
Proof.
  intros (A1 & A2 & A3 & A4 & A5 & [more A6] & A7 & A8 & A9 & A10) (B1 & B2 & B3 & B4 & B5 & [more' B6] & B7 & B8 & B9 & B10).
  split; [congruence|]. split; [congruence|]. split; [congruence|]. split; [congruence|].
  split.
  { rewrite <- A5. rewrite <- (map_map ed_surfind (map p) (edges m1)), <- B5, map_map. apply map_ext. intros e. rewrite map_map. reflexivity. }
  split; [exists (more ++ more'); rewrite B6, A6, app_assoc; reflexivity|].
  assert (L1 := @length_map_eq _ _ _ _ _ _ A6).
  assert (M1 := @skipn_map_eq _ _ _ _ _ _ A6). assert (M2 := @skipn_map_eq _ _ _ _ _ _ B6).
  assert (M3 : map su_index (skipn (length (surfs m)) (surfs m2)) = more ++ more').
  { apply skipn_map_eq. rewrite B6, A6, app_assoc. reflexivity. }
  split.
  { intros i H. assert (N : ~ In i (more ++ more')).
    { rewrite <- M3. intros I. apply in_map_iff in I as [t [Et It]]. apply H. exists t. auto. }
    rewrite in_app_iff in N. rewrite B7, A7; auto.
    - intros [t [It Et]]. apply N. left. rewrite <- M1, <- Et. apply in_map; auto.
    - intros [t [It Et]]. apply N. right. rewrite <- M2, <- Et. apply in_map; auto. }
  split.
  { intros t It. destruct (B8 t It) as [s [Is [E1 [E2 E3]]]]. destruct (A8 s Is) as [r [Ir [F1 [F2 F3]]]].
    exists r. split; auto. split; [congruence|]. split; congruence. }
  split.
  { intros s e. rewrite A9. split.
    - intros [t [Et H]]. apply B9 in H as [u [Eu H]]. exists u. split; auto. congruence.
    - intros [u [Eu H]]. exists (q u). split; auto. apply B9. exists u. auto. }
  intros t u e Ht Hu E. apply (B10 t u e); auto. apply (A10 (q t) (q u) e); auto; apply B9; [exists t|exists u]; auto.
Qed.

(** Only the surfaces change, and only the order of their edges and their
    flag. *)
Lemma lists_same_In A (idx : A -> Z) get l n a s i x : NoDup (map idx l) -> nth_error l n = Some s -> idx a = idx s ->
  (forall y, In y (get a) <-> In y (get s)) -> lists idx get (upd l n a) i x <-> lists idx get l i x.
Proof.
  intros N H E G. rewrite (@lists_upd _ idx get l n a s i x N H E). rewrite G. split.
  - intros [[_ L]|[-> I]]; auto. exists s. split; [eapply nth_error_In; eauto|auto].
  - intros L. destruct (Z.eq_dec i (idx s)) as [->|D]; [right|left; auto]. split; auto.
    apply (@owner _ idx get l _ _ N (nth_error_In _ _ H) eq_refl). exact L.
Qed.
Lemma rewrite_ok m n s s' : well_connected m -> nth_error (surfs m) n = Some s ->
  su_index s' = su_index s -> su_border s' = su_border s -> su_voluind s' = su_voluind s ->
  (forall e, In e (su_edgeind s') <-> In e (su_edgeind s)) ->
  well_connected (with_surfs m (upd (surfs m) n s')) /\ parts_of (fun x => x) m (with_surfs m (upd (surfs m) n s')).
Proof.
  intros [[Uv [Us [Ue [Un [Zv [Zs [Ze Zn]]]]]]] [[M1 [M2 [M3 [M4 [M5 M6]]]]] [X1 [X2 [X3 [X4 X5]]]]]] Hn E1 E2 E3 E4.
  set (m' := with_surfs m (upd (surfs m) n s')).
  assert (QE : forall i x, SE m' i x <-> SE m i x) by (intros; apply (@lists_same_In _ su_index su_edgeind (surfs m) n s' s); auto).
  assert (QV : forall i x, SV m' i x <-> SV m i x).
  { intros. apply (@lists_same_In _ su_index su_voluind (surfs m) n s' s); auto. rewrite E3. tauto. }
  assert (QI : map su_index (surfs m') = map su_index (surfs m)) by (apply (@map_upd_same _ _ su_index _ _ _ s); auto).
  split.
  - split; [|split].
    + split; [exact Uv|]. split; [rewrite QI; auto|]. split; [exact Ue|]. split; [exact Un|].
      split; [exact Zv|]. split; [|split; [exact Ze|exact Zn]].
      intros H. apply Zs. apply has_surf_In. rewrite <- QI. apply has_surf_In. exact H.
    + split; [exact M1|]. split; [exact M2|].
      split; [intros e t H1 H2; apply QE; auto|]. split; [intros e t H1 H2; apply QE in H1; apply M4; auto|].
      split; [intros t v H1 H2; apply QV in H1; apply M5; auto|intros t v H1 H2; apply QV; apply M6; auto].
    + split; [exact X1|]. split; [exact X2|]. split; [intros t H; apply QE in H; apply (X3 t); auto|].
      split; [exact X4|exact X5].
  - split; [reflexivity|]. split; [reflexivity|]. split; [reflexivity|]. split; [reflexivity|].
    split; [simpl; apply map_ext; intros; apply map_id|].
    split; [exists []; rewrite app_nil_r; exact QI|]. split; [auto|].
    split.
    { intros t It. destruct (@In_upd _ _ _ _ _ _ Hn It) as [->|I]; [exists s|exists t; auto].
      split; [eapply nth_error_In; eauto|]. auto. }
    split; [|auto].
    intros t e. rewrite <- QE. split; [intros H; exists t; auto|intros [u [<- H]]; auto].
Qed.

(** The new surface. *)
Lemma replace_parent old new l : ~ In new l -> map (fun x => if x =? new then old else x) (replace_all old new l) = l.
Proof.
  intros H. unfold replace_all. rewrite map_map. rewrite <- (map_id l) at 2. apply map_ext_in. intros a I.
  destruct (Z.eqb_spec a old) as [->|D].
  - rewrite Z.eqb_refl. reflexivity.
  - destruct (Z.eqb_spec a new) as [->|]; [contradiction|auto].
Qed.
Lemma map_unmoved (f : Z -> Z) l : (forall x, In x l -> f x = x) -> map f l = l.
Proof. intros H. rewrite <- (map_id l) at 2. apply map_ext_in. auto. Qed.

Lemma new_surf_ok m n s l full : well_connected m -> sided m -> nth_error (surfs m) n = Some s ->
  (forall e, In e full <-> In e (su_edgeind s)) -> incl l full ->
  exists m1 c, let new := max_index su_index (surfs m) + 1 in
    new_surf l full (Z.of_nat n) m = Ok (m1, new) /\ well_connected m1 /\
    parts_of (fun x => if x =? new then su_index s else x) m m1 /\
    surfs m1 = upd (surfs m) n (su_set_edgeind l s) ++
               [mkSurf new (su_border s) (su_ordered s) (su_voluind s) (left_out full l ++ c)] /\
    incl c (left_out full l).
Proof.
  intros [[Uv [Us [Ue [Un [Zv [Zs [Ze Zn]]]]]]] [[M1 [M2 [M3 [M4 [M5 M6]]]]] [X1 [X2 [X3 [X4 X5]]]]]] [SD _] Hn Hfull Hl.
  set (new := max_index su_index (surfs m) + 1). set (old := su_index s).
  set (rest := left_out full l).
  assert (Is : In s (surfs m)) by (eapply nth_error_In; eauto).
  assert (Fresh : forall t, In t (surfs m) -> su_index t <> new).
  { intros t It. pose proof (@max_index_ge _ su_index _ _ It). unfold new. lia. }
  assert (Nin : ~ In new (map su_index (surfs m))).
  { intros I. apply in_map_iff in I as [t [Et It]]. apply (Fresh t It Et). }
  assert (Npos : 0 < new) by (pose proof (@max_index_nonneg _ su_index (surfs m)); unfold new; lia).
  assert (Hon : old <> new) by (apply Fresh; auto).
  assert (Hold0 : old <> 0) by (intros E; apply Zs; exists s; auto).
  assert (Hrest : forall e, In e rest <-> In e full /\ ~ In e l).
  { intros e. unfold rest, left_out. rewrite filter_In, negb_true_iff, mem_z_not_In. tauto. }
  assert (Own : forall e, In e full <-> SE m old e).
  { intros e. rewrite Hfull. symmetry. symmetry. apply (@owner _ su_index su_edgeind (surfs m) _ _ Us Is eq_refl). }
  assert (OwnV : forall v, In v (su_voluind s) <-> SV m old v).
  { intros v. apply (@owner _ su_index su_voluind (surfs m) _ _ Us Is eq_refl). }
  set (t0 := mkSurf new (su_border s) (su_ordered s) (su_voluind s) rest).
  set (ss0 := upd (surfs m) n (su_set_edgeind l s) ++ [t0]).
  assert (I0 : map su_index ss0 = map su_index (surfs m) ++ [new]).
  { unfold ss0. rewrite map_app. rewrite (@map_upd_same _ _ su_index _ _ (su_set_edgeind l s) s Hn eq_refl). reflexivity. }
  assert (U0 : NoDup (map su_index ss0)).
  { rewrite I0. apply NoDup_rev in Us. rewrite <- rev_involutive. apply NoDup_rev. rewrite rev_app_distr. simpl.
    constructor; auto. rewrite <- in_rev. auto. }
  unfold new_surf. rewrite (at_nth _ _ Hn). cbn [bind]. fold new. fold rest. rewrite Nat2Z.id.
  fold t0. fold ss0. fold old. unfold switch6. cbn [surfs edges volus verts meshDim].
  destruct (@redirect_erase_loop _ _ ed_index ed_surfind ed_set_surfind su_index su_edgeind su_set_edgeind
              ltac:(reflexivity) ltac:(reflexivity) ltac:(reflexivity) ltac:(reflexivity)
              ltac:(intros []; reflexivity) ltac:(reflexivity) old new Hon
              (edges m) ss0 rest Ue U0) as [c [Hc Hrun]].
  { rewrite I0. apply in_app_iff. right. simpl. auto. }
  { rewrite I0. apply in_app_iff. left. apply in_map. auto. }
  { intros e He. apply Hrest in He as [He _]. apply has_edge_In. apply Own in He. apply M4 in He.
    - apply lists_has in He. exact He.
    - intros ->. apply (X3 old). exact He. }
  rewrite Hrun. cbn [bind].
  assert (Cr : incl c rest) by (intros e He; apply Hc in He as [He _]; exact He).
  set (t1 := mkSurf new (su_border s) (su_ordered s) (su_voluind s) (rest ++ c)).
  assert (SS : map (moved su_index su_edgeind su_set_edgeind old new c) ss0 = upd (surfs m) n (su_set_edgeind l s) ++ [t1]).
  { unfold ss0. rewrite map_app. f_equal.
    - rewrite <- (map_id (upd (surfs m) n (su_set_edgeind l s))) at 2. apply map_ext_in. intros a Ia.
      unfold moved. destruct (@In_upd_other _ su_index _ _ (su_set_edgeind l s) _ s Us Hn eq_refl Ia) as [->|[Ia' Da]].
      + cbn [su_index su_set_edgeind su_edgeind]. fold old. destruct (Z.eqb_spec old new); [contradiction|]. rewrite Z.eqb_refl.
        unfold su_set_edgeind. simpl. f_equal. unfold drop_list.
        assert (D : forall e, In e l -> negb (mem_z e c) = true).
        { intros e He. apply negb_true_iff, mem_z_not_In. intros Ic. apply Cr, Hrest in Ic. tauto. }
        clear - D. induction l as [|e r IH]; simpl; auto. rewrite (D e) by (simpl; auto). f_equal. apply IH. intros; apply D; simpl; auto.
      + destruct (Z.eqb_spec (su_index a) new) as [E|_]; [destruct (Fresh a Ia' E)|].
        destruct (Z.eqb_spec (su_index a) old); [contradiction|reflexivity].
    - simpl. unfold moved. simpl. rewrite Z.eqb_refl. reflexivity. }
  rewrite SS. set (ss1 := upd (surfs m) n (su_set_edgeind l s) ++ [t1]).
  assert (I1 : map su_index ss1 = map su_index ss0) by (unfold ss1, ss0; rewrite !map_app; reflexivity).
  rewrite <- (find_map_idx su_index ss0 ss1 new I1).
  assert (It1 : In t1 ss1) by (unfold ss1; apply in_app_iff; right; simpl; auto).
  assert (U1 : NoDup (map su_index ss1)) by (rewrite I1; auto).
  destruct (find_at su_index ss1 (k := new)) as [sn [Hat [Hin Hidx]]]; [exists t1; auto|].
  assert (sn = t1) by (eapply (@NoDup_idx_inj _ su_index); eauto). subst sn.
  rewrite Hat. cbn [bind]. change (su_voluind t1) with (su_voluind s).
  destruct (@push_new_loop new (su_voluind s) (volus m) Uv) as [ws [Hw [Hwo Hwl]]].
  { intros v Hv Hp. apply OwnV in Hv. apply M5 in Hv; [|lia]. apply has_volu_In. apply lists_has in Hv. exact Hv. }
  rewrite Hw. cbn [bind].
  set (es1 := map (redirected ed_index ed_surfind ed_set_surfind old new rest) (edges m)).
  set (m1 := mkMesh ws ss1 es1 (verts m) (meshDim m)).
  assert (QS : forall t e, SE m1 t e <-> (t <> old /\ SE m t e) \/ (t = old /\ In e l) \/ (t = new /\ In e rest)).
  { intros t e. unfold SE at 1. simpl. unfold ss1. rewrite lists_app, lists_one.
    rewrite (@lists_upd _ su_index su_edgeind (surfs m) n (su_set_edgeind l s) s t e Us Hn eq_refl). simpl.
    rewrite in_app_iff. fold old. fold (SE m t e).
    assert (Q : In e rest \/ In e c <-> In e rest) by (split; [intros [H|H]; auto|auto]). rewrite Q. unfold SE. tauto. }
  assert (QV : forall t v, SV m1 t v <-> SV m t v \/ (t = new /\ In v (su_voluind s))).
  { intros t v. unfold SV at 1. simpl. unfold ss1. rewrite lists_app, lists_one.
    rewrite (@lists_same_In _ su_index su_voluind (surfs m) n (su_set_edgeind l s) s t v Us Hn eq_refl); [reflexivity|]. simpl. tauto. }
  assert (QES : forall e x, ES m1 e x <-> (~ In e rest /\ ES m e x) \/ (In e rest /\ renamed old new (ES m e) x)).
  { intros e x. unfold ES at 1. simpl. unfold es1. rewrite lists_redirected; auto. reflexivity. }
  assert (QVS : forall v x, VS m1 v x <-> VS m v x \/ (x = new /\ 0 < v /\ In v (su_voluind s))) by (intros; apply Hwl).
  assert (EE : map (fun e => (ed_index e, ed_border e, ed_vertind e)) es1 = map (fun e => (ed_index e, ed_border e, ed_vertind e)) (edges m)).
  { unfold es1. apply map_same. intros a _. dredirected; auto. }
  assert (EI : map ed_index es1 = map ed_index (edges m)) by exact (proj1 (@map_fst3 _ _ _ _ _ _ _ _ _ EE)).
  assert (EN : same_ends m m1) by exact (proj2 (@map_fst3 _ _ _ _ _ _ _ _ _ EE)).
  assert (QEV : forall e v, EV m1 e v <-> EV m e v).
  { intros e v. unfold EV, lists. simpl. split.
    - intros [a [Ia [Ea Va]]]. unfold es1 in Ia. apply in_map_iff in Ia as [b [<- Ib]]. exists b. split; auto.
      revert Ea Va. dredirected; auto.
    - intros [a [Ia [Ea Va]]]. exists (redirected ed_index ed_surfind ed_set_surfind old new rest a).
      split; [apply in_map; auto|]. dredirected; auto. }
  assert (VI : map vo_index ws = map vo_index (volus m)) by exact (@map_fst2 _ _ _ _ _ _ _ Hwo).
  exists m1, c. cbn zeta. split; [reflexivity|].
  assert (HES : forall e x, SE m x e -> ES m e x).
  { intros e x H. apply M4; auto. intros ->. apply (X3 x); auto. }
  split.
  { split; [|split].
    - split; [simpl; rewrite VI; auto|]. split; [exact U1|]. split; [simpl; rewrite EI; auto|]. split; [exact Un|].
      split; [intros H; apply Zv, has_volu_In; rewrite <- VI; apply has_volu_In in H; exact H|].
      split; [intros H; apply has_surf_In in H; simpl in H; rewrite I1, I0 in H; apply in_app_iff in H as [H|[H|[]]];
              [apply Zs, has_surf_In; auto|lia]|].
      split; [intros H; apply Ze, has_edge_In; rewrite <- EI; apply has_edge_In in H; exact H|exact Zn].
    - split; [intros v e H H0; apply QEV; apply M1; auto|]. split; [intros v e H H0; apply QEV in H; apply M2; auto|].
      split.
      { intros e x H H0. apply QS. apply QES in H as [[H1 H2]|[H1 [[H2 H3]|[-> H2]]]].
        - destruct (Z.eq_dec x old) as [->|D]; [|left; split; auto; apply M3; auto].
          right. left. split; auto. destruct (in_dec Z.eq_dec e l) as [L|L]; auto. destruct H1. apply Hrest. split; auto.
          apply Own, M3; auto.
        - left. auto.
        - auto. }
      split.
      { intros e x H H0. apply QES. apply QS in H as [[H1 H2]|[[-> H1]|[-> H1]]].
        - destruct (in_dec Z.eq_dec e rest) as [R|R]; [right|left]; split; auto. left. split; auto.
        - left. split; [intros R; apply Hrest in R; tauto|]. apply HES, Own, Hl, H1.
        - right. split; auto. right. split; auto. apply HES, Own. apply Hrest in H1. tauto. }
      split.
      { intros x v H H0. apply QVS. apply QV in H as [H|[-> H]]; [left; apply M5; auto|right].
        split; auto. split; auto. assert (0 <= v) by (apply (SD old v); apply OwnV; auto). lia. }
      { intros x v H H0. apply QV. apply QVS in H as [H|[-> [H1 H2]]]; auto. }
    - split; [intros v H; apply (X1 v); exact H|]. split; [intros e H; apply QEV in H; apply (X2 e); auto|].
      split.
      { intros x H. apply QS in H as [[H1 H2]|[[-> H1]|[-> H1]]]; [apply (X3 x); auto| |].
        - apply Hl, Own in H1. apply (X3 old); auto.
        - apply Hrest in H1 as [H1 _]. apply Own in H1. apply (X3 old); auto. }
      split.
      { intros v H. apply QVS in H as [H|[H _]]; [apply (X4 v); auto|lia]. }
      intros Hvn e H. assert (Hvm : volus m <> []).
      { intros E. apply Hvn. simpl. rewrite E in VI. destruct ws; [auto|discriminate]. }
      apply QES in H as [[H1 H2]|[H1 [[H2 H3]|[H2 _]]]]; [apply (X5 Hvm e); auto|apply (X5 Hvm e); auto|lia]. }
  split.
  { split; [reflexivity|]. split; [reflexivity|]. split; [exact Hwo|]. split; [exact EE|].
    split.
    { simpl. unfold es1. rewrite map_map. apply map_ext_in. intros a Ia.
      assert (Na : ~ In new (ed_surfind a)).
      { intros I. assert (H : ES m (ed_index a) new) by (exists a; auto). apply M3 in H; [|lia]. destruct H as [t [It [Et _]]].
        apply (Fresh t It Et). }
      unfold redirected. destruct (_ && _).
      - simpl. apply replace_parent; auto.
      - apply map_unmoved. intros x Ix. destruct (Z.eqb_spec x new) as [->|]; auto. contradiction. }
    split; [exists [new]; simpl; rewrite I1; exact I0|].
    split.
    { intros i H. destruct (Z.eqb_spec i new) as [->|]; auto. destruct H. exists t1. split; auto. simpl. unfold ss1.
      rewrite skipn_upd_app. simpl. auto. }
    split.
    { intros t It. simpl in It. unfold ss1 in It. apply in_app_iff in It as [It|[<-|[]]].
      - destruct (@In_upd_other _ su_index _ _ (su_set_edgeind l s) _ s Us Hn eq_refl It) as [->|[Ia Da]].
        + exists s. split; auto. cbn [su_index su_set_edgeind su_border su_voluind]. fold old. destruct (Z.eqb_spec old new); [contradiction|auto].
        + exists t. split; auto. destruct (Z.eqb_spec (su_index t) new) as [E|]; [destruct (Fresh t Ia E)|auto].
      - exists s. split; auto. simpl. rewrite Z.eqb_refl. auto. }
    assert (NS : forall e, ~ SE m new e) by (intros e [t [It [Et _]]]; apply (Fresh t It Et)).
    split.
    { intros x e. split.
      - intros H. destruct (Z.eq_dec x old) as [->|D].
        + destruct (in_dec Z.eq_dec e l) as [L|L].
          * exists old. split; [destruct (Z.eqb_spec old new); [contradiction|auto]|]. apply QS. auto.
          * exists new. split; [rewrite Z.eqb_refl; auto|]. apply QS. right. right. split; auto. apply Hrest. split; auto. apply Own; auto.
        + exists x. split; [destruct (Z.eqb_spec x new) as [->|]; auto; destruct (NS e H)|]. apply QS. auto.
      - intros [t [Et H]]. apply QS in H as [[H1 H2]|[[-> H1]|[-> H1]]].
        + destruct (Z.eqb_spec t new) as [E|]; [rewrite E in H2; destruct (NS e H2)|rewrite <- Et; auto].
        + destruct (Z.eqb_spec old new); [contradiction|]. subst x. apply Own, Hl, H1.
        + rewrite Z.eqb_refl in Et. subst x. apply Own. apply Hrest in H1. tauto. }
    intros t u e Ht Hu E. apply QS in Ht. apply QS in Hu.
    destruct (Z.eqb_spec t new) as [->|Dt], (Z.eqb_spec u new) as [->|Du]; auto.
    - destruct Ht as [[_ H]|[[H _]|[_ H]]]; [destruct (NS e H)|congruence|].
      destruct Hu as [[H1 _]|[[_ H1]|[H1 _]]]; [congruence| |contradiction]. apply Hrest in H. tauto.
    - destruct Hu as [[_ H]|[[H _]|[_ H]]]; [destruct (NS e H)|congruence|].
      destruct Ht as [[H1 _]|[[_ H1]|[H1 _]]]; [congruence| |contradiction]. apply Hrest in H. tauto. }
  split; [reflexivity|exact Cr].
Qed.

(** Naming the new surface once more in its volumes. *)
Lemma volu_push_ok new v ws : NoDup (map vo_index ws) -> (v <> 0 -> lists vo_index vo_surfind ws v new) -> ~ In 0 (map vo_index ws) ->
  exists ws', volu_push new v ws = Ok ws' /\
    map (fun v => (vo_index v, vo_border v)) ws' = map (fun v => (vo_index v, vo_border v)) ws /\
    (forall u x, lists vo_index vo_surfind ws' u x <-> lists vo_index vo_surfind ws u x).
Proof.
  intros N H Z0. unfold volu_push. destruct (Z.eqb_spec (find vo_index ws v) (-1)) as [E|E].
  - exists ws. repeat split; auto.
  - assert (Hv : In v (map vo_index ws)).
    { destruct (find_spec vo_index ws v) as [[F _]|[j [a [F1 [F2 F3]]]]]; [contradiction|].
      rewrite <- F3. apply in_map. eapply nth_error_In; eauto. }
    assert (v <> 0) by (intros ->; contradiction).
    rewrite modify_find by auto. eexists. split; [reflexivity|]. split.
    + unfold on. apply map_same. intros a _. destruct (_ =? _); auto.
    + intros u x. rewrite (@lists_pushed _ vo_index vo_surfind vo_set_surfind ltac:(reflexivity) ltac:(reflexivity)) by auto.
      split; [intros [L|[-> [<-|[]]]]; auto|auto].
Qed.
Lemma volus_same m ws : well_connected m ->
  map (fun v => (vo_index v, vo_border v)) ws = map (fun v => (vo_index v, vo_border v)) (volus m) ->
  (forall u x, lists vo_index vo_surfind ws u x <-> VS m u x) ->
  let m' := mkMesh ws (surfs m) (edges m) (verts m) (meshDim m) in
  well_connected m' /\ parts_of (fun x => x) m m'.
Proof.
  intros [[Uv [Us [Ue [Un [Zv [Zs [Ze Zn]]]]]]] [[M1 [M2 [M3 [M4 [M5 M6]]]]] [X1 [X2 [X3 [X4 X5]]]]]] E L m'.
  assert (VI : map vo_index ws = map vo_index (volus m)) by exact (@map_fst2 _ _ _ _ _ _ _ E).
  split.
  - split; [|split].
    + split; [simpl; rewrite VI; auto|]. split; [exact Us|]. split; [exact Ue|]. split; [exact Un|].
      split; [intros H; apply Zv, has_volu_In; rewrite <- VI; apply has_volu_In in H; exact H|].
      split; [exact Zs|]. split; [exact Ze|exact Zn].
    + split; [exact M1|]. split; [exact M2|]. split; [exact M3|]. split; [exact M4|].
      split; [intros s v H H0; apply L, M5; auto|intros s v H H0; apply L in H; apply M6; auto].
    + split; [exact X1|]. split; [exact X2|]. split; [exact X3|]. split; [intros v H; apply L in H; apply (X4 v); auto|].
      intros H. apply X5. intros V. apply H. simpl. rewrite V in VI. destruct ws; [auto|discriminate].
  - split; [reflexivity|]. split; [reflexivity|]. split; [exact E|]. split; [reflexivity|].
    split; [simpl; apply map_ext; intros; apply map_id|]. split; [exists []; rewrite app_nil_r; reflexivity|]. split; [auto|].
    split; [intros t It; exists t; auto|]. split; [|auto].
    intros s e. split; [intros H; exists s; auto|intros [t [<- H]]; auto].
Qed.
Lemma volus_push_ok m new n s : well_connected m -> sided m -> nth_error (surfs m) n = Some s ->
  (forall v, In v (su_voluind s) -> SV m new v) ->
  exists ws, volus_push new (Z.of_nat n) m = Ok (mkMesh ws (surfs m) (edges m) (verts m) (meshDim m)) /\
    well_connected (mkMesh ws (surfs m) (edges m) (verts m) (meshDim m)) /\
    parts_of (fun x => x) m (mkMesh ws (surfs m) (edges m) (verts m) (meshDim m)).
Proof.
  intros W SD Hn HV. pose proof W as [[Uv [_ [_ [_ [Zv _]]]]] [[_ [_ [_ [_ [M5 _]]]]] _]].
  assert (ZV : ~ In 0 (map vo_index (volus m))) by (intros H; apply Zv, has_volu_In; auto).
  unfold volus_push. destruct (Z.ltb_spec 2 (meshDim m)) as [D|D].
  - rewrite (at_nth _ _ Hn). cbn [bind]. destruct SD as [_ SD].
    specialize (SD D s (nth_error_In _ _ Hn)). destruct (su_voluind s) as [|v0 [|v1 r]] eqn:E; simpl in SD; try lia.
    change (at_ (v0 :: v1 :: r) 0) with (Ok v0). change (at_ (v0 :: v1 :: r) 1) with (Ok v1). cbn [bind].
    destruct (@volu_push_ok new v0 (volus m) Uv) as [w0 [R0 [K0 L0]]]; auto.
    { intros Hz. apply M5; auto. apply HV. simpl. auto. }
    rewrite R0. cbn [bind].
    assert (VI0 : map vo_index w0 = map vo_index (volus m)) by exact (@map_fst2 _ _ _ _ _ _ _ K0).
    destruct (@volu_push_ok new v1 w0) as [w1 [R1 [K1 L1]]]; [rewrite VI0; auto| |rewrite VI0; auto|].
    { intros Hz. apply L0. apply M5; auto. apply HV. simpl. auto. }
    rewrite R1. cbn [bind]. exists w1. split; auto. apply volus_same; auto; [congruence|].
    intros u x. rewrite L1. apply L0.
  - exists (volus m). assert (E : mkMesh (volus m) (surfs m) (edges m) (verts m) (meshDim m) = m) by (destruct m; reflexivity).
    split; [rewrite E; auto|]. apply volus_same; auto. intros; reflexivity.
Qed.

Lemma sided_parts p m m' : parts_of p m m' -> sided m -> sided m'.
Proof.
  intros (A1 & A2 & A3 & A4 & A5 & [more A6] & A7 & A8 & A9 & A10) [S1 S2]. split.
  - intros t v [u [Iu [Eu Hv]]]. destruct (A8 u Iu) as [s [Is [_ [_ E]]]]. apply (S1 (su_index s) v). exists s. rewrite <- E. auto.
  - rewrite A2. intros D t It. destruct (A8 t It) as [s [Is [_ [_ E]]]]. rewrite E. auto.
Qed.
