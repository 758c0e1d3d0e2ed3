(** Lemmas about the domain given to tetgen: renumbered meshes stay consistent, and the
    copies made by BuildCutCellDomain. *)
From Coq Require Import Reals List ZArith Lia.
From Verif Require Import Base Containers ContainersProofs Mesh SpecMesh MergeProofs MeshCheck Voxel VoxelProofs VoxelFaceProofs FloatQuot FloatQuotProofs.
Import ListNotations.
Set Implicit Arguments.
Open Scope Z_scope.

(** ** Renumbering *)
(** A mesh without references whose greatest indices are given. *)
Definition bare (dv de ds dc : Z) : mesh := mkMesh
  (if 0 <? dc then [mkVolu dc false []] else []) (if 0 <? ds then [mkSurf ds false false [] []] else [])
  (if 0 <? de then [mkEdge de false [] []] else []) (if 0 <? dv then [mkVert dv false []] else []) 3.
Lemma bare_refs A (idx : A -> Z) get d a i x : get a = [] -> lists idx get (if 0 <? d then [a] else []) i x -> False.
Proof. intros G [b [Hb [_ Hx]]]. destruct (0 <? d); [destruct Hb as [<-|[]]; rewrite G in Hx; destruct Hx|destruct Hb]. Qed.
Lemma bare_none dv de ds dc i x : let m := bare dv de ds dc in
  ~ VE m i x /\ ~ EV m i x /\ ~ ES m i x /\ ~ SE m i x /\ ~ SV m i x /\ ~ VS m i x.
Proof.
  cbn zeta. unfold VE, EV, ES, SE, SV, VS, bare. cbn [volus surfs edges verts].
  split; [|split; [|split; [|split; [|split]]]]; intros H; (eapply bare_refs; [|exact H]); reflexivity.
Qed.
Lemma bare_max A (idx : A -> Z) d a : 0 <= d -> idx a = d -> max_index idx (if 0 <? d then [a] else []) = d.
Proof. intros D E. destruct (Z.ltb_spec 0 d); [rewrite max_index_cons; cbn; lia|cbn; lia]. Qed.
Lemma bare_nodup A (idx : A -> Z) d (a : A) : NoDup (map idx (if 0 <? d then [a] else [])).
Proof. destruct (0 <? d); cbn; repeat constructor; intros []. Qed.
Lemma bare_pos A (idx : A -> Z) d a : idx a = d -> ~ (exists b, In b (if 0 <? d then [a] else []) /\ idx b = 0).
Proof. intros E [b [Hb Eb]]. destruct (Z.ltb_spec 0 d); [destruct Hb as [<-|[]]; lia|destruct Hb]. Qed.
Lemma bare_wc dv de ds dc : well_connected (bare dv de ds dc).
Proof.
  pose proof (bare_none dv de ds dc) as N. cbn zeta in N.
  split; [|split].
  - unfold unique_indices. repeat apply conj; try apply bare_nodup; apply bare_pos; reflexivity.
  - unfold mutual. split; [|split; [|split; [|split; [|split]]]]; intros a b H; exfalso; pose proof (N a b); pose proof (N b a); tauto.
  - unfold exterior_only. split; [|split; [|split; [|split]]].
    + intros i H. specialize (N i 0). tauto.
    + intros i H. specialize (N i 0). tauto.
    + intros i H. specialize (N i 0). tauto.
    + intros i H. specialize (N i 0). tauto.
    + intros _ i H. specialize (N i 0). tauto.
Qed.

Section Change.
Variable m : mesh.
Variables dv de ds dc : Z.
Hypothesis W : well_connected m.
Hypothesis P : positive_indices m.
Hypotheses (Dv : 0 <= dv) (De : 0 <= de) (Ds : 0 <= ds) (Dc : 0 <= dc).
Let m' := change_indices dv de ds dc m.
Let a := bare dv de ds dc.
Lemma change_bare : make_compatible a m = m'.
Proof using All. unfold make_compatible, m', a, bare. cbn [volus surfs edges verts]. rewrite !bare_max; auto. Qed.
Lemma change_pos : positive_indices m'.
Proof using All.
  destruct (has_all_pos P) as [P1 [P2 [P3 P4]]]. destruct P as [_ Q]. unfold m', change_indices. split.
  - unfold has_volu, has_surf, has_edge, has_vert. cbn [volus surfs edges verts].
    intros i [[x [H E]]|[[x [H E]]|[[x [H E]]|[x [H E]]]]]; apply in_map_iff in H; destruct H as [y [<- H]]; cbn in E.
    + specialize (P1 y H). lia.
    + specialize (P2 y H). lia.
    + specialize (P3 y H). lia.
    + specialize (P4 y H). lia.
  - assert (S : forall d x, 0 <= d -> 0 <= x -> 0 <= shift_pos d x) by (intros d x D X; unfold shift_pos; destruct (0 <? x); lia).
    unfold VE, EV, ES, SE, SV, VS in *. cbn [volus surfs edges verts].
    intros i x H.
    destruct H as [H|[H|[H|[H|[H|H]]]]]; destruct H as [y [Hy [Ey Hx]]]; apply in_map_iff in Hy; destruct Hy as [z [<- Hz]]; cbn in Hx;
      apply in_map_iff in Hx; destruct Hx as [w [<- Hw]].
    + enough (0 <= w) by lia. apply (Q (ve_index z)). left. apply in_lists; auto.
    + enough (0 <= w) by lia. apply (Q (ed_index z)). right; left. apply in_lists; auto.
    + apply S; auto. apply (Q (ed_index z)). right; right; left. apply in_lists; auto.
    + enough (0 <= w) by lia. apply (Q (su_index z)). right; right; right; left. apply in_lists; auto.
    + apply S; auto. apply (Q (su_index z)). right; right; right; right; left. apply in_lists; auto.
    + apply S; auto. apply (Q (vo_index z)). right; right; right; right; right. apply in_lists; auto.
Qed.
Lemma change_unique : unique_indices m'.
Proof using All.
  destruct W as [[U1 [U2 [U3 [U4 _]]]] _].
  assert (Q : forall A (idx : A -> Z) f d l, (forall x, idx (f x) = idx x + d) -> NoDup (map idx l) -> NoDup (map idx (map f l))).
  { intros A idx f d l F N. rewrite map_map. rewrite (map_ext _ (fun x => idx x + d) F). rewrite <- (map_map idx (fun z => z + d)).
    apply FinFun.Injective_map_NoDup; auto. intros x y; lia. }
  destruct change_pos as [Z0 _].
  unfold unique_indices. split; [apply (@Q _ _ _ dc); auto|]. split; [apply (@Q _ _ _ ds); auto|]. split; [apply (@Q _ _ _ de); auto|]. split; [apply (@Q _ _ _ dv); auto|].
  split; [|split; [|split]]; intros H.
  - specialize (Z0 0 (or_introl H)). lia.
  - specialize (Z0 0 (or_intror (or_introl H))). lia.
  - specialize (Z0 0 (or_intror (or_intror (or_introl H)))). lia.
  - specialize (Z0 0 (or_intror (or_intror (or_intror H)))). lia.
Qed.
Lemma change_mutual : mutual m'.
Proof using All.
  assert (M : mutual (concatenate a m')) by (rewrite <- change_bare; apply merged_mutual; auto; apply bare_wc).
  assert (L : forall i x, (VE (concatenate a m') i x <-> VE m' i x) /\ (EV (concatenate a m') i x <-> EV m' i x) /\ (ES (concatenate a m') i x <-> ES m' i x) /\
    (SE (concatenate a m') i x <-> SE m' i x) /\ (SV (concatenate a m') i x <-> SV m' i x) /\ (VS (concatenate a m') i x <-> VS m' i x)).
  { intros i x. pose proof (bare_none dv de ds dc i x) as N. cbn zeta in N. fold a in N. destruct N as [N1 [N2 [N3 [N4 [N5 N6]]]]].
    unfold VE, EV, ES, SE, SV, VS in *. unfold concatenate at 1 2 3 4 5 6. cbn [volus surfs edges verts].
    repeat split; intros H; try (apply MergeProofs.lists_app in H; destruct H; [contradiction|auto]); apply MergeProofs.lists_app; auto. }
  destruct M as [M1 [M2 [M3 [M4 [M5 M6]]]]].
  split; [|split; [|split; [|split; [|split]]]]; intros x y H N.
  - apply L. apply M1; auto. apply L; auto.
  - apply L. apply M2; auto. apply L; auto.
  - apply L. apply M3; auto. apply L; auto.
  - apply L. apply M4; auto. apply L; auto.
  - apply L. apply M5; auto. apply L; auto.
  - apply L. apply M6; auto. apply L; auto.
Qed.
Lemma change_exterior : exterior_only m'.
Proof using All.
  destruct W as [_ [_ [X1 [X2 [X3 [X4 X5]]]]]]. destruct P as [_ Q].
  assert (S : forall d x, 0 <= d -> 0 <= x -> shift_pos d x = 0 -> x = 0) by (intros d x D X; unfold shift_pos; destruct (Z.ltb_spec 0 x); lia).
  unfold exterior_only, VE, EV, ES, SE, SV, VS in *. unfold m', change_indices. cbn [volus surfs edges verts].
  split; [|split; [|split; [|split]]].
  - intros i [y [Hy [Ey Hx]]]. apply in_map_iff in Hy. destruct Hy as [z [<- Hz]]. cbn in Hx. apply in_map_iff in Hx. destruct Hx as [w [E Hw]].
    assert (J := in_lists ve_index ve_edgeind (verts m) z w Hz Hw). assert (0 <= w) by (apply (Q (ve_index z)); auto). assert (w = 0) by lia. subst w. exact (X1 _ J).
  - intros i [y [Hy [Ey Hx]]]. apply in_map_iff in Hy. destruct Hy as [z [<- Hz]]. cbn in Hx. apply in_map_iff in Hx. destruct Hx as [w [E Hw]].
    assert (J := in_lists ed_index ed_vertind (edges m) z w Hz Hw). assert (0 <= w) by (apply (Q (ed_index z)); auto). assert (w = 0) by lia. subst w. exact (X2 _ J).
  - intros i [y [Hy [Ey Hx]]]. apply in_map_iff in Hy. destruct Hy as [z [<- Hz]]. cbn in Hx. apply in_map_iff in Hx. destruct Hx as [w [E Hw]].
    assert (J := in_lists su_index su_edgeind (surfs m) z w Hz Hw). assert (0 <= w) by (apply (Q (su_index z)); auto 6). assert (w = 0) by lia. subst w. exact (X3 _ J).
  - intros i [y [Hy [Ey Hx]]]. apply in_map_iff in Hy. destruct Hy as [z [<- Hz]]. cbn in Hx. apply in_map_iff in Hx. destruct Hx as [w [E Hw]].
    assert (J := in_lists vo_index vo_surfind (volus m) z w Hz Hw). assert (0 <= w) by (apply (Q (vo_index z)); auto 8). assert (w = 0) by (apply (S ds); auto). subst w. exact (X4 _ J).
  - intros N i [y [Hy [Ey Hx]]]. apply in_map_iff in Hy. destruct Hy as [z [<- Hz]]. cbn in Hx. apply in_map_iff in Hx. destruct Hx as [w [E Hw]].
    assert (J := in_lists ed_index ed_surfind (edges m) z w Hz Hw). assert (0 <= w) by (apply (Q (ed_index z)); auto 6). assert (w = 0) by (apply (S ds); auto). subst w.
    apply (X5 ltac:(intros V; apply N; rewrite V; reflexivity) _ J).
Qed.
Lemma change_wc : well_connected m'.
Proof using All. split; [apply change_unique|]. split; [apply change_mutual|apply change_exterior]. Qed.
End Change.

Lemma change_twice m a b c d a' b' c' d' : positive_indices m -> 0 <= c -> 0 <= d ->
  change_indices a' b' c' d' (change_indices a b c d m) = change_indices (a + a') (b + b') (c + c') (d + d') m.
Proof.
  intros [_ Q] C D. unfold VE, EV, ES, SE, SV, VS in Q.
  assert (S : forall u v x, 0 <= u -> 0 <= x -> shift_pos v (shift_pos u x) = shift_pos (u + v) x).
  { intros u v x U X. unfold shift_pos. destruct (Z.ltb_spec 0 x); [destruct (Z.ltb_spec 0 (x + u)); lia|]. destruct (Z.ltb_spec 0 x); lia. }
  assert (A : forall u v l, map (fun x => x + v) (map (fun x => x + u) l) = map (fun x => x + (u + v)) l) by (intros u v l; rewrite map_map; apply map_ext; intros; lia).
  unfold change_indices. cbn [volus surfs edges verts meshDim]. rewrite !map_map. f_equal; apply map_ext_in; intros z Hz.
  - unfold volu_change. cbn. f_equal; [lia|]. rewrite map_map. apply map_ext_in. intros x Hx. apply S; auto. apply (Q (vo_index z)). do 5 right. apply in_lists; auto.
  - unfold surf_change. cbn. rewrite A. f_equal; [lia|]. rewrite map_map. apply map_ext_in. intros x Hx. apply S; auto. apply (Q (su_index z)). do 4 right. left. apply in_lists; auto.
  - unfold edge_change. cbn. rewrite A. f_equal; [lia|]. rewrite map_map. apply map_ext_in. intros x Hx. apply S; auto. apply (Q (ed_index z)). do 2 right. left. apply in_lists; auto.
  - unfold vert_change. cbn. rewrite A. f_equal; lia.
Qed.

Lemma max_index_shift A (idx : A -> Z) f d l : l <> [] -> 0 <= d -> (forall x, In x l -> 0 < idx x) -> (forall x, idx (f x) = idx x + d) ->
  max_index idx (map f l) = max_index idx l + d.
Proof.
  intros N D Q F. induction l as [|x r IH]; [contradiction|]. cbn [map]. rewrite !max_index_cons, F.
  destruct r as [|y r]; [cbn; specialize (Q x (or_introl eq_refl)); lia|]. rewrite IH; [lia|discriminate|intros z Hz; apply Q; right; auto].
Qed.

(** ** Concatenation *)
Lemma concat_wc a b : well_connected a -> well_connected b -> positive_indices a -> positive_indices b -> volus a <> [] -> volus b <> [] ->
  well_connected (concatenate a (make_compatible a b)) /\ positive_indices (concatenate a (make_compatible a b)).
Proof.
  intros Wa Wb Pa Pb Va Vb.
  assert (Q : well_connected (make_compatible a b) /\ positive_indices (make_compatible a b)).
  { unfold make_compatible. split; [apply change_wc|apply change_pos]; auto; apply max_index_nonneg. }
  destruct Q as [Wc Pc]. set (b' := make_compatible a b) in *. split; [split; [|split]|].
  - apply merged_unique; auto; [apply Wa|apply Wb].
  - apply merged_mutual; auto.
  - destruct Wa as [_ [_ [X1 [X2 [X3 [X4 X5]]]]]]. destruct Wc as [_ [_ [Y1 [Y2 [Y3 [Y4 Y5]]]]]].
    specialize (X5 Va). assert (Vc : volus b' <> []) by (unfold b', make_compatible, change_indices; cbn [volus]; destruct (volus b); [contradiction|discriminate]). specialize (Y5 Vc).
    unfold exterior_only, VE, EV, ES, SE, SV, VS in *. unfold concatenate. cbn [volus surfs edges verts].
    split; [intros i H; apply MergeProofs.lists_app in H; destruct H as [H|H]; [exact (X1 _ H)|exact (Y1 _ H)]|].
    split; [intros i H; apply MergeProofs.lists_app in H; destruct H as [H|H]; [exact (X2 _ H)|exact (Y2 _ H)]|].
    split; [intros i H; apply MergeProofs.lists_app in H; destruct H as [H|H]; [exact (X3 _ H)|exact (Y3 _ H)]|].
    split; [intros i H; apply MergeProofs.lists_app in H; destruct H as [H|H]; [exact (X4 _ H)|exact (Y4 _ H)]|].
    intros _ i H. apply MergeProofs.lists_app in H. destruct H as [H|H]; [exact (X5 _ H)|exact (Y5 _ H)].
  - destruct Pa as [A1 A2]. destruct Pc as [C1 C2]. split.
    + intros i H. unfold has_volu, has_surf, has_edge, has_vert in *. unfold concatenate in H. cbn [volus surfs edges verts] in H.
      destruct H as [[x [H E]]|[[x [H E]]|[[x [H E]]|[x [H E]]]]]; apply in_app_iff in H; destruct H as [H|H].
      * apply A1. left. eauto.
      * apply C1. left. eauto.
      * apply A1. right; left. eauto.
      * apply C1. right; left. eauto.
      * apply A1. right; right; left. eauto.
      * apply C1. right; right; left. eauto.
      * apply A1. right; right; right. eauto.
      * apply C1. right; right; right. eauto.
    + intros i x H. unfold VE, EV, ES, SE, SV, VS in *. unfold concatenate in H. cbn [volus surfs edges verts] in H. rewrite !MergeProofs.lists_app in H.
      specialize (A2 i x). specialize (C2 i x). tauto.
Qed.

(** ** Copies of the cube *)
Definition cube : mesh := block_grid quot32 quot64 (1, 1, 1).
Lemma cube_div : cube = block_grid Z.div Z.div (1, 1, 1).
Proof. apply block_grid_same; [cbn; lia|apply quot32_exact|apply quot64_exact|cbn; lia]. Qed.
Lemma cube_wc : well_connected cube.
Proof. rewrite cube_div. apply grid_connected. cbn. lia. Qed.
Definition positiveb (m : mesh) : bool :=
  forallb (fun v => (0 <? vo_index v) && forallb (Z.leb 0) (vo_surfind v)) (volus m) &&
  forallb (fun v => (0 <? su_index v) && forallb (Z.leb 0) (su_voluind v) && forallb (Z.leb 0) (su_edgeind v)) (surfs m) &&
  forallb (fun v => (0 <? ed_index v) && forallb (Z.leb 0) (ed_surfind v) && forallb (Z.leb 0) (ed_vertind v)) (edges m) &&
  forallb (fun v => (0 <? ve_index v) && forallb (Z.leb 0) (ve_edgeind v)) (verts m).
Lemma positiveb_spec m : positiveb m = true -> positive_indices m.
Proof.
  unfold positiveb. rewrite !Bool.andb_true_iff, !forallb_forall. intros [[[H1 H2] H3] H4].
  assert (Q : forall l x, forallb (Z.leb 0) l = true -> In x l -> 0 <= x) by (intros l x F I; rewrite forallb_forall in F; apply F in I; apply Z.leb_le in I; exact I).
  split.
  - intros i [[x [H E]]|[[x [H E]]|[[x [H E]]|[x [H E]]]]]; subst i.
    + apply H1 in H. rewrite !Bool.andb_true_iff in H. apply Z.ltb_lt. tauto.
    + apply H2 in H. rewrite !Bool.andb_true_iff in H. apply Z.ltb_lt. tauto.
    + apply H3 in H. rewrite !Bool.andb_true_iff in H. apply Z.ltb_lt. tauto.
    + apply H4 in H. rewrite !Bool.andb_true_iff in H. apply Z.ltb_lt. tauto.
  - intros i x [H|[H|[H|[H|[H|H]]]]]; destruct H as [y [Hy [_ Hx]]].
    + apply H4 in Hy. rewrite !Bool.andb_true_iff in Hy. eapply Q; [|exact Hx]; tauto.
    + apply H3 in Hy. rewrite !Bool.andb_true_iff in Hy. eapply Q; [|exact Hx]; tauto.
    + apply H3 in Hy. rewrite !Bool.andb_true_iff in Hy. eapply Q; [|exact Hx]; tauto.
    + apply H2 in Hy. rewrite !Bool.andb_true_iff in Hy. eapply Q; [|exact Hx]; tauto.
    + apply H2 in Hy. rewrite !Bool.andb_true_iff in Hy. eapply Q; [|exact Hx]; tauto.
    + apply H1 in Hy. rewrite !Bool.andb_true_iff in Hy. eapply Q; [|exact Hx]; tauto.
Qed.
Lemma cube_pos : positive_indices cube.
Proof. rewrite cube_div. apply positiveb_spec. vm_compute. reflexivity. Qed.
Lemma cube_sizes : length (volus cube) = 1%nat /\ length (surfs cube) = 6%nat /\ length (edges cube) = 12%nat /\ length (verts cube) = 8%nat /\
  max_index vo_index (volus cube) = 1 /\ max_index su_index (surfs cube) = 6 /\ max_index ed_index (edges cube) = 12 /\ max_index ve_index (verts cube) = 8.
Proof. rewrite cube_div. vm_compute. repeat split. Qed.

Definition up (c : Z) (k : nat) : Z := c * (2 ^ Z.of_nat k - 1).
Definition copy (k : nat) : mesh := change_indices (up 8 k) (up 12 k) (up 6 k) (up 1 k) cube.
Lemma pow_pos k : 1 <= 2 ^ Z.of_nat k.
Proof. pose proof (Z.pow_pos_nonneg 2 (Z.of_nat k)). lia. Qed.
Lemma pow_S k : 2 ^ Z.of_nat (S k) = 2 * 2 ^ Z.of_nat k.
Proof. rewrite Nat2Z.inj_succ, Z.pow_succ_r by lia. reflexivity. Qed.
Lemma up_nonneg c k : 0 <= c -> 0 <= up c k.
Proof. intros C. unfold up. pose proof (pow_pos k). apply Z.mul_nonneg_nonneg; lia. Qed.
Lemma copy_wc k : well_connected (copy k) /\ positive_indices (copy k).
Proof. unfold copy. split; [apply change_wc|apply change_pos]; try apply cube_wc; try apply cube_pos; apply up_nonneg; lia. Qed.
Lemma copy_0 : copy 0 = cube.
Proof. unfold copy. rewrite cube_div. vm_compute. reflexivity. Qed.
Lemma copy_max k : max_index vo_index (volus (copy k)) = 1 * 2 ^ Z.of_nat k /\ max_index su_index (surfs (copy k)) = 6 * 2 ^ Z.of_nat k /\
  max_index ed_index (edges (copy k)) = 12 * 2 ^ Z.of_nat k /\ max_index ve_index (verts (copy k)) = 8 * 2 ^ Z.of_nat k.
Proof.
  destruct (has_all_pos cube_pos) as [P1 [P2 [P3 P4]]]. destruct cube_sizes as [L1 [L2 [L3 [L4 [M1 [M2 [M3 M4]]]]]]].
  pose proof (@up_nonneg 1 k). pose proof (@up_nonneg 6 k). pose proof (@up_nonneg 12 k). pose proof (@up_nonneg 8 k).
  unfold copy, change_indices. cbn [volus surfs edges verts].
  split; [|split; [|split]].
  - rewrite (@max_index_shift _ vo_index _ (up 1 k)); auto; [rewrite M1; unfold up; lia|intros E; rewrite E in L1; discriminate|lia].
  - rewrite (@max_index_shift _ su_index _ (up 6 k)); auto; [rewrite M2; unfold up; lia|intros E; rewrite E in L2; discriminate|lia].
  - rewrite (@max_index_shift _ ed_index _ (up 12 k)); auto; [rewrite M3; unfold up; lia|intros E; rewrite E in L3; discriminate|lia].
  - rewrite (@max_index_shift _ ve_index _ (up 8 k)); auto; [rewrite M4; unfold up; lia|intros E; rewrite E in L4; discriminate|lia].
Qed.
(** The mesh after [k] further steps. *)
Definition gathered (k : nat) (m : mesh) : Prop :=
  volus m = flat_map volus (map copy (seq 0 (S k))) /\ surfs m = flat_map surfs (map copy (seq 0 (S k))) /\
  edges m = flat_map edges (map copy (seq 0 (S k))) /\ verts m = flat_map verts (map copy (seq 0 (S k))) /\ meshDim m = 3.
Lemma copies_max A (idx : A -> Z) (get : mesh -> list A) c k : (forall k, max_index idx (get (copy k)) = c * 2 ^ Z.of_nat k) -> 0 <= c ->
  max_index idx (flat_map get (map copy (seq 0 (S k)))) = c * 2 ^ Z.of_nat k.
Proof.
  intros E C. induction k as [|k IH]; [cbn [seq map flat_map]; rewrite app_nil_r; apply E|].
  rewrite seq_S, map_app, flat_map_app, max_index_app, IH. cbn [Nat.add map flat_map]. rewrite app_nil_r, E. rewrite pow_S.
  pose proof (pow_pos k). nia.
Qed.
Lemma next_copy k m : gathered k m -> make_compatible m (copy k) = copy (S k).
Proof.
  intros [E1 [E2 [E3 [E4 _]]]]. unfold make_compatible. rewrite E1, E2, E3, E4.
  rewrite (@copies_max _ vo_index volus 1), (@copies_max _ su_index surfs 6), (@copies_max _ ed_index edges 12), (@copies_max _ ve_index verts 8); try lia; try (intros j; apply copy_max).
  unfold copy at 1. rewrite change_twice; [|apply cube_pos|apply up_nonneg; lia|apply up_nonneg; lia].
  unfold copy, up. rewrite pow_S. f_equal; ring.
Qed.
Lemma gathered_next k m : gathered k m -> gathered (S k) (concatenate m (copy (S k))).
Proof.
  intros [E1 [E2 [E3 [E4 E5]]]]. unfold gathered, concatenate. cbn [volus surfs edges verts meshDim]. rewrite E1, E2, E3, E4.
  rewrite (seq_S (S k) 0), map_app, !flat_map_app. cbn [Nat.add map flat_map]. rewrite !app_nil_r. auto.
Qed.
Lemma copy_volus k : volus (copy k) <> [].
Proof. destruct cube_sizes as [L _]. unfold copy, change_indices. cbn [volus]. intros E. apply map_eq_nil in E. rewrite E in L. discriminate. Qed.
Lemma gathered_0 : gathered 0 cube.
Proof. unfold gathered. cbn [seq map flat_map]. rewrite !app_nil_r, copy_0. repeat split. Qed.
