(** Splitting faces of a mesh in place (C111). *)
From Coq Require Import Reals Lia.
From Verif Require Import Base Containers Mesh Flood Edit Order MeshTri SplitSurf Flatten SpecMesh SpecOrder SpecMeshTri SpecSplitSurf SpecFlatten
  ContainersProofs MeshProofs OrderMeshProofs MeshCheck SplitSurfProofs WalkProofs FlattenProofs FlattenWhole PropsMeshTri.
From Verif Require Calc Triangulate SpecTriangulate PropsTriangulate.
Import Mesh.
Set Implicit Arguments.
Open Scope Z_scope.

(** ** The triangles of the chosen surfaces *)
Lemma polygonal_corners_of m ss : polygonal m -> (forall s, In s ss -> In s (surfs m)) -> exists vss, Forall2 (SpecTriangulate.outlined m) ss vss.
Proof.
  intros P. induction ss as [|s l IH]; intros H; [exists []; constructor|].
  destruct IH as [vss F]; [intros; apply H; simpl; auto|]. destruct (P s (H s (or_introl eq_refl))) as [N3 [vs [ND Po]]]. exists (vs :: vss). constructor; auto.
  split; [|split; auto]. destruct Po as [Q _]. rewrite Q. exact N3.
Qed.
Lemma picks_In A (all : list A) sub ss s : SpecTriangulate.picks all sub ss -> In s ss -> In s all.
Proof.
  unfold SpecTriangulate.picks. destruct sub as [|p r]; [intros ->; auto|]. intros F. induction F as [|q x l l' [_ H] F IH]; [intros []|].
  intros [<-|I]; [eapply nth_error_In; eauto|auto].
Qed.
Lemma chosen_tris m typ sub ss : typ = Calc.t_mesh \/ typ = Calc.t_snake -> well_connected m -> polygonal m -> SpecTriangulate.picks (surfs m) sub ss ->
  exists t', Triangulate.triangulate_container m typ sub Triangulate.no_tris = Ok t' /\
    let ts := map of_face (Triangulate.items (SpecTriangulate.tri_array typ t')) in
    legal_tris m ts /\ (forall i, to_split ts i <-> exists s, In s ss /\ su_index s = i /\ (3 < length (su_edgeind s))%nat).
Proof.
  intros Ht W P Hpk. assert (Hss : forall s, In s ss -> In s (surfs m)) by (intros s; apply (@picks_In _ (surfs m) sub ss s Hpk)).
  destruct (@polygonal_corners_of m ss P Hss) as [vss Hv].
  destruct (@PropsTriangulate.C89_surfaces m typ sub Triangulate.no_tris ss vss) as (t' & parts & E & (_ & X & _) & Lp & D); auto; [apply W|].
  set (ts := map of_face (Triangulate.items (SpecTriangulate.tri_array typ t'))).
  assert (Xi : Triangulate.items (SpecTriangulate.tri_array typ t') = concat (map fst parts)).
  { rewrite X. destruct Ht as [-> | ->]; reflexivity. }
  assert (Hin : forall t, In t ts <-> exists i s vs p f, nth_error ss i = Some s /\ nth_error vss i = Some vs /\ nth_error parts i = Some p /\ In f (fst p) /\ t = of_face f).
  { intros t. unfold ts. rewrite Xi, in_map_iff. split.
    - intros [f [<- F]]. apply in_concat in F. destruct F as [fs [F1 F2]]. apply in_map_iff in F1. destruct F1 as [p [<- F1]]. destruct (In_nth_error _ _ F1) as [i Hi].
      assert (exists s, nth_error ss i = Some s) as [s Hs]. { destruct (nth_error ss i) as [s|] eqn:Q; [eauto|]. apply nth_error_None in Q. assert (i < length parts)%nat by (apply nth_error_Some; congruence). lia. }
      destruct (Forall2_nth Hv _ Hs) as [vs [Q _]]. exists i, s, vs, p, f. auto.
    - intros (i & s & vs & p & f & _ & _ & Hp & Hf & ->). exists f. split; auto. apply in_concat. exists (fst p). split; auto. apply List.in_map. eapply nth_error_In; eauto. }
  assert (Hsplit : forall i, to_split ts i <-> exists s, In s ss /\ su_index s = i /\ (3 < length (su_edgeind s))%nat).
  { intros i. split.
    - intros [t [Ht1 [Ht2 Ht3]]]. apply Hin in Ht1. destruct Ht1 as (k & s & vs & p & f & K1 & K2 & K3 & K4 & ->). destruct (D k s vs p K1 K2 K3) as [[Hp [[L3 [M _]]|[L3 _]]] _].
      + exfalso. rewrite map_length in L3. assert (Hf : In (Calc.tri_pts (Triangulate.fc_tri f)) [map (pair typ) vs]) by (rewrite <- M; apply List.in_map_iff; eauto).
        destruct Hf as [Hf|[]]. unfold of_face in Ht2. rewrite <- Hf in Ht2. rewrite mixed_plain in Ht2; auto. discriminate Ht2.
      + exists s. split; [eapply nth_error_In; eauto|]. split; [rewrite <- Ht3; symmetry; apply Hp; auto|]. destruct (Forall2_nth Hv _ K1) as [vs' [Q [_ [_ [Q2 _]]]]]. assert (vs' = vs) by congruence. subst. rewrite map_length in L3. lia.
    - intros [s [Hs [<- L3]]]. destruct (In_nth_error _ _ Hs) as [k K1]. destruct (Forall2_nth Hv _ K1) as [vs [K2 [_ [_ [Q2 _]]]]].
      assert (exists p, nth_error parts k = Some p) as [p K3]. { destruct (nth_error parts k) as [p|] eqn:Q; [eauto|]. apply nth_error_None in Q. assert (k < length ss)%nat by (apply nth_error_Some; congruence). lia. }
      destruct (D k s vs p K1 K2 K3) as [[Hp [[L4 _]|[_ [L4 [c [_ [_ [_ Hf]]]]]]]] _]; [rewrite map_length in L4; lia|].
      destruct (fst p) as [|f fs] eqn:Ef; [rewrite map_length in L4; simpl in L4; lia|]. exists (of_face f). split; [apply Hin; exists k, s, vs, p, f; rewrite Ef; simpl; auto 7|].
      destruct (Hf 0%nat f eq_refl) as [a [b [A1 [A2 A3]]]]. rewrite nth_error_map in A1, A2. destruct (nth_error vs 0) as [va|]; [|discriminate A1]. cbn [option_map] in A1. injection A1 as <-.
      match type of A2 with option_map _ ?o = _ => destruct o as [vb|]; [|discriminate A2] end. cbn [option_map] in A2. injection A2 as <-.
      split; [unfold of_face; rewrite A3; apply mixed_fan; auto|]. apply Hp. simpl. auto. }
  assert (L : legal_tris m ts).
  { intros t Ht1 Ht2. pose proof Ht1 as Ht0. apply Hin in Ht1. destruct Ht1 as (k & s & vs & p & f & K1 & K2 & K3 & K4 & ->). destruct (D k s vs p K1 K2 K3) as [[Hp C] _].
    split; [exists s; split; [apply Hss; eapply nth_error_In; eauto|]; symmetry; apply Hp; auto|]. destruct C as [[L3 [M _]]|[L3 [L4 [c [_ [_ [_ Hf]]]]]]].
    - exfalso. rewrite map_length in L3. assert (Hf : In (Calc.tri_pts (Triangulate.fc_tri f)) [map (pair typ) vs]) by (rewrite <- M; apply List.in_map_iff; eauto).
      destruct Hf as [Hf|[]]. unfold of_face in Ht2. rewrite <- Hf in Ht2. rewrite mixed_plain in Ht2; auto. discriminate Ht2.
    - destruct (In_nth_error _ _ K4) as [j J]. destruct (Hf j f J) as [a [b [_ [_ A3]]]]. exists (Calc.t_tri, Triangulate.cn_index c). split; [|reflexivity]. unfold of_face. cbn [tr_points]. rewrite A3. simpl. auto. }
  exists t'. split; auto.
Qed.

(** ** Splitting any choice of surfaces *)
Lemma two_ended_split m m1 ts F from : two_ended m -> well_connected m1 -> kept m m1 -> fans_for m m1 ts F from -> two_ended m1.
Proof.
  intros T [[_ [_ [Ue _]]] _] [_ [[l K] _]] [_ [_ [_ [_ [_ [Fe _]]]]]] x Ix.
  destruct (Fe (ed_index x)) as [[e [Ie Ee]]|[f [c [_ [_ J]]]]]; [exists x; auto| |].
  - assert (Q : In (ed_index e, ed_vertind e) (map (fun e => (ed_index e, ed_vertind e)) (edges m1))).
    { rewrite K. apply in_or_app. left. apply in_map_iff. exists e. auto. }
    apply in_map_iff in Q. destruct Q as [y [Q Iy]]. injection Q as Q1 Q2.
    assert (y = x) by (apply (@NoDup_idx_inj _ ed_index (edges m1)); auto; congruence). subst y. rewrite Q2. apply T. auto.
  - destruct J as [[y [Iy [Ey Ev]]]|[y [Iy [Ey Ev]]]]; assert (y = x) by (apply (@NoDup_idx_inj _ ed_index (edges m1)); auto); subst y; rewrite Ev; simpl; lia.
Qed.
Lemma split_faces_ok table m sub ss cap1 cap2 cap3 : (forall l, is_table l (table l)) -> well_connected m -> polygonal m -> two_ended m ->
  SpecTriangulate.picks (surfs m) sub ss ->
  exists m1 ts from m' F N, (forall fuel, (N <= fuel)%nat -> split_faces table fuel cap1 cap2 cap3 m sub = Ok m') /\
    (kept m m1 /\ fans_for m m1 ts F from /\
     (forall i, to_split ts i <-> exists s, In s ss /\ su_index s = i /\ (3 < length (su_edgeind s))%nat) /\ rearranged m1 m') /\
    well_connected m1 /\ polygonal m1 /\ well_connected m' /\ all_in_order m'.
Proof.
  intros Ht W P T Hp. destruct (@chosen_tris m Calc.t_mesh sub ss (or_introl eq_refl) W P Hp) as (t & E & L & Hs).
  destruct (@C108_split m _ W P L) as (m1 & from & F & E2 & W1 & P1 & K & Fa).
  assert (T1 : two_ended m1) by (eapply two_ended_split; eauto).
  destruct (@settle table m1 cap1 cap2 cap3 Ht W1 P1 T1) as (m' & E3 & R & W' & O').
  exists m1, (map of_face (Triangulate.items (SpecTriangulate.tri_array Calc.t_mesh t))), from, m', F, (S (length (surfs m1))).
  split; [|split; [|split; auto]].
  - intros fuel Hf. unfold split_faces. rewrite E. cbn [bind]. change (Triangulate.t_stat t) with (SpecTriangulate.tri_array Calc.t_mesh t). rewrite E2. cbn [bind fst].
    apply E3. lia.
  - auto.
Qed.
Lemma polygonal_outlined m s : polygonal m -> In s (surfs m) -> exists vs, SpecTriangulate.outlined m s vs.
Proof.
  intros P I. destruct (P s I) as [N3 [vs [ND Po]]]. exists vs. split; [|split; auto]. destruct Po as [-> _]. exact N3.
Qed.
(** A surface of the result comes from a surface of the same length. *)
Lemma same_length m1 m' t : well_connected m1 -> polygonal m1 -> rearranged m1 m' -> all_in_order m' -> In t (surfs m') ->
  exists s, In s (surfs m1) /\ su_index s = su_index t /\ su_border s = su_border t /\ (forall e, In e (su_edgeind t) <-> In e (su_edgeind s)) /\
    length (su_edgeind t) = length (su_edgeind s).
Proof.
  intros W1 P1 R O It. destruct (@rearranged_surf m1 m' t R W1 It) as (s & Is & Ei & Eb & Ie & _). exists s. split; auto. split; auto. split; auto. split; auto.
  destruct (@polygonal_outlined m1 s P1 Is) as [vs Ov]. assert (N1 : NoDup (su_edgeind s)) by (apply (@outline_NoDup m1 s vs); auto; apply W1).
  destruct (O t It) as [_ [Nt _]]. apply Nat.le_antisymm; apply NoDup_incl_length; auto; intros e He; apply Ie; auto.
Qed.
Lemma fan_three m m1 ts F from s : fans_for m m1 ts F from -> In s (surfs m1) -> length (su_edgeind s) = 3%nat \/ (In s (surfs m) /\ ~ to_split ts (su_index s)).
Proof.
  intros (_ & _ & F3 & F4 & _) Is. apply F4 in Is. destruct Is as [Is|[f [Hf Is]]]; [right; auto|left].
  destruct (F3 f Hf) as [_ [_ [_ [_ [_ [_ Q]]]]]]. destruct (In_nth_error _ _ Is) as [k Hk]. destruct (Q k s Hk) as [_ [_ [_ [a [b [e [x [y [-> _]]]]]]]]]. reflexivity.
Qed.

(** C111: TriangulateAllFaces. Any consistent mesh of polygons becomes a consistent mesh of
    triangles, each marked ordered and listed in order: the surfaces of four edges or more
    become fans of triangles, the others keep their edges and cells, and no other object is
    added or removed. *)
Theorem C111_all table m cap1 cap2 cap3 : (forall l, is_table l (table l)) -> well_connected m -> polygonal m -> two_ended m ->
  exists m' F N, (forall fuel, (N <= fuel)%nat -> triangulate_all_faces table fuel cap1 cap2 cap3 m = Ok m') /\
    faces_split m m' (fun i => exists s, In s (surfs m) /\ su_index s = i /\ (3 < length (su_edgeind s))%nat) F /\
    well_connected m' /\ all_in_order m' /\ (forall t, In t (surfs m') -> length (su_edgeind t) = 3%nat).
Proof.
  intros Ht W P T. destruct (@split_faces_ok table m [] (surfs m) cap1 cap2 cap3 Ht W P T eq_refl) as (m1 & ts & from & m' & F & N & E & FS & W1 & P1 & W' & O).
  exists m', F, N. split; auto. split; [exists m1, ts, from; exact FS|]. split; auto. split; auto.
  intros t It. destruct FS as (K & Fa & Hc & R). destruct (@same_length m1 m' t W1 P1 R O It) as (s & Is & _ & _ & _ & ->).
  destruct (@fan_three m m1 ts F from s Fa Is) as [L3|[I0 Q]]; auto.
  destruct (P s I0) as [N3 _]. assert (~ (3 < length (su_edgeind s))%nat) by (intros B; apply Q, Hc; exists s; auto). lia.
Qed.
Print Assumptions C111_all.

(** ** Faces that are not flat *)
(** Edges that are kept have the same ends. *)
Definition edge_ends_kept (m m1 : mesh) : Prop :=
  exists l, map (fun e => (ed_index e, ed_vertind e)) (edges m1) = map (fun e => (ed_index e, ed_vertind e)) (edges m) ++ l.
Lemma kept_touches m m1 e v : well_connected m1 -> edge_ends_kept m m1 -> has_edge m e -> (edge_touches m1 e v <-> edge_touches m e v).
Proof.
  intros [[_ [_ [Ue _]]] _] [l K] [x [Ix Ex]].
  assert (Q : In (ed_index x, ed_vertind x) (map (fun e => (ed_index e, ed_vertind e)) (edges m1))) by (rewrite K; apply in_or_app; left; apply in_map_iff; exists x; auto).
  apply in_map_iff in Q. destruct Q as [y [Q Iy]]. injection Q as Q1 Q2.
  assert (Y : forall a b, edge_is m e a b <-> edge_is m1 e a b).
  { intros a b. split; intros [z [Iz [Ez Vz]]].
    - assert (Q : In (ed_index z, ed_vertind z) (map (fun e => (ed_index e, ed_vertind e)) (edges m1))) by (rewrite K; apply in_or_app; left; apply in_map_iff; exists z; auto).
      apply in_map_iff in Q. destruct Q as [w [Q Iw]]. injection Q as R1 R2. exists w. split; auto. split; congruence.
    - assert (z = y) by (apply (@NoDup_idx_inj _ ed_index (edges m1)); auto; congruence). subst z. exists x. split; auto. split; congruence. }
  unfold edge_touches, edge_joins. split; intros [w J]; exists w; (destruct J as [J|J]; [left|right]; apply Y; auto).
Qed.
Lemma polygonal_has m s e : polygonal m -> In s (surfs m) -> In e (su_edgeind s) -> has_edge m e.
Proof.
  intros P I He. destruct (@polygonal_outlined m s P I) as [vs O]. apply In_nth_error in He as [i Hi].
  destruct (@outline_at m s vs O i e Hi) as (a & b & _ & _ & [[x [Ix [Ex _]]]|[x [Ix [Ex _]]]]); exists x; auto.
Qed.

Lemma corner_iff m s vs v : NoDup (map ed_index (edges m)) -> SpecTriangulate.outlined m s vs -> (corner m s v <-> In v vs).
Proof.
  intros U O. split.
  - intros [e [I T]]. apply (@outline_vertex m s vs U O e v); auto.
  - intros I. destruct (@outline_pair m s vs U O v I) as (j & e & f & _ & _ & B & _ & _ & Tf & _). exists f. split; auto. eapply nth_error_In; eauto.
Qed.
Lemma is_flat_iff near m s v0 vs : NoDup (map ed_index (edges m)) -> SpecTriangulate.outlined m s (v0 :: vs) ->
  (is_flat near (v0 :: vs) = true <-> flat_at near m s v0).
Proof.
  intros U O. assert (N0 : NoDup (v0 :: vs)) by apply O. cbn [is_flat]. rewrite existsb_exists. split.
  - intros [k [Ik Hk]]. exists k. split; [simpl in Ik; lia|]. intros v Cv Nv. apply (@corner_iff m s (v0 :: vs)) in Cv; auto. destruct Cv as [Cv|Cv]; [congruence|].
    rewrite forallb_forall in Hk. auto.
  - intros [k [Hk H]]. exists k. split; [simpl; lia|]. apply forallb_forall. intros v Iv. apply H; [apply (@corner_iff m s (v0 :: vs)); simpl; auto|].
    intros ->. inversion N0; auto.
Qed.
Lemma outlined_fun m s vs vs' : NoDup (map ed_index (edges m)) -> SpecTriangulate.outlined m s vs -> NoDup vs' -> polygon (edge_joins m) (su_edgeind s) vs' -> vs' = vs.
Proof.
  intros U O N P. destruct O as [L3 [N2 P2]]. assert (3 <= length (su_edgeind s))%nat by (destruct P2 as [Q _]; lia).
  assert (A := @verts_of_polygon m _ vs U H N2 P2). assert (B := @verts_of_polygon m _ vs' U H N P). congruence.
Qed.
Lemma touch_vert m e v : well_connected m -> edge_touches m e v -> has_vert m v.
Proof.
  intros [_ [[M1 [M2 _]] [_ [X2 _]]]] [w J].
  assert (Ev : EV m e v). { destruct J as [[x [I [E V]]]|[x [I [E V]]]]; exists x; rewrite V; simpl; auto. }
  assert (v <> 0) by (intros ->; eapply X2; eauto). destruct (M2 v e Ev H) as [x [I [E _]]]. exists x. auto.
Qed.
Lemma is_bent_ok near m s : well_connected m -> polygonal m -> In s (surfs m) -> exists b, is_bent near m s = Ok b /\ (b = true <-> bent near m s).
Proof.
  intros W P I. assert (U : NoDup (map ed_index (edges m))) by apply W. unfold is_bent, bent. destruct (su_border s); cbn [andb].
  2:{ exists false. split; auto. split; [discriminate|]. intros [H _]. discriminate H. }
  destruct (Nat.ltb_spec 3 (length (su_edgeind s))) as [L|L].
  2:{ exists false. split; auto. split; [discriminate|]. intros [_ [H _]]. lia. }
  destruct (@polygonal_outlined m s P I) as [vs O]. destruct O as [L3 [N2 P2]].
  rewrite (@verts_of_polygon m _ vs U) by (auto; lia). cbn [bind].
  assert (O : SpecTriangulate.outlined m s vs) by (split; auto).
  assert (Hv : forall v, In v vs -> exists w, at_ (verts m) (find ve_index (verts m) v) = Ok w /\ ve_index w = v).
  { intros v Iv. destruct (@outline_pair m s vs U O v Iv) as (j & e & f & _ & _ & _ & _ & Te & _). destruct (touch_vert W Te) as [w [Iw Ew]].
    destruct (@find_at _ ve_index (verts m) v) as (a & Ea & _ & Ia); [exists w; auto|]. exists a. auto. }
  assert (Hm : exists ps, omap_list (at_ (verts m)) (find_list ve_index (verts m) vs) = Ok ps /\ map ve_index ps = vs).
  { unfold find_list. clear - Hv. induction vs as [|v r IH]; [exists []; auto|]. destruct (Hv v (or_introl eq_refl)) as [w [E Ew]].
    destruct IH as [ps [Q M]]; [intros; apply Hv; simpl; auto|]. exists (w :: ps). cbn [map omap_list]. rewrite E. cbn [bind]. rewrite Q. cbn [bind]. split; auto. simpl. congruence. }
  destruct Hm as [ps [Em Mp]]. rewrite Em. cbn [bind]. rewrite Mp. eexists. split; [reflexivity|]. destruct vs as [|v0 vs]; [simpl in L3; lia|].
  assert (Q := is_flat_iff near U O). rewrite Bool.negb_true_iff. split.
  - intros Hf. split; auto. split; auto. exists v0. split; [exists vs; auto|]. rewrite <- Q. congruence.
  - intros [_ [_ [w [[ws [Nw Pw]] Hn]]]]. assert (Z := outlined_fun U O Nw Pw). injection Z as -> ->. destruct (is_flat near (v0 :: vs)); auto. exfalso. apply Hn, Q. auto.
Qed.
Lemma bent_faces_ok near m : well_connected m -> polygonal m -> forall l pre, surfs m = pre ++ l ->
  exists sub ss, bent_faces near m (Z.of_nat (length pre)) l = Ok sub /\
    Forall2 (fun p s => 0 <= p /\ nth_error (surfs m) (Z.to_nat p) = Some s) sub ss /\ (forall s, In s ss <-> In s l /\ bent near m s).
Proof.
  intros W P. induction l as [|s l IH]; intros pre E; [exists [], []; split; [reflexivity|]; split; [constructor|]; intros s; split; [intros []|intros [[] _]]|].
  destruct (IH (pre ++ [s])) as (sub & ss & E1 & F2 & H); [rewrite <- app_assoc; auto|].
  assert (Is : In s (surfs m)) by (rewrite E; apply in_or_app; simpl; auto).
  destruct (@is_bent_ok near m s W P Is) as (b & Eb & Hb). cbn [bent_faces]. rewrite Eb. cbn [bind].
  replace (Z.of_nat (length pre) + 1) with (Z.of_nat (length (pre ++ [s]))) by (rewrite app_length; simpl; lia). rewrite E1. cbn [bind].
  destruct b.
  - exists (Z.of_nat (length pre) :: sub), (s :: ss). split; auto. split.
    + constructor; auto. split; [lia|]. rewrite Nat2Z.id, E, nth_error_app2, Nat.sub_diag by lia. reflexivity.
    + intros t. simpl. rewrite H. split; [intros [<-|[A B]]; [split; auto; apply Hb; auto|auto]|intros [[<-|A] B]; auto].
  - exists sub, ss. split; auto. split; auto. intros t. simpl. rewrite H. split; [intros [A B]; auto|]. intros [[<-|A] B]; auto. apply Hb in B. discriminate B.
Qed.
Lemma nothing_split m : faces_split m m (fun _ => False) [].
Proof.
  exists m, [], []. split; [repeat split; exists []; rewrite app_nil_r; reflexivity|]. split; [|split; [|apply rearranged_refl]].
  - split; [constructor|]. split; [intros i; split; [intros []|intros [t [[] _]]]|]. split; [intros f []|].
    split; [intros t; split; [intros H; left; split; auto; intros [x [[] _]]|intros [[H _]|[f [[] _]]]; auto]|].
    split; [rewrite app_nil_r; reflexivity|]. split; [auto|constructor].
  - intros i. split; [intros [t [[] _]]|intros []].
Qed.
Lemma faces_split_iff m m' P Q F : (forall i, P i <-> Q i) -> faces_split m m' P F -> faces_split m m' Q F.
Proof. intros H (m1 & ts & from & A & B & C & D). exists m1, ts, from. split; auto. split; auto. split; auto. intros i. rewrite C. apply H. Qed.
Lemma flat_same near m m' s t v0 : same_ends m m' -> (forall e, In e (su_edgeind t) <-> In e (su_edgeind s)) -> flat_at near m s v0 -> flat_at near m' t v0.
Proof.
  intros E I [k [Hk H]]. exists k. split; auto. intros v [e [Ie Te]] Nv. apply H; auto. exists e. split; [apply I; auto|]. apply (same_touches E). auto.
Qed.

(** C111: FlattenBoundaryFaces. Exactly the faces of the border of four edges or more that
    are not flat are split; every face of the border of the result has three edges or is
    flat.  Without such faces nothing changes. *)
Theorem C111_flatten table near m cap1 cap2 cap3 : (forall l, is_table l (table l)) -> well_connected m -> polygonal m -> two_ended m ->
  (forall s, In s (surfs m) -> su_ordered s = true) ->
  exists m' F N, (forall fuel, (N <= fuel)%nat -> flatten_boundary_faces table fuel cap1 cap2 cap3 near m = Ok m') /\
    faces_split m m' (fun i => exists s, In s (surfs m) /\ su_index s = i /\ bent near m s) F /\
    well_connected m' /\ all_in_order m' /\
    (forall t, In t (surfs m') -> su_border t = true -> length (su_edgeind t) = 3%nat \/ exists v0, corner m' t v0 /\ flat_at near m' t v0) /\
    ((forall s, In s (surfs m) -> ~ bent near m s) -> m' = m).
Proof.
  intros Ht W P T Ho. assert (U : NoDup (map ed_index (edges m))) by apply W.
  destruct (@bent_faces_ok near m W P (surfs m) [] eq_refl) as (sub & ss & E & F2 & H). change (Z.of_nat (length (@nil surf))) with 0 in E.
  assert (Flat : forall s, In s (surfs m) -> su_border s = true -> ~ bent near m s -> length (su_edgeind s) = 3%nat \/ exists v0, corner m s v0 /\ flat_at near m s v0).
  { intros s Is B N. destruct (P s Is) as [N3 _]. destruct (Nat.eq_dec (length (su_edgeind s)) 3) as [|N4]; auto. right.
    destruct (@polygonal_outlined m s P Is) as [[|v0 vs] O]; [destruct O as [L _]; simpl in L; lia|]. exists v0.
    split; [apply (@corner_iff m s (v0 :: vs)); simpl; auto|]. apply (@is_flat_iff near m s v0 vs U O).
    destruct (is_flat near (v0 :: vs)) eqn:Q; auto. exfalso. apply N. split; auto. split; [lia|]. exists v0. destruct O as [_ [N1 P1]].
    split; [exists vs; auto|]. rewrite <- (@is_flat_iff near m s v0 vs U); [congruence|]. split; auto. destruct P1 as [-> _]. lia. }
  unfold flatten_boundary_faces. rewrite E. cbn [bind]. destruct sub as [|p r].
  - inversion F2; subst. assert (Nb : forall s, In s (surfs m) -> ~ bent near m s) by (intros s Is B; apply (proj2 (H s)); auto).
    exists m, [], 0%nat. split; auto. split; [apply (@faces_split_iff m m (fun _ => False)); [|apply nothing_split]; intros i; split; [intros []|intros [s [Is [_ B]]]; apply (Nb s Is B)]|].
    split; auto. split; [|split; auto].
    intros t It. split; auto. destruct (@polygonal_outlined m t P It) as [vs O]. split; [apply (@outline_NoDup m t vs); auto|]. exists vs. split; apply O.
  - destruct (@split_faces_ok table m (p :: r) ss cap1 cap2 cap3 Ht W P T F2) as (m1 & ts & from & m' & F & N & E2 & FS & W1 & P1 & W' & O).
    assert (Hc : forall i, (exists s, In s ss /\ su_index s = i /\ (3 < length (su_edgeind s))%nat) <-> (exists s, In s (surfs m) /\ su_index s = i /\ bent near m s)).
    { intros i. split; intros [s [A [B C]]].
      - apply H in A. exists s. tauto.
      - exists s. split; [apply H; auto|]. split; auto. apply C. }
    exists m', F, N. split; auto. split; [apply (@faces_split_iff m m' _ _ F Hc); exists m1, ts, from; exact FS|].
    split; auto. split; auto. split.
    + intros t It Bt. destruct FS as (K & Fa & Hs & R). destruct (@same_length m1 m' t W1 P1 R O It) as (s & Is & Ei & Eb & Ie & L). rewrite L.
      destruct (@fan_three m m1 ts F from s Fa Is) as [L3|[I0 Q]]; auto.
      destruct (Flat s I0) as [L3|[v0 [C0 Fl]]]; auto; [congruence| |].
      * intros B. apply Q, Hs, Hc. exists s. auto.
      * right. exists v0. assert (G : edge_ends_kept m m1).
        { exact (proj1 (proj2 K)). }
        assert (J : forall e v, In e (su_edgeind s) -> (edge_touches m' e v <-> edge_touches m e v)).
        { intros e v He. rewrite (same_touches (rearranged_ends R) e v). apply (@kept_touches m m1 e v W1 G).
          apply (@polygonal_has m s e P I0 He). }
        split.
        -- destruct C0 as [e [He Te]]. exists e. split; [apply Ie; auto|]. apply J; auto.
        -- destruct Fl as [k [Hk Hf]]. exists k. split; auto. intros v [e [He Te]] Nv. apply Hf; auto. apply Ie in He. exists e. split; auto. apply J; auto.
    + intros Nb. exfalso. inversion F2 as [|q s l l' A B]; subst. assert (X : In s (s :: l')) by (simpl; auto). apply H in X. destruct X as [X1 X2]. apply (Nb s X1 X2).
Qed.
Print Assumptions C111_flatten.

(** The pyramid of C108: its square base is split; seen with a [near] that finds the base
    flat, nothing is. *)
Lemma pyramid_ends : two_ended pyramid.
Proof. intros e He. simpl in He. repeat destruct He as [<-|He]; simpl; lia. Qed.
Example C111_hyps : well_connected pyramid /\ polygonal pyramid /\ two_ended pyramid /\ (forall s, In s (surfs pyramid) -> su_ordered s = true).
Proof.
  destruct C108_hyps as [W [P _]]. split; auto. split; auto. split; [apply pyramid_ends|]. intros s Hs. simpl in Hs. repeat destruct Hs as [<-|Hs]; auto.
Qed.
(** The run of TriangulateAllFaces on it, the first part being over the reals. *)
Definition pyramid_b : mesh := mkMesh [mkVolu 1 true [1; 2; 3; 4; 5]] (surfs pyramid) (edges pyramid) (verts pyramid) 3.
Definition base_tris : list tri :=
  [mkTriangle 1 [(1, 1); (1, 2); (3, 2)]; mkTriangle 1 [(1, 2); (1, 3); (3, 2)]; mkTriangle 1 [(1, 3); (1, 4); (3, 2)]; mkTriangle 1 [(1, 4); (1, 1); (3, 2)]].
Definition side_tris : list tri :=
  [mkTriangle 2 [(1, 1); (1, 2); (1, 5)]; mkTriangle 3 [(1, 2); (1, 3); (1, 5)]; mkTriangle 4 [(1, 3); (1, 4); (1, 5)]; mkTriangle 5 [(1, 4); (1, 1); (1, 5)]].
Lemma pyramid_container : exists t, Triangulate.triangulate_container pyramid_b Calc.t_mesh [] Triangulate.no_tris = Ok t /\
  map of_face (Triangulate.items (Triangulate.t_stat t)) = base_tris ++ side_tris.
Proof. eexists. split; [cbv -[Rplus Rminus Rmult Rdiv sqrt Ropp IZR Rinv]; reflexivity|]. reflexivity. Qed.
Lemma pyramid_container0 : exists t, Triangulate.triangulate_container pyramid_b Calc.t_mesh [0] Triangulate.no_tris = Ok t /\
  map of_face (Triangulate.items (Triangulate.t_stat t)) = base_tris.
Proof. eexists. split; [cbv -[Rplus Rminus Rmult Rdiv sqrt Ropp IZR Rinv]; reflexivity|]. reflexivity. Qed.
Definition pyramid_split : mesh := Eval vm_compute in
  match (do r <- mesh_triangulation pyramid_b base_tris ; do m3 <- mesh_tighten (fst r) ; order_edges table_of 50 m3 10) with Ok c => fst (fst c) | _ => pyramid_b end.
Lemma pyramid_run : triangulate_all_faces table_of 50 10 10 10 pyramid_b = Ok pyramid_split.
Proof.
  unfold triangulate_all_faces, split_faces. destruct pyramid_container as [t [-> E]]. cbn [bind]. rewrite E. vm_compute. reflexivity.
Qed.
(** With a comparison that never succeeds the base is split, with one that succeeds in
    direction 2 nothing changes. *)
Example C111_case : flatten_boundary_faces table_of 50 10 10 10 (fun _ _ _ => false) pyramid_b = Ok pyramid_split /\
  flatten_boundary_faces table_of 50 10 10 10 (fun k _ _ => k =? 2) pyramid_b = Ok pyramid_b /\
  length (surfs pyramid_split) = 8%nat /\ map ve_index (verts pyramid_split) = [1; 2; 3; 4; 5; 6].
Proof.
  split; [|split; [vm_compute; reflexivity|split; reflexivity]].
  unfold flatten_boundary_faces. replace (bent_faces (fun _ _ _ => false) pyramid_b 0 (surfs pyramid_b)) with (Ok [0]) by (vm_compute; reflexivity). cbn [bind].
  unfold split_faces. destruct pyramid_container0 as [t [-> E]]. cbn [bind]. rewrite E. vm_compute. reflexivity.
Qed.

Lemma pyramid_b_hyps : well_connected pyramid_b /\ polygonal pyramid_b /\ two_ended pyramid_b /\ (forall s, In s (surfs pyramid_b) -> su_ordered s = true).
Proof.
  destruct C111_hyps as (_ & P & T & O). split; [apply well_connectedb_spec; reflexivity|]. split; [exact P|]. split; [exact T|exact O].
Qed.
(** Finding: the flags of the border are right before and wrong after: the new edges and the
    new vertex of a face of the border are not marked, and borderIsSet is copied. *)
Theorem C111_border_refuted : exists m m' x s, well_connected m /\ polygonal m /\ two_ended m /\ (forall s, In s (surfs m) -> su_ordered s = true) /\
  set_borders m = Ok m /\ triangulate_all_faces table_of 50 10 10 10 m = Ok m' /\
  In x (edges m') /\ In s (surfs m') /\ In (ed_index x) (su_edgeind s) /\ su_border s = true /\ ed_border x = false.
Proof.
  destruct pyramid_b_hyps as (A & B & C & D).
  exists pyramid_b, pyramid_split, (nth 8 (edges pyramid_split) (mkEdge 0 true [] [])), (nth 0 (surfs pyramid_split) (mkSurf 0 true true [] [])).
  split; auto. split; auto. split; auto. split; auto. split; [vm_compute; reflexivity|]. split; [apply pyramid_run|].
  split; [apply nth_In; vm_compute; lia|]. split; [apply nth_In; vm_compute; lia|]. vm_compute. auto.
Qed.
Print Assumptions C111_border_refuted.
(** Finding: the cells on the two sides of a surface that is not split change places. *)
Theorem C111_sides_refuted : exists m m' s t, well_connected m /\ polygonal m /\ two_ended m /\ (forall s, In s (surfs m) -> su_ordered s = true) /\
  triangulate_all_faces table_of 50 10 10 10 m = Ok m' /\ In s (surfs m) /\ In t (surfs m') /\ su_index t = su_index s /\
  length (su_edgeind s) = 3%nat /\ su_voluind s = [1; 0] /\ su_voluind t = [0; 1].
Proof.
  destruct pyramid_b_hyps as (A & B & C & D).
  exists pyramid_b, pyramid_split, (nth 1 (surfs pyramid_b) (mkSurf 0 true true [] [])), (nth 1 (surfs pyramid_split) (mkSurf 0 true true [] [])).
  split; auto. split; auto. split; auto. split; auto. split; [apply pyramid_run|].
  split; [apply nth_In; vm_compute; lia|]. split; [apply nth_In; vm_compute; lia|]. vm_compute. auto.
Qed.
Print Assumptions C111_sides_refuted.
