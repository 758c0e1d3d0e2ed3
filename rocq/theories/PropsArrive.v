(** Property C97: snaxels that have reached a vertex make the snake grow around it. *)
From Verif Require Import Base Containers ContainersProofs Mesh MeshProofs MergeProofs Num Snake SpecSnake SpecMesh Spawn SpecSpawn SpawnProofs SpawnMore PropsSnake MeshCheck PropsSpawn.
Import Mesh.
Set Implicit Arguments.
Open Scope Z_scope.

Section Arrived.
Variable N : num.
Variables (m : mesh) (impacts : list (Z * Z)) (k : snake N).
Hypotheses (W : well_connected m) (V3 : volus m <> [])
  (Inn : forall x, In x (verts m) -> ve_border x = false -> interior m (ve_index x))
  (D : NoDup (map (@sx_index N) (k_snaxs k))) (OE : on_edges m k) (L : length (k_in k) = length (verts m))
  (Known : forall i t, In (i, t) impacts -> t = -1 \/ t = -2 -> exists x, In x (k_snaxs k) /\ sx_index x = i).

Lemma ends_there bwd x : In x (k_snaxs k) -> has_vert m (tip bwd x).
Proof using W OE.
  intros Hx. destruct (OE x Hx) as [_ [E1 [E2 _]]]. destruct W as [_ [[_ [M2 _]] [_ [X2 _]]]].
  assert (forall w, EV m (sx_edge x) w -> has_vert m w).
  { intros w H. assert (w <> 0) by (intros ->; apply (X2 _ H)). destruct (M2 _ _ H H0) as [a [Ha [Ia _]]]. exists a. auto. }
  destruct bwd; apply H; auto.
Qed.
Lemma edges_there v e : VE m v e -> has_edge m e.
Proof using W.
  intros H. destruct W as [_ [[M1 _] [X1 _]]]. assert (e <> 0) by (intros ->; apply (X1 _ H)).
  destruct (M1 _ _ H H0) as [a [Ha [Ia _]]]. exists a. auto.
Qed.
Lemma borderb_spec v : has_vert m v -> (borderb m v = true <-> on_border m v).
Proof using W.
  intros Hv. destruct (@find_at _ ve_index (verts m) v Hv) as [x [E [Hx Ix]]]. unfold borderb. rewrite E. split.
  - intros B. exists x. auto.
  - intros [y [Hy [Iy B]]]. destruct W as [[_ [_ [_ [Uv _]]]] _]. rewrite (NoDup_idx_inj ve_index (verts m) x y Uv Hx Hy) by congruence. auto.
Qed.
Lemma inner_vert v : has_vert m v -> ~ on_border m v -> interior m v.
Proof using W Inn.
  intros [x [Hx <-]] B. apply Inn; auto. destruct (ve_border x) eqn:E; auto. exfalso. apply B. exists x. auto.
Qed.

(** Which vertices are grown around, what becomes of the snaxels, and the parts. *)
Lemma arrived_parts : exists bwd fwd B F old,
  NoDup B /\ NoDup F /\
  (forall v, In v B <-> hit impacts k (-1) v /\ ~ on_border m v) /\
  (forall v, In v F <-> hit impacts k (-2) v /\ ~ on_border m v /\ ~ In v B) /\
  (forall v, In v B -> interior m v) /\ (forall v, In v F -> interior m v) /\
  for_each B (@spawn_at_vertex N m) (new_snake N (length (verts m))) = Ok bwd /\
  for_each F (@spawn_at_vertex N m) (new_snake N (length (verts m))) = Ok fwd /\
  Forall2 (halted m impacts) (k_snaxs k) old /\
  spawn_arrived m impacts k =
    (do k3 <- snake_concat (mkSnake old (k_edges k) (k_surfs k) (k_conn k) (k_in k) (k_flipped k)) (snake_compatible (mkSnake old (k_edges k) (k_surfs k) (k_conn k) (k_in k) (k_flipped k)) (snake_flip bwd)) ;
     snake_concat k3 (snake_compatible k3 fwd)).
Proof using W V3 Inn D OE L Known.
  destruct (@arrivals_ok N m true impacts (k_snaxs k) D) as [vb [Eb Hb]].
  { intros i t H ->. apply (@Known i _ H); auto. }
  { intros x Hx. apply ends_there; auto. }
  { apply edges_there. }
  set (xs1 := map (halt m true impacts) (k_snaxs k)) in *.
  assert (I1 : map (@sx_index N) xs1 = map (@sx_index N) (k_snaxs k)) by (unfold xs1; rewrite map_map; apply map_ext; intros x; apply halt_index).
  destruct (@arrivals_ok N m false impacts xs1) as [vf [Ef Hf]].
  { rewrite I1. auto. }
  { intros i t H ->. destruct (@Known i _ H) as [x [Hx Ix]]; auto. exists (halt m true impacts x). split; [apply in_map; auto|]. rewrite halt_index. auto. }
  { intros x Hx. apply in_map_iff in Hx. destruct Hx as [y [<- Hy]]. rewrite halt_tip. apply ends_there; auto. }
  { apply edges_there. }
  assert (Hb' : forall v, In v vb <-> hit impacts k (-1) v /\ ~ on_border m v).
  { intros v. rewrite Hb. split.
    - intros [x [Hx [Hi [-> Bb]]]]. split; [exists x; auto|]. intros C. apply borderb_spec in C; [congruence|apply ends_there; auto].
    - intros [[x [Hx [Hi ->]]] C]. exists x. repeat split; auto. change (if -1 =? -1 then sx_from x else sx_to x) with (tip true x) in *.
      destruct (borderb m (tip true x)) eqn:Q; auto. exfalso. apply C. apply borderb_spec; auto. apply ends_there; auto. }
  assert (Hf' : forall v, In v vf <-> hit impacts k (-2) v /\ ~ on_border m v).
  { intros v. rewrite Hf. split.
    - intros [x [Hx [Hi [-> Bb]]]]. apply in_map_iff in Hx. destruct Hx as [y [<- Hy]]. rewrite halt_index in Hi. rewrite halt_tip in *.
      split; [exists y; auto|]. intros C. apply borderb_spec in C; [congruence|apply ends_there; auto].
    - intros [[x [Hx [Hi ->]]] C]. exists (halt m true impacts x). rewrite halt_index, halt_tip. split; [apply in_map; auto|]. repeat split; auto.
      change (if -2 =? -1 then sx_from x else sx_to x) with (tip false x) in *.
      destruct (borderb m (tip false x)) eqn:Q; auto. exfalso. apply C. apply borderb_spec; auto. apply ends_there; auto. }
  assert (Here : forall t v, t = -1 \/ t = -2 -> hit impacts k t v -> has_vert m v).
  { intros t v Ht [x [Hx [Hi ->]]]. destruct Ht as [-> | ->]; [apply (ends_there true _ Hx)|apply (ends_there false _ Hx)]. }
  assert (N0 : ~ has_vert m 0) by apply W.
  set (B := tighten vb). set (F := filter (fun v => negb (mem_z v ([0] ++ B))) (tighten vf)).
  assert (NB : NoDup B) by apply tighten_NoDup. assert (NF : NoDup F) by (apply NoDup_filter, tighten_NoDup).
  assert (SB : forall v, In v B <-> hit impacts k (-1) v /\ ~ on_border m v) by (intros v; unfold B; rewrite tighten_In; auto).
  assert (SF : forall v, In v F <-> hit impacts k (-2) v /\ ~ on_border m v /\ ~ In v B).
  { intros v. unfold F. rewrite filter_In, tighten_In, Hf', negb_true_iff. split.
    - intros [[H1 H2] H3]. repeat split; auto. intros C. assert (mem_z v ([0] ++ B) = true) by (apply mem_z_In; simpl; auto). congruence.
    - intros [H1 [H2 H3]]. split; auto. destruct (mem_z v ([0] ++ B)) eqn:Q; auto. exfalso. apply mem_z_In in Q. destruct Q as [<-|Q]; auto.
      apply N0. eapply Here; eauto. }
  assert (IB : forall v, In v B -> interior m v) by (intros v H; apply SB in H; apply inner_vert; [eapply Here; [|apply H]; auto|tauto]).
  assert (IF : forall v, In v F -> interior m v) by (intros v H; apply SF in H; apply inner_vert; [eapply Here; [|apply H]; auto|tauto]).
  destruct (@C96_history N m B W V3 NB IB) as [bwd [Ebw _]]. destruct (@C96_history N m F W V3 NF IF) as [fwd [Efw _]].
  exists bwd, fwd, B, F, (map (halt m false impacts) xs1). repeat (split; [assumption|]). split.
  - unfold xs1. rewrite map_map. clear - W OE Known. assert (G : forall xs, (forall x, In x xs -> In x (k_snaxs k)) -> Forall2 (halted m impacts) xs (map (fun x => halt m false impacts (halt m true impacts x)) xs)).
    { induction xs as [|x r IH]; intros H; simpl; constructor; [|apply IH; intros; apply H; simpl; auto].
      assert (Hx : In x (k_snaxs k)) by (apply H; simpl; auto).
      assert (Q : forall b (y : snax N), sx_index y = sx_index x -> tip b y = tip b x -> (haltb m b impacts y = true <-> In (sx_index x, code b) impacts /\ on_border m (tip b x))).
      { intros b y E1 E2. unfold haltb. rewrite E1, E2, andb_true_iff, existsb_exists, borderb_spec by (apply ends_there; auto). split.
        - intros [[[i t] [Hp E]] Hb]. cbn [fst snd] in E. apply andb_true_iff in E. destruct E as [E E']. apply Z.eqb_eq in E. apply Z.eqb_eq in E'. subst. auto.
        - intros [Hp Hb]. split; auto. eexists. split; [exact Hp|]. cbn [fst snd]. rewrite !Z.eqb_refl. auto. }
      pose proof (Q true x eq_refl eq_refl) as Q1. pose proof (Q false (halt m true impacts x) (halt_index _ _ _ _) (halt_tip _ _ _ _ _)) as Q2.
      unfold halted. cbv zeta. change (sx_from x) with (tip true x). change (sx_to x) with (tip false x).
      change (In (sx_index x, -1) impacts) with (In (sx_index x, code true) impacts). change (In (sx_index x, -2) impacts) with (In (sx_index x, code false) impacts).
      rewrite <- Q1, <- Q2. unfold halt at 2 5. fold (halt m true impacts x).
      destruct (haltb m false impacts (halt m true impacts x)).
      - left. split; auto. unfold halt. destruct (haltb m true impacts x); reflexivity.
      - unfold halt. destruct (haltb m true impacts x); [left|right]; split; auto. intros [C|C]; discriminate. }
    apply G. auto.
  - unfold spawn_arrived, spawn_dir. rewrite Eb. cbn [bind fst snd]. fold B.
    assert (Fb : filter (fun v => negb (mem_z v [0])) B = B).
    { assert (G : forall l, (forall v, In v l -> v <> 0) -> filter (fun v => negb (mem_z v [0])) l = l).
      { induction l as [|v r IH]; intros H; simpl; auto. destruct (Z.eqb_spec v 0) as [E|E]; [exfalso; eapply H; simpl; eauto|]. simpl. f_equal. apply IH. intros; apply H; simpl; auto. }
      apply G. intros v H ->. apply N0. apply IB in H. apply H. }
    rewrite Fb, Ebw. cbn [bind k_snaxs]. rewrite Ef. cbn [bind fst snd]. fold F. rewrite Efw. cbn [bind]. reflexivity.
Qed.
End Arrived.

Lemma halted_same N m impacts (x y : snax N) : halted m impacts x y ->
  sx_index y = sx_index x /\ sx_from y = sx_from x /\ sx_to y = sx_to x /\ sx_edge y = sx_edge x.
Proof. intros [[_ ->]|[_ ->]]; auto. Qed.
Lemma halted_In N m impacts (l l' : list (snax N)) y : Forall2 (halted m impacts) l l' -> In y l' -> exists x, In x l /\ halted m impacts x y.
Proof. induction 1; simpl; [tauto|]. intros [<-|H1]; [eauto|]. destruct (IHForall2 H1) as [z [Hz Q]]. eauto. Qed.
Lemma halted_index N m impacts (l l' : list (snax N)) : Forall2 (halted m impacts) l l' -> map (@sx_index N) l' = map (@sx_index N) l.
Proof. induction 1; simpl; auto. f_equal; auto. apply halted_same in H. apply H. Qed.
Lemma step_added N (k s k' : snake N) : appended k (snake_compatible k s) k' -> in_step k -> in_step s -> in_step k'.
Proof.
  intros [A1 [A2 [A3 [A4 [A5 [A6 _]]]]]] [S1 [S2 S3]] Hs. destruct (step_shift k Hs) as [T1 [T2 T3]].
  unfold in_step. rewrite A1, A2, A3, A4, A5, A6, !map_app. repeat split; congruence.
Qed.
Lemma on_edges_added N m (k s k' : snake N) : appended k (snake_compatible k s) k' -> on_edges m k -> on_edges m s -> on_edges m k'.
Proof.
  intros [A1 _] H1 H2 x Hx. rewrite A1 in Hx. apply in_app_iff in Hx. destruct Hx as [Hx|Hx]; [apply (H1 x Hx)|].
  cbn [snake_compatible k_snaxs] in Hx. apply in_map_iff in Hx. destruct Hx as [y [<- Hy]]. apply (H2 y Hy).
Qed.

(** The vertices reached by snaxels that went back ([B]) and forward ([F]) are grown around
    once each; snaxels at the border of the mesh stop; all else stays. *)
Theorem C97_arrived : forall N m impacts (k : snake N),
  well_connected m -> volus m <> [] -> (forall x, In x (verts m) -> ve_border x = false -> interior m (ve_index x)) ->
  NoDup (map (@sx_index N) (k_snaxs k)) -> on_edges m k -> length (k_in k) = length (verts m) ->
  (forall i t, In (i, t) impacts -> t = -1 \/ t = -2 -> exists x, In x (k_snaxs k) /\ sx_index x = i) ->
  exists k' B F old back front, spawn_arrived m impacts k = Ok k' /\
    NoDup B /\ NoDup F /\
    (forall v, In v B <-> hit impacts k (-1) v /\ ~ on_border m v) /\
    (forall v, In v F <-> hit impacts k (-2) v /\ ~ on_border m v /\ ~ In v B) /\
    k_snaxs k' = old ++ back ++ front /\ Forall2 (halted m impacts) (k_snaxs k) old /\
    (forall v e, (exists x, In x back /\ sx_to x = v /\ sx_edge x = e) <-> In v B /\ VE m v e) /\
    (forall v e, (exists x, In x front /\ sx_from x = v /\ sx_edge x = e) <-> In v F /\ VE m v e) /\
    (forall x, In x back -> sx_d x = nsub n1 n0 /\ sx_v x = nopp nhalf /\ sx_freeze x = 0) /\
    (forall x, In x front -> sx_d x = n0 /\ sx_v x = nhalf /\ sx_freeze x = 0) /\
    (forall x y, In x back -> In y back -> sx_to x = sx_to y -> sx_edge x = sx_edge y -> x = y) /\
    (forall x y, In x front -> In y front -> sx_from x = sx_from y -> sx_edge x = sx_edge y -> x = y) /\
    (well_connected (k_conn k) -> closed (k_conn k) -> well_connected (k_conn k') /\ closed (k_conn k')) /\
    (in_step k -> in_step k') /\ on_edges m k' /\
    length (volus (k_conn k')) = (length (volus (k_conn k)) + length B + length F)%nat /\
    k_flipped k' = k_flipped k /\ length (k_in k') = length (verts m) /\
    (* the vertices inside *)
    ((exists u, vert_inside m k u /\ ~ In u B) -> (forall v, In v F -> ~ vert_inside m k v) ->
       forall w, has_vert m w -> (vert_inside m k' w <-> (vert_inside m k w /\ ~ In w B) \/ In w F)) /\
    (* and what happens when the conditions of the last line do not hold *)
    ((exists u, vert_inside m k u /\ ~ In u B) -> (exists v, In v F /\ vert_inside m k v) ->
       forall w, has_vert m w -> (vert_inside m k' w <-> vert_inside m k w /\ In w F)) /\
    ((forall u, vert_inside m k u -> In u B) -> F <> [] -> forall w, has_vert m w -> (vert_inside m k' w <-> In w F)) /\
    ((forall u, vert_inside m k u -> In u B) -> F = [] -> forall w, has_vert m w -> (vert_inside m k' w <-> vert_inside m k w \/ ~ In w B)).
Proof.
  intros N m impacts k W V3 Inn D OE L Known.
  destruct (@arrived_parts N m impacts k W V3 Inn D OE L Known) as [bwd [fwd [B [F [old [NB [NF [SB [SF [IB [IF [Eb [Ef [Ho Es]]]]]]]]]]]]]].
  destruct (@C96_history N m B W V3 NB IB) as [bwd' [Eb' [Wb [Cb [Pb [Sb [Ob [Lb [Vb [Fb [Xb [Yb [Zb Ib]]]]]]]]]]]]].
  destruct (@C96_history N m F W V3 NF IF) as [fwd' [Ef' [Wf [Cf [Pf [Sf [Of [Lf [Vf [Ff [Xf [Yf [Zf If_]]]]]]]]]]]]].
  rewrite Eb in Eb'. injection Eb'; intros <-. rewrite Ef in Ef'. injection Ef'; intros <-. clear Eb' Ef'.
  assert (Uv : NoDup (map ve_index (verts m))) by apply W.
  set (k1 := mkSnake old (k_edges k) (k_surfs k) (k_conn k) (k_in k) (k_flipped k)) in *.
  destruct (@add_ok N m Uv k1 (snake_flip bwd) L Lb) as [k2 [E2 [A2 [C2 [L2 [F2 I2]]]]]].
  destruct (@add_ok N m Uv k2 fwd L2 Lf) as [k3 [E3 [A3 [C3 [L3 [F3 I3]]]]]].
  rewrite E2 in Es. cbn [bind] in Es. rewrite E3 in Es.
  set (d2 := max_index ve_index (verts (k_conn k1))) in *. set (d3 := max_index ve_index (verts (k_conn k2))) in *.
  exists k3, B, F, old, (map (fun x => snax_shift d2 (flip_snax x)) (k_snaxs bwd)), (map (snax_shift d3) (k_snaxs fwd)).
  split; [exact Es|]. split; auto. split; auto. split; auto. split; auto.
  split.
  { destruct A3 as [-> _]. destruct A2 as [-> _]. unfold k1. cbn [k_snaxs snake_compatible snake_flip]. rewrite map_map, app_assoc. reflexivity. }
  split; auto. split; [|split; [|split; [|split; [|split; [|split]]]]].
  { intros v e. rewrite <- Xb. split.
    - intros [x [Hx [E4 E5]]]. apply in_map_iff in Hx. destruct Hx as [y [<- Hy]]. exists y. auto.
    - intros [y [Hy [E4 E5]]]. exists (snax_shift d2 (flip_snax y)). split; [apply in_map_iff; eauto|auto]. }
  { intros v e. rewrite <- Xf. split.
    - intros [x [Hx [E4 E5]]]. apply in_map_iff in Hx. destruct Hx as [y [<- Hy]]. exists y. auto.
    - intros [y [Hy [E4 E5]]]. exists (snax_shift d3 y). split; [apply in_map_iff; eauto|auto]. }
  { intros x Hx. apply in_map_iff in Hx. destruct Hx as [y [<- Hy]]. destruct (Zb y Hy) as [Q1 [Q2 Q3]]. simpl. rewrite Q1, Q2, Q3. auto. }
  { intros x Hx. apply in_map_iff in Hx. destruct Hx as [y [<- Hy]]. destruct (Zf y Hy) as [Q1 [Q2 Q3]]. simpl. rewrite Q1, Q2, Q3. auto. }
  { intros x y Hx Hy E4 E5. apply in_map_iff in Hx. destruct Hx as [x' [<- Hx]]. apply in_map_iff in Hy. destruct Hy as [y' [<- Hy]].
    simpl in E4, E5. rewrite (Yb x' y'); auto. }
  { intros x y Hx Hy E4 E5. apply in_map_iff in Hx. destruct Hx as [x' [<- Hx]]. apply in_map_iff in Hy. destruct Hy as [y' [<- Hy]].
    simpl in E4, E5. rewrite (Yf x' y'); auto. }
  split.
  { intros Wk Ck. rewrite C3, C2. cbn [k1 snake_flip k_conn].
    assert (Wc := connected_merged Wk Wb Pb Ck Cb). assert (Cc := closed_merged Ck Cb Pb).
    split; [apply connected_merged; auto|apply closed_merged; auto]. }
  split.
  { intros Sk. apply (step_added A3); auto. apply (step_added A2).
    - destruct Sk as [S1 [S2 S3]]. unfold in_step, k1. cbn [k_snaxs k_edges k_surfs k_conn]. rewrite (halted_index Ho). auto.
    - destruct Sb as [S1 [S2 S3]]. unfold in_step. cbn [snake_flip k_snaxs k_edges k_surfs k_conn]. rewrite map_map. auto. }
  split.
  { apply (on_edges_added A3); auto. apply (on_edges_added A2).
    - intros y Hy. destruct (@halted_In N m impacts _ _ y Ho Hy) as [x [Hx Q]]. apply halted_same in Q. destruct Q as [_ [-> [-> ->]]]. apply (OE x Hx).
    - intros y Hy. cbn [snake_flip k_snaxs] in Hy. apply in_map_iff in Hy. destruct Hy as [x [<- Hx]]. destruct (Ob x Hx) as [Q1 [Q2 [Q3 Q4]]].
      simpl. auto. }
  split.
  { rewrite C3, C2. cbn [k1 snake_flip k_conn concatenate make_compatible change_indices volus]. rewrite !app_length, !map_length, Vb, Vf. auto. }
  split; [rewrite F3, F2; auto|]. split; auto.
  assert (VB : forall v, In v B -> has_vert m v) by (intros v H; apply (IB v H)).
  assert (VF : forall v, In v F -> has_vert m v) by (intros v H; apply (IF v H)).
  assert (VA : forall v, vert_inside m k v -> has_vert m v).
  { intros v [i [x [b [Hx [E _]]]]]. exists x. split; auto. eapply nth_error_In; eauto. }
  assert (FB : forall v, In v F -> ~ In v B) by (intros v H; apply SF in H; tauto).
  assert (K1 : forall w, vert_inside m k1 w <-> vert_inside m k w) by (intros w; unfold vert_inside, k1; simpl; tauto).
  assert (J2 : forall w, has_vert m w -> (vert_inside m k2 w <-> (vert_inside m k w /\ ~ In w B) \/ ((vert_inside m k w \/ ~ In w B) /\ forall u, has_vert m u -> ~ (vert_inside m k u /\ ~ In u B)))).
  { intros w Hw. rewrite (I2 w Hw), K1, (@flip_inside N m Uv bwd w Lb Hw), (Ib w Hw).
    assert (Q : (forall u, has_vert m u -> ~ (vert_inside m k1 u /\ vert_inside m (snake_flip bwd) u)) <-> (forall u, has_vert m u -> ~ (vert_inside m k u /\ ~ In u B))).
    { split; intros H u Hu; specialize (H u Hu); rewrite K1, (@flip_inside N m Uv bwd u Lb Hu), (Ib u Hu) in *; auto. }
    rewrite Q. tauto. }
  assert (J3 : forall w, has_vert m w -> (vert_inside m k3 w <-> (vert_inside m k2 w /\ In w F) \/ ((vert_inside m k2 w \/ In w F) /\ forall u, has_vert m u -> ~ (vert_inside m k2 u /\ In u F)))).
  { intros w Hw. rewrite (I3 w Hw), (If_ w Hw).
    assert (Q : (forall u, has_vert m u -> ~ (vert_inside m k2 u /\ vert_inside m fwd u)) <-> (forall u, has_vert m u -> ~ (vert_inside m k2 u /\ In u F))).
    { split; intros H u Hu; specialize (H u Hu); rewrite (If_ u Hu) in *; auto. }
    rewrite Q. tauto. }
  assert (G1 : (exists u, vert_inside m k u /\ ~ In u B) -> forall w, has_vert m w -> (vert_inside m k2 w <-> vert_inside m k w /\ ~ In w B)).
  { intros [u [Hu1 Hu2]] w Hw. rewrite (J2 w Hw). split; [|tauto]. intros [H|[_ H]]; auto. exfalso. apply (H u); auto. }
  assert (G2 : (forall u, vert_inside m k u -> In u B) -> forall w, has_vert m w -> (vert_inside m k2 w <-> vert_inside m k w \/ ~ In w B)).
  { intros H w Hw. rewrite (J2 w Hw). split; [tauto|]. intros Q. right. split; auto. intros u _ [Q1 Q2]. auto. }
  split; [|split; [|split]].
  - intros Hex Hno w Hw. rewrite (J3 w Hw), (G1 Hex w Hw). split.
    + intros [[H1 H2]|[H _]]; tauto.
    + intros H. right. split; auto. intros u Hu [Q1 Q2]. apply (G1 Hex u Hu) in Q1. apply (Hno u Q2). tauto.
  - intros Hex [v [Hv1 Hv2]] w Hw. rewrite (J3 w Hw), (G1 Hex w Hw). split.
    + intros [[H1 H2]|[_ H]]; [tauto|]. exfalso. apply (H v (VF v Hv1)). split; auto. apply (G1 Hex v (VF v Hv1)). split; auto.
    + intros [H1 H2]. left. split; auto.
  - intros Hall Hne w Hw. rewrite (J3 w Hw). split.
    + intros [[_ H]|[_ H]]; auto. exfalso. destruct F as [|v r]; [congruence|].
      assert (Hv : In v (v :: r)) by (simpl; auto). apply (H v (VF v Hv)). split; auto. apply (G2 Hall v (VF v Hv)). right. auto.
    + intros H. left. split; auto. apply (G2 Hall w Hw). right. auto.
  - intros Hall -> w Hw. rewrite (J3 w Hw), (G2 Hall w Hw). simpl. split; [tauto|]. intros H. right. split; [tauto|]. intros u _ [_ []].
Qed.
Print Assumptions C97_arrived.

(** A snake around a vertex that shrinks back onto it: every vertex of the mesh but that
    one would have to be outside, and the code has all of them inside. *)
Definition collapse : list (Z * Z) := map (fun i => (i, -1)) [1; 2; 3; 4].
Theorem C97_collapse_refuted : exists (k k' : snake Qn),
  spawn_at_vertex ball 6 (new_snake Qn 6) = Ok k /\
  (forall w, has_vert ball w -> (vert_inside ball k w <-> w = 6)) /\
  spawn_arrived ball collapse k = Ok k' /\
  (forall w, has_vert ball w -> vert_inside ball k' w).
Proof.
  destruct (@C96_history Qn ball [6] ball_connected) as [k [Ek [Wk [Ck [Pk [Sk [Ok_ [Lk [Vk [Fk [Xk [Yk [Zk Ik]]]]]]]]]]]]];
    [discriminate|constructor; [simpl; tauto|constructor]|intros v [<-|[]]; apply ball_inside; auto|].
  cbn [for_each] in Ek. destruct (spawn_at_vertex ball 6 (new_snake Qn (length (verts ball)))) as [k0| | |] eqn:E0; cbn [bind] in Ek; try congruence.
  injection Ek; intros ->. clear Ek.
  assert (Ix : map (@sx_index Qn) (k_snaxs k) = [1; 2; 3; 4] /\ map (@sx_from Qn) (k_snaxs k) = [6; 6; 6; 6]).
  { revert E0. vm_compute. intros E. injection E; intros <-. split; reflexivity. }
  destruct Ix as [Ix If_].
  assert (H : exists k' : snake Qn, spawn_arrived ball collapse k = Ok k' /\ forall w, has_vert ball w -> vert_inside ball k' w).
  { destruct (@C97_arrived Qn ball collapse k ball_connected) as [k' [B [F [old [back [front [E [_ [_ [SB [SF [_ [_ [_ [_ [_ [_ [_ [_ [_ [_ [_ [_ [_ [_ [_ [_ [_ Last]]]]]]]]]]]]]]]]]]]]]]]]]]]].
    - discriminate.
    - intros x Hx B. simpl in Hx. repeat destruct Hx as [<-|Hx]; try contradiction; try discriminate B; apply ball_inside; auto.
    - rewrite Ix. repeat constructor; simpl; intuition discriminate.
    - exact Ok_.
    - exact Lk.
    - intros i t Hi _. unfold collapse in Hi. apply in_map_iff in Hi. destruct Hi as [j [E Hj]]. injection E; intros; subst. rewrite <- Ix in Hj. apply in_map_iff in Hj. destruct Hj as [x [E2 Hx]]. eauto.
    - exists k'. split; [exact E|]. intros w Hw.
      assert (HB : forall u, In u B <-> u = 6).
      { intros u. rewrite SB. split.
        - intros [[x [Hx [_ ->]]] _]. apply (in_map (@sx_from Qn)) in Hx. rewrite If_ in Hx. simpl in Hx. intuition.
        - intros ->. split.
          + assert (H1 : In 1 (map (@sx_index Qn) (k_snaxs k))) by (rewrite Ix; simpl; auto). apply in_map_iff in H1. destruct H1 as [x [E1 Hx]].
            exists x. split; auto. split; [rewrite E1; simpl; auto|]. apply (in_map (@sx_from Qn)) in Hx. rewrite If_ in Hx. simpl in Hx. simpl. intuition.
          + intros [x [Hx [Iv Bx]]]. simpl in Hx. repeat destruct Hx as [<-|Hx]; try contradiction; discriminate. }
      assert (HF : F = []).
      { destruct F as [|u r]; auto. exfalso. destruct (proj1 (SF u) (or_introl eq_refl)) as [[x [_ [Hi _]]] _]. unfold collapse in Hi. simpl in Hi. intuition discriminate. }
      assert (Sub : forall u, vert_inside ball k u -> In u B).
      { intros u Hu. apply HB. assert (Hv : has_vert ball u).
        { destruct Hu as [i [x [b [Hx [E3 _]]]]]. exists x. split; auto. eapply nth_error_In; eauto. }
        apply (Ik u Hv) in Hu. destruct Hu as [<-|[]]. reflexivity. }
      apply (Last Sub HF w Hw).
      destruct (Z.eq_dec w 6) as [->|Nw]; [left; apply Ik; simpl; auto|right; rewrite HB; auto]. }
  destruct H as [k' [E H]]. exists k, k'. split; [exact E0|]. split; [intros w Hw; rewrite (Ik w Hw); simpl; intuition|]. auto.
Qed.
Print Assumptions C97_collapse_refuted.

(** The snake around vertex 1: its snaxel on the way to 6 arrives, and the one on the way to
    2 arrives at the border. *)
Example C97_used : exists (k k' : snake Qn), spawn_at_vertex ball 1 (new_snake Qn 6) = Ok k /\
  map (fun x => (sx_index x, sx_to x)) (k_snaxs k) = [(1, 2); (2, 3); (3, 4); (4, 5); (5, 6)] /\
  (forall x, In x (verts ball) -> ve_border x = false -> interior ball (ve_index x)) /\
  spawn_arrived ball [(5, -2); (1, -2); (2, 3)] k = Ok k' /\
  map (fun x => (sx_from x, sx_to x, sx_freeze x)) (k_snaxs k') =
    [(1, 2, 1); (1, 3, 0); (1, 4, 0); (1, 5, 0); (1, 6, 0); (6, 1, 0); (6, 2, 0); (6, 3, 0); (6, 4, 0)] /\
  k_in k' = [true; false; false; false; false; true].
Proof.
  eexists. eexists. split; [vm_compute; reflexivity|]. split; [vm_compute; reflexivity|]. split.
  - intros x Hx B. simpl in Hx. repeat destruct Hx as [<-|Hx]; try contradiction; try discriminate B; apply ball_inside; auto.
  - split; [vm_compute; reflexivity|]. split; reflexivity.
Qed.
