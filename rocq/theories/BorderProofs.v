(** Proofs about SetBorders. *)
From Verif Require Import Base Containers ContainersProofs Mesh SpecMesh MeshProofs SwitchProofs RemoveProofs Flood SpecFlood FloodProofs.
Set Implicit Arguments.
Open Scope Z_scope.

Lemma scan_spec A (flag : A -> outcome bool) (P : A -> Prop) l :
  (forall x, In x l -> exists b, flag x = Ok b /\ (b = true <-> P x)) ->
  exists b, scan flag l = Ok b /\ (b = true <-> exists x, In x l /\ P x).
Proof.
  induction l as [|x l IH]; intros H; simpl.
  - exists false. split; auto. split; [discriminate|intros [x [[] _]]].
  - destruct (H x) as [b [Hb Pb]]; [left; auto|]. rewrite Hb. cbn [bind]. destruct b.
    + exists true. split; auto. split; auto. intros _. exists x. split; auto. apply Pb; auto.
    + destruct IH as [b [Hs Pbs]]; [intros; apply H; right; auto|]. exists b. split; auto. rewrite Pbs. split.
      * intros [y [Hy Py]]. exists y; auto.
      * intros [y [[<-|Hy] Py]]; [apply Pb in Py; discriminate|exists y; auto].
Qed.

Lemma border_of_spec A (idx : A -> Z) bd l x : NoDup (map idx l) ->
  (exists a, In a l /\ idx a = x) ->
  exists b, border_of idx bd l x = Ok b /\ (b = true <-> flagged idx bd l x).
Proof.
  intros Hnd He. destruct (@find_at _ idx l x He) as [a [Ha [Hi Ei]]].
  unfold border_of. rewrite Ha. cbn [bind]. exists (bd a). split; auto. split.
  - intros H. exists a; auto.
  - intros [c [Hc [Ec Hb]]]. assert (c = a) by (eapply (@NoDup_idx_inj _ idx); eauto; congruence). congruence.
Qed.

Lemma existsb_zero l : existsb (fun v => v =? 0) l = true <-> In 0 l.
Proof.
  rewrite existsb_exists. split.
  - intros [x [Hx E]]. apply Z.eqb_eq in E. subst; auto.
  - intros H. exists 0. auto.
Qed.

(** Lists of elements that differ only in their flag. *)
Section Marked.
Variable A : Type.
Variable idx : A -> Z.
Variable bd : A -> bool.
Variable setb : bool -> A -> A.
Hypothesis idx_setb : forall b a, idx (setb b a) = idx a.
Hypothesis bd_setb : forall b a, bd (setb b a) = b.
Hypothesis setb_setb : forall b c a, setb b (setb c a) = setb b a.

Definition marks (P : Z -> Prop) (l l' : list A) : Prop :=
  Forall2 (fun a a' => exists b, a' = setb b a /\ (b = true <-> P (idx a))) l l'.

Lemma marks_spec P l l' : marks P l l' ->
  map (setb false) l' = map (setb false) l /\ map idx l' = map idx l /\
  (forall i, flagged idx bd l' i <-> (exists a, In a l /\ idx a = i) /\ P i).
Proof.
  induction 1 as [|a a' l l' [b [-> Hb]] F [IH1 [IH2 IH3]]]; simpl.
  - split; auto. split; auto. intros i. split; [intros [x [[] _]]|intros [[x [[] _]] _]].
  - rewrite setb_setb, IH1, IH2, idx_setb. split; auto. split; auto. intros i. split.
    + intros [x [[<-|Hx] [Ex Bx]]].
      * rewrite idx_setb in Ex. rewrite bd_setb in Bx. split; [exists a; auto|]. subst i. apply Hb; auto.
      * destruct (proj1 (IH3 i)) as [[y [Hy Ey]] Pi]; [exists x; auto|]. split; auto. exists y; auto.
    + intros [[x [[<-|Hx] Ex]] Pi].
      * exists (setb b a). rewrite idx_setb, bd_setb. split; [left; reflexivity|]. split; [exact Ex|].
        apply Hb. rewrite Ex. exact Pi.
      * destruct (proj2 (IH3 i)) as [y [Hy Ey]]; [split; auto; exists x; auto|]. exists y. split; [right; exact Hy|exact Ey].
Qed.

Lemma lists_of get l l' i x : (forall b a, get (setb b a) = get a) ->
  map (setb false) l' = map (setb false) l -> (lists idx get l' i x <-> lists idx get l i x).
Proof.
  intros Hg H.
  assert (G : forall k, lists idx get k i x <-> lists idx get (map (setb false) k) i x).
  { intros k. unfold lists. split.
    - intros [a [Ha [Ei Hx]]]. exists (setb false a). rewrite idx_setb, Hg. split; auto. apply in_map; auto.
    - intros [a [Ha [Ei Hx]]]. apply in_map_iff in Ha. destruct Ha as [c [<- Hc]].
      rewrite idx_setb in Ei. rewrite Hg in Hx. exists c; auto. }
  rewrite (G l'), (G l), H. reflexivity.
Qed.

Lemma omap_marks (P : Z -> Prop) (f : A -> outcome A) l :
  (forall a, In a l -> exists b, f a = Ok (setb b a) /\ (b = true <-> P (idx a))) ->
  exists l', omap_list f l = Ok l' /\ marks P l l'.
Proof.
  intros H. apply omap_list_ok. intros a Ha. destruct (H a Ha) as [b [Hb Pb]]. exists (setb b a). eauto.
Qed.
End Marked.

Definition volu_marks := marks vo_index vo_set_border.
Definition surf_marks := marks su_index su_set_border.
Definition edge_marks := marks ed_index ed_set_border.
Definition vert_marks := marks ve_index ve_set_border.

(** Edges whose vertices touch the border. *)
Lemma edges_touch_spec m es :
  NoDup (map ed_index (edges m)) -> NoDup (map ve_index (verts m)) ->
  (forall e v, EV m e v -> has_vert m v) ->
  (forall e, In e es -> has_edge m e) ->
  exists b, edges_touch m es = Ok b /\
    (b = true <-> exists e v, In e es /\ EV m e v /\ border_vert m v).
Proof.
  intros Ue Uv Kv He. unfold edges_touch.
  destruct (@scan_spec Z (fun e => do ed <- at_ (edges m) (find ed_index (edges m) e);
                 scan (border_of ve_index ve_border (verts m)) (ed_vertind ed))
     (fun e => exists v, EV m e v /\ border_vert m v) es) as [b [Hb Pb]].
  - intros e Hin. destruct (@find_at _ ed_index (edges m) e (He e Hin)) as [ed [Ha [Hi Ei]]].
    rewrite Ha. cbn [bind].
    destruct (@scan_spec Z (border_of ve_index ve_border (verts m)) (border_vert m) (ed_vertind ed)) as [b [Hb Pb]].
    { intros v Hv. apply border_of_spec; auto. apply (Kv e). exists ed; auto. }
    exists b. split; auto. rewrite Pb. split.
    + intros [v [Hv Bv]]. exists v. split; auto. exists ed; auto.
    + intros [v [Hv Bv]]. exists v. split; auto. apply (@owner _ ed_index ed_vertind (edges m) _ _ Ue Hi Ei). auto.
  - exists b. split; auto. rewrite Pb. split.
    + intros [e [H1 [v [H2 H3]]]]. eauto.
    + intros [e [v [H1 [H2 H3]]]]. eauto.
Qed.

(** What is needed for the lookups. *)
Definition resolvable m : Prop :=
  NoDup (map vo_index (volus m)) /\ NoDup (map su_index (surfs m)) /\
  NoDup (map ed_index (edges m)) /\ NoDup (map ve_index (verts m)) /\
  (forall v s, VS m v s -> has_surf m s) /\
  (volus m <> [] -> forall e s, ES m e s -> has_surf m s) /\
  (forall s e, SE m s e -> has_edge m e) /\
  (forall v e, VE m v e -> has_edge m e) /\ (forall e v, EV m e v -> has_vert m v).

Lemma well_connected_resolvable m : well_connected m -> resolvable m.
Proof.
  intros [[U1 [U2 [U3 [U4 _]]]] [[M1 [M2 [M3 [M4 [M5 M6]]]]] [X1 [X2 [X3 [X4 X5]]]]]].
  repeat apply conj; auto.
  - intros v s H. eapply lists_has. apply M6; eauto. intros ->. apply (X4 _ H).
  - intros Hn e s H. eapply lists_has. apply M3; eauto. intros ->. apply (X5 Hn _ H).
  - intros s e H. eapply lists_has. apply M4; eauto. intros ->. apply (X3 _ H).
  - intros v e H. eapply lists_has. apply M1; eauto. intros ->. apply (X1 _ H).
  - intros e v H. eapply lists_has. apply M2; eauto. intros ->. apply (X2 _ H).
Qed.

Lemma has_of_map A (idx : A -> Z) (l l' : list A) i : map idx l' = map idx l ->
  ((exists a, In a l' /\ idx a = i) <-> (exists a, In a l /\ idx a = i)).
Proof. intros H. rewrite <- !in_map_idx, H. reflexivity. Qed.

Lemma borders_vert_spec m : resolvable m ->
  exists vs, borders_vert m = Ok (set_verts vs m) /\
    vert_marks (fun v => exists e, VE m v e /\ border_edge m e) (verts m) vs.
Proof.
  intros [U1 [U2 [U3 [U4 [K1 [K2 [K3 [K4 K5]]]]]]]]. unfold borders_vert.
  destruct (@omap_marks vert ve_index ve_set_border (fun v => exists e, VE m v e /\ border_edge m e)
    (fun v => do b <- scan (border_of ed_index ed_border (edges m)) (ve_edgeind v); Ok (ve_set_border b v)) (verts m)) as [vs [Hv Mv]].
  - intros a Ha. destruct (@scan_spec Z (border_of ed_index ed_border (edges m)) (border_edge m) (ve_edgeind a)) as [b [Hb Pb]].
    { intros e He. apply border_of_spec; auto. apply (K4 (ve_index a)). exists a; auto. }
    rewrite Hb. cbn [bind]. exists b. split; auto. rewrite Pb. split.
    + intros [e [H1 H2]]. exists e. split; auto. exists a; auto.
    + intros [e [H1 H2]]. exists e. split; auto. apply (@owner _ ve_index ve_edgeind (verts m) _ _ U4 Ha eq_refl). auto.
  - rewrite Hv. cbn [bind]. exists vs. auto.
Qed.

Definition surf_zero m s := SV m s 0.

Lemma borders3_spec m : resolvable m -> volus m <> [] ->
  exists vs ss es, borders3 m = Ok (mkMesh vs ss es (verts m) (meshDim m)) /\
    surf_marks (fun s => SV m s 0) (surfs m) ss /\
    volu_marks (fun v => exists s, VS m v s /\ SV m s 0) (volus m) vs /\
    edge_marks (fun e => exists s, ES m e s /\ SV m s 0) (edges m) es.
Proof.
  intros [U1 [U2 [U3 [U4 [K1 [K2 [K3 [K4 K5]]]]]]]] Hne. specialize (K2 Hne). unfold borders3.
  set (ss := map (fun s => su_set_border (existsb (fun v => v =? 0) (su_voluind s)) s) (surfs m)).
  assert (Ms : surf_marks (fun s => SV m s 0) (surfs m) ss).
  { assert (G : forall l, (forall a, In a l -> In a (surfs m)) ->
      surf_marks (fun s => SV m s 0) l (map (fun s => su_set_border (existsb (fun v => v =? 0) (su_voluind s)) s) l)).
    { induction l as [|a l IH]; intros Hl; constructor.
      - eexists. split; [reflexivity|]. rewrite existsb_zero. apply (@owner _ su_index su_voluind (surfs m) _ _ U2); auto. apply Hl; left; auto.
      - apply IH. intros; apply Hl; right; auto. }
    apply G; auto. }
  destruct (@marks_spec _ su_index su_border su_set_border ltac:(reflexivity) ltac:(reflexivity) ltac:(reflexivity) _ _ _ Ms) as [E1 [E2 E3]].
  assert (Us : NoDup (map su_index ss)) by (rewrite E2; auto).
  assert (Hf : forall s, has_surf m s -> exists b, border_of su_index su_border ss s = Ok b /\ (b = true <-> SV m s 0)).
  { intros s Hs. destruct (@border_of_spec _ su_index su_border ss s Us) as [b [Hb Pb]].
    { apply (@has_of_map _ su_index (surfs m) ss s E2). auto. }
    exists b. split; auto. rewrite Pb, E3. unfold has_surf in Hs. tauto. }
  destruct (@omap_marks volu vo_index vo_set_border (fun v => exists s, VS m v s /\ SV m s 0)
    (fun v => do b <- scan (border_of su_index su_border ss) (vo_surfind v); Ok (vo_set_border b v)) (volus m)) as [vs [Hv Mv]].
  { intros a Ha. destruct (@scan_spec Z (border_of su_index su_border ss) (fun s => SV m s 0) (vo_surfind a)) as [b [Hb Pb]].
    { intros s Hs. apply Hf. apply (K1 (vo_index a)). exists a; auto. }
    rewrite Hb. cbn [bind]. exists b. split; auto. rewrite Pb. split.
    + intros [e [H1 H2]]. exists e. split; auto. exists a; auto.
    + intros [e [H1 H2]]. exists e. split; auto. apply (@owner _ vo_index vo_surfind (volus m) _ _ U1 Ha eq_refl). auto. }
  destruct (@omap_marks edge ed_index ed_set_border (fun v => exists s, ES m v s /\ SV m s 0)
    (fun v => do b <- scan (border_of su_index su_border ss) (ed_surfind v); Ok (ed_set_border b v)) (edges m)) as [es [He Me]].
  { intros a Ha. destruct (@scan_spec Z (border_of su_index su_border ss) (fun s => SV m s 0) (ed_surfind a)) as [b [Hb Pb]].
    { intros s Hs. apply Hf. apply (K2 (ed_index a)). exists a; auto. }
    rewrite Hb. cbn [bind]. exists b. split; auto. rewrite Pb. split.
    + intros [e [H1 H2]]. exists e. split; auto. exists a; auto.
    + intros [e [H1 H2]]. exists e. split; auto. apply (@owner _ ed_index ed_surfind (edges m) _ _ U3 Ha eq_refl). auto. }
  rewrite Hv. cbn [bind]. rewrite He. cbn [bind]. exists vs, ss, es. auto.
Qed.

Lemma borders2_spec m : resolvable m ->
  exists ss es, borders2 m = Ok (mkMesh (volus m) ss es (verts m) (meshDim m)) /\
    edge_marks (fun e => ES m e 0) (edges m) es /\
    surf_marks (fun s => exists e, SE m s e /\ ES m e 0) (surfs m) ss.
Proof.
  intros [U1 [U2 [U3 [U4 [K1 [K2 [K3 [K4 K5]]]]]]]]. unfold borders2.
  set (es := map (fun e => ed_set_border (existsb (fun s => s =? 0) (ed_surfind e)) e) (edges m)).
  assert (Me : edge_marks (fun e => ES m e 0) (edges m) es).
  { assert (G : forall l, (forall a, In a l -> In a (edges m)) ->
      edge_marks (fun s => ES m s 0) l (map (fun s => ed_set_border (existsb (fun v => v =? 0) (ed_surfind s)) s) l)).
    { induction l as [|a l IH]; intros Hl; constructor.
      - eexists. split; [reflexivity|]. rewrite existsb_zero. apply (@owner _ ed_index ed_surfind (edges m) _ _ U3); auto. apply Hl; left; auto.
      - apply IH. intros; apply Hl; right; auto. }
    apply G; auto. }
  destruct (@marks_spec _ ed_index ed_border ed_set_border ltac:(reflexivity) ltac:(reflexivity) ltac:(reflexivity) _ _ _ Me) as [E1 [E2 E3]].
  assert (Us : NoDup (map ed_index es)) by (rewrite E2; auto).
  destruct (@omap_marks surf su_index su_set_border (fun v => exists s, SE m v s /\ ES m s 0)
    (fun v => do b <- scan (border_of ed_index ed_border es) (su_edgeind v); Ok (su_set_border b v)) (surfs m)) as [ss [Hs Ms]].
  { intros a Ha. destruct (@scan_spec Z (border_of ed_index ed_border es) (fun s => ES m s 0) (su_edgeind a)) as [b [Hb Pb]].
    { intros s Hs. assert (Hk : has_edge m s) by (apply (K3 (su_index a)); exists a; auto).
      destruct (@border_of_spec _ ed_index ed_border es s Us) as [b [Hb Pb]].
      { apply (@has_of_map _ ed_index (edges m) es s E2). auto. }
      exists b. split; auto. rewrite Pb, E3. unfold has_edge in Hk. tauto. }
    rewrite Hb. cbn [bind]. exists b. split; auto. rewrite Pb. split.
    + intros [e [H1 H2]]. exists e. split; auto. exists a; auto.
    + intros [e [H1 H2]]. exists e. split; auto. apply (@owner _ su_index su_edgeind (surfs m) _ _ U2 Ha eq_refl). auto. }
  rewrite Hs. cbn [bind]. exists ss, es. auto.
Qed.

Lemma set_borders3_spec m : resolvable m -> volus m <> [] ->
  exists m', set_borders m = Ok m' /\ same_but_borders m m' /\
    (forall s, border_surf m' s <-> SV m s 0) /\
    (forall e, border_edge m' e <-> exists s, ES m e s /\ SV m s 0) /\
    (forall v, border_vert m' v <-> exists e s, VE m v e /\ ES m e s /\ SV m s 0) /\
    (forall w, border_volu m' w <->
       (exists s, VS m w s /\ SV m s 0) \/
       (exists s e v, VS m w s /\ SE m s e /\ EV m e v /\ border_vert m' v)).
Proof.
  intros HR Hne. unfold set_borders.
  replace (0 <? length (volus m))%nat with true.
  2:{ symmetry. apply Nat.ltb_lt. destruct (volus m); [congruence|simpl; lia]. }
  destruct (borders3_spec HR Hne) as [vs [ss [es [E1 [Ms [Mv Me]]]]]]. rewrite E1. cbn [bind].
  destruct (@marks_spec _ su_index su_border su_set_border ltac:(reflexivity) ltac:(reflexivity) ltac:(reflexivity) _ _ _ Ms) as [Es1 [Es2 Es3]].
  destruct (@marks_spec _ ed_index ed_border ed_set_border ltac:(reflexivity) ltac:(reflexivity) ltac:(reflexivity) _ _ _ Me) as [Ee1 [Ee2 Ee3]].
  destruct (@marks_spec _ vo_index vo_border vo_set_border ltac:(reflexivity) ltac:(reflexivity) ltac:(reflexivity) _ _ _ Mv) as [Ev1 [Ev2 Ev3]].
  set (m1 := mkMesh vs ss es (verts m) (meshDim m)).
  assert (SE1 : forall s e, SE m1 s e <-> SE m s e) by (intros; apply (@lists_of _ su_index su_set_border ltac:(reflexivity)); auto).
  assert (SV1 : forall s e, SV m1 s e <-> SV m s e) by (intros; apply (@lists_of _ su_index su_set_border ltac:(reflexivity)); auto).
  assert (ES1 : forall s e, ES m1 s e <-> ES m s e) by (intros; apply (@lists_of _ ed_index ed_set_border ltac:(reflexivity)); auto).
  assert (EV1 : forall s e, EV m1 s e <-> EV m s e) by (intros; apply (@lists_of _ ed_index ed_set_border ltac:(reflexivity)); auto).
  assert (VS1 : forall s e, VS m1 s e <-> VS m s e) by (intros; apply (@lists_of _ vo_index vo_set_border ltac:(reflexivity)); auto).
  assert (VE1 : forall s e, VE m1 s e <-> VE m s e) by (intros; reflexivity).
  assert (Hs1 : forall i, has_surf m1 i <-> has_surf m i) by (intros; apply has_of_map; auto).
  assert (He1 : forall i, has_edge m1 i <-> has_edge m i) by (intros; apply has_of_map; auto).
  destruct HR as [U1 [U2 [U3 [U4 [K1 [K2 [K3 [K4 K5]]]]]]]].
  assert (HR1 : resolvable m1).
  { unfold resolvable. simpl. rewrite Ev2, Es2, Ee2. do 4 (split; auto).
    split; [intros v s H; apply VS1 in H; apply Hs1; eauto|].
    split; [intros _ v s H; apply ES1 in H; apply Hs1; eauto|].
    split; [intros v s H; apply SE1 in H; apply He1; eauto|].
    split; [intros v s H; apply VE1 in H; apply He1; eauto|].
    intros v s H. apply EV1 in H. apply (K5 _ _ H). }
  destruct (borders_vert_spec HR1) as [vv [E2 Mw]]. rewrite E2. cbn [bind]. simpl in Mw.
  destruct (@marks_spec _ ve_index ve_border ve_set_border ltac:(reflexivity) ltac:(reflexivity) ltac:(reflexivity) _ _ _ Mw) as [Ew1 [Ew2 Ew3]].
  set (m2 := set_verts vv m1).
  assert (BE : forall e, border_edge m1 e <-> exists s, ES m e s /\ SV m s 0).
  { intros e. unfold border_edge. simpl. rewrite Ee3. split; [tauto|]. intros H. split; auto.
    destruct H as [s [H _]]. eapply lists_has; eauto. }
  assert (BS : forall s, flagged su_index su_border ss s <-> SV m s 0).
  { intros s. rewrite Es3. split; [tauto|]. intros H. split; auto. eapply lists_has; eauto. }
  assert (BV : forall v, flagged ve_index ve_border vv v <-> exists e s, VE m v e /\ ES m e s /\ SV m s 0).
  { intros v. rewrite Ew3. split.
    - intros [_ [e [H1 H2]]]. apply BE in H2. destruct H2 as [s H2]. exists e, s. auto.
    - intros [e [s [H1 [H2 H3]]]]. split; [eapply lists_has; eauto|]. exists e. split; auto. apply BE. eauto. }
  unfold borders_volu.
  destruct (@omap_marks volu vo_index vo_set_border
    (fun w => flagged vo_index vo_border vs w \/ (exists s e v, VS m w s /\ SE m s e /\ EV m e v /\ flagged ve_index ve_border vv v))
    (fun v => if vo_border v then Ok v else
      do b <- scan (fun s => do su <- at_ (surfs m2) (find su_index (surfs m2) s);
                             edges_touch m2 (su_edgeind su)) (vo_surfind v);
      Ok (vo_set_border b v)) (volus m2)) as [wv [E3 Mx]].
  { intros a Ha. simpl in Ha.
    assert (HVS : forall s, In s (vo_surfind a) <-> VS m (vo_index a) s).
    { intros s. rewrite <- VS1. apply (@owner _ vo_index vo_surfind vs); auto. rewrite Ev2; auto. }
    destruct (vo_border a) eqn:Eb.
    - exists true. split; [destruct a; simpl in *; subst; reflexivity|]. split; auto. intros _. left. exists a; auto.
    - destruct (@scan_spec Z (fun s => do su <- at_ (surfs m2) (find su_index (surfs m2) s);
                             edges_touch m2 (su_edgeind su))
        (fun s => exists e v, SE m s e /\ EV m e v /\ flagged ve_index ve_border vv v) (vo_surfind a)) as [b [Hb Pb]].
      { intros s Hs. apply HVS in Hs.
        destruct (@find_at _ su_index (surfs m2) s) as [su [Hsu [Hi Ei]]].
        { apply Hs1. apply (K1 _ _ Hs). }
        rewrite Hsu. cbn [bind].
        assert (HSE : forall e, In e (su_edgeind su) <-> SE m s e).
        { intros e. rewrite <- SE1. apply (@owner _ su_index su_edgeind ss); auto. rewrite Es2; auto. }
        destruct (@edges_touch_spec m2 (su_edgeind su)) as [b [Hb Pb]]; simpl.
        - rewrite Ee2; auto.
        - rewrite Ew2; auto.
        - intros e v H. apply EV1 in H. unfold has_vert. simpl. rewrite (@has_of_map _ ve_index (verts m) vv); auto. apply (K5 _ _ H).
        - intros e H. apply HSE in H. apply He1. apply (K3 _ _ H).
        - exists b. split; auto. rewrite Pb. split; intros [e [v [H1 [H2 H3]]]]; exists e, v.
          + split; [apply HSE; auto|]. split; auto. apply EV1; auto.
          + split; [apply HSE; auto|]. split; auto. apply EV1; auto. }
      rewrite Hb. cbn [bind]. exists b. split; auto. rewrite Pb. split.
      + intros [s [Hs [e [v H]]]]. right. exists s, e, v. split; auto. apply HVS; auto.
      + intros [[c [Hc [Ec Bc]]]|[s [e [v [H1 H2]]]]].
        * assert (c = a) by (eapply (@NoDup_idx_inj _ vo_index vs); eauto; rewrite Ev2; auto). congruence.
        * exists s. split; [apply HVS; auto|eauto]. }
  rewrite E3. cbn [bind]. eexists. split; [reflexivity|].
  destruct (@marks_spec _ vo_index vo_border vo_set_border ltac:(reflexivity) ltac:(reflexivity) ltac:(reflexivity) _ _ _ Mx) as [Ex1 [Ex2 Ex3]].
  simpl in Ex1, Ex2, Ex3.
  split; [|split; [|split; [|split]]].
  - unfold same_but_borders. simpl. repeat split; auto. congruence.
  - exact BS.
  - exact BE.
  - exact BV.
  - intros w. unfold border_volu, border_vert. simpl. rewrite Ex3. split.
    + intros [_ [H|H]]; [left|right; exact H]. apply Ev3 in H. tauto.
    + intros H. assert (Hw : exists a, In a vs /\ vo_index a = w).
      { apply (@has_of_map _ vo_index (volus m) vs w Ev2).
        destruct H as [[s [H _]]|[s [e [v [H _]]]]]; eapply lists_has; eauto. }
      split; auto. destruct H as [H|H]; [left|right; auto]. apply Ev3. split; auto.
      apply (@has_of_map _ vo_index (volus m) vs w Ev2). auto.
Qed.

Lemma set_borders2_spec m : resolvable m -> volus m = [] ->
  exists m', set_borders m = Ok m' /\ same_but_borders m m' /\
    (forall e, border_edge m' e <-> ES m e 0) /\
    (forall v, border_vert m' v <-> exists e, VE m v e /\ ES m e 0) /\
    (forall s, border_surf m' s <->
       (exists e, SE m s e /\ ES m e 0) \/
       (exists e v, SE m s e /\ EV m e v /\ border_vert m' v)).
Proof.
  intros HR Hne. unfold set_borders. rewrite Hne. simpl Nat.ltb. cbn iota.
  destruct (borders2_spec HR) as [ss [es [E1 [Me Ms]]]]. rewrite E1. cbn [bind].
  destruct (@marks_spec _ su_index su_border su_set_border ltac:(reflexivity) ltac:(reflexivity) ltac:(reflexivity) _ _ _ Ms) as [Es1 [Es2 Es3]].
  destruct (@marks_spec _ ed_index ed_border ed_set_border ltac:(reflexivity) ltac:(reflexivity) ltac:(reflexivity) _ _ _ Me) as [Ee1 [Ee2 Ee3]].
  set (m1 := mkMesh (volus m) ss es (verts m) (meshDim m)).
  assert (SE1 : forall s e, SE m1 s e <-> SE m s e) by (intros; apply (@lists_of _ su_index su_set_border ltac:(reflexivity)); auto).
  assert (ES1 : forall s e, ES m1 s e <-> ES m s e) by (intros; apply (@lists_of _ ed_index ed_set_border ltac:(reflexivity)); auto).
  assert (EV1 : forall s e, EV m1 s e <-> EV m s e) by (intros; apply (@lists_of _ ed_index ed_set_border ltac:(reflexivity)); auto).
  assert (VE1 : forall s e, VE m1 s e <-> VE m s e) by (intros; reflexivity).
  assert (VS1 : forall s e, VS m1 s e <-> VS m s e) by (intros; reflexivity).
  assert (Hs1 : forall i, has_surf m1 i <-> has_surf m i) by (intros; apply has_of_map; auto).
  assert (He1 : forall i, has_edge m1 i <-> has_edge m i) by (intros; apply has_of_map; auto).
  destruct HR as [U1 [U2 [U3 [U4 [K1 [K2 [K3 [K4 K5]]]]]]]].
  assert (HR1 : resolvable m1).
  { unfold resolvable. simpl. rewrite Es2, Ee2. do 4 (split; auto).
    split; [intros v s H; apply VS1 in H; apply Hs1; eauto|].
    split; [intros H; congruence|].
    split; [intros v s H; apply SE1 in H; apply He1; eauto|].
    split; [intros v s H; apply VE1 in H; apply He1; eauto|].
    intros v s H. apply EV1 in H. apply (K5 _ _ H). }
  destruct (borders_vert_spec HR1) as [vv [E2 Mw]]. rewrite E2. cbn [bind]. simpl in Mw.
  destruct (@marks_spec _ ve_index ve_border ve_set_border ltac:(reflexivity) ltac:(reflexivity) ltac:(reflexivity) _ _ _ Mw) as [Ew1 [Ew2 Ew3]].
  set (m2 := set_verts vv m1).
  assert (BE : forall e, border_edge m1 e <-> ES m e 0).
  { intros e. unfold border_edge. simpl. rewrite Ee3. split; [tauto|]. intros H. split; auto. eapply lists_has; eauto. }
  assert (BV : forall v, flagged ve_index ve_border vv v <-> exists e, VE m v e /\ ES m e 0).
  { intros v. rewrite Ew3. split.
    - intros [_ [e [H1 H2]]]. apply BE in H2. exists e. auto.
    - intros [e [H1 H2]]. split; [eapply lists_has; eauto|]. exists e. split; auto. apply BE. auto. }
  unfold borders_surf.
  destruct (@omap_marks surf su_index su_set_border
    (fun s => flagged su_index su_border ss s \/ (exists e v, SE m s e /\ EV m e v /\ flagged ve_index ve_border vv v))
    (fun s => if su_border s then Ok s else
      do b <- edges_touch m2 (su_edgeind s); Ok (su_set_border b s)) (surfs m2)) as [wv [E3 Mx]].
  { intros a Ha. simpl in Ha.
    assert (HSE : forall e, In e (su_edgeind a) <-> SE m (su_index a) e).
    { intros e. rewrite <- SE1. apply (@owner _ su_index su_edgeind ss); auto. rewrite Es2; auto. }
    destruct (su_border a) eqn:Eb.
    - exists true. split; [destruct a; simpl in *; subst; reflexivity|]. split; auto. intros _. left. exists a; auto.
    - destruct (@edges_touch_spec m2 (su_edgeind a)) as [b [Hb Pb]]; simpl.
      + rewrite Ee2; auto.
      + rewrite Ew2; auto.
      + intros e v H. apply EV1 in H. unfold has_vert. simpl. rewrite (@has_of_map _ ve_index (verts m) vv); auto. apply (K5 _ _ H).
      + intros e H. apply HSE in H. apply He1. apply (K3 _ _ H).
      + rewrite Hb. cbn [bind]. exists b. split; auto. rewrite Pb. split.
        * intros [e [v [H1 [H2 H3]]]]. right. exists e, v. split; [apply HSE; auto|]. split; auto. apply EV1; auto.
        * intros [[c [Hc [Ec Bc]]]|[e [v [H1 [H2 H3]]]]].
          -- assert (c = a) by (eapply (@NoDup_idx_inj _ su_index ss); eauto; rewrite Es2; auto). congruence.
          -- exists e, v. split; [apply HSE; auto|]. split; auto. apply EV1; auto. }
  rewrite E3. cbn [bind]. eexists. split; [reflexivity|].
  destruct (@marks_spec _ su_index su_border su_set_border ltac:(reflexivity) ltac:(reflexivity) ltac:(reflexivity) _ _ _ Mx) as [Ex1 [Ex2 Ex3]].
  simpl in Ex1, Ex2, Ex3.
  split; [|split; [|split]].
  - unfold same_but_borders. simpl. repeat split; auto. congruence.
  - exact BE.
  - exact BV.
  - intros w. unfold border_surf, border_vert. simpl. rewrite Ex3. split.
    + intros [_ [H|H]]; [left|right; exact H]. apply Es3 in H. tauto.
    + intros H. assert (Hw : exists a, In a ss /\ su_index a = w).
      { apply (@has_of_map _ su_index (surfs m) ss w Es2).
        destruct H as [[s [H _]]|[s [e [H _]]]]; eapply lists_has; eauto. }
      split; auto. destruct H as [H|H]; [left|right; auto]. apply Es3. split; auto.
      apply (@has_of_map _ su_index (surfs m) ss w Es2). auto.
Qed.
