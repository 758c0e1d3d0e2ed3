(** Lemmas on merging the vertices of each group. *)
From Coq Require Import Reals.
From Verif Require Import Base Containers Mesh Edit Geom Group SpecMesh SpecGroup
  ContainersProofs MeshProofs FloodProofs SwitchProofs CropProofs EditProofs FamilyMapProofs.
Set Implicit Arguments.
Open Scope Z_scope.

Definition rho (sw : list (Z * Z)) (y : Z) : Z :=
  match List.find (fun pr => fst pr =? y) sw with Some pr => snd pr | None => y end.
Lemma rho_out sw y : ~ In y (map fst sw) -> rho sw y = y.
Proof.
  intro H. unfold rho. destruct (List.find _ sw) as [pr|] eqn:E; auto. apply find_some in E.
  destruct E as [E1 E2]. apply Z.eqb_eq in E2. exfalso. apply H. apply in_map_iff. exists pr. auto.
Qed.
Lemma rho_in sw y r : In y (map fst sw) -> (forall r', In (y, r') sw -> r' = r) -> rho sw y = r.
Proof.
  intros H1 H2. unfold rho. destruct (List.find _ sw) as [pr|] eqn:E.
  - apply find_some in E. destruct E as [E1 E2]. apply Z.eqb_eq in E2. apply H2. subst y. destruct pr; exact E1.
  - apply in_map_iff in H1. destruct H1 as [pr [E1 E2]]. apply (find_none _ _ E) in E2. simpl in E2. lia.
Qed.
Lemma rho_snd sw y : In y (map fst sw) -> In (rho sw y) (map snd sw).
Proof.
  intro H. unfold rho. destruct (List.find _ sw) as [pr|] eqn:E.
  - apply find_some in E. apply in_map. tauto.
  - apply in_map_iff in H. destruct H as [pr [E1 E2]]. apply (find_none _ _ E) in E2. simpl in E2. lia.
Qed.
Lemma find_app_ A (f : A -> bool) l l' :
  List.find f (l ++ l') = match List.find f l with Some x => Some x | None => List.find f l' end.
Proof. induction l as [|a l IH]; simpl; auto. destruct (f a); auto. Qed.
Lemma rho_snoc sw o r y : ~ In o (map fst sw) -> ~ In o (map snd sw) ->
  rho (sw ++ [(o, r)]) y = if rho sw y =? o then r else rho sw y.
Proof.
  intros H1 H2. destruct (in_dec Z.eq_dec y (map fst sw)) as [I|I].
  - pose proof (rho_snd sw y I) as Hs. destruct (Z.eqb_spec (rho sw y) o) as [E|E]; [rewrite E in Hs; contradiction|].
    unfold rho in *. rewrite find_app_. destruct (List.find _ sw) as [pr|] eqn:F; auto.
    apply in_map_iff in I. destruct I as [pr [E1 E2]]. apply (find_none _ _ F) in E2. simpl in E2. lia.
  - rewrite (rho_out sw y I). unfold rho. rewrite find_app_. destruct (List.find _ sw) as [pr|] eqn:F.
    + apply find_some in F. destruct F as [F1 F2]. apply Z.eqb_eq in F2. exfalso. apply I. apply in_map_iff. exists pr. auto.
    + simpl. rewrite Z.eqb_sym. destruct (y =? o); reflexivity.
Qed.

(** ** Switching one vertex *)
Lemma switch1_well m old new m' :
  well_connected m -> has_vert m old -> has_vert m new ->
  same_objects m m' -> volus m' = volus m -> surfs m' = surfs m ->
  (forall e v, EV m' e v <-> renamed old new (EV m e) v) ->
  (forall v e, VE m' v e <-> (VE m v e /\ v <> old) \/ (v = new /\ VE m old e)) ->
  edges m' = map (fun e => ed_set_vertind (replace_all old new (ed_vertind e)) e) (edges m) ->
  well_connected m'.
Proof.
  intros [[Uv [Us [Ue [Un [Zv [Zs [Ze Zn]]]]]]] [[M1 [M2 [M3 [M4 [M5 M6]]]]] [X1 [X2 [X3 [X4 X5]]]]]] Ho Hn [_ [_ [_ [So _]]]] Hv Hs He Hve Ed.
  assert (Vi : map ve_index (verts m') = map ve_index (verts m)).
  { apply (f_equal (map fst)) in So. rewrite !map_map in So. exact So. }
  assert (Ei : map ed_index (edges m') = map ed_index (edges m)) by (rewrite Ed, map_map; reflexivity).
  assert (ESe : forall e s, ES m' e s <-> ES m e s).
  { intros e s. unfold ES, lists. rewrite Ed. split.
    - intros [a [Ha H]]. apply in_map_iff in Ha. destruct Ha as [b [<- Hb]]. exists b. auto.
    - intros [a [Ha H]]. eexists. split; [apply in_map; exact Ha | exact H]. }
  assert (SEe : forall s e, SE m' s e <-> SE m s e) by (intros; unfold SE; rewrite Hs; tauto).
  assert (SVe : forall s v, SV m' s v <-> SV m s v) by (intros; unfold SV; rewrite Hs; tauto).
  assert (VSe : forall v s, VS m' v s <-> VS m v s) by (intros; unfold VS; rewrite Hv; tauto).
  assert (No : old <> 0) by (intros ->; contradiction).
  assert (Nn : new <> 0) by (intros ->; contradiction).
  split; [|split].
  - unfold unique_indices. rewrite Hv, Hs, Vi, Ei. unfold has_volu, has_surf. rewrite Hv, Hs.
    do 6 (split; [assumption|]). split.
    + intro H. apply Ze. apply has_edge_In. rewrite <- Ei. apply has_edge_In. exact H.
    + intro H. apply Zn. apply has_vert_In. rewrite <- Vi. apply has_vert_In. exact H.
  - unfold mutual. split; [|split; [|split; [|split; [|split]]]].
    + intros v e H Hz. apply He. apply Hve in H. destruct H as [[H N]|[-> H]]; [left | right]; split; auto.
    + intros v e H Hz. apply Hve. apply He in H. destruct H as [[H N]|[-> H]]; [left | right]; split; auto.
    + intros e s. rewrite ESe, SEe. auto.
    + intros e s. rewrite ESe, SEe. auto.
    + intros s v. rewrite SVe, VSe. auto.
    + intros s v. rewrite SVe, VSe. auto.
  - unfold exterior_only. split; [|split; [|split; [|split]]].
    + intros v H. apply Hve in H. destruct H as [[H _]|[_ H]]; eapply X1; eauto.
    + intros e H. apply He in H. destruct H as [[H _]|[H _]]; [eapply X2; eauto | congruence].
    + intros s. rewrite SEe. auto.
    + intros v. rewrite VSe. auto.
    + rewrite Hv. intros N e. rewrite ESe. auto.
Qed.

Section MergeGroups.
Variable m0 : mesh.
Variable lab : list Z.
Variable findall : Z -> list Z.
Hypothesis Wc : well_connected m0.
Hypothesis Two : forall e, In e (edges m0) -> two_ended e.
Hypothesis Nde : forall v, In v (verts m0) -> NoDup (ve_edgeind v).
Hypothesis Len : length lab = length (verts m0).
Hypothesis All : findall_of lab findall.

Record merged (sw : list (Z * Z)) (m : mesh) : Prop := {
  mg_wc : well_connected m; mg_vo : volus m = volus m0; mg_su : surfs m = surfs m0; mg_dim : meshDim m = meshDim m0;
  mg_ed : edges m = map (fun e => ed_set_vertind (map (rho sw) (ed_vertind e)) e) (edges m0);
  mg_ve : map (fun v => (ve_index v, ve_border v)) (verts m) = map (fun v => (ve_index v, ve_border v)) (verts m0);
  mg_nd : forall v, In v (verts m) -> NoDup (ve_edgeind v) }.

Lemma merged_vi sw m : merged sw m -> map ve_index (verts m) = map ve_index (verts m0).
Proof. intro H. pose proof (f_equal (map fst) (mg_ve H)) as E. rewrite !map_map in E. exact E. Qed.

Lemma merged_step sw m o r : merged sw m -> o <> r -> has_vert m0 o -> has_vert m0 r ->
  ~ In o (map fst sw) -> ~ In o (map snd sw) ->
  exists m1, switch_index 1 o r [] m = Ok m1 /\ merged (sw ++ [(o, r)]) m1.
Proof.
  intros G Nor Ho Hr H1 H2. pose proof (merged_vi G) as Vi.
  assert (Ho' : has_vert m o) by (apply has_vert_In; rewrite Vi; apply has_vert_In; auto).
  assert (Hr' : has_vert m r) by (apply has_vert_In; rewrite Vi; apply has_vert_In; auto).
  destruct (@switch1_full m o r (mg_wc G) Nor Ho' Hr') as [m1 [R [So [A1 [A2 [_ [A3 [A4 [A5 A6]]]]]]]]].
  - intros v Hv _. apply (mg_nd G); auto.
  - intros e He Hin. rewrite (mg_ed G) in He. apply in_map_iff in He. destruct He as [e0 [<- He0]].
    destruct (Two e0 He0) as [a [b [Eab Nab]]]. unfold two_ended. simpl in *. rewrite Eab in *. simpl in *.
    assert (Back : forall y, rho sw y = o -> y = o).
    { intros y Hy. destruct (in_dec Z.eq_dec y (map fst sw)) as [I|I].
      - apply rho_snd in I. rewrite Hy in I. contradiction.
      - rewrite rho_out in Hy; auto. }
    exists (rho sw a), (rho sw b). split; auto. intro E. apply Nab.
    destruct Hin as [Hi|[Hi|[]]]; [rewrite (Back a Hi); rewrite Hi in E; symmetry; auto
                                  | rewrite (Back b Hi); rewrite Hi in E; auto].
  - exists m1. split; [exact R|]. constructor.
    + exact (switch1_well (mg_wc G) Ho' Hr' So A1 A2 A3 A4 A5).
    + rewrite A1. apply (mg_vo G).
    + rewrite A2. apply (mg_su G).
    + destruct So as [_ [_ [_ [_ D]]]]. rewrite D. apply (mg_dim G).
    + rewrite A5, (mg_ed G), map_map. apply map_ext. intro e. unfold ed_set_vertind. simpl. f_equal.
      unfold replace_all. rewrite map_map. apply map_ext. intro y. symmetry. apply rho_snoc; auto.
    + destruct So as [_ [_ [_ [D _]]]]. rewrite D. apply (mg_ve G).
    + intros v Hv. destruct (A6 v Hv) as [K|K]; auto. apply (mg_nd G); auto.
Qed.

Definition ix (p : Z) : Z := nth (Z.to_nat p) (map ve_index (verts m0)) 0.
Definition range (p : Z) : Prop := 0 <= p < Z.of_nat (length lab).
Definition labz (p : Z) : Z := nth (Z.to_nat p) lab (-1).
Lemma ix_inj p q : range p -> range q -> ix p = ix q -> p = q.
Proof.
  unfold range, ix. intros Hp Hq E. destruct Wc as [[_ [_ [_ [Un _]]]] _].
  apply NoDup_nth in E; auto; rewrite ?map_length; lia.
Qed.
Lemma ix_has p : range p -> has_vert m0 (ix p).
Proof. intros Hp. unfold range in Hp. apply has_vert_In. apply nth_In. rewrite map_length. lia. Qed.
Lemma ix_at p m sw : merged sw m -> range p -> exists v, at_ (verts m) p = Ok v /\ ve_index v = ix p.
Proof.
  intros G Hp. pose proof (merged_vi G) as Vi.
  assert (L : length (verts m) = length (verts m0)) by (apply (f_equal (@length _)) in Vi; rewrite !map_length in Vi; exact Vi).
  destruct (@at_in_range _ (verts m) p) as [v Hv]; [unfold range in Hp; lia|]. exists v. split; auto.
  apply at_Ok in Hv. destruct Hv as [_ Hv]. unfold ix. rewrite <- Vi. symmetry. apply nth_error_nth.
  rewrite nth_error_map, Hv. reflexivity.
Qed.
Lemma in_findall k p : In p (findall k) <-> range p /\ labz p = k.
Proof.
  destruct (All k) as [_ H]. rewrite H. unfold range, labz. split.
  - intros [A B]. split; [|apply nth_error_nth; exact B]. split; auto.
    assert (Z.to_nat p < length lab)%nat by (apply nth_error_Some; congruence). lia.
  - intros [A <-]. split; [lia|]. apply nth_error_nth'. lia.
Qed.
Definition pairs (k : Z) : list (Z * Z) :=
  match findall k with [] => [] | f :: os => map (fun j => (ix j, ix f)) os end.

Lemma pairs_in k o r : In (o, r) (pairs k) -> exists j f, o = ix j /\ r = ix f /\ range j /\ range f /\ labz j = k /\ labz f = k /\ j <> f /\
   hd_error (findall k) = Some f.
Proof.
  unfold pairs. destruct (findall k) as [|f os] eqn:E; [intros []|]. intro H. apply in_map_iff in H.
  destruct H as [j [Ej Hj]]. injection Ej as <- <-. exists j, f.
  assert (Ij : In j (findall k)) by (rewrite E; simpl; auto). assert (If : In f (findall k)) by (rewrite E; simpl; auto).
  apply in_findall in Ij. apply in_findall in If. destruct (All k) as [Nd _]. rewrite E in Nd. inversion Nd; subst.
  repeat (split; [tauto|]). split; [congruence | reflexivity].
Qed.

Definition fresh (k : Z) (sw : list (Z * Z)) : Prop :=
  forall o r, In (o, r) sw -> exists j f, o = ix j /\ r = ix f /\ range j /\ range f /\ labz j <> k /\ labz f <> k.
Definition setd (ps : list Z) (dn : list bool) : list bool := fold_left (fun d p => upd d (Z.to_nat p) true) ps dn.
Lemma setd_length ps : forall dn, length (setd ps dn) = length dn.
Proof. induction ps as [|p r IH]; intro dn; simpl; auto. unfold setd in *. simpl. rewrite IH, upd_length. reflexivity. Qed.
Lemma setd_nth ps q : forall dn, (forall p, In p ps -> 0 <= p < Z.of_nat (length dn)) -> 0 <= q < Z.of_nat (length dn) ->
  (nth_error (setd ps dn) (Z.to_nat q) = Some true <-> In q ps \/ nth_error dn (Z.to_nat q) = Some true).
Proof.
  induction ps as [|p r IH]; intros dn H Hq; simpl; [tauto|]. unfold setd in *. simpl.
  pose proof (H p (or_introl eq_refl)) as Hp.
  rewrite IH; [|rewrite upd_length; intros; apply H; simpl; auto | rewrite upd_length; auto].
  rewrite nth_error_upd. destruct (Nat.eqb_spec (Z.to_nat p) (Z.to_nat q)) as [E|E].
  - assert (p = q) by lia. destruct (Nat.ltb_spec (Z.to_nat p) (length dn)); [|lia]. tauto.
  - assert (p <> q) by lia. tauto.
Qed.

Lemma members_ok k f : In f (findall k) -> forall os sw m rmv dn,
  (forall j, In j os -> In j (findall k) /\ j <> f) -> NoDup os ->
  length dn = length lab -> merged sw m ->
  (forall j, In j os -> ~ In (ix j) (map fst sw) /\ ~ In (ix j) (map snd sw)) ->
  exists m1, for_each os (merge_member f) (m, rmv, dn) = Ok (m1, rmv ++ map ix os, setd os dn) /\
    merged (sw ++ map (fun j => (ix j, ix f)) os) m1.
Proof.
  intros Hf. apply in_findall in Hf. induction os as [|j r IH]; intros sw m rmv dn Hos Nd Ld G Fr.
  - exists m. simpl. rewrite !app_nil_r. auto.
  - destruct (Hos j (or_introl eq_refl)) as [Hj Njf]. apply in_findall in Hj. inversion Nd as [|? ? Nj Ndr]; subst.
    destruct (Fr j (or_introl eq_refl)) as [F1 F2].
    destruct (@merged_step sw m (ix j) (ix f) G) as [m1 [R1 G1]]; auto; try (apply ix_has; tauto).
    { intro E. apply ix_inj in E; tauto. }
    cbn [for_each merge_member].
    destruct (ix_at G (proj1 Hj)) as [vj [Avj Ivj]]. destruct (ix_at G (proj1 Hf)) as [vf [Avf Ivf]].
    rewrite Avj. cbn [bind]. rewrite Avf. cbn [bind]. rewrite Ivj, Ivf, R1. cbn [bind].
    destruct (ix_at G1 (proj1 Hj)) as [v1 [Av1 Iv1]]. rewrite Av1. cbn [bind].
    destruct (@at_in_range _ dn j) as [d Hd]; [destruct Hj as [Hj _]; unfold range in Hj; lia|]. rewrite Hd. cbn [bind]. rewrite Iv1.
    destruct (IH (sw ++ [(ix j, ix f)]) m1 (rmv ++ [ix j]) (upd dn (Z.to_nat j) true)) as [m2 [R2 G2]]; auto.
    + intros x Hx. apply Hos. simpl; auto.
    + rewrite upd_length. exact Ld.
    + intros x Hx. destruct (Hos x (or_intror Hx)) as [Hxa Nxf]. apply in_findall in Hxa.
      destruct (Fr x (or_intror Hx)) as [E1 E2]. rewrite !map_app, !in_app_iff. simpl.
      assert (ix j <> ix x). { intro E. apply ix_inj in E; try tauto. subst. contradiction. }
      assert (ix f <> ix x). { intro E. apply ix_inj in E; try tauto. subst. tauto. }
      tauto.
    + exists m2. simpl map. replace (rmv ++ ix j :: map ix r) with ((rmv ++ [ix j]) ++ map ix r) by (rewrite <- app_assoc; reflexivity).
      replace (sw ++ (ix j, ix f) :: map (fun j => (ix j, ix f)) r) with ((sw ++ [(ix j, ix f)]) ++ map (fun j => (ix j, ix f)) r)
        by (rewrite <- app_assoc; reflexivity).
      split; [exact R2 | exact G2].
Qed.

Record outer (i : Z) (ks : list Z) (m : mesh) (rmv : list Z) (dn : list bool) : Prop := {
  o_m : merged (flat_map pairs ks) m;
  o_rmv : rmv = map fst (flat_map pairs ks);
  o_len : length dn = length lab;
  o_ks : forall k, In k ks -> k <> -1 /\ exists p, range p /\ labz p = k;
  o_seen : forall p, range p -> p < i -> labz p <> -1 -> In (labz p) ks;
  o_dn : forall p, range p -> (nth_error dn (Z.to_nat p) = Some true <-> p < i \/ In (labz p) ks) }.

Lemma position_ok i ks m rmv dn : range i -> outer i ks m rmv dn ->
  exists ks' m' rmv' dn', merge_position findall lab i (m, rmv, dn) = Ok (m', rmv', dn') /\ outer (i + 1) ks' m' rmv' dn'.
Proof.
  intros Hi [Om Or Ol Ok_ Os Od]. unfold merge_position.
  pose proof Hi as Hi'. unfold range in Hi'.
  destruct (@at_in_range _ dn i) as [d Hd]; [lia|]. rewrite Hd. cbn [bind].
  assert (Hl : at_ lab i = Ok (labz i)).
  { apply at_Ok. split; [lia|]. apply nth_error_nth'. lia. }
  rewrite Hl. cbn [bind]. apply at_Ok in Hd. destruct Hd as [_ Hd].
  assert (Lmid : forall p, range p -> (p < i + 1 <-> p < i \/ p = i)) by (intros; lia).
  destruct (negb d && negb (labz i =? -1)) eqn:C.
  - apply andb_prop in C. destruct C as [C1 C2]. apply negb_true_iff in C1, C2. apply Z.eqb_neq in C2. subst d.
    assert (Nk : ~ In (labz i) ks).
    { intro H. assert (Some false = Some true) by (rewrite <- Hd; apply Od; auto). discriminate. }
    assert (Ii : In i (findall (labz i))) by (apply in_findall; auto).
    destruct (findall (labz i)) as [|f os] eqn:E; [destruct Ii|].
    assert (Hf : In f (findall (labz i))) by (rewrite E; simpl; auto).
    destruct (All (labz i)) as [Nd _]. rewrite E in Nd. inversion Nd as [|? ? Nf Ndo]; subst.
    destruct (@members_ok (labz i) f Hf os (flat_map pairs ks) m (map fst (flat_map pairs ks)) dn) as [m1 [R1 G1]]; auto.
    { intros j Hj. split; [rewrite E; simpl; auto | intros ->; contradiction]. }
    { intros j Hj. assert (Hj' : In j (findall (labz i))) by (rewrite E; simpl; auto). apply in_findall in Hj'.
      split; intro H; apply in_map_iff in H; destruct H as [[o r] [Eo Ho]]; simpl in Eo;
        apply in_flat_map in Ho; destruct Ho as [k [Hk Ho]]; apply pairs_in in Ho;
        destruct Ho as [j' [f' [E1 [E2 [R1 [R2 [L1 [L2 _]]]]]]]]; apply Nk.
      - assert (j' = j) by (apply ix_inj; [auto | tauto | congruence]). replace (labz i) with k; [auto|]. destruct Hj'. congruence.
      - assert (f' = j) by (apply ix_inj; [auto | tauto | congruence]). replace (labz i) with k; [auto|]. destruct Hj'. congruence. }
    rewrite R1. cbn [bind].
    assert (Rg : forall p, In p (f :: os) -> range p) by (intros p Hp; rewrite <- E in Hp; apply in_findall in Hp; tauto).
    assert (Hfr : range f) by (apply Rg; simpl; auto).
    destruct (@at_in_range _ (setd os dn) f) as [d1 Hd1]; [rewrite setd_length; unfold range in Hfr; lia|]. rewrite Hd1. cbn [bind].
    exists (ks ++ [labz i]), m1. do 2 eexists. split; [reflexivity|].
    assert (Ep : flat_map pairs (ks ++ [labz i]) = flat_map pairs ks ++ map (fun j => (ix j, ix f)) os).
    { rewrite flat_map_app. simpl. rewrite app_nil_r. unfold pairs at 2. rewrite E. reflexivity. }
    constructor.
    + rewrite Ep. exact G1.
    + rewrite Ep, map_app, map_map. reflexivity.
    + rewrite upd_length, setd_length. exact Ol.
    + intros k Hk. apply in_app_iff in Hk. destruct Hk as [Hk|[<-|[]]]; [auto|]. split; auto. exists i. auto.
    + intros p Hp Hlt Hn. rewrite in_app_iff. simpl. apply Lmid in Hlt; auto. destruct Hlt as [Hlt| ->]; auto.
    + intros p Hp.
      assert (Hs : nth_error (upd (setd os dn) (Z.to_nat f) true) (Z.to_nat p) = Some true <-> In p (os ++ [f]) \/ nth_error dn (Z.to_nat p) = Some true).
      { rewrite <- setd_nth; [unfold setd; rewrite fold_left_app; reflexivity | |].
        - intros q Hq. rewrite Ol. apply Rg. apply in_app_iff in Hq. simpl in *. tauto.
        - rewrite Ol. exact Hp. }
      rewrite Hs, (Od p Hp), !in_app_iff, (Lmid p Hp). simpl.
      assert (Hin : In p os \/ f = p <-> labz p = labz i).
      { transitivity (In p (findall (labz i))); [rewrite E; simpl; tauto|]. rewrite in_findall. tauto. }
      split.
      * intros [[H|[H|[]]]|[H|H]]; auto.
        -- right. right. left. symmetry. apply Hin. auto.
        -- right. right. left. symmetry. apply Hin. auto.
      * intros [[H| ->]|[H|[H|[]]]]; auto.
        -- left. destruct (proj2 Hin) as [K|K]; auto.
        -- left. destruct (proj2 Hin) as [K|K]; auto.
  - exists ks, m, rmv. eexists. split; [reflexivity|]. constructor; auto.
    + rewrite upd_length. exact Ol.
    + intros p Hp Hlt Hn. apply Lmid in Hlt; auto. destruct Hlt as [Hlt| ->]; auto.
      apply andb_false_iff in C. destruct C as [C|C]; apply negb_false_iff in C.
      * subst d. apply (Od i Hi) in Hd. destruct Hd as [Hd|Hd]; [lia | auto].
      * apply Z.eqb_eq in C. congruence.
    + intros p Hp. pose proof (@setd_nth [i] p dn) as Hs. unfold setd in Hs. simpl in Hs. rewrite Hs.
      * rewrite (Od p Hp), (Lmid p Hp). split; [intros [[H|[]]|[H|H]]; auto | intros [[H|H]|H]; auto].
      * intros q [<-|[]]. rewrite Ol. exact Hi.
      * rewrite Ol. exact Hp.
Qed.

Lemma positions_ok : forall k i s, (i + k = length lab)%nat ->
  (let '(m, rmv, dn) := s in exists ks, outer (Z.of_nat i) ks m rmv dn) ->
  exists ks m rmv dn, for_each (map Z.of_nat (seq i k)) (merge_position findall lab) s = Ok (m, rmv, dn) /\
    outer (Z.of_nat (length lab)) ks m rmv dn.
Proof.
  induction k as [|k IH]; intros i [[m rmv] dn] Hk [ks O].
  - exists ks, m, rmv, dn. split; [reflexivity|]. replace (length lab) with i by lia. exact O.
  - cbn [seq map for_each]. destruct (@position_ok (Z.of_nat i) ks m rmv dn) as [ks' [m' [rmv' [dn' [R O']]]]]; [unfold range; lia | exact O|].
    rewrite R. cbn [bind]. apply (IH (S i) (m', rmv', dn')); [lia|]. exists ks'.
    replace (Z.of_nat (S i)) with (Z.of_nat i + 1) by lia. exact O'.
Qed.
Lemma rho_nil : forall y, rho [] y = y.
Proof. reflexivity. Qed.
Lemma outer_start : outer 0 [] m0 [] (repeat false (length lab)).
Proof.
  constructor; simpl; auto.
  - constructor; auto. rewrite <- (map_id (edges m0)) at 1. apply map_ext. intro e. 
    rewrite (map_ext _ (fun y => y) rho_nil), map_id. destruct e; reflexivity.
  - apply repeat_length.
  - intros k [].
  - intros p Hp Hlt. unfold range in Hp. lia.
  - intros p Hp. split; [|unfold range in Hp; intros [H|[]]; lia]. intro H. apply nth_error_In, repeat_spec in H. discriminate.
Qed.

(** ** What the switches do *)
Lemma in_group_ix i k : in_group m0 lab i k <-> exists p, range p /\ ix p = i /\ labz p = k.
Proof.
  unfold in_group. split.
  - intros [p [v [H1 [H2 H3]]]]. exists (Z.of_nat p). unfold range, ix, labz. rewrite Nat2Z.id.
    assert (p < length lab)%nat by (apply nth_error_Some; congruence). split; [lia|]. split; [|apply nth_error_nth; auto].
    apply nth_error_nth. rewrite nth_error_map, H1. simpl. congruence.
  - intros [p [H1 [H2 H3]]]. unfold range in H1. destruct (@nth_ex _ (verts m0) (Z.to_nat p)) as [v Hv]; [lia|].
    exists (Z.to_nat p), v. split; auto. split.
    + rewrite <- H2. unfold ix. symmetry. apply nth_error_nth. rewrite nth_error_map, Hv. reflexivity.
    + rewrite <- H3. unfold labz. apply nth_error_nth'. lia.
Qed.
Lemma sw_keys ks i : In i (map fst (flat_map pairs ks)) <->
  exists k j f, In k ks /\ i = ix j /\ In j (findall k) /\ hd_error (findall k) = Some f /\ j <> f.
Proof.
  split.
  - intro H. apply in_map_iff in H. destruct H as [[o r] [E H]]. simpl in E. subst o.
    apply in_flat_map in H. destruct H as [k [Hk H]]. apply pairs_in in H.
    destruct H as [j [f [E1 [E2 [R1 [R2 [L1 [L2 [N H]]]]]]]]]. exists k, j, f. rewrite in_findall. auto 9.
  - intros [k [j [f [Hk [-> [Hj [Hf N]]]]]]]. destruct (findall k) as [|f' os] eqn:E; [destruct Hj|].
    simpl in Hf. injection Hf as ->. destruct Hj as [Hj|Hj]; [congruence|].
    apply in_map_iff. exists (ix j, ix f). split; auto. apply in_flat_map. exists k. split; auto.
    unfold pairs. rewrite E. apply in_map_iff. exists j. auto.
Qed.
Lemma rho_group ks p f : range p -> In (labz p) ks -> hd_error (findall (labz p)) = Some f ->
  rho (flat_map pairs ks) (ix p) = ix f.
Proof.
  intros Hp Hk Hf. assert (If : In f (findall (labz p))).
  { destruct (findall (labz p)); simpl in Hf; [discriminate|]. injection Hf as ->. simpl; auto. }
  pose proof If as If'. apply in_findall in If'.
  destruct (Z.eq_dec p f) as [<-|N].
  - apply rho_out. rewrite sw_keys. intros [k [j [f [Hk' [E [Hj [Hf' N]]]]]]]. apply in_findall in Hj.
    destruct Hj as [Rj Lj]. apply ix_inj in E; auto. subst j. subst k. congruence.
  - apply rho_in.
    + apply sw_keys. exists (labz p), p, f. rewrite in_findall. auto.
    + intros r H. apply in_flat_map in H. destruct H as [k [Hk' H]]. apply pairs_in in H.
      destruct H as [j [f' [E1 [E2 [R1 [R2 [L1 [L2 [_ H]]]]]]]]]. apply ix_inj in E1; auto. subst. congruence.
Qed.

Lemma representative_ok ks :
  (forall k, In k ks -> k <> -1 /\ exists p, range p /\ labz p = k) ->
  (forall p, range p -> labz p <> -1 -> In (labz p) ks) ->
  let rep := rho (flat_map pairs ks) in
  representative m0 lab rep /\ (forall i, rep (rep i) = rep i) /\
  (forall i, In i (map fst (flat_map pairs ks)) <-> has_vert m0 i /\ rep i <> i).
Proof.
  intros K1 K2 rep.
  assert (Hd : forall p, range p -> exists f, hd_error (findall (labz p)) = Some f /\ range f /\ labz f = labz p).
  { intros p Hp. assert (H : In p (findall (labz p))) by (apply in_findall; auto).
    destruct (findall (labz p)) as [|f os] eqn:E; [destruct H|]. exists f. split; auto. apply in_findall. rewrite E. simpl; auto. }
  assert (Out : forall i, (forall k, in_group m0 lab i k -> k = -1) -> rep i = i).
  { intros i Hi. apply rho_out. rewrite sw_keys. intros [k [j [f [Hk [-> [Hj _]]]]]]. apply in_findall in Hj.
    destruct (K1 k Hk) as [Nk _]. apply Nk. apply Hi. apply in_group_ix. exists j. tauto. }
  assert (Rep : forall p, range p -> labz p <> -1 -> exists f, rep (ix p) = ix f /\ hd_error (findall (labz p)) = Some f /\ range f /\ labz f = labz p).
  { intros p Hp Hn. destruct (Hd p Hp) as [f [H1 [H2 H3]]]. exists f. split; auto. apply rho_group; auto. }
  assert (Rp : representative m0 lab rep).
  { split; [|split; [|exact Out]].
    - intros i k H Hk. apply in_group_ix in H. destruct H as [p [Hp [<- <-]]].
      destruct (Rep p Hp Hk) as [f [-> [_ [Hf Lf]]]]. apply in_group_ix. exists f. auto.
    - intros i j k H1 H2 Hk. apply in_group_ix in H1, H2. destruct H1 as [p [Hp [<- <-]]]. destruct H2 as [q [Hq [<- Lq]]].
      destruct (Rep p Hp Hk) as [f [-> [H1 _]]]. destruct (Rep q Hq) as [f' [-> [H2 _]]]; [congruence|]. congruence. }
  split; [exact Rp|].
  assert (Dec : forall i, (exists p, range p /\ ix p = i /\ labz p <> -1) \/ rep i = i).
  { intro i. destruct (in_dec Z.eq_dec i (map fst (flat_map pairs ks))) as [I|I]; [|right; apply rho_out; auto].
    left. apply sw_keys in I. destruct I as [k [j [f [Hk [-> [Hj _]]]]]]. apply in_findall in Hj. exists j.
    destruct Hj as [A <-]. split; auto. split; auto. apply (K1 _ Hk). }
  split.
  - intro i. destruct (Dec i) as [[p [Hp [<- Hn]]]|E]; [|rewrite E; auto].
    destruct (Rep p Hp Hn) as [f [E [H1 [H2 H3]]]]. rewrite E. destruct (Rep f H2) as [f' [E' [H4 _]]]; [congruence|].
    rewrite H3 in H4. congruence.
  - intro i. rewrite sw_keys. split.
    + intros [k [j [f [Hk [-> [Hj [Hf N]]]]]]]. apply in_findall in Hj. destruct Hj as [Rj Lj]. split; [apply ix_has; auto|].
      destruct (K1 k Hk) as [Nk _]. destruct (Rep j Rj) as [f' [-> [H1 [H2 _]]]]; [congruence|]. rewrite Lj in H1.
      intro E. apply ix_inj in E; auto. congruence.
    + intros [_ N]. destruct (Dec i) as [[p [Hp [<- Hn]]]|E]; [|contradiction].
      destruct (Rep p Hp Hn) as [f [E [H1 _]]]. exists (labz p), p, f. rewrite in_findall.
      split; [auto|]. split; auto. split; auto. split; auto. intros ->. apply N. exact E.
Qed.
End MergeGroups.
