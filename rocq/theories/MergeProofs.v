(** Tightening and merging of meshes. *)
From Verif Require Import Base Containers ContainersProofs Mesh SpecMesh MeshProofs SwitchProofs.
Set Implicit Arguments.
Open Scope Z_scope.

(** ** TightenConnectivity *)
Lemma omap_list_Ok A B (f : A -> outcome B) (g : A -> B) l :
  (forall a, In a l -> f a = Ok (g a)) -> omap_list f l = Ok (map g l).
Proof.
  induction l as [|a r IH]; simpl; intros H; auto.
  rewrite H by auto. simpl. rewrite IH by auto. reflexivity.
Qed.

Lemma edge_tighten_Ok e : (length (ed_vertind e) <= 2)%nat ->
  edge_tighten e = Ok (ed_set_surfind (tighten (ed_surfind e)) e).
Proof. intros H. unfold edge_tighten. destruct (Nat.ltb_spec 2 (length (ed_vertind e))); auto; lia. Qed.

Definition tightened m := mkMesh (map volu_tighten (volus m)) (map surf_tighten (surfs m))
   (map (fun e => ed_set_surfind (tighten (ed_surfind e)) e) (edges m))
   (map vert_tighten (verts m)) (meshDim m).

Lemma mesh_tighten_Ok m : (forall e, In e (edges m) -> (length (ed_vertind e) <= 2)%nat) ->
  mesh_tighten m = Ok (tightened m).
Proof.
  intros H. unfold mesh_tighten.
  rewrite (@omap_list_Ok _ _ edge_tighten (fun e => ed_set_surfind (tighten (ed_surfind e)) e)).
  - reflexivity.
  - intros e He. apply edge_tighten_Ok. auto.
Qed.

Lemma omap_list_Throw A B (f : A -> outcome B) l :
  (forall a, f a = Throw \/ exists b, f a = Ok b) -> (exists a, In a l /\ f a = Throw) ->
  omap_list f l = Throw.
Proof.
  intros Hf. induction l as [|a r IH]; simpl; intros [x [Hx E]]; [destruct Hx|].
  destruct (Hf a) as [H|[b H]]; rewrite H; simpl; auto.
  destruct Hx as [->|Hx]; [congruence|]. rewrite IH by eauto. reflexivity.
Qed.

Lemma mesh_tighten_Throw m e : In e (edges m) -> (2 < length (ed_vertind e))%nat -> mesh_tighten m = Throw.
Proof.
  intros He H. unfold mesh_tighten. rewrite omap_list_Throw; auto.
  - intros a. unfold edge_tighten. destruct (_ <? _)%nat; eauto.
  - exists e. split; auto. unfold edge_tighten. destruct (Nat.ltb_spec 2 (length (ed_vertind e))); auto; lia.
Qed.

Lemma lists_tight A (idx : A -> Z) get f l i x :
  (forall a, idx (f a) = idx a) -> (forall a, get (f a) = tighten (get a)) ->
  lists idx get (map f l) i x <-> lists idx get l i x.
Proof.
  intros H1 H2. rewrite (@lists_map_fun _ idx get tighten f l i x) by auto.
  unfold lists. split; intros [a [Ha [Hi Hx]]]; exists a; rewrite tighten_In in *; auto.
Qed.

Lemma tightened_refs m : same_refs m (tightened m).
Proof.
  unfold same_refs, VE, EV, ES, SE, SV, VS, tightened; simpl. repeat apply conj; intros;
  first [apply lists_tight; intros; reflexivity | apply lists_map_same; intros; split; reflexivity].
Qed.

Lemma tightened_objects m : same_objects m (tightened m).
Proof. unfold same_objects, tightened; simpl. repeat split; rewrite map_map; apply map_ext; auto. Qed.

(** ** Merging *)
Lemma shift_pos_ref d x : 0 <= x -> shift_pos d x = (if x =? 0 then 0 else x + d).
Proof. intros H. unfold shift_pos. destruct (Z.ltb_spec 0 x), (Z.eqb_spec x 0); lia. Qed.

Lemma map_shift_pos d l : (forall x, In x l -> 0 <= x) ->
  map (shift_pos d) l = map (fun x => if x =? 0 then 0 else x + d) l.
Proof. intros H. apply map_ext_in. intros x Hx. apply shift_pos_ref; auto. Qed.

Lemma map_shift_all d l : ~ In 0 l ->
  map (fun x => x + d) l = map (fun x => if x =? 0 then 0 else x + d) l.
Proof. intros H. apply map_ext_in. intros x Hx. destruct (Z.eqb_spec x 0); auto. congruence. Qed.

Lemma in_lists A (idx : A -> Z) get l a x : In a l -> In x (get a) -> lists idx get l (idx a) x.
Proof. intros H1 H2. exists a; auto. Qed.

Lemma change_shifted dv de ds dvo m :
  positive_indices m -> (forall v, ~ VE m v 0) -> (forall e, ~ EV m e 0) -> (forall s, ~ SE m s 0) ->
  shifted dv de ds dvo m (change_indices dv de ds dvo m).
Proof.
  intros [_ Hp] X1 X2 X3. unfold shifted, change_indices; simpl.
  repeat apply conj; rewrite map_map; apply map_ext_in; intros a Ha; simpl; auto.
  - apply map_shift_pos. intros x Hx. apply (Hp (vo_index a)). do 5 right. apply in_lists; auto.
  - apply map_shift_pos. intros x Hx. apply (Hp (su_index a)). do 4 right. left. apply in_lists; auto.
  - apply map_shift_all. intros H0. apply (X3 (su_index a)). apply in_lists; auto.
  - apply map_shift_pos. intros x Hx. apply (Hp (ed_index a)). do 2 right. left. apply in_lists; auto.
  - apply map_shift_all. intros H0. apply (X2 (ed_index a)). apply in_lists; auto.
  - apply map_shift_all. intros H0. apply (X1 (ve_index a)). apply in_lists; auto.
Qed.

Lemma NoDup_app2 (l1 l2 : list Z) : NoDup l1 -> NoDup l2 -> (forall x, In x l1 -> ~ In x l2) -> NoDup (l1 ++ l2).
Proof.
  induction l1 as [|a r IH]; simpl; intros H1 H2 H; auto.
  inversion H1; subst. constructor.
  - rewrite in_app_iff. intros [Hq|Hq]; auto. exact (H a (or_introl eq_refl) Hq).
  - apply IH; auto.
Qed.

Lemma merge_unique A (idx : A -> Z) f (l l' : list A) :
  NoDup (map idx l) -> NoDup (map idx l') ->
  (forall a, In a l' -> 0 < idx a) -> (forall a, idx (f a) = idx a + max_index idx l) ->
  NoDup (map idx (l ++ map f l')).
Proof.
  intros H1 H2 Hpos Hf. rewrite map_app, map_map.
  rewrite (map_ext (fun a => idx (f a)) (fun a => idx a + max_index idx l) Hf).
  apply NoDup_app2; auto.
  - rewrite <- (map_map idx (fun z => z + max_index idx l)).
    apply FinFun.Injective_map_NoDup; auto. intros x y; lia.
  - intros x Hx Hy. apply in_map_iff in Hx, Hy.
    destruct Hx as [a [<- Ha]]. destruct Hy as [b [E Hb]].
    pose proof (max_index_ge idx l a Ha). specialize (Hpos b Hb). lia.
Qed.

Lemma lists_app A (idx : A -> Z) get l1 l2 i x :
  lists idx get (l1 ++ l2) i x <-> lists idx get l1 i x \/ lists idx get l2 i x.
Proof.
  unfold lists. split.
  - intros [a [Ha H]]. apply in_app_iff in Ha. destruct Ha; [left|right]; eauto.
  - intros [[a [Ha H]]|[a [Ha H]]]; exists a; rewrite in_app_iff; auto.
Qed.

(** References of a renumbered mesh. *)
Definition moved_ref (d x : Z) : Z := if x =? 0 then 0 else x + d.

Lemma lists_changed A (idx : A -> Z) get f g l di i x :
  (forall a, In a l -> idx (f a) = idx a + di) -> (forall a, In a l -> get (f a) = map g (get a)) ->
  lists idx get (map f l) i x <-> exists x0, x = g x0 /\ lists idx get l (i - di) x0.
Proof.
  intros H1 H2. unfold lists. split.
  - intros [a' [Ha [Hi Hx]]]. apply in_map_iff in Ha. destruct Ha as [a [<- Ha]].
    rewrite H2 in Hx by auto. apply in_map_iff in Hx. destruct Hx as [x0 [<- Hx0]].
    rewrite H1 in Hi by auto.
    exists x0. split; auto. exists a. repeat split; auto. lia.
  - intros [x0 [-> [a [Ha [Hi Hx]]]]]. exists (f a). rewrite H1, H2 by auto.
    repeat split; [apply in_map; auto|lia|apply in_map; auto].
Qed.

(** A mutual relation pair stays mutual under renumbering. *)
Lemma mutual_changed A B (idxA : A -> Z) getA fA gA (idxB : B -> Z) getB fB gB la lb dA dB :
  (forall a, In a la -> idxA (fA a) = idxA a + dA) -> (forall a, In a la -> getA (fA a) = map gA (getA a)) ->
  (forall b, In b lb -> idxB (fB b) = idxB b + dB) -> (forall b, In b lb -> getB (fB b) = map gB (getB b)) ->
  (forall i x, lists idxA getA la i x -> gA x = moved_ref dB x) ->
  (forall i x, lists idxB getB lb i x -> gB x = moved_ref dA x) ->
  (forall a, In a la -> idxA a <> 0) ->
  (forall i x, lists idxA getA la i x -> x <> 0 -> lists idxB getB lb x i) ->
  (forall i x, lists idxA getA (map fA la) i x -> x <> 0 -> lists idxB getB (map fB lb) x i).
Proof.
  intros HA1 HA2 HB1 HB2 HgA HgB Hnz Hmut i x H Hx.
  apply (proj1 (@lists_changed _ idxA getA fA gA la dA i x HA1 HA2)) in H.
  destruct H as [x0 [-> Hl]]. rewrite (HgA _ _ Hl) in *.
  unfold moved_ref in *. destruct (Z.eqb_spec x0 0) as [E|E]; [congruence|].
  apply (@lists_changed _ idxB getB fB gB lb dB _ _ HB1 HB2).
  exists (i - dA). replace (x0 + dB - dB) with x0 by lia.
  assert (Hb : lists idxB getB lb x0 (i - dA)) by (apply Hmut; auto).
  split; auto. rewrite (HgB _ _ Hb). unfold moved_ref.
  destruct Hl as [a [Ha [Hi _]]]. specialize (Hnz a Ha).
  destruct (Z.eqb_spec (i - dA) 0); [congruence|]. lia.
Qed.

Lemma merge_nonzero A (idx : A -> Z) f (l l' : list A) :
  ~ (exists a, In a l /\ idx a = 0) -> (forall a, In a l' -> 0 < idx a) ->
  (forall a, idx (f a) = idx a + max_index idx l) -> ~ (exists a, In a (l ++ map f l') /\ idx a = 0).
Proof.
  intros H1 H2 Hf [a [Ha E]]. apply in_app_iff in Ha. destruct Ha as [Ha|Ha]; [apply H1; eauto|].
  apply in_map_iff in Ha. destruct Ha as [b [<- Hb]]. rewrite Hf in E.
  specialize (H2 b Hb). pose proof (max_index_nonneg idx l). lia.
Qed.

Lemma has_all_pos m : positive_indices m ->
  (forall a, In a (volus m) -> 0 < vo_index a) /\ (forall a, In a (surfs m) -> 0 < su_index a) /\
  (forall a, In a (edges m) -> 0 < ed_index a) /\ (forall a, In a (verts m) -> 0 < ve_index a).
Proof.
  intros [H _]. repeat split; intros a Ha; apply H.
  - left; exists a; auto.
  - right; left; exists a; auto.
  - right; right; left; exists a; auto.
  - right; right; right; exists a; auto.
Qed.

Lemma merged_unique a b : unique_indices a -> unique_indices b -> positive_indices b ->
  unique_indices (concatenate a (make_compatible a b)).
Proof.
  intros [A1 [A2 [A3 [A4 [A5 [A6 [A7 A8]]]]]]] [B1 [B2 [B3 [B4 _]]]] Hb.
  destruct (has_all_pos Hb) as [P1 [P2 [P3 P4]]].
  unfold unique_indices, concatenate, make_compatible, change_indices, has_volu, has_surf, has_edge, has_vert; simpl.
  repeat apply conj;
    first [apply merge_unique; auto; fail | apply merge_nonzero; auto].
Qed.

Lemma merged_mutual a b :
  well_connected a -> well_connected b -> positive_indices b ->
  mutual (concatenate a (make_compatible a b)).
Proof.
  intros [Ua [Ma Xa]] [Ub [Mb Xb]] Hp.
  destruct (has_all_pos Hp) as [P1 [P2 [P3 P4]]]. destruct Hp as [_ Hp].
  destruct Ma as [A1 [A2 [A3 [A4 [A5 A6]]]]]. destruct Mb as [B1 [B2 [B3 [B4 [B5 B6]]]]].
  destruct Xb as [X1 [X2 [X3 [X4 X5]]]].
  assert (Hpos : forall d x, 0 <= x -> shift_pos d x = moved_ref d x) by (intros; apply shift_pos_ref; auto).
  assert (Hall : forall d x, x <> 0 -> x + d = moved_ref d x).
  { intros d x Hx. unfold moved_ref. destruct (Z.eqb_spec x 0); congruence. }
  assert (GVE : forall i x d, lists ve_index ve_edgeind (verts b) i x -> x + d = moved_ref d x).
  { intros i x d H. apply Hall. intros ->. apply (X1 i H). }
  assert (GEV : forall i x d, lists ed_index ed_vertind (edges b) i x -> x + d = moved_ref d x).
  { intros i x d H. apply Hall. intros ->. apply (X2 i H). }
  assert (GSE : forall i x d, lists su_index su_edgeind (surfs b) i x -> x + d = moved_ref d x).
  { intros i x d H. apply Hall. intros ->. apply (X3 i H). }
  assert (GES : forall i x d, lists ed_index ed_surfind (edges b) i x -> shift_pos d x = moved_ref d x).
  { intros i x d H. apply Hpos. apply (Hp i x). unfold ES. tauto. }
  assert (GSV : forall i x d, lists su_index su_voluind (surfs b) i x -> shift_pos d x = moved_ref d x).
  { intros i x d H. apply Hpos. apply (Hp i x). unfold SV. tauto. }
  assert (GVS : forall i x d, lists vo_index vo_surfind (volus b) i x -> shift_pos d x = moved_ref d x).
  { intros i x d H. apply Hpos. apply (Hp i x). unfold VS. tauto. }
  assert (N1 : forall x, In x (volus b) -> vo_index x <> 0) by (intros x H; specialize (P1 x H); lia).
  assert (N2 : forall x, In x (surfs b) -> su_index x <> 0) by (intros x H; specialize (P2 x H); lia).
  assert (N3 : forall x, In x (edges b) -> ed_index x <> 0) by (intros x H; specialize (P3 x H); lia).
  assert (N4 : forall x, In x (verts b) -> ve_index x <> 0) by (intros x H; specialize (P4 x H); lia).
  unfold mutual, VE, EV, ES, SE, SV, VS in *. unfold concatenate, make_compatible, change_indices; simpl.
  set (dv := max_index ve_index (verts a)). set (de := max_index ed_index (edges a)).
  set (ds := max_index su_index (surfs a)). set (dvo := max_index vo_index (volus a)).
  repeat apply conj.
  - intros v e H He. apply lists_app in H. apply lists_app. destruct H as [H|H]; [left; auto|right]. revert v e H He.
    apply mutual_changed with (gA := (fun x => x + de)) (gB := (fun x => x + dv)) (dA := dv) (dB := de);
      [intros; reflexivity|intros; reflexivity|intros; reflexivity|intros; reflexivity|eauto|eauto|auto|intros i x; apply B1].
  - intros v e H He. apply lists_app in H. apply lists_app. destruct H as [H|H]; [left; auto|right]. revert e v H He.
    apply mutual_changed with (gA := (fun x => x + dv)) (gB := (fun x => x + de)) (dA := de) (dB := dv);
      [intros; reflexivity|intros; reflexivity|intros; reflexivity|intros; reflexivity|eauto|eauto|auto|intros i x; apply B2].
  - intros v e H He. apply lists_app in H. apply lists_app. destruct H as [H|H]; [left; auto|right]. revert v e H He.
    apply mutual_changed with (gA := (shift_pos ds)) (gB := (fun x => x + de)) (dA := de) (dB := ds);
      [intros; reflexivity|intros; reflexivity|intros; reflexivity|intros; reflexivity|eauto|eauto|auto|intros i x; apply B3].
  - intros v e H He. apply lists_app in H. apply lists_app. destruct H as [H|H]; [left; auto|right]. revert e v H He.
    apply mutual_changed with (gA := (fun x => x + de)) (gB := (shift_pos ds)) (dA := ds) (dB := de);
      [intros; reflexivity|intros; reflexivity|intros; reflexivity|intros; reflexivity|eauto|eauto|auto|intros i x; apply B4].
  - intros v e H He. apply lists_app in H. apply lists_app. destruct H as [H|H]; [left; auto|right]. revert v e H He.
    apply mutual_changed with (gA := (shift_pos dvo)) (gB := (shift_pos ds)) (dA := ds) (dB := dvo);
      [intros; reflexivity|intros; reflexivity|intros; reflexivity|intros; reflexivity|eauto|eauto|auto|intros i x; apply B5].
  - intros v e H He. apply lists_app in H. apply lists_app. destruct H as [H|H]; [left; auto|right]. revert e v H He.
    apply mutual_changed with (gA := (shift_pos ds)) (gB := (shift_pos dvo)) (dA := dvo) (dB := ds);
      [intros; reflexivity|intros; reflexivity|intros; reflexivity|intros; reflexivity|eauto|eauto|auto|intros i x; apply B6].
Qed.
