(** Updating one flat object by another and unflattening. *)
From Coq Require Import String Ascii ZArith QArith List Bool Lia Sorted.
From Verif Require Import Base Mesh Config SpecConfig JsonProofs JsonBuildProofs.
Import ListNotations.
Set Implicit Arguments.
Open Scope Z_scope.
Open Scope list_scope.

(** ** Leaves and cells *)
Definition tok (s : step) : string := match s with Key k => k | Elem i => dec i end.
Definition toks (p : list step) : list string := map tok p.

Lemma leaf_primitive j p v : leaf j p v -> primitive v = true.
Proof. induction 1; auto. Qed.
Lemma leaf_cell j p v : leaf j p v -> cell j (toks p) v.
Proof. induction 1; cbn; econstructor; eauto. Qed.
Lemma empty_cell j p : empty_at j p -> cell j (toks p) JNull.
Proof. induction 1; cbn; econstructor; eauto. Qed.
Lemma cell_leaf j t v : cell j t v -> exists p, t = toks p /\ (leaf j p v \/ (v = JNull /\ empty_at j p)).
Proof.
  induction 1 as [v H| | |l i x p v H _ IH|m k x p v H _ IH].
  - exists []. split; [reflexivity|]. left. constructor. exact H.
  - exists []. split; [reflexivity|]. right. split; [reflexivity|constructor].
  - exists []. split; [reflexivity|]. right. split; [reflexivity|constructor].
  - destruct IH as [q [-> IH]]. exists (Elem i :: q). split; [reflexivity|].
    destruct IH as [IH|[E IH]]; [left|right; split; [exact E|]]; econstructor; eauto.
  - destruct IH as [q [-> IH]]. exists (Key k :: q). split; [reflexivity|].
    destruct IH as [IH|[E IH]]; [left|right; split; [exact E|]]; econstructor; eauto.
Qed.
Lemma cell_primitive j t v : cell j t v -> primitive v = true.
Proof. induction 1; auto. Qed.
Lemma leaf_inside j p s r v : leaf j (p ++ s :: r) v -> inside j (toks p).
Proof.
  revert j. induction p as [|s' p IH]; intros j H; cbn.
  - inversion H; subst.
    + destruct l; [destruct i; discriminate|]. constructor.
    + destruct m; [match goal with H : In _ [] |- _ => destruct H end|]. constructor.
  - inversion H; subst; cbn; econstructor; eauto.
Qed.

Lemma good_smap m : good (JObj m) -> smap m /\ forall k x, In (k, x) m -> k <> "0"%string /\ good x.
Proof. intros G. inversion G; [discriminate|auto]. Qed.
Lemma good_list l : good (JArr l) -> forall x, In x l -> good x.
Proof. intros G. inversion G; [discriminate|auto]. Qed.
Lemma smap_fun (m : list (string * json)) k x y : smap m -> In (k, x) m -> In (k, y) m -> x = y.
Proof. intros S H1 H2. apply (lookup_iff k x S) in H1. apply (lookup_iff k y S) in H2. congruence. Qed.

Lemma cell_fun j : good j -> forall t v w, cell j t v -> cell j t w -> v = w.
Proof.
  intros G t v w H. revert w G. induction H as [v H| | |l i x p v H Hc IH|m k x p v H Hc IH]; intros w G H2.
  - inversion H2; subst; auto; discriminate.
  - inversion H2; subst; auto; discriminate.
  - inversion H2; subst; auto; discriminate.
  - inversion H2; subst; try discriminate.
    match goal with E : dec _ = dec _ |- _ => apply dec_inj in E; subst end.
    match goal with E : nth_error l i = Some ?y |- _ => rewrite H in E; injection E as -> end.
    apply IH; auto. apply (good_list G). eapply nth_error_In; eauto.
  - destruct (good_smap G) as [S G'].
    inversion H2; subst; try discriminate.
    match goal with E : In (k, ?y) m |- _ => rewrite (@smap_fun _ _ _ _ S H E) in * end.
    apply IH; auto. eapply proj2, G'; eauto.
Qed.
Lemma cell_not_inside j : good j -> forall t v, cell j t v -> ~ inside j t.
Proof.
  intros G t v H. revert G. induction H as [v H| | |l i x p v H Hc IH|m k x p v H Hc IH]; intros G H2.
  - inversion H2; subst; discriminate.
  - inversion H2.
  - inversion H2.
  - inversion H2; subst; try discriminate.
    match goal with E : dec _ = dec _ |- _ => apply dec_inj in E; subst end.
    match goal with E : nth_error l i = Some ?y |- _ => rewrite H in E; injection E as -> end.
    apply IH; auto. apply (good_list G). eapply nth_error_In; eauto.
  - destruct (good_smap G) as [S G'].
    inversion H2; subst; try discriminate.
    match goal with E : In (k, ?y) m |- _ => rewrite (@smap_fun _ _ _ _ S H E) in * end.
    apply IH; auto. eapply proj2, G'; eauto.
Qed.
Lemma leaf_toks j : good j -> forall p v, leaf j p v -> forall q w, leaf j q w -> toks p = toks q -> p = q.
Proof.
  intros G p v H. revert G. induction H as [v H|l i x p v H Hc IH|m k x p v H Hc IH]; intros G q w H2 E.
  - destruct q; [reflexivity|discriminate].
  - inversion H2; subst; try discriminate. cbn in E. injection E as E E'. apply dec_inj in E. subst i0.
    match goal with E : nth_error l i = Some ?y |- _ => rewrite H in E; injection E as -> end. f_equal.
    eapply IH; eauto. apply (good_list G). eapply nth_error_In; eauto.
  - destruct (good_smap G) as [S G']. inversion H2; subst; try discriminate. cbn in E. injection E as E E'. subst k0.
    match goal with E : In (k, ?y) m |- _ => rewrite (@smap_fun _ _ _ _ S H E) in * end. f_equal.
    eapply IH; eauto. eapply proj2, G'; eauto.
Qed.
Lemma leaf_fun j : good j -> forall p v w, leaf j p v -> leaf j p w -> v = w.
Proof. intros G p v w H1 H2. eapply cell_fun; [exact G|apply leaf_cell; eauto|apply leaf_cell; eauto]. Qed.
Lemma leaf_key_zero j : good j -> forall p v, leaf j p v -> forall k, In (Key k) p -> k <> "0"%string.
Proof.
  intros G p v H. revert G. induction H as [v H|l i x p v H Hc IH|m k x p v H Hc IH]; intros G k' Hk.
  - destruct Hk.
  - destruct Hk as [E|Hk]; [discriminate|]. apply IH; auto. apply (good_list G). eapply nth_error_In; eauto.
  - destruct (good_smap G) as [S G']. destruct Hk as [E|Hk].
    + injection E as <-. apply (G' _ _ H).
    + apply IH; auto. eapply proj2, G'; eauto.
Qed.

(** [ordered] is the sortedness used in the proofs. *)
Lemma ordered_smap (m : list (string * json)) :
  (forall i j a b, (i < j)%nat -> nth_error (map fst m) i = Some a -> nth_error (map fst m) j = Some b -> (a ?= b)%string = Lt) ->
  smap m.
Proof.
  induction m as [|[k x] m IH]; intros H; [constructor|]. apply smap_cons.
  - apply IH. intros i j a b Hij Ha Hb. apply (H (S i) (S j)); [lia|exact Ha|exact Hb].
  - intros k' v' Hin. apply (in_map fst) in Hin. apply In_nth_error in Hin. destruct Hin as [n Hn].
    apply cmp_lt. apply (H O (S n)); [lia|reflexivity|exact Hn].
Qed.
Lemma ordered_good j : ordered j -> (forall p k v, cell j p v -> forall q, p = toks q -> (leaf j q v \/ empty_at j q) -> In (Key k) q -> k <> "0"%string) -> good j.
Proof.
  induction 1 as [v H|l _ IH|m _ IH Ho]; intros HK.
  - constructor. exact H.
  - apply good_arr. intros x Hx. apply (IH x Hx). intros p k v Hc q E Hq Hk.
    apply In_nth_error in Hx. destruct Hx as [i Hi]. apply (HK (dec i :: p) k v) with (q := Elem i :: q).
    + econstructor; eauto.
    + rewrite E. reflexivity.
    + destruct Hq as [Hq|Hq]; [left|right]; econstructor; eauto.
    + right. exact Hk.
  - apply good_obj; [apply ordered_smap; exact Ho|]. intros k x Hx. split.
    + destruct (cell_exists x) as [t [v Hc]]. destruct (cell_leaf Hc) as [q [E Hq]].
      apply (HK (k :: t) k v) with (q := Key k :: q).
      * econstructor; eauto.
      * rewrite E. reflexivity.
      * destruct Hq as [Hq|[_ Hq]]; [left|right]; econstructor; eauto.
      * left. reflexivity.
    + apply (IH k x Hx). intros p k' v Hc q E Hq Hk. apply (HK (k :: p) k' v) with (q := Key k :: q).
      * econstructor; eauto.
      * rewrite E. reflexivity.
      * destruct Hq as [Hq|Hq]; [left|right]; econstructor; eauto.
      * right. exact Hk.
Qed.

(** ** Flat objects *)
Definition flat (j : json) : list (string * json) := insert_all [] (entries "" j).
Lemma flatten_flat j : flatten j = JObj (flat j). Proof. reflexivity. Qed.
Lemma flat_sorted j : smap (flat j). Proof. apply insert_all_sorted. constructor. Qed.

Lemma insert_all_member A (n : list (string * A)) : forall m k, smap m ->
  (forall v w, In (k, v) n -> In (k, w) n -> v = w) ->
  (forall v, In (k, v) n -> lookup (insert_all m n) k = Some v) /\
  ((forall v, ~ In (k, v) n) -> lookup (insert_all m n) k = lookup m k).
Proof.
  induction n as [|[k0 v0] n IH]; intros m k S HF.
  - split; [intros v []|reflexivity].
  - unfold insert_all. simpl. fold (insert_all (insert m k0 v0) n).
    destruct (IH (insert m k0 v0) k (insert_sorted k0 v0 S)) as [I1 I2]; [intros v w H1 H2; apply HF; right; assumption|].
    assert (Hdec : (exists v, In (k, v) n) \/ forall v, ~ In (k, v) n).
    { destruct (lookup n k) as [v|] eqn:E; [left; exists v; apply lookup_In; exact E|]. right. intros v H.
      apply lookup_None in E. apply E. apply (in_map fst) in H. exact H. }
    split.
    + intros v Hv. destruct Hdec as [[w Hw]|Hn].
      * rewrite (I1 w Hw). f_equal. apply HF; [right; exact Hw|exact Hv].
      * rewrite (I2 Hn). destruct Hv as [E|Hv]; [|exfalso; apply (Hn v Hv)]. injection E as -> ->.
        rewrite lookup_insert by exact S. rewrite String.eqb_refl. reflexivity.
    + intros Hn. rewrite I2; [|intros v Hv; apply (Hn v); right; exact Hv]. rewrite lookup_insert by exact S.
      destruct (String.eqb_spec k0 k) as [->|N]; [|reflexivity]. exfalso. apply (Hn v0). left. reflexivity.
Qed.

Lemma entries_fun j : good j -> forall k v w, In (k, v) (entries "" j) -> In (k, w) (entries "" j) -> v = w.
Proof.
  intros G k v w H1 H2. apply entries_cell in H1. apply entries_cell in H2. destruct H1 as [p [H1 E1]]. destruct H2 as [q [H2 E2]].
  simpl in E1, E2. assert (p = q) by (apply join_inj; congruence). subst q. eapply cell_fun; eauto.
Qed.
Lemma flat_cell j : good j -> forall k v, lookup (flat j) k = Some v <-> exists t, k = join t /\ cell j t v.
Proof.
  intros G k v. unfold flat. destruct (@insert_all_member _ (entries "" j) [] k) as [I1 I2]; [constructor|apply entries_fun; exact G|].
  split.
  - intros H. destruct (lookup (entries "" j) k) as [w|] eqn:E.
    + apply lookup_In in E. rewrite (I1 w E) in H. injection H as <-. apply entries_cell in E. destruct E as [t [Hc Hk]]. exists t. auto.
    + rewrite I2 in H; [discriminate|]. intros w Hw. apply lookup_None in E. apply E. apply (in_map fst) in Hw. exact Hw.
  - intros [t [-> Hc]]. apply I1. apply entries_cell. exists t. auto.
Qed.
Lemma flat_member j : good j -> forall k v, In (k, v) (flat j) <-> exists t, k = join t /\ cell j t v.
Proof. intros G k v. rewrite <- flat_cell by exact G. symmetry. apply lookup_iff. apply flat_sorted. Qed.

(** Reading the references of a map. *)
Definition untie (k : string) : list string := match pointer k with Ok t => t | _ => [] end.
Lemma untie_join t : untie (join t) = t. Proof. unfold untie. rewrite pointer_join. reflexivity. Qed.
Lemma unflatten_build m : (forall k v, In (k, v) m -> primitive v = true /\ exists t, k = join t) ->
  unflatten (JObj m) = build (map (fun e => (untie (fst e), snd e)) m) JNull.
Proof.
  unfold unflatten, build. intros H. generalize (Ok JNull). induction m as [|[k v] m IH]; intros o; [reflexivity|].
  cbn [fold_left map fst snd]. rewrite IH by (intros; apply H; right; assumption). f_equal.
  unfold put_entry. cbn [fst snd]. destruct (H k v (or_introl eq_refl)) as [-> [t ->]]. rewrite pointer_join, untie_join. reflexivity.
Qed.
Lemma untie_sorted m : smap m -> (forall k v, In (k, v) m -> exists t, k = join t) ->
  psorted (map (fun e => (untie (fst e), snd e)) m).
Proof.
  induction m as [|[k v] m IH]; intros S H; [constructor|]. apply smap_inv in S. destruct S as [S F]. cbn [map]. constructor.
  - apply IH; auto. intros k' v' H'. apply (H k' v'). right. exact H'.
  - apply Forall_forall. intros e He. apply in_map_iff in He. destruct He as [[k' v'] [<- Hin]]. cbn [fst snd].
    destruct (H k v (or_introl eq_refl)) as [t ->]. destruct (H k' v' (or_intror Hin)) as [t' ->]. rewrite !untie_join.
    eapply F; eauto.
Qed.

Theorem unflatten_covers m T : smap m -> good T ->
  (forall t v, cell T t v -> lookup m (join t) = Some v) ->
  (forall k v, lookup m k = Some v -> exists t, k = join t /\ (cell T t v \/ (v = JNull /\ inside T t))) ->
  unflatten (JObj m) = Ok (norm T).
Proof.
  intros S G H1 H2.
  assert (HJ : forall k v, In (k, v) m -> exists t, k = join t /\ (cell T t v \/ (v = JNull /\ inside T t))).
  { intros k v H. apply H2. apply (lookup_iff k v S). exact H. }
  rewrite unflatten_build.
  - apply build_covers; [exact G|]. split; [|split].
    + apply untie_sorted; [exact S|]. intros k v H. destruct (HJ k v H) as [t [E _]]. eauto.
    + intros p v Hc. apply in_map_iff. exists (join p, v). cbn [fst snd]. rewrite untie_join. split; [reflexivity|].
      apply (lookup_iff _ _ S). apply H1. exact Hc.
    + intros p v Hin. apply in_map_iff in Hin. destruct Hin as [[k w] [E Hin]]. cbn [fst snd] in E.
      destruct (HJ k w Hin) as [t [-> Ht]]. rewrite untie_join in E. injection E as -> ->. exact Ht.
  - intros k v H. destruct (HJ k v H) as [t [E [Ht|[-> _]]]]; split; eauto. eapply cell_primitive; eauto.
Qed.
Corollary unflatten_flatten T : good T -> unflatten (flatten T) = Ok (norm T).
Proof.
  intros G. rewrite flatten_flat. apply unflatten_covers; [apply flat_sorted|exact G| |].
  - intros t v H. apply flat_cell; [exact G|]. eauto.
  - intros k v H. apply flat_cell in H; [|exact G]. destruct H as [t [-> H]]. eauto.
Qed.
Lemma entries_norm j : forall ref, entries ref (norm j) = entries ref j.
Proof.
  induction j as [v Hp|l IH|m IH] using json_induction; intros ref.
  - rewrite norm_value by exact Hp. reflexivity.
  - destruct l as [|x l]; [reflexivity|].
    assert (HA : forall r n, (forall y, In y r -> forall ref, entries ref (norm y) = entries ref y) -> arr_entries ref n (map norm r) = arr_entries ref n r).
    { induction r as [|y r IHr]; intros n Hr; [reflexivity|]. cbn [map arr_entries]. rewrite Hr by (left; reflexivity). f_equal.
      apply IHr. intros z Hz. apply Hr. right. exact Hz. }
    rewrite entries_arr, <- HA by exact IH. reflexivity.
  - destruct m as [|e m]; [reflexivity|].
    assert (HA : forall r, (forall k y, In (k, y) r -> forall ref, entries ref (norm y) = entries ref y) -> obj_entries ref (map (fun e => (fst e, norm (snd e))) r) = obj_entries ref r).
    { induction r as [|[k y] r IHr]; intros Hr; [reflexivity|]. cbn [map obj_entries fst snd]. rewrite (Hr k y) by (left; reflexivity). f_equal.
      apply IHr. intros k' z Hz. apply (Hr k' z). right. exact Hz. }
    rewrite entries_obj, <- HA by exact IH. reflexivity.
Qed.
Lemma flatten_norm j : flatten (norm j) = flatten j.
Proof. unfold flatten. rewrite entries_norm. reflexivity. Qed.

Theorem update_trees A B T : good A -> good B -> good T ->
  (forall t v, cell T t v -> cell B t v \/ (cell A t v /\ forall w, ~ cell B t w)) ->
  (forall t v, cell B t v -> cell T t v \/ (v = JNull /\ inside T t)) ->
  (forall t v, cell A t v -> (forall w, ~ cell B t w) -> cell T t v \/ (v = JNull /\ inside T t)) ->
  (do j <- update (flatten A) (flatten B); unflatten j) = Ok (norm T).
Proof.
  intros GA GB GT H1 H2 H3. rewrite !flatten_flat. cbn [update bind].
  assert (HI : forall k, (forall v, In (k, v) (flat B) -> lookup (insert_all (flat A) (flat B)) k = Some v) /\
     ((forall v, ~ In (k, v) (flat B)) -> lookup (insert_all (flat A) (flat B)) k = lookup (flat A) k)).
  { intros k. apply insert_all_member; [apply flat_sorted|]. intros v w. apply smap_fun. apply flat_sorted. }
  assert (Hno : forall t, (forall w, ~ cell B t w) -> forall v, ~ In (join t, v) (flat B)).
  { intros t Ht v Hin. apply flat_member in Hin; [|exact GB]. destruct Hin as [t' [E Hc]]. apply join_inj in E. subst t'. apply (Ht v Hc). }
  apply unflatten_covers; [apply insert_all_sorted; apply flat_sorted|exact GT| |].
  - intros t v Hc. destruct (HI (join t)) as [I1 I2]. destruct (H1 t v Hc) as [Hb|[Ha Hn]].
    + apply I1. apply flat_member; [exact GB|]. eauto.
    + rewrite I2 by (apply Hno; exact Hn). apply flat_cell; [exact GA|]. eauto.
  - intros k v Hl. destruct (HI k) as [I1 I2]. destruct (lookup (flat B) k) as [w|] eqn:E.
    + assert (Hw := E). apply lookup_In in Hw. rewrite (I1 w Hw) in Hl. injection Hl as <-.
      apply flat_cell in E; [|exact GB]. destruct E as [t [-> Hc]]. exists t. split; [reflexivity|]. apply H2. exact Hc.
    + assert (Hn : forall v, ~ In (k, v) (flat B)).
      { intros x Hx. apply (lookup_iff k x (flat_sorted B)) in Hx. congruence. }
      rewrite (I2 Hn) in Hl. apply flat_cell in Hl; [|exact GA]. destruct Hl as [t [-> Hc]]. exists t. split; [reflexivity|].
      apply H3; [exact Hc|]. intros x Hx. apply (Hn x). apply flat_member; [exact GB|]. eauto.
Qed.
