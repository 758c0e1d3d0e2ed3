(** Lemmas on the mesh connectivity model. *)
From Verif Require Import Base Containers ContainersProofs Mesh SpecMesh.
Set Implicit Arguments.
Open Scope Z_scope.

(** ** find *)
Lemma find_from_spec A (idx : A -> Z) l k n :
  (find_from idx l k n = -1 /\ ~ (exists a, In a l /\ idx a = k) /\ True) \/
  (exists j a, find_from idx l k n = n + Z.of_nat j /\ nth_error l j = Some a /\ idx a = k).
Proof.
  revert n; induction l as [|x r IH]; intros n; simpl.
  - left. repeat split; auto. intros [a [[] _]].
  - destruct (Z.eqb_spec (idx x) k) as [He|Hn].
    + right. exists 0%nat, x. repeat split; auto. lia.
    + destruct (IH (n + 1)) as [[H1 [H2 _]]|[j [a [H1 [H2 H3]]]]].
      * left. repeat split; auto. intros [a [[->|Ha] Hk]]; [congruence|]. apply H2; eauto.
      * right. exists (S j), a. repeat split; auto. rewrite H1. lia.
Qed.

Lemma find_spec A (idx : A -> Z) l k :
  (find idx l k = -1 /\ ~ (exists a, In a l /\ idx a = k)) \/
  (exists j a, find idx l k = Z.of_nat j /\ nth_error l j = Some a /\ idx a = k).
Proof.
  unfold find. destruct (find_from_spec idx l k 0) as [[H1 [H2 _]]|[j [a [H1 H2]]]].
  - left; auto.
  - right; exists j, a; split; [lia|auto].
Qed.

Lemma find_lt0 A (idx : A -> Z) l k : (find idx l k <? 0) = true <-> ~ (exists a, In a l /\ idx a = k).
Proof.
  destruct (find_spec idx l k) as [[H1 H2]|[j [a [H1 [H2 H3]]]]]; rewrite H1.
  - split; auto.
  - split; [lia|]. intros H. exfalso; apply H. exists a; split; auto. eapply nth_error_In; eauto.
Qed.

Lemma find_at A (idx : A -> Z) l k :
  (exists a, In a l /\ idx a = k) -> exists a, at_ l (find idx l k) = Ok a /\ In a l /\ idx a = k.
Proof.
  intros He. destruct (find_spec idx l k) as [[H1 H2]|[j [a [H1 [H2 H3]]]]]; [contradiction|].
  exists a. split; [|split; auto; eapply nth_error_In; eauto].
  apply at_Ok. rewrite H1. rewrite Nat2Z.id. split; auto; lia.
Qed.

Lemma find_at_inv A (idx : A -> Z) l k a :
  at_ l (find idx l k) = Ok a -> In a l /\ idx a = k.
Proof.
  intros H. apply at_Ok in H. destruct H as [H0 Hn].
  destruct (find_spec idx l k) as [[H1 H2]|[j [b [H1 [H2 H3]]]]]; [lia|].
  rewrite H1, Nat2Z.id in Hn. assert (a = b) by congruence. subst. split; auto.
  eapply nth_error_In; eauto.
Qed.

(** With unique indices the answer of any legal hash-table lookup is [find]. *)
Lemma find_unique A (idx : A -> Z) l k r :
  NoDup (map idx l) -> legal_find (hash_all idx l) k r -> r = find idx l k.
Proof.
  intros Hnd Hf. apply legal_find_hash in Hf. destruct Hf as [Hm Hp].
  destruct (find_spec idx l k) as [[H1 H2]|[j [a [H1 [H2 H3]]]]].
  - rewrite H1. apply Hm; auto.
  - destruct (Z.eq_dec r (-1)) as [E|E].
    { exfalso. apply (proj1 Hm E). exists a; split; auto. eapply nth_error_In; eauto. }
    destruct (Hp E) as [e [He Hk]]. apply at_Ok in He. destruct He as [H0 Hn].
    rewrite H1. rewrite <- (Z2Nat.id r) by lia. f_equal.
    apply (proj1 (NoDup_nth_error (map idx l)) Hnd).
    + rewrite map_length. apply nth_error_Some. congruence.
    + rewrite !nth_error_map, Hn, H2. simpl. congruence.
Qed.

Lemma find_map_idx A (idx : A -> Z) l l' k : map idx l' = map idx l -> find idx l' k = find idx l k.
Proof.
  unfold find. generalize 0. revert l'; induction l as [|x r IH]; intros [|y r'] n H; simpl in *; try discriminate; auto.
  injection H as H1 H2. rewrite H1. destruct (idx x =? k); auto.
Qed.

Lemma in_map_idx A (idx : A -> Z) l k : In k (map idx l) <-> exists a, In a l /\ idx a = k.
Proof. rewrite in_map_iff. split; intros [a H]; exists a; tauto. Qed.

Lemma NoDup_idx_inj A (idx : A -> Z) l a b :
  NoDup (map idx l) -> In a l -> In b l -> idx a = idx b -> a = b.
Proof.
  intros Hnd Ha Hb E.
  destruct (In_nth_error _ _ Ha) as [i Hi]. destruct (In_nth_error _ _ Hb) as [j Hj].
  assert (i = j).
  { apply (proj1 (NoDup_nth_error (map idx l)) Hnd).
    - rewrite map_length. apply nth_error_Some. congruence.
    - rewrite !nth_error_map, Hi, Hj. simpl. congruence. }
  congruence.
Qed.

(** ** Writing at a found position *)
Definition on {A} (idx : A -> Z) (k : Z) (f : A -> A) (l : list A) : list A :=
  map (fun a => if idx a =? k then f a else a) l.

Lemma on_absent A (idx : A -> Z) k f (l : list A) : ~ In k (map idx l) -> on idx k f l = l.
Proof.
  unfold on. induction l as [|x r IH]; simpl; intros H; auto.
  destruct (Z.eqb_spec (idx x) k); [tauto|]. rewrite IH; auto.
Qed.

Lemma upd_found A (idx : A -> Z) l k f :
  NoDup (map idx l) -> forall n, n = find_from idx l k 0 -> 0 <= n ->
  forall a, nth_error l (Z.to_nat n) = Some a -> upd l (Z.to_nat n) (f a) = on idx k f l.
Proof.
  intros Hnd n -> Hn a Ha.
  assert (H : forall z, 0 <= z -> z <= find_from idx l k z ->
     nth_error l (Z.to_nat (find_from idx l k z - z)) = Some a ->
     upd l (Z.to_nat (find_from idx l k z - z)) (f a) = on idx k f l).
  { clear Hn Ha. induction l as [|x r IH]; intros z Hz Hle Hnth; simpl in *; auto.
    inversion Hnd as [|? ? Hx Hnd']; subst.
    destruct (Z.eqb_spec (idx x) k) as [E|E].
    - rewrite Z.sub_diag in *. simpl in *. injection Hnth as ->. f_equal.
      symmetry. change (on idx k f r = r). apply on_absent. rewrite <- E. auto.
    - destruct (find_from_spec idx r k (z + 1)) as [[H1 _]|[j [b [H1 [H2 H3]]]]]; [lia|].
      specialize (IH Hnd' (z + 1)).
      replace (Z.to_nat (find_from idx r k (z + 1) - z))
        with (S (Z.to_nat (find_from idx r k (z + 1) - (z + 1)))) in * by lia.
      simpl in *. f_equal. apply IH; auto; lia. }
  specialize (H 0). rewrite Z.sub_0_r in H. apply H; auto; lia.
Qed.

Lemma modify_find A (idx : A -> Z) l k f :
  NoDup (map idx l) -> In k (map idx l) ->
  modify l (find idx l k) f = Ok (on idx k f l).
Proof.
  intros Hnd Hk. apply in_map_idx in Hk. unfold modify.
  destruct (find_at idx l Hk) as [a [Ha _]]. rewrite Ha. simpl. f_equal.
  apply at_Ok in Ha. destruct Ha as [H0 Hn].
  apply upd_found; auto.
Qed.

Lemma map_on A (idx : A -> Z) k f l :
  (forall a, idx (f a) = idx a) -> map idx (on idx k f l) = map idx l.
Proof. intros H. unfold on. rewrite map_map. apply map_ext. intros a. destruct (idx a =? k); auto. Qed.

(** Writing at found positions, one after the other. *)
Lemma for_each_modify A (idx : A -> Z) (f : A -> A) l0 ks :
  (forall a, idx (f a) = idx a) -> (forall a, f (f a) = f a) ->
  NoDup (map idx l0) -> (forall k, In k ks -> In k (map idx l0)) ->
  for_each (find_list idx l0 ks) (fun p l => modify l p f) l0 =
  Ok (map (fun a => if mem_z (idx a) ks then f a else a) l0).
Proof.
  intros Hidx Hidem Hnd Hks.
  assert (H : forall l, map idx l = map idx l0 ->
    for_each (find_list idx l0 ks) (fun p l => modify l p f) l =
    Ok (map (fun a => if mem_z (idx a) ks then f a else a) l)).
  { induction ks as [|k r IH]; intros l Hl; simpl.
    - rewrite map_id. reflexivity.
    - rewrite <- (find_map_idx idx l0 l k Hl).
      rewrite modify_find; [|rewrite Hl; auto|rewrite Hl; apply Hks; simpl; auto]. simpl.
      rewrite IH; [|intros; apply Hks; simpl; auto|rewrite map_on; auto].
      f_equal. unfold on. rewrite map_map. apply map_ext. intros a.
      destruct (Z.eqb_spec (idx a) k) as [E|E]; simpl; rewrite ?Hidx;
        destruct (mem_z (idx a) r); auto. }
  apply H; auto.
Qed.

(** The same with positions -1 skipped. *)
Lemma for_each_if_found A S (idx : A -> Z) (l0 : list A) ks (body : Z -> S -> outcome S) s :
  for_each (find_list idx l0 ks) (if_found body) s =
  for_each (find_list idx l0 (filter (fun k => mem_z k (map idx l0)) ks)) body s.
Proof.
  revert s; induction ks as [|k r IH]; intros s; simpl; auto.
  unfold if_found at 1. destruct (mem_z k (map idx l0)) eqn:E; simpl.
  - destruct (Z.eqb_spec (find idx l0 k) (-1)) as [H|H].
    + apply mem_z_In, in_map_idx in E. destruct (find_spec idx l0 k) as [[_ H2]|[j [a [H1 _]]]]; [contradiction|lia].
    + destruct (body (find idx l0 k) s); simpl; auto.
  - destruct (Z.eqb_spec (find idx l0 k) (-1)) as [H|H]; [simpl; apply IH|].
    apply mem_z_not_In in E. rewrite in_map_idx in E.
    destruct (find_spec idx l0 k) as [[H1 _]|[j [a [H1 [H2 H3]]]]]; [lia|].
    exfalso; apply E. exists a; split; auto. eapply nth_error_In; eauto.
Qed.

(** ** List edits *)
Lemma replace_all_In old new l x : In x (replace_all old new l) <-> renamed old new (fun y => In y l) x.
Proof.
  unfold replace_all, renamed. rewrite in_map_iff. split.
  - intros [y [E Hy]]. destruct (Z.eqb_spec y old); subst; auto.
  - intros [[H1 H2]|[-> H]].
    + exists x. split; auto. destruct (Z.eqb_spec x old); congruence.
    + exists old. rewrite Z.eqb_refl. auto.
Qed.
Lemma replace_all_absent old new l : ~ In old l -> replace_all old new l = l.
Proof.
  intros H. unfold replace_all. rewrite <- (map_id l) at 2. apply map_ext_in. intros y Hy.
  destruct (Z.eqb_spec y old); congruence.
Qed.
Lemma replace_all_idem old new l : old <> new -> replace_all old new (replace_all old new l) = replace_all old new l.
Proof.
  intros H. apply replace_all_absent. rewrite replace_all_In. unfold renamed. intuition.
Qed.
Lemma erase_all_In x l y : In y (erase_all x l) <-> In y l /\ y <> x.
Proof. unfold erase_all. rewrite filter_In. destruct (Z.eqb_spec y x); simpl; intuition; discriminate. Qed.
Lemma erase_all_idem x l : erase_all x (erase_all x l) = erase_all x l.
Proof.
  unfold erase_all. induction l as [|y r IH]; simpl; auto.
  destruct (Z.eqb_spec y x); simpl; auto. destruct (Z.eqb_spec y x); simpl; congruence.
Qed.
Lemma erase_all_absent x l : ~ In x l -> erase_all x l = l.
Proof.
  unfold erase_all. induction l as [|y r IH]; simpl; auto. intros H.
  destruct (Z.eqb_spec y x); simpl; [tauto|]. rewrite IH; auto.
Qed.
Lemma copies_nil x old l : copies x old l = [] <-> ~ In old l.
Proof.
  unfold copies. split.
  - intros H Hin. apply map_eq_nil in H.
    assert (In old (filter (fun y => y =? old) l)) as Hf by (apply filter_In; split; auto; lia).
    rewrite H in Hf. destruct Hf.
  - intros H. replace (filter (fun y => y =? old) l) with (@nil Z); auto.
    symmetry. induction l as [|y r IH]; simpl in *; auto.
    destruct (Z.eqb_spec y old); [tauto|]. apply IH. tauto.
Qed.
Lemma copies_In x old l y : In y (copies x old l) <-> y = x /\ In old l.
Proof.
  unfold copies. rewrite in_map_iff. split.
  - intros [z [E Hz]]. apply filter_In in Hz. destruct Hz as [Hz Hq].
    apply Z.eqb_eq in Hq. subst; auto.
  - intros [-> H]. exists old. split; auto. apply filter_In. split; auto. lia.
Qed.

(** ** The redirection loops *)
Section Redirect.
Variables A B : Type.
Variables (idxA : A -> Z) (getA : A -> list Z) (setA : list Z -> A -> A).
Variables (idxB : B -> Z) (getB : B -> list Z) (setB : list Z -> B -> B).
Hypothesis getA_set : forall l a, getA (setA l a) = l.
Hypothesis idxA_set : forall l a, idxA (setA l a) = idxA a.
Hypothesis getB_set : forall l b, getB (setB l b) = l.
Hypothesis idxB_set : forall l b, idxB (setB l b) = idxB b.
Hypothesis setB_get : forall b, setB (getB b) b = b.
Hypothesis setB_set : forall l1 l2 b, setB l1 (setB l2 b) = setB l1 b.
Variables old new : Z.
Hypothesis old_new : old <> new.

Definition redirected ks (a : A) : A :=
  if mem_z (idxA a) ks && mem_z old (getA a) then setA (replace_all old new (getA a)) a else a.

Lemma redirected_idx ks a : idxA (redirected ks a) = idxA a.
Proof. unfold redirected. destruct (_ && _); auto. Qed.

(** The indices of the listed elements that refer to [old]. *)
Definition referring ks (la : list A) (x : Z) : Prop :=
  In x ks /\ exists a, In a la /\ idxA a = x /\ In old (getA a).

Lemma setB_append l b : setB (getB b ++ []) b = b -> l = [] -> setB (getB b ++ l) b = b.
Proof. intros H ->. exact H. Qed.

Lemma redirected_cons k r a :
  redirected r (if idxA a =? k then redirected [k] a else a) = redirected (k :: r) a.
Proof.
  destruct (Z.eqb_spec (idxA a) k) as [E|E].
  - unfold redirected at 2 3. simpl. rewrite E, Z.eqb_refl. simpl.
    destruct (mem_z old (getA a)) eqn:Hm.
    + unfold redirected. rewrite idxA_set, getA_set.
      assert (mem_z old (replace_all old new (getA a)) = false) as ->.
      { apply mem_z_not_In. rewrite replace_all_In. unfold renamed. intuition. }
      rewrite andb_false_r. reflexivity.
    + unfold redirected. rewrite Hm, andb_false_r. reflexivity.
  - unfold redirected. simpl. destruct (Z.eqb_spec (idxA a) k); [congruence|]. reflexivity.
Qed.

Lemma redirect_loop la0 lb0 ks :
  NoDup (map idxA la0) -> NoDup (map idxB lb0) ->
  In new (map idxB lb0) -> (forall k, In k ks -> In k (map idxA la0)) ->
  exists c,
    (forall x, In x c <-> referring ks la0 x) /\
    for_each (find_list idxA la0 ks)
      (redirect idxA getA setA getB setB old new (find idxB lb0 new)) (la0, lb0) =
    Ok (map (redirected ks) la0, on idxB new (fun b => setB (getB b ++ c) b) lb0).
Proof.
  intros HA HB Hnew Hks.
  assert (H : forall la lb, map idxA la = map idxA la0 -> map idxB lb = map idxB lb0 ->
    exists c, (forall x, In x c <-> referring ks la x) /\
    for_each (find_list idxA la0 ks)
      (redirect idxA getA setA getB setB old new (find idxB lb0 new)) (la, lb) =
    Ok (map (redirected ks) la, on idxB new (fun b => setB (getB b ++ c) b) lb)).
  { induction ks as [|k r IH]; intros la lb Hla Hlb.
    - exists []. split; [intros x; unfold referring; simpl; tauto|].
      simpl. f_equal. f_equal.
      + rewrite <- (map_id la) at 1. apply map_ext. reflexivity.
      + unfold on. rewrite <- (map_id lb) at 1. apply map_ext. intros b.
        rewrite app_nil_r, setB_get. destruct (idxB b =? new); auto.
    - assert (Hk : In k (map idxA la)) by (rewrite Hla; apply Hks; simpl; auto).
      assert (HndA : NoDup (map idxA la)) by (rewrite Hla; auto).
      assert (HndB : NoDup (map idxB lb)) by (rewrite Hlb; auto).
      destruct (find_at idxA la (proj1 (in_map_idx idxA la k) Hk)) as [a [Ha [HaIn HaK]]].
      simpl for_each. rewrite <- (find_map_idx idxA la0 la k Hla).
      unfold redirect at 1. rewrite Ha. simpl bind.
      assert (Hupd : upd la (Z.to_nat (find idxA la k)) (setA (replace_all old new (getA a)) a) =
                on idxA k (fun a => setA (replace_all old new (getA a)) a) la).
      { apply at_Ok in Ha. destruct Ha as [H0 Hn].
        apply (upd_found idxA la k (fun a => setA (replace_all old new (getA a)) a) HndA eq_refl H0 Hn). }
      assert (Huniq : forall a', In a' la -> idxA a' = k -> a' = a).
      { intros a' Ha' E. eapply NoDup_idx_inj; eauto. congruence. }
      destruct (copies (idxA a) old (getA a)) as [|c0 cr] eqn:Hc.
      + apply copies_nil in Hc.
        destruct (IH (fun k' Hk' => Hks k' (or_intror Hk')) la lb Hla Hlb) as [c [Hcin Hrun]].
        exists c. split.
        * intros x. rewrite Hcin. unfold referring. simpl. split.
          -- intros [H1 H2]; auto.
          -- intros [[<-|H1] [b [Hb [E Ho]]]]; [|split; eauto].
             exfalso. rewrite (Huniq b) in Ho; auto.
        * etransitivity; [exact Hrun|]. f_equal. f_equal. apply map_ext_in. intros b Hb.
          rewrite <- redirected_cons. destruct (Z.eqb_spec (idxA b) k) as [E|E]; auto.
          rewrite (Huniq b Hb E). f_equal. unfold redirected.
          assert (mem_z old (getA a) = false) as -> by (apply mem_z_not_In; auto).
          rewrite andb_false_r. reflexivity.
      + assert (Hold : In old (getA a)).
        { destruct (in_dec Z.eq_dec old (getA a)) as [|Hno]; auto. exfalso.
          apply (copies_nil (idxA a)) in Hno. congruence. }
        rewrite <- Hc.
        rewrite <- (find_map_idx idxB lb0 lb new Hlb).
        rewrite modify_find; auto; [|rewrite Hlb; auto]. simpl bind. rewrite Hupd.
        set (la1 := on idxA k _ la). set (lb1 := on idxB new _ lb).
        assert (Hla1 : map idxA la1 = map idxA la0) by (unfold la1; rewrite map_on; auto).
        assert (Hlb1 : map idxB lb1 = map idxB lb0) by (unfold lb1; rewrite map_on; auto).
        rewrite (find_map_idx idxB lb0 lb new Hlb).
        destruct (IH (fun k' Hk' => Hks k' (or_intror Hk')) la1 lb1 Hla1 Hlb1) as [c [Hcin Hrun]].
        exists (copies (idxA a) old (getA a) ++ c). split.
        * intros x. rewrite in_app_iff, copies_In, Hcin. unfold referring. simpl. split.
          -- intros [[-> _]|[Hx [b [Hb [E Ho]]]]].
             ++ split; [auto|]. exists a; auto.
             ++ split; auto. unfold la1, on in Hb. apply in_map_iff in Hb. destruct Hb as [b0 [Eb Hb0]].
                destruct (Z.eqb_spec (idxA b0) k) as [Ek|Ek].
                ** subst b. rewrite getA_set, replace_all_In in Ho. unfold renamed in Ho. intuition.
                ** subst b0. exists b; auto.
          -- intros [Hx [b [Hb [E Ho]]]].
             destruct (Z.eq_dec x k) as [->|Hne].
             ++ left. split; auto.
             ++ right. destruct Hx as [Hx|Hx]; [congruence|]. split; auto.
                exists b. split; auto. unfold la1, on. apply in_map_iff. exists b. split; auto.
                destruct (Z.eqb_spec (idxA b) k); congruence.
        * etransitivity; [exact Hrun|]. f_equal. f_equal.
          -- unfold la1, on. rewrite map_map. apply map_ext_in. intros b Hb.
             rewrite <- redirected_cons. destruct (Z.eqb_spec (idxA b) k) as [E|E]; auto.
             f_equal. rewrite (Huniq b Hb E). unfold redirected. simpl.
             assert (mem_z old (getA a) = true) as -> by (apply mem_z_In; auto).
             rewrite HaK, Z.eqb_refl. reflexivity.
          -- unfold lb1, on. rewrite map_map. apply map_ext. intros b.
             destruct (Z.eqb_spec (idxB b) new) as [E|E].
             ++ rewrite idxB_set. destruct (Z.eqb_spec (idxB b) new); [|congruence].
                rewrite getB_set, setB_set, app_assoc. reflexivity.
             ++ destruct (Z.eqb_spec (idxB b) new); congruence. }
  apply H; auto.
Qed.

Definition drop_list (c l : list Z) : list Z := filter (fun x => negb (mem_z x c)) l.

Definition moved c (b : B) : B :=
  if idxB b =? new then setB (getB b ++ c) b
  else if idxB b =? old then setB (drop_list c (getB b)) b else b.

Lemma drop_list_In c l x : In x (drop_list c l) <-> In x l /\ ~ In x c.
Proof. unfold drop_list. rewrite filter_In, negb_true_iff, mem_z_not_In. tauto. Qed.

Lemma drop_list_app c1 c2 l : drop_list c2 (drop_list c1 l) = drop_list (c1 ++ c2) l.
Proof.
  unfold drop_list. induction l as [|x r IH]; simpl; auto.
  assert (Hm : mem_z x (c1 ++ c2) = mem_z x c1 || mem_z x c2) by (unfold mem_z; apply existsb_app).
  rewrite Hm. destruct (mem_z x c1) eqn:E; simpl; auto. destruct (mem_z x c2); simpl; congruence.
Qed.

Lemma drop_copies a0 c l : (forall y, In y c -> y = a0) -> In a0 c -> drop_list c l = erase_all a0 l.
Proof.
  intros Hall Hin. unfold drop_list, erase_all. apply filter_ext. intros x.
  destruct (mem_z x c) eqn:E.
  - apply mem_z_In in E. rewrite (Hall _ E), Z.eqb_refl. reflexivity.
  - apply mem_z_not_In in E. destruct (Z.eqb_spec x a0); auto. subst. contradiction.
Qed.

Lemma redirect_erase_loop la0 lb0 ks :
  NoDup (map idxA la0) -> NoDup (map idxB lb0) ->
  In new (map idxB lb0) -> In old (map idxB lb0) -> (forall k, In k ks -> In k (map idxA la0)) ->
  exists c,
    (forall x, In x c <-> referring ks la0 x) /\
    for_each (find_list idxA la0 ks)
      (redirect_erase idxA getA setA getB setB old new (find idxB lb0 new) (find idxB lb0 old)) (la0, lb0) =
    Ok (map (redirected ks) la0, map (moved c) lb0).
Proof.
  intros HA HB Hnew Holdb Hks.
  assert (H : forall la lb, map idxA la = map idxA la0 -> map idxB lb = map idxB lb0 ->
    exists c, (forall x, In x c <-> referring ks la x) /\
    for_each (find_list idxA la0 ks)
      (redirect_erase idxA getA setA getB setB old new (find idxB lb0 new) (find idxB lb0 old)) (la, lb) =
    Ok (map (redirected ks) la, map (moved c) lb)).
  { induction ks as [|k r IH]; intros la lb Hla Hlb.
    - exists []. split; [intros x; unfold referring; simpl; tauto|].
      simpl. f_equal. f_equal.
      + rewrite <- (map_id la) at 1. apply map_ext. reflexivity.
      + rewrite <- (map_id lb) at 1. apply map_ext. intros b. unfold moved.
        assert (drop_list [] (getB b) = getB b) as ->.
        { unfold drop_list. simpl. induction (getB b); simpl; congruence. }
        rewrite app_nil_r, setB_get. destruct (idxB b =? new), (idxB b =? old); auto.
    - assert (Hk : In k (map idxA la)) by (rewrite Hla; apply Hks; simpl; auto).
      assert (HndA : NoDup (map idxA la)) by (rewrite Hla; auto).
      assert (HndB : NoDup (map idxB lb)) by (rewrite Hlb; auto).
      destruct (find_at idxA la (proj1 (in_map_idx idxA la k) Hk)) as [a [Ha [HaIn HaK]]].
      simpl for_each. rewrite <- (find_map_idx idxA la0 la k Hla).
      unfold redirect_erase at 1. rewrite Ha. simpl bind.
      assert (Hupd : upd la (Z.to_nat (find idxA la k)) (setA (replace_all old new (getA a)) a) =
                on idxA k (fun a => setA (replace_all old new (getA a)) a) la).
      { apply at_Ok in Ha. destruct Ha as [H0 Hn].
        apply (upd_found idxA la k (fun a => setA (replace_all old new (getA a)) a) HndA eq_refl H0 Hn). }
      assert (Huniq : forall a', In a' la -> idxA a' = k -> a' = a).
      { intros a' Ha' E. eapply NoDup_idx_inj; eauto. congruence. }
      destruct (copies (idxA a) old (getA a)) as [|c0 cr] eqn:Hc.
      + apply copies_nil in Hc.
        destruct (IH (fun k' Hk' => Hks k' (or_intror Hk')) la lb Hla Hlb) as [c [Hcin Hrun]].
        exists c. split.
        * intros x. rewrite Hcin. unfold referring. simpl. split.
          -- intros [H1 H2]; auto.
          -- intros [[<-|H1] [b [Hb [E Ho]]]]; [|split; eauto].
             exfalso. rewrite (Huniq b) in Ho; auto.
        * etransitivity; [exact Hrun|]. f_equal. f_equal. apply map_ext_in. intros b Hb.
          rewrite <- redirected_cons. destruct (Z.eqb_spec (idxA b) k) as [E|E]; auto.
          rewrite (Huniq b Hb E). f_equal. unfold redirected.
          assert (mem_z old (getA a) = false) as -> by (apply mem_z_not_In; auto).
          rewrite andb_false_r. reflexivity.
      + assert (Hold : In old (getA a)).
        { destruct (in_dec Z.eq_dec old (getA a)) as [|Hno]; auto. exfalso.
          apply (copies_nil (idxA a)) in Hno. congruence. }
        rewrite <- Hc.
        rewrite <- (find_map_idx idxB lb0 lb new Hlb).
        rewrite modify_find; auto; [|rewrite Hlb; auto]. simpl bind.
        set (lb1 := on idxB new _ lb).
        assert (Hlb1 : map idxB lb1 = map idxB lb0) by (unfold lb1; rewrite map_on; auto).
        rewrite <- (find_map_idx idxB lb0 lb1 old Hlb1).
        rewrite modify_find; [|rewrite Hlb1; auto|rewrite Hlb1; auto]. simpl bind.
        rewrite Hupd.
        set (la1 := on idxA k _ la). set (lb2 := on idxB old _ lb1).
        assert (Hla1 : map idxA la1 = map idxA la0) by (unfold la1; rewrite map_on; auto).
        assert (Hlb2 : map idxB lb2 = map idxB lb0) by (unfold lb2; rewrite map_on; auto).
        rewrite (find_map_idx idxB lb0 lb new Hlb), (find_map_idx idxB lb0 lb1 old Hlb1).
        destruct (IH (fun k' Hk' => Hks k' (or_intror Hk')) la1 lb2 Hla1 Hlb2) as [c [Hcin Hrun]].
        exists (copies (idxA a) old (getA a) ++ c). split.
        * intros x. rewrite in_app_iff, copies_In, Hcin. unfold referring. simpl. split.
          -- intros [[-> _]|[Hx [b [Hb [E Ho]]]]].
             ++ split; [auto|]. exists a; auto.
             ++ split; auto. unfold la1, on in Hb. apply in_map_iff in Hb. destruct Hb as [b0 [Eb Hb0]].
                destruct (Z.eqb_spec (idxA b0) k) as [Ek|Ek].
                ** subst b. rewrite getA_set, replace_all_In in Ho. unfold renamed in Ho. intuition.
                ** subst b0. exists b; auto.
          -- intros [Hx [b [Hb [E Ho]]]].
             destruct (Z.eq_dec x k) as [->|Hne].
             ++ left. split; auto.
             ++ right. destruct Hx as [Hx|Hx]; [congruence|]. split; auto.
                exists b. split; auto. unfold la1, on. apply in_map_iff. exists b. split; auto.
                destruct (Z.eqb_spec (idxA b) k); congruence.
        * etransitivity; [exact Hrun|]. f_equal. f_equal.
          -- unfold la1, on. rewrite map_map. apply map_ext_in. intros b Hb.
             rewrite <- redirected_cons. destruct (Z.eqb_spec (idxA b) k) as [E|E]; auto.
             f_equal. rewrite (Huniq b Hb E). unfold redirected. simpl.
             assert (mem_z old (getA a) = true) as -> by (apply mem_z_In; auto).
             rewrite HaK, Z.eqb_refl. reflexivity.
          -- unfold lb2, lb1, on. rewrite !map_map. apply map_ext. intros b. unfold moved.
             destruct (Z.eqb_spec (idxB b) new) as [E|E].
             ++ rewrite idxB_set. destruct (Z.eqb_spec (idxB b) old); [congruence|].
                rewrite idxB_set. destruct (Z.eqb_spec (idxB b) new); [|congruence].
                rewrite getB_set, setB_set, app_assoc. reflexivity.
             ++ destruct (Z.eqb_spec (idxB b) old) as [E2|E2].
                ** rewrite idxB_set. destruct (Z.eqb_spec (idxB b) new); [congruence|].
                   destruct (Z.eqb_spec (idxB b) old); [|congruence].
                   rewrite getB_set, setB_set. f_equal.
                   rewrite <- drop_list_app. f_equal. symmetry. apply drop_copies.
                   --- intros y Hy. apply copies_In in Hy. tauto.
                   --- apply copies_In. auto.
                ** destruct (Z.eqb_spec (idxB b) new); [congruence|].
                   destruct (Z.eqb_spec (idxB b) old); [congruence|]. reflexivity. }
  apply H; auto.
Qed.

(** ** Reference relations after the loops *)
Lemma lists_redirected la ks i x :
  NoDup (map idxA la) ->
  lists idxA getA (map (redirected ks) la) i x <->
  (~ In i ks /\ lists idxA getA la i x) \/
  (In i ks /\ renamed old new (lists idxA getA la i) x).
Proof.
  intros Hnd. unfold lists. split.
  - intros [a' [Ha' [Ei Hx]]]. apply in_map_iff in Ha'. destruct Ha' as [a [Ea Ha]].
    assert (Eia : idxA a = i) by (rewrite <- Ei, <- Ea; symmetry; apply redirected_idx).
    unfold redirected in Ea. rewrite Eia in Ea.
    destruct (mem_z i ks) eqn:Hi; simpl in Ea.
    + apply mem_z_In in Hi. right. split; auto.
      destruct (mem_z old (getA a)) eqn:Ho.
      * subst a'. rewrite getA_set, replace_all_In in Hx. unfold renamed in *.
        destruct Hx as [[H1 H2]|[H1 H2]]; [left; split; eauto|right; split; eauto].
      * subst a'. left. split; eauto. apply mem_z_not_In in Ho. congruence.
    + apply mem_z_not_In in Hi. left. subst a'. split; eauto.
  - intros [[Hi [a [Ha [Ei Hx]]]]|[Hi Hr]].
    + exists a. split; auto. apply in_map_iff. exists a. split; auto. unfold redirected.
      apply mem_z_not_In in Hi. rewrite Ei, Hi. reflexivity.
    + assert (H : exists a, In a la /\ idxA a = i /\ renamed old new (fun y => In y (getA a)) x).
      { destruct Hr as [[[a [H1 [H2 H3]]] H4]|[-> [a [H1 [H2 H3]]]]]; exists a; unfold renamed; auto. }
      destruct H as [a [Ha [Ei Hx]]]. exists (redirected ks a).
      split; [apply in_map; auto|]. rewrite redirected_idx. split; auto.
      unfold redirected. apply mem_z_In in Hi. rewrite Ei, Hi. simpl.
      destruct (mem_z old (getA a)) eqn:Ho.
      * rewrite getA_set. apply replace_all_In. exact Hx.
      * apply mem_z_not_In in Ho. unfold renamed in Hx. tauto.
Qed.

Lemma lists_pushed lb c i x :
  In new (map idxB lb) ->
  lists idxB getB (on idxB new (fun b => setB (getB b ++ c) b) lb) i x <->
  lists idxB getB lb i x \/ (i = new /\ In x c).
Proof.
  intros Hnew. unfold lists, on. split.
  - intros [b' [Hb' [Ei Hx]]]. apply in_map_iff in Hb'. destruct Hb' as [b [Eb Hb]].
    destruct (Z.eqb_spec (idxB b) new) as [E|E].
    + subst b'. rewrite idxB_set in Ei. rewrite getB_set, in_app_iff in Hx.
      destruct Hx; [left; eauto|right; split; congruence].
    + subst b'. left; eauto.
  - intros [[b [Hb [Ei Hx]]]|[-> Hx]].
    + exists (if idxB b =? new then setB (getB b ++ c) b else b). split; [apply in_map_iff; eauto|].
      destruct (idxB b =? new); auto. rewrite idxB_set, getB_set, in_app_iff. auto.
    + apply in_map_idx in Hnew. destruct Hnew as [b [Hb Ei]].
      exists (setB (getB b ++ c) b). rewrite idxB_set, getB_set, in_app_iff. split; auto.
      apply in_map_iff. exists b. split; auto. rewrite Ei, Z.eqb_refl. reflexivity.
Qed.

Lemma lists_moved lb c i x :
  In new (map idxB lb) ->
  lists idxB getB (map (moved c) lb) i x <->
  (lists idxB getB lb i x /\ ~ (i = old /\ In x c)) \/ (i = new /\ In x c).
Proof.
  intros Hnew. unfold lists. split.
  - intros [b' [Hb' [Ei Hx]]]. apply in_map_iff in Hb'. destruct Hb' as [b [Eb Hb]].
    unfold moved in Eb. destruct (Z.eqb_spec (idxB b) new) as [E|E].
    + subst b'. rewrite idxB_set in Ei. rewrite getB_set, in_app_iff in Hx.
      destruct Hx; [left; split; eauto; intros [? ?]; congruence|right; split; congruence].
    + destruct (Z.eqb_spec (idxB b) old) as [E2|E2].
      * subst b'. rewrite idxB_set in Ei. rewrite getB_set, drop_list_In in Hx.
        left; split; [exists b; tauto|]. tauto.
      * subst b'. left; split; eauto. intros [? ?]; congruence.
  - intros [[[b [Hb [Ei Hx]]] Hno]|[-> Hx]].
    + exists (moved c b). split; [apply in_map; auto|]. unfold moved.
      destruct (Z.eqb_spec (idxB b) new) as [E|E].
      * rewrite idxB_set, getB_set, in_app_iff. auto.
      * destruct (Z.eqb_spec (idxB b) old) as [E2|E2]; auto.
        rewrite idxB_set, getB_set, drop_list_In. repeat split; auto. intros Hc. apply Hno. split; congruence.
    + apply in_map_idx in Hnew. destruct Hnew as [b [Hb Ei]].
      exists (moved c b). split; [apply in_map; auto|]. unfold moved.
      rewrite Ei, Z.eqb_refl, idxB_set, getB_set, in_app_iff. auto.
Qed.

End Redirect.
