(** Proofs about CoarsenMesh. *)
From Verif Require Import Base Containers ContainersProofs Mesh SpecMesh MeshProofs SwitchProofs RemoveProofs
  Edit CropProofs Geom MergeProofs GeomProofs Coarsen SpecCoarsen.
Set Implicit Arguments.
Open Scope Z_scope.

(** ** Renaming the cells one after the other *)
Section MergeCells.
Variables A B : Type.
Variables (idxA : A -> Z) (getA : A -> list Z) (setA : list Z -> A -> A).
Variables (idxB : B -> Z) (getB : B -> list Z) (setB : list Z -> B -> B).
Hypothesis getA_set : forall l a, getA (setA l a) = l.
Hypothesis idxA_set : forall l a, idxA (setA l a) = idxA a.
Hypothesis setA_get : forall a, setA (getA a) a = a.
Hypothesis setA_set : forall l1 l2 a, setA l1 (setA l2 a) = setA l1 a.
Hypothesis getB_set : forall l b, getB (setB l b) = l.
Hypothesis idxB_set : forall l b, idxB (setB l b) = idxB b.
Hypothesis setB_get : forall b, setB (getB b) b = b.
Hypothesis setB_set : forall l1 l2 b, setB l1 (setB l2 b) = setB l1 b.

Lemma replace_same x l : replace_all x x l = l.
Proof.
  unfold replace_all. rewrite <- (map_id l) at 2. apply map_ext. intros y.
  destruct (Z.eqb_spec y x); auto.
Qed.

(** Switching an index to itself pushes some entries again and changes nothing
    else. *)
Lemma redirect_self x lb0 ks : forall la lb,
  NoDup (map idxA la) -> NoDup (map idxB lb0) -> map idxB lb = map idxB lb0 ->
  In x (map idxB lb0) -> (forall k, In k ks -> In k (map idxA la)) ->
  exists c, (forall e, In e c -> In e ks) /\
    for_each (find_list idxA la ks) (redirect idxA getA setA getB setB x x (find idxB lb0 x)) (la, lb) =
    Ok (la, on idxB x (fun b => setB (getB b ++ c) b) lb).
Proof.
  intros la lb HA HB. revert lb. induction ks as [|k r IH]; intros lb Hlb Hx Hks.
  - exists []. split; [auto|]. simpl. do 2 f_equal. unfold on.
    rewrite <- (map_id lb) at 1. apply map_ext. intros b. rewrite app_nil_r, setB_get. destruct (idxB b =? x); auto.
  - assert (Hk : In k (map idxA la)) by (apply Hks; simpl; auto).
    destruct (find_at idxA la (proj1 (in_map_idx idxA la k) Hk)) as [a [Ha [HaIn HaK]]].
    simpl for_each. unfold redirect at 1. rewrite Ha. cbn [bind].
    assert (HndB : NoDup (map idxB lb)) by (rewrite Hlb; auto).
    destruct (copies (idxA a) x (getA a)) as [|c0 cr] eqn:Hc.
    + destruct (IH lb Hlb Hx) as [c [Hin Hrun]]; [intros; apply Hks; right; auto|].
      exists c. split; [intros; right; auto|]. exact Hrun.
    + rewrite <- Hc, replace_same, setA_get. rewrite <- (find_map_idx idxB lb0 lb x Hlb).
      rewrite modify_find; auto; [|rewrite Hlb; auto]. cbn [bind].
      assert (Hupd : upd la (Z.to_nat (find idxA la k)) a = la).
      { apply at_Ok in Ha. destruct Ha as [H0 Hn]. clear -Hn. revert Hn. generalize (Z.to_nat (find idxA la k)).
        induction la as [|y l IHl]; intros [|n] Hn; simpl in *; try discriminate; auto.
        - congruence.
        - f_equal. auto. }
      rewrite Hupd. set (lb1 := on idxB x _ lb).
      assert (Hlb1 : map idxB lb1 = map idxB lb0) by (unfold lb1; rewrite map_on; auto).
      rewrite (find_map_idx idxB lb0 lb x Hlb).
      destruct (IH lb1 Hlb1 Hx) as [c [Hin Hrun]]; [intros; apply Hks; right; auto|].
      exists (copies (idxA a) x (getA a) ++ c). split.
      * intros e He. apply in_app_iff in He. destruct He as [He|He]; [|right; auto].
        apply copies_In in He. destruct He as [-> _]. left. auto.
      * etransitivity; [exact Hrun|]. do 2 f_equal. unfold lb1, on. rewrite map_map. apply map_ext.
        intros b. destruct (Z.eqb_spec (idxB b) x) as [E|E].
        -- rewrite idxB_set. destruct (Z.eqb_spec (idxB b) x); [|congruence].
           rewrite getB_set, setB_set, app_assoc. reflexivity.
        -- destruct (Z.eqb_spec (idxB b) x); [congruence|]. reflexivity.
Qed.

Variables (la0 : list A) (lb0 : list B) (f : Z -> Z).
Hypothesis ndA : NoDup (map idxA la0).
Hypothesis ndB : NoDup (map idxB lb0).
Hypothesis cells_to : forall c, In c (map idxB lb0) -> In (f c) (map idxB lb0) /\ f (f c) = f c.
Hypothesis back : forall z e, In z (map idxB lb0) -> lists idxB getB lb0 z e <-> lists idxA getA la0 e z.

Definition so_far (ps : list Z) (y : Z) : Z := if mem_z y ps then f y else y.
Definition renamed_to ps (a : A) : A := setA (map (so_far ps) (getA a)) a.

(** After the cells [ps] have been switched. *)
Definition merged_so_far ps (la : list A) (lb : list B) : Prop :=
  la = map (renamed_to ps) la0 /\ map idxB lb = map idxB lb0 /\
  forall s e, lists idxB getB lb s e <->
    lists idxB getB lb0 s e \/ exists z, In z ps /\ f z = s /\ lists idxB getB lb0 z e.

Lemma merge_start : merged_so_far [] la0 lb0.
Proof.
  split; [|split; [reflexivity|]].
  - symmetry. rewrite <- map_id. apply map_ext. intros a. unfold renamed_to, so_far. simpl. rewrite map_id. auto.
  - intros s e. split; [auto|]. intros [H|[z [[] _]]]. auto.
Qed.

Lemma merge_step ps x la lb b : merged_so_far ps la lb -> ~ In x ps -> (forall y, In y ps -> In y (map idxB lb0)) ->
  In b lb -> idxB b = x ->
  exists la' c, for_each (find_list idxA la (getB b))
      (redirect idxA getA setA getB setB x (f x) (find idxB lb (f x))) (la, lb) =
      Ok (la', on idxB (f x) (fun b => setB (getB b ++ c) b) lb) /\
    merged_so_far (x :: ps) la' (on idxB (f x) (fun b => setB (getB b ++ c) b) lb).
Proof.
  intros [Hla [Hlb Hrel]] Hx Hps Hb Eb.
  assert (Hxc : In x (map idxB lb0)).
  { rewrite <- Hlb. apply in_map_iff. eauto. }
  destruct (cells_to _ Hxc) as [Hfx Hff].
  assert (HidA : map idxA la = map idxA la0).
  { rewrite Hla, map_map. apply map_ext. intros a. apply idxA_set. }
  assert (HndA : NoDup (map idxA la)) by (rewrite HidA; auto).
  assert (HndB : NoDup (map idxB lb)) by (rewrite Hlb; auto).
  assert (Hks : forall k, In k (getB b) -> In k (map idxA la)).
  { intros k Hk. apply (@owner _ idxB getB lb x b HndB Hb Eb) in Hk. apply Hrel in Hk. rewrite HidA.
    destruct Hk as [Hk|[z [Hz [_ Hk]]]]; apply back in Hk; auto; apply lists_has in Hk; apply in_map_idx; auto. }
  destruct (Z.eq_dec x (f x)) as [E|E].
  - rewrite <- E in *.
    destruct (@redirect_self x lb (getB b) la lb) as [c [Hc Hrun]]; auto; [rewrite Hlb; auto|].
    exists la, c. split; [exact Hrun|]. split; [|split].
    + rewrite Hla. apply map_ext. intros a. unfold renamed_to. f_equal. apply map_ext. intros y.
      unfold so_far. simpl. destruct (Z.eqb_spec y x) as [->|]; auto. simpl.
      rewrite <- E. destruct (mem_z x ps); auto.
    + rewrite map_on; auto.
    + intros s e. rewrite lists_pushed; auto; [|rewrite Hlb; auto]. rewrite Hrel. split.
      * intros [[H|[z [H1 [H2 H3]]]]|[-> H]]; auto.
        -- right. exists z. simpl. auto.
        -- apply Hc in H. apply (@owner _ idxB getB lb x b HndB Hb Eb) in H. apply Hrel in H.
           destruct H as [H|[z [H1 [H2 H3]]]]; auto. right. exists z. simpl. auto.
      * intros [H|[z [[<-|H1] [H2 H3]]]]; auto.
        -- left. left. congruence.
        -- left. right. exists z. auto.
  - assert (Hnot : forall z, In z (map idxB lb0) -> f z <> x).
    { intros z Hz Ez. apply E. destruct (cells_to _ Hz) as [_ H]. rewrite Ez in H. congruence. }
    destruct (@redirect_loop A B idxA getA setA idxB getB setB getA_set idxA_set getB_set idxB_set setB_get setB_set
                x (f x) E la lb (getB b) HndA HndB) as [c [Hc Hrun]]; [rewrite Hlb; auto|auto|].
    exists (map (redirected idxA getA setA x (f x) (getB b)) la), c. split; [exact Hrun|].
    assert (Hown : forall e, In e (getB b) <-> lists idxB getB lb0 x e).
    { intros e. rewrite (@owner _ idxB getB lb x b HndB Hb Eb), Hrel. split; [|auto].
      intros [H|[z [H1 [H2 H3]]]]; auto. exfalso. apply (Hnot z); auto. }
    assert (Hat : forall a, In a la0 -> (In x (map (so_far ps) (getA a)) <-> In x (getA a))).
    { intros a Ha. rewrite in_map_iff. split.
      - intros [y [Ey Hy]]. unfold so_far in Ey. destruct (mem_z y ps) eqn:Em; [|congruence].
        apply mem_z_In in Em. exfalso. apply (Hnot y); auto.
      - intros H. exists x. split; auto. unfold so_far. apply mem_z_not_In in Hx. rewrite Hx. auto. }
    split; [|split].
    + rewrite Hla, map_map. apply map_ext_in. intros a Ha.
      change (renamed_to ps a) with (setA (map (so_far ps) (getA a)) a). unfold redirected. rewrite idxA_set, getA_set, setA_set.
      assert (Em : map (so_far (x :: ps)) (getA a) = replace_all x (f x) (map (so_far ps) (getA a))).
      { unfold replace_all. rewrite map_map. apply map_ext_in. intros y Hy. unfold so_far. simpl.
        destruct (Z.eqb_spec y x) as [->|Hne]; simpl.
        - apply mem_z_not_In in Hx. rewrite Hx, Z.eqb_refl. auto.
        - destruct (mem_z y ps) eqn:Em; [|destruct (Z.eqb_spec y x); congruence].
          apply mem_z_In in Em. destruct (Z.eqb_spec (f y) x) as [E2|]; auto. exfalso. apply (Hnot y); auto. }
      destruct (mem_z (idxA a) (getB b) && mem_z x (map (so_far ps) (getA a)))%bool eqn:Ec.
      * unfold renamed_to. rewrite Em. auto.
      * unfold renamed_to. f_equal. rewrite Em, replace_all_absent; auto. intros Hin.
        apply andb_false_iff in Ec. destruct Ec as [Ec|Ec]; apply mem_z_not_In in Ec; [|auto].
        apply Ec. apply Hown. apply back; auto. exists a. apply Hat in Hin; auto.
    + rewrite map_on; auto.
    + intros s e. rewrite lists_pushed; auto; [|rewrite Hlb; auto]. rewrite Hrel, Hc. unfold referring.
      assert (Hr : (In e (getB b) /\ exists a, In a la /\ idxA a = e /\ In x (getA a)) <-> lists idxB getB lb0 x e).
      { rewrite Hown. split; [tauto|]. intros H. split; [exact H|]. apply back in H; auto.
        destruct H as [a [Ha [Ei Hxa]]]. exists (renamed_to ps a). split; [rewrite Hla; apply in_map; auto|].
        unfold renamed_to. rewrite idxA_set, getA_set. split; auto. apply Hat; auto. }
      rewrite Hr. split.
      * intros [[H|[z [H1 [H2 H3]]]]|[-> H]]; auto; right; [exists z|exists x]; simpl; auto.
      * intros [H|[z [[<-|H1] [H2 H3]]]]; auto. left. right. eauto.
Qed.
End MergeCells.

(** ** Loops over positions *)
Lemma for_each_upto T S (l0 : list T) (body : Z -> S -> outcome S) (P : list T -> S -> Prop) s0 :
  P [] s0 ->
  (forall pre x post s, l0 = pre ++ x :: post -> P pre s ->
     exists s', body (Z.of_nat (length pre)) s = Ok s' /\ P (pre ++ [x]) s') ->
  exists s', for_each (upto_pos l0) body s0 = Ok s' /\ P l0 s'.
Proof.
  intros H0 Hstep.
  assert (H : forall post pre s, l0 = pre ++ post -> P pre s ->
    exists s', for_each (map Z.of_nat (seq (length pre) (length post))) body s = Ok s' /\ P l0 s').
  { induction post as [|x post IH]; intros pre s E Hp.
    - rewrite app_nil_r in E. subst pre. exists s. simpl. auto.
    - destruct (Hstep pre x post s E Hp) as [s1 [E1 H1]]. cbn [length seq map for_each]. rewrite E1. cbn [bind].
      destruct (IH (pre ++ [x]) s1) as [s' [E2 H2]]; [rewrite <- app_assoc; exact E|exact H1|].
      exists s'. split; [|exact H2]. rewrite app_length in E2. cbn [length] in E2.
      replace (length pre + 1)%nat with (Datatypes.S (length pre)) in E2 by lia. exact E2. }
  apply (H l0 []); auto.
Qed.

Lemma at_split T (pre : list T) x post : at_ (pre ++ x :: post) (Z.of_nat (length pre)) = Ok x.
Proof. apply at_Ok. rewrite Nat2Z.id. split; [lia|]. rewrite nth_error_app2, Nat.sub_diag by lia. reflexivity. Qed.

Lemma at_same_idx A (idx : A -> Z) l0 l pre x post : map idx l = map idx l0 -> l0 = pre ++ x :: post ->
  exists a, at_ l (Z.of_nat (length pre)) = Ok a /\ In a l /\ idx a = idx x.
Proof.
  intros E ->. assert (H : nth_error (map idx l) (length pre) = Some (idx x)).
  { rewrite E, map_app, nth_error_app2, map_length, Nat.sub_diag by (rewrite map_length; lia). reflexivity. }
  rewrite nth_error_map in H. destruct (nth_error l (length pre)) as [a|] eqn:En; [|discriminate].
  exists a. split; [apply at_Ok; rewrite Nat2Z.id; split; [lia|auto]|]. split; [eapply nth_error_In; eauto|].
  simpl in H. congruence.
Qed.

Lemma matches_map A (idx : A -> Z) l f : (forall c, In c (map idx l) -> In (f c) (map idx l)) ->
  mapping_matches idx l (map f (map idx l)) = true.
Proof.
  intros H. unfold mapping_matches. rewrite !map_length, Nat.eqb_refl. cbn [andb]. apply forallb_forall.
  intros x Hx. apply in_map_iff in Hx. destruct Hx as [c [<- Hc]]. apply H in Hc. apply in_map_idx in Hc.
  destruct (find_spec idx l (f c)) as [[E Hn]|[n [a [E Hn]]]].
  - contradiction.
  - rewrite E. destruct (Z.eqb_spec (Z.of_nat n) (-1)); auto. lia.
Qed.

Lemma no_lookup S A (idx : A -> Z) ks (body : Z -> S -> outcome S) s :
  for_each (find_list idx [] ks) (if_found body) s = Ok s.
Proof. induction ks as [|k r IH]; simpl; auto. Qed.

(** ** The switching loop *)
Lemma so_far_all f l y : (In y l \/ f y = y) -> so_far f l y = f y.
Proof.
  intros H. unfold so_far. destruct (mem_z y l) eqn:E; auto. apply mem_z_not_In in E. destruct H; congruence.
Qed.

Lemma NoDup_split_not_in A (idx : A -> Z) l0 pre x post : NoDup (map idx l0) -> l0 = pre ++ x :: post ->
  ~ In (idx x) (map idx pre).
Proof.
  intros H ->. rewrite map_app in H. cbn [map] in H. apply NoDup_remove_2 in H. intros Hc. apply H. apply in_app_iff. auto.
Qed.

Definition edge_renamed f (e : edge) : edge := ed_set_surfind (map f (ed_surfind e)) e.
Definition surf_renamed f (s : surf) : surf := su_set_voluind (map f (su_voluind s)) s.

Lemma merge_2d f m : well_connected m -> volus m = [] -> grouping (has_surf m) f ->
  exists m1, merge_cells surfs su_index 3 (map f (map su_index (surfs m))) m = Ok m1 /\
    edges m1 = map (edge_renamed f) (edges m) /\ verts m1 = verts m /\ volus m1 = [] /\ meshDim m1 = meshDim m /\
    map (fun s => (su_index s, su_voluind s)) (surfs m1) = map (fun s => (su_index s, su_voluind s)) (surfs m) /\
    (forall s e, SE m1 s e <-> SE m s e \/ exists z, has_surf m z /\ f z = s /\ SE m z e).
Proof.
  intros [[Uv [Us [Ue [Un [Zv [Zs [Ze Zn]]]]]]] [[M1 [M2 [M3 [M4 [M5 M6]]]]] [X1 [X2 [X3 [X4 X5]]]]]] V [F0 F].
  set (fr := fun s : surf => (su_index s, su_voluind s)).
  assert (Hcells : forall c, In c (map su_index (surfs m)) -> In (f c) (map su_index (surfs m)) /\ f (f c) = f c).
  { intros c Hc. apply has_surf_In in Hc. destruct (F c Hc) as [H1 H2]. split; auto. apply has_surf_In; auto. }
  assert (Hback : forall z e, In z (map su_index (surfs m)) ->
     lists su_index su_edgeind (surfs m) z e <-> lists ed_index ed_surfind (edges m) e z).
  { intros z e Hz. apply has_surf_In in Hz. split; intros H.
    - apply M4; auto. intros ->. apply (X3 z). exact H.
    - apply M3; auto. intros ->. auto. }
  unfold merge_cells.
  destruct (@for_each_upto surf mesh (surfs m)
    (fun i m0 => do c <- at_ (surfs m0) i; do y <- at_ (map f (map su_index (surfs m))) i; switch_index 3 (su_index c) y [] m0)
    (fun pre m1 => verts m1 = verts m /\ volus m1 = [] /\ meshDim m1 = meshDim m /\ map fr (surfs m1) = map fr (surfs m) /\
       merged_so_far ed_surfind ed_set_surfind su_index su_edgeind (edges m) (surfs m) f (map su_index pre) (edges m1) (surfs m1)) m)
    as [m1 [Hrun [Hv [Hvo [Hd [Hfr [He [Hi Hrel]]]]]]]].
  - split; [auto|split; [auto|split; [auto|split; [auto|]]]]. apply merge_start. intros []; reflexivity.
  - intros pre x post m1 E [Hv [Hvo [Hd [Hfr HI]]]].
    assert (Hid : map su_index (surfs m1) = map su_index (surfs m)) by apply HI.
    destruct (@at_same_idx _ su_index (surfs m) (surfs m1) pre x post Hid E) as [c [Hc [Hcin Hcx]]].
    rewrite Hc. cbn [bind].
    assert (Hy : at_ (map f (map su_index (surfs m))) (Z.of_nat (length pre)) = Ok (f (su_index x))).
    { rewrite map_map. rewrite E, map_app. cbn [map]. rewrite <- (map_length (fun s => f (su_index s)) pre). apply at_split. }
    rewrite Hy. cbn [bind]. rewrite Hcx. cbn [switch_index].
    assert (Hxin : In (su_index x) (map su_index (surfs m1))) by (rewrite <- Hcx; apply in_map; auto).
    assert (Hnd : NoDup (map su_index (surfs m1))) by (rewrite Hid; auto).
    unfold switch3. destruct (find_at su_index (surfs m1) (proj1 (in_map_idx su_index (surfs m1) (su_index x)) Hxin))
      as [b [Hb [Hbin Hbx]]].
    rewrite Hb. cbn [bind].
    destruct (@merge_step edge surf ed_index ed_surfind ed_set_surfind su_index su_edgeind su_set_edgeind)
      with (la0 := edges m) (lb0 := surfs m) (f := f) (ps := map su_index pre) (x := su_index x)
           (la := edges m1) (lb := surfs m1) (b := b) as [es [cc [Hrun HI1]]]; auto;
      try (intros; reflexivity); try (intros []; reflexivity).
    { exact (@NoDup_split_not_in _ su_index (surfs m) pre x post Us E). }
    { intros y Hyy. rewrite E, map_app. apply in_app_iff. auto. }
    rewrite Hrun. cbn [bind].
    set (ss1 := on su_index (f (su_index x)) _ (surfs m1)) in *.
    assert (Hid1 : map su_index ss1 = map su_index (surfs m)) by apply HI1.
    assert (Hxin1 : In (su_index x) (map su_index ss1)) by (rewrite Hid1, <- Hid; exact Hxin).
    destruct (find_at su_index ss1 (proj1 (in_map_idx su_index ss1 (su_index x)) Hxin1)) as [b1 [Hb1 _]].
    rewrite (find_map_idx su_index (surfs m1) ss1) in Hb1 by (rewrite Hid1; auto).
    rewrite Hb1. cbn [bind]. rewrite Hvo, no_lookup. cbn [bind].
    rewrite <- (find_map_idx su_index (surfs m1) ss1) by (rewrite Hid1; auto).
    rewrite modify_find; [|rewrite Hid1; auto|].
    2:{ rewrite Hid1. apply Hcells. rewrite <- Hid. exact Hxin. }
    cbn [bind]. eexists. split; [reflexivity|]. cbn [verts volus meshDim surfs edges].
    split; [auto|]. split; [auto|]. split; [auto|]. split.
    + rewrite <- Hfr. unfold ss1, on. rewrite !map_map. apply map_ext. intros s.
      destruct (su_index s =? f (su_index x)) eqn:Es; cbn [su_index su_set_edgeind];
        rewrite Es; reflexivity.
    + destruct HI1 as [K1 [K2 K3]]. rewrite map_app. cbn [map].
      assert (Hso : forall y, so_far f (map su_index pre ++ [su_index x]) y = so_far f (su_index x :: map su_index pre) y).
      { intros y. unfold so_far. replace (mem_z y (map su_index pre ++ [su_index x])) with (mem_z y (su_index x :: map su_index pre)); auto.
        destruct (mem_z y (su_index x :: map su_index pre)) eqn:E1; symmetry.
        - apply mem_z_In. apply mem_z_In in E1. apply in_app_iff. simpl in *. tauto.
        - apply mem_z_not_In. apply mem_z_not_In in E1. rewrite in_app_iff. simpl in *. tauto. }
      split; [|split].
      * rewrite K1. apply map_ext. intros a. unfold renamed_to. f_equal. apply map_ext. intros. symmetry. apply Hso.
      * rewrite map_on; auto.
      * intros s e. unfold on at 1. rewrite lists_map_same.
        2:{ intros a Ha. destruct (su_index a =? f (su_index x)); auto. }
        rewrite K3. split; (intros [H|[z [Hz H]]]; [auto|right; exists z; split; auto]); revert Hz;
          rewrite in_app_iff; simpl; tauto.
  - exists m1. split; [exact Hrun|]. split; [|split; [auto|split; [auto|split; [auto|split; [exact Hfr|]]]]].
    + rewrite He. apply map_ext_in. intros a Ha. unfold renamed_to, edge_renamed. f_equal. apply map_ext_in.
      intros y Hy. apply so_far_all.
      destruct (Z.eq_dec y 0) as [->|Hn]; auto. left. apply has_surf_In.
      assert (HS : SE m y (ed_index a)) by (apply M3; auto; exists a; auto). apply lists_has in HS. exact HS.
    + intros s e. unfold SE at 1. rewrite Hrel. unfold SE. split; (intros [H|[z [Hz H]]]; [auto|right; exists z; split; auto; apply has_surf_In; auto]).
Qed.

Lemma merge_3d f m : well_connected m -> grouping (has_volu m) f ->
  exists m1, merge_cells volus vo_index 4 (map f (map vo_index (volus m))) m = Ok m1 /\
    surfs m1 = map (surf_renamed f) (surfs m) /\ edges m1 = edges m /\ verts m1 = verts m /\ meshDim m1 = meshDim m /\
    map vo_index (volus m1) = map vo_index (volus m) /\
    (forall v s, VS m1 v s <-> VS m v s \/ exists z, has_volu m z /\ f z = v /\ VS m z s).
Proof.
  intros [[Uv [Us [Ue [Un [Zv [Zs [Ze Zn]]]]]]] [[M1 [M2 [M3 [M4 [M5 M6]]]]] [X1 [X2 [X3 [X4 X5]]]]]] [F0 F].
  assert (Hcells : forall c, In c (map vo_index (volus m)) -> In (f c) (map vo_index (volus m)) /\ f (f c) = f c).
  { intros c Hc. apply has_volu_In in Hc. destruct (F c Hc) as [H1 H2]. split; auto. apply has_volu_In; auto. }
  assert (Hback : forall z e, In z (map vo_index (volus m)) ->
     lists vo_index vo_surfind (volus m) z e <-> lists su_index su_voluind (surfs m) e z).
  { intros z e Hz. apply has_volu_In in Hz. split; intros H.
    - apply M6; auto. intros ->. apply (X4 z). exact H.
    - apply M5; auto. intros ->. auto. }
  unfold merge_cells.
  destruct (@for_each_upto volu mesh (volus m)
    (fun i m0 => do c <- at_ (volus m0) i; do y <- at_ (map f (map vo_index (volus m))) i; switch_index 4 (vo_index c) y [] m0)
    (fun pre m1 => edges m1 = edges m /\ verts m1 = verts m /\ meshDim m1 = meshDim m /\
       merged_so_far su_voluind su_set_voluind vo_index vo_surfind (surfs m) (volus m) f (map vo_index pre) (surfs m1) (volus m1)) m)
    as [m1 [Hrun [He [Hv [Hd [Hs [Hi Hrel]]]]]]].
  - split; [auto|split; [auto|split; [auto|]]]. apply merge_start. intros []; reflexivity.
  - intros pre x post m1 E [He [Hv [Hd HI]]].
    assert (Hid : map vo_index (volus m1) = map vo_index (volus m)) by apply HI.
    destruct (@at_same_idx _ vo_index (volus m) (volus m1) pre x post Hid E) as [c [Hc [Hcin Hcx]]].
    rewrite Hc. cbn [bind].
    assert (Hy : at_ (map f (map vo_index (volus m))) (Z.of_nat (length pre)) = Ok (f (vo_index x))).
    { rewrite map_map. rewrite E, map_app. cbn [map]. rewrite <- (map_length (fun s => f (vo_index s)) pre). apply at_split. }
    rewrite Hy. cbn [bind]. rewrite Hcx. cbn [switch_index].
    assert (Hxin : In (vo_index x) (map vo_index (volus m1))) by (rewrite <- Hcx; apply in_map; auto).
    unfold switch4. destruct (find_at vo_index (volus m1) (proj1 (in_map_idx vo_index (volus m1) (vo_index x)) Hxin))
      as [b [Hb [Hbin Hbx]]].
    rewrite Hb. cbn [bind].
    destruct (@merge_step surf volu su_index su_voluind su_set_voluind vo_index vo_surfind vo_set_surfind)
      with (la0 := surfs m) (lb0 := volus m) (f := f) (ps := map vo_index pre) (x := vo_index x)
           (la := surfs m1) (lb := volus m1) (b := b) as [es [cc [Hrun HI1]]]; auto;
      try (intros; reflexivity); try (intros []; reflexivity).
    { exact (@NoDup_split_not_in _ vo_index (volus m) pre x post Uv E). }
    { intros y Hyy. rewrite E, map_app. apply in_app_iff. auto. }
    rewrite Hrun. cbn [bind].
    eexists. split; [reflexivity|]. cbn [verts volus meshDim surfs edges].
    split; [auto|]. split; [auto|]. split; [auto|].
    destruct HI1 as [K1 [K2 K3]]. rewrite map_app. cbn [map].
    split; [|split; [auto|]].
    + rewrite K1. apply map_ext. intros a. unfold renamed_to. f_equal. apply map_ext. intros y. unfold so_far.
      replace (mem_z y (map vo_index pre ++ [vo_index x])) with (mem_z y (vo_index x :: map vo_index pre)); auto.
      destruct (mem_z y (vo_index x :: map vo_index pre)) eqn:E1; symmetry.
      * apply mem_z_In. apply mem_z_In in E1. apply in_app_iff. simpl in *. tauto.
      * apply mem_z_not_In. apply mem_z_not_In in E1. rewrite in_app_iff. simpl in *. tauto.
    + intros s e. rewrite K3. split; (intros [H|[z [Hz H]]]; [auto|right; exists z; split; auto]); revert Hz;
        rewrite in_app_iff; simpl; tauto.
  - exists m1. split; [exact Hrun|]. split; [|split; [auto|split; [auto|split; [auto|split; [exact Hi|]]]]].
    + rewrite Hs. apply map_ext_in. intros a Ha. unfold renamed_to, surf_renamed. f_equal. apply map_ext_in.
      intros y Hy. apply so_far_all.
      destruct (Z.eq_dec y 0) as [->|Hn]; auto. left. apply has_volu_In.
      assert (HS : VS m y (su_index a)) by (apply M5; auto; exists a; auto). apply lists_has in HS. exact HS.
    + intros v s. unfold VS at 1. rewrite Hrel. unfold VS. split; (intros [H|[z [Hz H]]]; [auto|right; exists z; split; auto; apply has_volu_In; auto]).
Qed.

(** ** Tightening *)
Lemma tighten_ok m : (forall e, In e (edges m) -> (length (ed_vertind e) <= 2)%nat) ->
  mesh_tighten m = Ok (mkMesh (map volu_tighten (volus m)) (map surf_tighten (surfs m))
    (map (fun e => ed_set_surfind (tighten (ed_surfind e)) e) (edges m)) (map vert_tighten (verts m)) (meshDim m)).
Proof.
  intros H. unfold mesh_tighten.
  assert (E : omap_list edge_tighten (edges m) = Ok (map (fun e => ed_set_surfind (tighten (ed_surfind e)) e) (edges m))).
  { induction (edges m) as [|e l IH]; auto. cbn [omap_list map].
    unfold edge_tighten at 1. destruct (Nat.ltb_spec 2 (length (ed_vertind e))) as [Hl|Hl].
    - specialize (H e (or_introl eq_refl)). lia.
    - cbn [bind]. rewrite IH; [reflexivity|]. intros; apply H; right; auto. }
  rewrite E. reflexivity.
Qed.

Lemma lists_tight A (idx : A -> Z) get (h : A -> A) l i x :
  (forall a, idx (h a) = idx a) -> (forall a, get (h a) = tighten (get a)) ->
  lists idx get (map h l) i x <-> lists idx get l i x.
Proof.
  intros Hi Hg. rewrite (@lists_map_fun _ idx get tighten); [|auto]. unfold lists.
  split; intros [a [H1 [H2 H3]]]; exists a; (split; [auto|split; [auto|]]); apply tighten_In; auto.
Qed.

Lemma lists_renamed A (idx : A -> Z) get (h : A -> A) f l i x :
  (forall a, idx (h a) = idx a) -> (forall a, get (h a) = map f (get a)) ->
  lists idx get (map h l) i x <-> exists z, lists idx get l i z /\ x = f z.
Proof.
  intros Hi Hg. rewrite (@lists_map_fun _ idx get (map f)); [|auto]. unfold lists. split.
  - intros [a [H1 [H2 H3]]]. apply in_map_iff in H3. destruct H3 as [z [<- Hz]]. exists z. split; [exists a|]; auto.
  - intros [z [[a [H1 [H2 H3]]] ->]]. exists a. split; [auto|split; [auto|]]. apply in_map. auto.
Qed.

Lemma tighten_one l : length (tighten l) = 1%nat <-> exists y, In y l /\ forall x, In x l -> x = y.
Proof.
  split.
  - intros H. destruct (tighten l) as [|y [|z r]] eqn:E; try discriminate. exists y. split.
    + apply tighten_In. rewrite E. simpl. auto.
    + intros x Hx. apply tighten_In in Hx. rewrite E in Hx. destruct Hx as [<-|[]]. auto.
  - intros [y [Hy H]]. pose proof (tighten_strict l) as S. apply tighten_In in Hy.
    assert (H' : forall x, In x (tighten l) -> x = y) by (intros x Hx; apply H, tighten_In; auto).
    destruct (tighten l) as [|a [|b r]]; [destruct Hy|reflexivity|]. exfalso.
    apply StronglySorted_inv in S. destruct S as [_ S]. apply Forall_inv in S.
    rewrite (H' a) in S by (simpl; auto). rewrite (H' b) in S by (simpl; auto). lia.
Qed.

(** ** Removing edges *)
Definition cleared_edge (e : edge) : edge := ed_set_surfind [] (ed_set_vertind [] e).

(** RemoveIndex(2, i) when the vertices of the edge know it; the surfaces may
    be out of date. *)
Lemma remove2_live m i : NoDup (map ed_index (edges m)) -> NoDup (map ve_index (verts m)) ->
  NoDup (map su_index (surfs m)) -> has_edge m i ->
  (forall v, EV m i v <-> VE m v i) ->
  exists m', remove2 i m = Ok m' /\ edges m' = on ed_index i cleared_edge (edges m) /\
    volus m' = volus m /\ meshDim m' = meshDim m /\
    map (fun s => (su_index s, su_voluind s)) (surfs m') = map (fun s => (su_index s, su_voluind s)) (surfs m) /\
    map ve_index (verts m') = map ve_index (verts m) /\
    (forall v e, VE m' v e <-> VE m v e /\ e <> i) /\
    (forall s e, SE m' s e <-> SE m s e /\ ~ (e = i /\ ES m i s)).
Proof.
  intros Ue Un Us Ho HV.
  unfold remove2. destruct (find_at ed_index (edges m) Ho) as [eo [Hat [Hin Hidx]]].
  rewrite Hat. cbn [bind].
  pose proof (@owner _ ed_index ed_vertind (edges m) _ _ Ue Hin Hidx) as HownV.
  pose proof (@owner _ ed_index ed_surfind (edges m) _ _ Ue Hin Hidx) as HownS.
  assert (HksV : forall k, In k (ed_vertind eo) <-> VE m k i) by (intros k; rewrite HownV; apply HV).
  unfold erase_at. rewrite (@for_each_modify _ ve_index (fun a => ve_set_edgeind (erase_all i (ve_edgeind a)) a)); auto.
  2:{ intros []. unfold ve_set_edgeind. simpl. rewrite erase_all_idem. reflexivity. }
  2:{ intros k Hk. apply HksV in Hk. apply has_vert_In. apply lists_has in Hk. exact Hk. }
  cbn [bind]. rewrite for_each_if_found.
  set (ks := filter (fun k => mem_z k (map su_index (surfs m))) (ed_surfind eo)).
  assert (Hdi : forall a, su_index (drop_edge i a) = su_index a)
    by (intros a; unfold drop_edge; destruct (mem_z _ _); reflexivity).
  rewrite (@for_each_modify _ su_index (drop_edge i)); auto.
  2:{ intros [si sb so sv se]. unfold drop_edge; simpl. destruct (mem_z i se) eqn:E; simpl;
      rewrite ?erase_all_idem; (assert (mem_z i (erase_all i se) = false) as -> by
        (apply mem_z_not_In; rewrite erase_all_In; tauto)); unfold su_set_edgeind, su_set_ordered; simpl;
      rewrite ?erase_all_idem; reflexivity. }
  2:{ intros k Hk. unfold ks in Hk. apply filter_In in Hk. destruct Hk as [_ Hk]. apply mem_z_In. exact Hk. }
  cbn [bind]. rewrite modify_find; auto; [|apply has_edge_In; auto].
  cbn [bind]. eexists. split; [reflexivity|].
  split; [reflexivity|split; [reflexivity|split; [reflexivity|split; [|split; [|split]]]]]; simpl.
  - apply map_same_if. intros a; unfold drop_edge; destruct (mem_z _ _); reflexivity.
  - apply map_same_if; auto.
  - intros v e. unfold VE. simpl. rewrite lists_erased; auto; [reflexivity|].
    intros k Hk. apply HksV. exact Hk.
  - intros s e. unfold SE, lists. simpl.
    assert (Hge : forall a, su_edgeind (drop_edge i a) = erase_all i (su_edgeind a))
      by (intros a; unfold drop_edge; destruct (mem_z _ _); reflexivity).
    split.
    + intros [a' [Ha [Ei Hx]]]. apply in_map_iff in Ha. destruct Ha as [a [Ea Ha]].
      destruct (mem_z (su_index a) ks) eqn:Em; subst a'.
      * rewrite Hge, erase_all_In in Hx. rewrite Hdi in Ei. split; [exists a; tauto|tauto].
      * split; [exists a; auto|]. intros [-> Hs]. apply mem_z_not_In in Em. apply Em. unfold ks.
        apply filter_In. rewrite Ei. split; [apply HownS; exact Hs|]. apply mem_z_In. apply in_map_iff. eauto.
    + intros [[a [Ha [Ei Hx]]] Hn]. eexists. split; [apply in_map_iff; exists a; split; [reflexivity|auto]|].
      destruct (mem_z (su_index a) ks) eqn:Em; auto. rewrite Hge, Hdi, erase_all_In. split; auto. split; auto.
      intros ->. apply Hn. split; auto. apply mem_z_In in Em. unfold ks in Em. apply filter_In in Em.
      rewrite <- Ei. apply HownS. tauto.
Qed.

(** The loop that removes the edges [bad]. *)
Lemma remove_edges_loop n m : NoDup (map ed_index (edges m)) -> NoDup (map ve_index (verts m)) ->
  NoDup (map su_index (surfs m)) -> (forall e v, EV m e v <-> VE m v e) ->
  let bad := fun e => (length (ed_surfind e) =? n)%nat in
  let R := map ed_index (filter bad (edges m)) in
  exists m', for_each (upto_pos (edges m)) (remove_inner_edge n) (m, []) = Ok (m', R) /\
    edges m' = map (fun e => if bad e then cleared_edge e else e) (edges m) /\
    volus m' = volus m /\ meshDim m' = meshDim m /\
    map (fun s => (su_index s, su_voluind s)) (surfs m') = map (fun s => (su_index s, su_voluind s)) (surfs m) /\
    map ve_index (verts m') = map ve_index (verts m) /\
    (forall v e, VE m' v e <-> VE m v e /\ ~ In e R) /\
    (forall s e, SE m' s e <-> SE m s e /\ ~ (In e R /\ ES m e s)).
Proof.
  intros Ue Un Us HV bad R.
  set (fr := fun s : surf => (su_index s, su_voluind s)).
  set (g := fun e => if bad e then cleared_edge e else e).
  assert (Hg : forall e, ed_index (g e) = ed_index e) by (intros e; unfold g; destruct (bad e); auto).
  destruct (@for_each_upto edge (mesh * list Z) (edges m) (remove_inner_edge n)
    (fun pre st => let '(m1, del) := st in
       del = map ed_index (filter bad pre) /\
       (exists post, edges m = pre ++ post /\ edges m1 = map g pre ++ post) /\
       volus m1 = volus m /\ meshDim m1 = meshDim m /\ map fr (surfs m1) = map fr (surfs m) /\
       map ve_index (verts m1) = map ve_index (verts m) /\
       (forall v e, VE m1 v e <-> VE m v e /\ ~ In e del) /\
       (forall s e, SE m1 s e <-> SE m s e /\ ~ (In e del /\ ES m e s))) (m, []))
    as [[m' del] [Hrun [Hdel [[post [Ep Hed]] H]]]].
  - split; [reflexivity|]. split; [exists (edges m); auto|]. split; [auto|split; [auto|split; [auto|split; [auto|]]]].
    split; intros; simpl; tauto.
  - intros pre x post [m1 del] E [Hdel [[post' [E' Hed]] [Hvo [Hd [Hfr [Hve [HVE HSE]]]]]]].
    assert (post' = x :: post) by (rewrite E in E'; apply app_inv_head in E'; auto). subst post'.
    unfold remove_inner_edge. rewrite Hed. rewrite <- (map_length g pre). rewrite at_split. cbn [bind].
    rewrite filter_app, map_app. cbn [filter].
    assert (Hxpre : ~ In (ed_index x) (map ed_index pre)) by exact (@NoDup_split_not_in _ ed_index (edges m) pre x post Ue E).
    change (length (ed_surfind x) =? n)%nat with (bad x). destruct (bad x) eqn:Eb.
    + assert (Hid : map ed_index (edges m1) = map ed_index (edges m)).
      { rewrite Hed, E, !map_app. f_equal. rewrite map_map. apply map_ext. auto. }
      assert (Hsid : map su_index (surfs m1) = map su_index (surfs m)).
      { apply (f_equal (map fst)) in Hfr. rewrite !map_map in Hfr. exact Hfr. }
      assert (Hxdel : ~ In (ed_index x) del).
      { rewrite Hdel. intros Hc. apply Hxpre. apply in_map_iff in Hc. destruct Hc as [y [Ey Hy]].
        apply filter_In in Hy. rewrite <- Ey. apply in_map. tauto. }
      assert (Hxm : In x (edges m)) by (rewrite E; apply in_app_iff; right; left; auto).
      assert (Hxm1 : In x (edges m1)) by (rewrite Hed; apply in_app_iff; right; left; auto).
      assert (Ue1 : NoDup (map ed_index (edges m1))) by (rewrite Hid; auto).
      assert (Hown : forall v, EV m1 (ed_index x) v <-> EV m (ed_index x) v).
      { intros v. unfold EV. rewrite <- (@owner _ ed_index ed_vertind (edges m1) _ x Ue1 Hxm1 eq_refl).
        rewrite <- (@owner _ ed_index ed_vertind (edges m) _ x Ue Hxm eq_refl). reflexivity. }
      assert (HownS : forall v, ES m1 (ed_index x) v <-> ES m (ed_index x) v).
      { intros v. unfold ES. rewrite <- (@owner _ ed_index ed_surfind (edges m1) _ x Ue1 Hxm1 eq_refl).
        rewrite <- (@owner _ ed_index ed_surfind (edges m) _ x Ue Hxm eq_refl). reflexivity. }
      destruct (@remove2_live m1 (ed_index x)) as [m2 [Hrun [K1 [K2 [K3 [K4 [K5 [K6 K7]]]]]]]]; auto.
      { rewrite Hve. auto. } { rewrite Hsid. auto. } { exists x. auto. }
      { intros v. rewrite Hown, HV, HVE. tauto. }
      cbn [remove_index]. rewrite Hrun. cbn [bind]. eexists. split; [reflexivity|].
      split; [rewrite Hdel; reflexivity|]. split.
      { exists post. split; [rewrite <- app_assoc; exact E|]. rewrite K1, Hed. unfold on.
        rewrite map_app. cbn [map]. rewrite Z.eqb_refl. rewrite map_app. cbn [map]. rewrite <- app_assoc. cbn [app]. f_equal.
        - rewrite <- (map_id (map g pre)) at 2. apply map_ext_in. intros a Ha.
          destruct (Z.eqb_spec (ed_index a) (ed_index x)) as [Ex|]; auto. exfalso. apply Hxpre. rewrite <- Ex.
          apply in_map_iff in Ha. destruct Ha as [a0 [<- Ha]]. rewrite Hg. apply in_map. auto.
        - unfold g at 1. rewrite Eb. f_equal. rewrite <- (map_id post) at 2. apply map_ext_in. intros a Ha.
          destruct (Z.eqb_spec (ed_index a) (ed_index x)) as [Ex|]; auto. exfalso.
          rewrite E, map_app in Ue. cbn [map] in Ue. apply NoDup_remove_2 in Ue. apply Ue. rewrite <- Ex.
          apply in_app_iff. right. apply in_map. auto. }
      split; [congruence|split; [congruence|split; [rewrite <- Hfr; exact K4|split; [congruence|]]]].
      split.
      * intros v e. rewrite K6, HVE, in_app_iff. simpl. intuition.
      * intros s e. rewrite K7, HSE, in_app_iff, HownS. simpl. split.
        -- intros [[H1 H2] H3]. split; auto. intros [[H|[<-|[]]] H4]; [apply H2; auto|apply H3; auto].
        -- intros [H1 H2]. split; [split; auto; intros [H3 H4]; apply H2; auto|]. intros [-> H3]. apply H2. auto.
    + eexists. split; [reflexivity|]. cbn [map]. rewrite app_nil_r. split; [exact Hdel|]. split.
      { exists post. split; [rewrite <- app_assoc; exact E|]. rewrite Hed, map_app. cbn [map]. unfold g at 3. rewrite Eb.
        rewrite <- app_assoc. reflexivity. }
      auto 8.
  - assert (post = []).
    { apply (f_equal (@length _)) in Ep. rewrite app_length in Ep. destruct post; auto. simpl in Ep. lia. }
    subst post. rewrite app_nil_r in Hed. exists m'. rewrite Hdel in Hrun, H. split; [exact Hrun|]. split; [exact Hed|]. exact H.
Qed.

(** ** Two dimensions *)
Lemma unused_In A (idx : A -> Z) l elm i :
  In i (unused_cells idx l elm) <-> (exists a, In a l /\ idx a = i) /\ ~ In i elm.
Proof.
  unfold unused_cells. rewrite in_map_iff. split.
  - intros [a [<- H]]. apply filter_In in H. destruct H as [H1 H2]. apply negb_true_iff, mem_z_not_In in H2. split; eauto.
  - intros [[a [H1 <-]] H2]. exists a. split; auto. apply filter_In. split; auto. apply negb_true_iff, mem_z_not_In. auto.
Qed.

Lemma lone_In m i : NoDup (map ve_index (verts m)) ->
  In i (lone_verts m) <-> has_vert m i /\ ~ exists e, VE m i e.
Proof. intros H. unfold lone_verts. rewrite (@empties_In _ ve_index ve_edgeind (verts m) i H). reflexivity. Qed.

Lemma has_of_idx A (idx : A -> Z) l l' i : map idx l' = map idx l ->
  (exists a, In a l' /\ idx a = i) <-> (exists a, In a l /\ idx a = i).
Proof. intros E. rewrite <- !in_map_idx, E. reflexivity. Qed.

Lemma lists_if_cleared A (idx : A -> Z) get (bad : A -> bool) h l i x : NoDup (map idx l) ->
  (forall a, idx (h a) = idx a) -> (forall a, get (h a) = []) ->
  lists idx get (map (fun a => if bad a then h a else a) l) i x <->
  lists idx get l i x /\ ~ In i (map idx (filter bad l)).
Proof.
  intros Hnd Hi Hg. unfold lists. split.
  - intros [a' [Ha [Ei Hx]]]. apply in_map_iff in Ha. destruct Ha as [a [Ea Ha]].
    destruct (bad a) eqn:Eb; subst a'; [rewrite Hg in Hx; destruct Hx|]. split; [eauto|].
    intros Hc. apply in_map_iff in Hc. destruct Hc as [b [Eb' Hb]]. apply filter_In in Hb. destruct Hb as [Hb Hbb].
    assert (b = a) by (eapply NoDup_idx_inj; eauto; congruence). congruence.
  - intros [[a [Ha [Ei Hx]]] Hn]. exists a. split; auto. apply in_map_iff. exists a. split; auto.
    destruct (bad a) eqn:Eb; auto. exfalso. apply Hn. rewrite <- Ei. apply in_map. apply filter_In. auto.
Qed.

Lemma coarsen2_spec f m : well_connected m -> volus m = [] -> grouping (has_surf m) f ->
  (forall e, In e (edges m) -> (length (ed_vertind e) <= 2)%nat) ->
  exists m', coarsen2 (map f (map su_index (surfs m))) m = Ok m' /\ coarsened2 f m m'.
Proof.
  intros W V G L2. pose proof W as W0.
  destruct W0 as [[Uv [Us [Ue [Un [Zv [Zs [Ze Zn]]]]]]] [[M1 [M2 [M3 [M4 [M5 M6]]]]] [X1 [X2 [X3 [X4 X5]]]]]].
  pose proof G as [F0 F].
  unfold coarsen2. rewrite matches_map.
  2:{ intros c Hc. apply has_surf_In. apply has_surf_In in Hc. apply F. exact Hc. }
  destruct (merge_2d W V G) as [m1 [Hrun [He1 [Hv1 [Hvo1 [Hd1 [Hfr1 HSE1]]]]]]].
  rewrite Hrun. cbn [bind].
  assert (Hs1 : map su_index (surfs m1) = map su_index (surfs m)).
  { apply (f_equal (map fst)) in Hfr1. rewrite !map_map in Hfr1. exact Hfr1. }
  rewrite tighten_ok.
  2:{ intros e He. rewrite He1 in He. apply in_map_iff in He. destruct He as [e0 [<- He0]]. exact (L2 e0 He0). }
  cbn [bind]. set (m2 := mkMesh _ _ _ _ _).
  assert (Hed2 : edges m2 = map (fun e => ed_set_surfind (tighten (map f (ed_surfind e))) e) (edges m)).
  { unfold m2. cbn [edges]. rewrite He1, map_map. reflexivity. }
  assert (Hid2 : map ed_index (edges m2) = map ed_index (edges m)) by (rewrite Hed2, map_map; reflexivity).
  assert (Hve2 : map ve_index (verts m2) = map ve_index (verts m)).
  { unfold m2. cbn [verts]. rewrite Hv1, map_map. reflexivity. }
  assert (Hsu2 : map su_index (surfs m2) = map su_index (surfs m)).
  { unfold m2. cbn [surfs]. rewrite map_map. exact Hs1. }
  assert (HEV2 : forall e v, EV m2 e v <-> EV m e v).
  { intros e v. unfold EV. rewrite Hed2. apply lists_map_same. auto. }
  assert (HVE2 : forall v e, VE m2 v e <-> VE m v e).
  { intros v e. unfold VE, m2. cbn [verts]. rewrite Hv1. apply lists_tight; auto. }
  assert (HES2 : forall e s, ES m2 e s <-> exists z, ES m e z /\ s = f z).
  { intros e s. unfold ES, m2. cbn [edges]. rewrite lists_tight by auto. rewrite He1.
    apply lists_renamed; auto. }
  assert (HSE2 : forall s e, SE m2 s e <-> SE m s e \/ exists z, has_surf m z /\ f z = s /\ SE m z e).
  { intros s e. unfold SE at 1, m2. cbn [surfs]. rewrite lists_tight by auto. apply HSE1. }
  assert (HSV2 : forall s v, SV m2 s v <-> SV m s v).
  { intros s v. unfold SV at 1, m2. cbn [surfs]. rewrite lists_tight by auto.
    apply lists_maps; auto. apply (f_equal (map snd)) in Hfr1. rewrite !map_map in Hfr1. exact Hfr1. }
  assert (HEV : forall e v, EV m e v <-> VE m v e).
  { intros e v. split; intros H; [apply M2|apply M1]; auto; intros ->; [apply (X2 e)|apply (X1 v)]; exact H. }
  destruct (@remove_edges_loop 1%nat m2) as [m3 [Hloop [He3 [Hvo3 [Hd3 [Hfr3 [Hve3 [HVE3 HSE3]]]]]]]].
  { rewrite Hid2; auto. } { rewrite Hve2; auto. } { rewrite Hsu2; auto. }
  { intros e v. rewrite HEV2, HVE2. apply HEV. }
  set (R := map ed_index (filter _ (edges m2))) in *.
  rewrite Hloop. cbn [bind].
  assert (HR : forall e, In e R <-> has_edge m e /\ inner f (ES m e)).
  { intros e. unfold R. rewrite Hed2. rewrite in_map_iff. unfold inner. split.
    - intros [e2 [<- H]]. apply filter_In in H. destruct H as [H Hl]. apply Nat.eqb_eq in Hl.
      apply in_map_iff in H. destruct H as [e0 [<- H0]]. cbn [ed_surfind ed_set_surfind] in Hl. apply tighten_one in Hl.
      cbn [ed_index ed_set_surfind].
      pose proof (@owner _ ed_index ed_surfind (edges m) _ e0 Ue H0 eq_refl) as Ho.
      split; [exists e0; auto|]. destruct Hl as [y [Hy Hl]]. exists y. apply in_map_iff in Hy. destruct Hy as [x [<- Hx]].
      split; [exists x; apply Ho; auto|]. intros z Hz. apply Hl. apply in_map. apply Ho. exact Hz.
    - intros [[e0 [H0 <-]] [y [[x Hx] Hall]]].
      pose proof (@owner _ ed_index ed_surfind (edges m) _ e0 Ue H0 eq_refl) as Ho.
      exists (ed_set_surfind (tighten (map f (ed_surfind e0))) e0). split; [reflexivity|]. apply filter_In. split.
      + apply in_map_iff. exists e0. auto.
      + apply Nat.eqb_eq. cbn [ed_surfind ed_set_surfind]. apply tighten_one. exists y. split.
        * apply in_map_iff. exists x. split; [apply Hall; exact Hx|apply Ho; exact Hx].
        * intros z Hz. apply in_map_iff in Hz. destruct Hz as [w [<- Hw]]. apply Hall. apply Ho. exact Hw. }
  set (m' := mkMesh _ _ _ _ _). exists m'. split; [reflexivity|].
  assert (Ds : surfs m' = drop su_index (unused_cells su_index (surfs m3) (map f (map su_index (surfs m)))) (surfs m3)) by reflexivity.
  assert (De : edges m' = drop ed_index R (edges m3)) by reflexivity.
  assert (Dn : verts m' = drop ve_index (lone_verts m3) (verts m3)) by reflexivity.
  assert (Hvo' : volus m' = []) by (unfold m'; cbn [volus]; rewrite Hvo3; unfold m2; cbn [volus]; rewrite Hvo1; reflexivity).
  assert (Hd' : meshDim m' = meshDim m) by (unfold m'; cbn [meshDim]; rewrite Hd3; exact Hd1).
  clearbody m'.
  assert (Hid3 : map ed_index (edges m3) = map ed_index (edges m)).
  { rewrite He3, <- Hid2, map_map. apply map_ext. intros a. destruct (_ =? _)%nat; reflexivity. }
  assert (Hsu3 : map su_index (surfs m3) = map su_index (surfs m)).
  { rewrite <- Hsu2. apply (f_equal (map fst)) in Hfr3. rewrite !map_map in Hfr3. exact Hfr3. }
  assert (Un3 : NoDup (map ve_index (verts m3))) by (rewrite Hve3, Hve2; auto).
  assert (HhS : forall s, has_surf m' s <-> has_surf m s /\ f s = s).
  { intros s. unfold has_surf at 1. rewrite Ds. rewrite drop_has, unused_In.
    rewrite (has_of_idx su_index (surfs m) (surfs m3) s Hsu3). fold (has_surf m s). split.
    - intros [H1 H2]. split; auto. destruct (in_dec Z.eq_dec s (map f (map su_index (surfs m)))) as [Hi|Hi]; [|tauto].
      apply in_map_iff in Hi. destruct Hi as [c [<- Hc]]. apply has_surf_In in Hc. apply F. exact Hc.
    - intros [H1 H2]. split; auto. intros [_ Hn]. apply Hn. apply in_map_iff. exists s. split; auto. apply has_surf_In; auto. }
  assert (HhE : forall e, has_edge m' e <-> has_edge m e /\ ~ inner f (ES m e)).
  { intros e. unfold has_edge at 1. rewrite De. rewrite drop_has, HR.
    rewrite (has_of_idx ed_index (edges m) (edges m3) e Hid3). fold (has_edge m e). tauto. }
  assert (HEV' : forall e v, EV m' e v <-> has_edge m' e /\ EV m e v).
  { intros e v. unfold EV at 1. rewrite De. rewrite drop_lists, He3, lists_if_cleared; auto; [|rewrite Hid2; auto].
    fold R. rewrite HhE, HR. fold (EV m2 e v). rewrite HEV2. pose proof (@lists_has _ ed_index ed_vertind (edges m) e v).
    unfold EV, has_edge. tauto. }
  assert (HES' : forall e s, ES m' e s <-> has_edge m' e /\ exists z, ES m e z /\ s = f z).
  { intros e s. unfold ES at 1. rewrite De. rewrite drop_lists, He3, lists_if_cleared; auto; [|rewrite Hid2; auto].
    fold R. rewrite HhE, HR. fold (ES m2 e s). rewrite HES2. split.
    - intros [[[z [Hz ->]] Hn] _]. pose proof (lists_has Hz) as Hh. fold (has_edge m e) in Hh. split; [tauto|]. eauto.
    - intros [[H1 H2] H3]. tauto. }
  assert (HVE' : forall v e, VE m' v e <-> VE m v e /\ has_edge m' e).
  { intros v e. unfold VE at 1. rewrite Dn. rewrite drop_lists. fold (VE m3 v e).
    rewrite lone_In by auto. rewrite HVE3, HVE2, HhE, HR. split.
    - intros [[H1 H2] H3]. apply HEV in H1 as H4. apply lists_has in H4. fold (has_edge m e) in H4. tauto.
    - intros [H1 [H2 H3]]. split; [tauto|]. intros [_ Hn]. apply Hn. exists e. rewrite HVE3, HVE2, HR. tauto. }
  assert (HhV : forall v, has_vert m' v <-> exists e, has_edge m' e /\ EV m e v).
  { intros v. unfold has_vert at 1. rewrite Dn, drop_has, lone_In by auto. fold (has_vert m3 v). split.
    - intros [H1 H2]. destruct (find_at ve_index (verts m3) H1) as [a [_ [Ha Ea]]].
      destruct (ve_edgeind a) as [|e r] eqn:Er.
      + exfalso. apply H2. split; auto. intros [e He].
        apply (@owner _ ve_index ve_edgeind (verts m3) v a Un3 Ha Ea) in He. rewrite Er in He. destruct He.
      + exists e. assert (HV3 : VE m3 v e) by (exists a; rewrite Er; simpl; auto). apply HVE3 in HV3.
        rewrite HVE2 in HV3. rewrite HhE. rewrite HR in HV3. destruct HV3 as [HV3 Hn]. apply HEV in HV3 as HEe.
        split; auto. pose proof (lists_has HEe) as Hh. fold (has_edge m e) in Hh. tauto.
    - intros [e [H1 H2]]. assert (HV3 : VE m3 v e).
      { rewrite HVE3, HVE2, HR. rewrite HhE in H1. apply HEV in H2. tauto. }
      split; [exact (lists_has HV3)|]. intros [_ Hn]. apply Hn. eauto. }
  assert (HSE' : forall s e, SE m' s e <-> has_surf m' s /\ ES m' e s).
  { intros s e. unfold SE at 1.
    rewrite Ds, drop_lists. fold (SE m3 s e). rewrite HSE3, HSE2, HES', HES2.
    assert (Hun : has_surf m s -> (~ In s (unused_cells su_index (surfs m3) (map f (map su_index (surfs m)))) <-> has_surf m' s)).
    { intros Hs. unfold has_surf at 1. rewrite Ds. rewrite drop_has.
      rewrite (has_of_idx su_index (surfs m) (surfs m3) s Hsu3). fold (has_surf m s). tauto. }
    assert (Hse : forall z x, SE m z x -> ES m x z /\ has_surf m z /\ has_edge m x).
    { intros z x H. assert (ES m x z) by (apply M4; auto; intros ->; apply (X3 z); exact H).
      split; auto. split; [exact (lists_has H)|]. exact (lists_has H0). }
    split.
    - intros [[H1 H2] H3]. assert (Hs : has_surf m s).
      { destruct H1 as [H1|[z [Hz [<- _]]]]; [exact (lists_has H1)|]. apply F. exact Hz. }
      apply Hun in H3; auto. split; auto. apply HhS in H3 as [_ Hfs].
      assert (HZ : exists z, ES m e z /\ s = f z /\ has_edge m e).
      { destruct H1 as [H1|[z [Hz [<- H1]]]]; apply Hse in H1; [exists s|exists z]; intuition. }
      destruct HZ as [z [Hz [Es Hh]]]. split; [|eauto].
      rewrite HhE. split; auto. intros Hin. apply H2. split; [rewrite HR; auto|eauto].
    - intros [Hs [He [z [Hz Es]]]]. pose proof Hs as Hs'. apply HhS in Hs as [Hs Hfs].
      split; [|apply Hun; auto]. split.
      + destruct (Z.eq_dec z 0) as [->|Hn].
        * rewrite F0 in Es. subst s. contradiction.
        * right. assert (HSE : SE m z e) by (apply M3; auto). exists z. split; [exact (lists_has HSE)|auto].
      + intros [Hr _]. apply HR in Hr. apply HhE in He. tauto. }
  split; [exact HhS|]. split; [exact HhE|]. split; [exact HhV|]. split; [exact HES'|]. split; [exact HEV'|].
  split; [exact Hvo'|]. split; [exact Hd'|].
  assert (HSV' : forall s v, SV m' s v -> SV m s v).
  { intros s v H. unfold SV in H. rewrite Ds in H. apply drop_lists in H. destruct H as [H _].
    apply HSV2. revert H. apply lists_maps.
    - apply (f_equal (map fst)) in Hfr3. rewrite !map_map in Hfr3. symmetry. exact Hfr3.
    - apply (f_equal (map snd)) in Hfr3. rewrite !map_map in Hfr3. symmetry. exact Hfr3. }
  split; [|split].
  - split; [rewrite Hvo'; constructor|]. split; [rewrite Ds; apply drop_NoDup; rewrite Hsu3; auto|].
    split; [rewrite De; apply drop_NoDup; rewrite Hid3; auto|].
    split; [rewrite Dn; apply drop_NoDup; auto|].
    split; [unfold has_volu; rewrite Hvo'; intros [? [[] _]]|].
    split; [rewrite HhS; tauto|]. split; [rewrite HhE; tauto|].
    rewrite HhV. intros [e [_ H]]. apply (X2 e). exact H.
  - split; [intros v e H _; apply HVE' in H; apply HEV'; rewrite HEV; tauto|].
    split; [intros v e H _; apply HEV' in H; apply HVE'; rewrite <- HEV; tauto|].
    split; [|split; [intros e s H _; apply HSE' in H; tauto|]].
    + intros e s H Hn. apply HSE'. split; auto. apply HES' in H. destruct H as [He [z [Hz ->]]]. apply HhS.
      destruct (Z.eq_dec z 0) as [->|Hz0]; [congruence|].
      assert (HSE : SE m z e) by (apply M3; auto). apply F. exact (lists_has HSE).
    + split; [|unfold VS; rewrite Hvo'; intros s v [? [[] _]]].
      intros s v H Hn. exfalso. apply HSV' in H. apply M5 in H; auto. unfold VS in H. rewrite V in H. destruct H as [? [[] _]].
  - split; [intros v H; apply HVE' in H; apply (X1 v); tauto|].
    split; [intros e H; apply HEV' in H; apply (X2 e); tauto|].
    split; [intros s H; apply HSE' in H; destruct H as [_ H]; apply HES' in H; destruct H as [H _]; apply HhE in H; tauto|].
    split; [unfold VS; rewrite Hvo'; intros v [? [[] _]]|]. rewrite Hvo'. congruence.
Qed.

(** ** Removing surfaces *)
Definition cleared_surf (s : surf) : surf := su_set_voluind [] (su_set_edgeind [] s).

Lemma remove3_live m i : NoDup (map ed_index (edges m)) -> NoDup (map vo_index (volus m)) ->
  NoDup (map su_index (surfs m)) -> has_surf m i ->
  (forall e, SE m i e <-> ES m e i) ->
  exists m', remove3 i m = Ok m' /\ surfs m' = on su_index i cleared_surf (surfs m) /\
    verts m' = verts m /\ meshDim m' = meshDim m /\
    map (fun e => (ed_index e, ed_vertind e)) (edges m') = map (fun e => (ed_index e, ed_vertind e)) (edges m) /\
    map vo_index (volus m') = map vo_index (volus m) /\
    (forall e s, ES m' e s <-> ES m e s /\ s <> i) /\
    (forall v s, VS m' v s <-> VS m v s /\ ~ (s = i /\ SV m i v)).
Proof.
  intros Ue Uv Us Ho HE.
  unfold remove3. destruct (find_at su_index (surfs m) Ho) as [so [Hat [Hin Hidx]]].
  rewrite Hat. cbn [bind].
  pose proof (@owner _ su_index su_edgeind (surfs m) _ _ Us Hin Hidx) as HownE.
  pose proof (@owner _ su_index su_voluind (surfs m) _ _ Us Hin Hidx) as HownV.
  assert (HksE : forall k, In k (su_edgeind so) <-> ES m k i) by (intros k; rewrite HownE; apply HE).
  unfold erase_at. rewrite (@for_each_modify _ ed_index (fun a => ed_set_surfind (erase_all i (ed_surfind a)) a)); auto.
  2:{ intros []. unfold ed_set_surfind. simpl. rewrite erase_all_idem. reflexivity. }
  2:{ intros k Hk. apply HksE in Hk. apply has_edge_In. apply lists_has in Hk. exact Hk. }
  cbn [bind]. rewrite for_each_if_found.
  set (ks := filter (fun k => mem_z k (map vo_index (volus m))) (su_voluind so)).
  rewrite (@for_each_modify _ vo_index (fun a => vo_set_surfind (erase_all i (vo_surfind a)) a)); auto.
  2:{ intros []. unfold vo_set_surfind. simpl. rewrite erase_all_idem. reflexivity. }
  2:{ intros k Hk. unfold ks in Hk. apply filter_In in Hk. destruct Hk as [_ Hk]. apply mem_z_In. exact Hk. }
  cbn [bind]. rewrite modify_find; auto; [|apply has_surf_In; auto].
  cbn [bind]. eexists. split; [reflexivity|].
  split; [reflexivity|split; [reflexivity|split; [reflexivity|split; [|split; [|split]]]]]; simpl.
  - apply map_same_if. reflexivity.
  - apply map_same_if; auto.
  - intros e s. unfold ES. simpl. rewrite lists_erased; auto; [reflexivity|].
    intros k Hk. apply HksE. exact Hk.
  - intros v s. unfold VS, lists. simpl. split.
    + intros [a' [Ha [Ei Hx]]]. apply in_map_iff in Ha. destruct Ha as [a [Ea Ha]].
      destruct (mem_z (vo_index a) ks) eqn:Em; subst a'.
      * cbn [vo_surfind vo_set_surfind] in Hx. rewrite erase_all_In in Hx. cbn [vo_index vo_set_surfind] in Ei.
        split; [exists a; tauto|tauto].
      * split; [exists a; auto|]. intros [-> Hs]. apply mem_z_not_In in Em. apply Em. unfold ks.
        apply filter_In. rewrite Ei. split; [apply HownV; exact Hs|]. apply mem_z_In. apply in_map_iff. eauto.
    + intros [[a [Ha [Ei Hx]]] Hn]. eexists. split; [apply in_map_iff; exists a; split; [reflexivity|auto]|].
      destruct (mem_z (vo_index a) ks) eqn:Em; auto. cbn [vo_surfind vo_set_surfind vo_index]. rewrite erase_all_In. split; auto. split; auto.
      intros ->. apply Hn. split; auto. apply mem_z_In in Em. unfold ks in Em. apply filter_In in Em.
      rewrite <- Ei. apply HownV. tauto.
Qed.

(** With stale memory behind the vector, a surface is removed when it has one
    side left. *)
Lemma same_sides_stale s : StronglySorted Z.lt (su_voluind s) -> su_voluind s <> [] ->
  same_sides (fun x => Ok x) s = Ok (length (su_voluind s) =? 1)%nat.
Proof.
  intros S N. unfold same_sides. destruct (su_voluind s) as [|a [|b r]] eqn:E; [congruence| |].
  - change (at_ [a] 0) with (Ok a). cbn [bind]. rewrite Z.eqb_refl. reflexivity.
  - change (at_ (a :: b :: r) 0) with (Ok a). change (at_ (a :: b :: r) 1) with (Ok b). cbn [bind].
    apply StronglySorted_inv in S. destruct S as [_ S]. apply Forall_inv in S.
    destruct (Z.eqb_spec a b); [lia|]. reflexivity.
Qed.

Lemma remove_surfs_loop m : NoDup (map ed_index (edges m)) -> NoDup (map vo_index (volus m)) ->
  NoDup (map su_index (surfs m)) -> (forall s e, SE m s e <-> ES m e s) ->
  (forall s, In s (surfs m) -> StronglySorted Z.lt (su_voluind s) /\ su_voluind s <> []) ->
  let bad := fun s => (length (su_voluind s) =? 1)%nat in
  let R := map su_index (filter bad (surfs m)) in
  exists m', for_each (upto_pos (surfs m)) (remove_inner_surf (fun x => Ok x)) (m, []) = Ok (m', R) /\
    surfs m' = map (fun e => if bad e then cleared_surf e else e) (surfs m) /\
    verts m' = verts m /\ meshDim m' = meshDim m /\
    map (fun e => (ed_index e, ed_vertind e)) (edges m') = map (fun e => (ed_index e, ed_vertind e)) (edges m) /\
    map vo_index (volus m') = map vo_index (volus m) /\
    (forall e s, ES m' e s <-> ES m e s /\ ~ In s R) /\
    (forall v s, VS m' v s <-> VS m v s /\ ~ (In s R /\ SV m s v)).
Proof.
  intros Ue Uv Us HE HT bad R.
  set (fr := fun e : edge => (ed_index e, ed_vertind e)).
  set (g := fun s => if bad s then cleared_surf s else s).
  assert (Hg : forall e, su_index (g e) = su_index e) by (intros e; unfold g; destruct (bad e); auto).
  destruct (@for_each_upto surf (mesh * list Z) (surfs m) (remove_inner_surf (fun x => Ok x))
    (fun pre st => let '(m1, del) := st in
       del = map su_index (filter bad pre) /\
       (exists post, surfs m = pre ++ post /\ surfs m1 = map g pre ++ post) /\
       verts m1 = verts m /\ meshDim m1 = meshDim m /\ map fr (edges m1) = map fr (edges m) /\
       map vo_index (volus m1) = map vo_index (volus m) /\
       (forall e s, ES m1 e s <-> ES m e s /\ ~ In s del) /\
       (forall v s, VS m1 v s <-> VS m v s /\ ~ (In s del /\ SV m s v))) (m, []))
    as [[m' del] [Hrun [Hdel [[post [Ep Hed]] H]]]].
  - split; [reflexivity|]. split; [exists (surfs m); auto|]. split; [auto|split; [auto|split; [auto|split; [auto|]]]].
    split; intros; simpl; tauto.
  - intros pre x post [m1 del] E [Hdel [[post' [E' Hed]] [Hvo [Hd [Hfr [Hve [HES HVS]]]]]]].
    assert (post' = x :: post) by (rewrite E in E'; apply app_inv_head in E'; auto). subst post'.
    unfold remove_inner_surf. rewrite Hed. rewrite <- (map_length g pre). rewrite at_split. cbn [bind].
    rewrite filter_app, map_app. cbn [filter].
    assert (Hxpre : ~ In (su_index x) (map su_index pre)) by exact (@NoDup_split_not_in _ su_index (surfs m) pre x post Us E).
    assert (Hxm : In x (surfs m)) by (rewrite E; apply in_app_iff; right; left; auto).
    destruct (HT x Hxm) as [T1 T2]. rewrite same_sides_stale by auto. cbn [bind].
    change (length (su_voluind x) =? 1)%nat with (bad x). destruct (bad x) eqn:Eb.
    + assert (Hid : map su_index (surfs m1) = map su_index (surfs m)).
      { rewrite Hed, E, !map_app. f_equal. rewrite map_map. apply map_ext. auto. }
      assert (Heid : map ed_index (edges m1) = map ed_index (edges m)).
      { apply (f_equal (map fst)) in Hfr. rewrite !map_map in Hfr. exact Hfr. }
      assert (Hxdel : ~ In (su_index x) del).
      { rewrite Hdel. intros Hc. apply Hxpre. apply in_map_iff in Hc. destruct Hc as [y [Ey Hy]].
        apply filter_In in Hy. rewrite <- Ey. apply in_map. tauto. }
      assert (Hxm1 : In x (surfs m1)) by (rewrite Hed; apply in_app_iff; right; left; auto).
      assert (Us1 : NoDup (map su_index (surfs m1))) by (rewrite Hid; auto).
      assert (Hown : forall v, SE m1 (su_index x) v <-> SE m (su_index x) v).
      { intros v. unfold SE. rewrite <- (@owner _ su_index su_edgeind (surfs m1) _ x Us1 Hxm1 eq_refl).
        rewrite <- (@owner _ su_index su_edgeind (surfs m) _ x Us Hxm eq_refl). reflexivity. }
      assert (HownS : forall v, SV m1 (su_index x) v <-> SV m (su_index x) v).
      { intros v. unfold SV. rewrite <- (@owner _ su_index su_voluind (surfs m1) _ x Us1 Hxm1 eq_refl).
        rewrite <- (@owner _ su_index su_voluind (surfs m) _ x Us Hxm eq_refl). reflexivity. }
      destruct (@remove3_live m1 (su_index x)) as [m2 [Hrun [K1 [K2 [K3 [K4 [K5 [K6 K7]]]]]]]]; auto.
      { rewrite Heid. auto. } { rewrite Hve. auto. } { exists x. auto. }
      { intros v. rewrite Hown, HE, HES. tauto. }
      cbn [remove_index]. rewrite Hrun. cbn [bind]. eexists. split; [reflexivity|].
      split; [rewrite Hdel; reflexivity|]. split.
      { exists post. split; [rewrite <- app_assoc; exact E|]. rewrite K1, Hed. unfold on.
        rewrite map_app. cbn [map]. rewrite Z.eqb_refl. rewrite map_app. cbn [map]. rewrite <- app_assoc. cbn [app]. f_equal.
        - rewrite <- (map_id (map g pre)) at 2. apply map_ext_in. intros a Ha.
          destruct (Z.eqb_spec (su_index a) (su_index x)) as [Ex|]; auto. exfalso. apply Hxpre. rewrite <- Ex.
          apply in_map_iff in Ha. destruct Ha as [a0 [<- Ha]]. rewrite Hg. apply in_map. auto.
        - unfold g at 1. rewrite Eb. f_equal. rewrite <- (map_id post) at 2. apply map_ext_in. intros a Ha.
          destruct (Z.eqb_spec (su_index a) (su_index x)) as [Ex|]; auto. exfalso.
          rewrite E, map_app in Us. cbn [map] in Us. apply NoDup_remove_2 in Us. apply Us. rewrite <- Ex.
          apply in_app_iff. right. apply in_map. auto. }
      split; [congruence|split; [congruence|split; [rewrite <- Hfr; exact K4|split; [congruence|]]]].
      split.
      * intros v e. rewrite K6, HES, in_app_iff. simpl. intuition.
      * intros s e. rewrite K7, HVS, in_app_iff, HownS. simpl. split.
        -- intros [[H1 H2] H3]. split; auto. intros [[H|[<-|[]]] H4]; [apply H2; auto|apply H3; auto].
        -- intros [H1 H2]. split; [split; auto; intros [H3 H4]; apply H2; auto|]. intros [-> H3]. apply H2. auto.
    + eexists. split; [reflexivity|]. cbn [map]. rewrite app_nil_r. split; [exact Hdel|]. split.
      { exists post. split; [rewrite <- app_assoc; exact E|]. rewrite Hed, map_app. cbn [map]. unfold g at 3. rewrite Eb.
        rewrite <- app_assoc. reflexivity. }
      auto 8.
  - assert (post = []).
    { apply (f_equal (@length _)) in Ep. rewrite app_length in Ep. destruct post; auto. simpl in Ep. lia. }
    subst post. rewrite app_nil_r in Hed. exists m'. rewrite Hdel in Hrun, H. split; [exact Hrun|]. split; [exact Hed|]. exact H.
Qed.

(** ** Three dimensions *)
Lemma inner_surf f m : NoDup (map su_index (surfs m)) -> forall s,
  In s (map su_index (filter (fun s => (length (su_voluind s) =? 1)%nat) (map (fun s => surf_tighten (surf_renamed f s)) (surfs m)))) <->
  has_surf m s /\ inner f (SV m s).
Proof.
  intros Us s. rewrite in_map_iff. unfold inner. split.
  - intros [s2 [<- H]]. apply filter_In in H. destruct H as [H Hl]. apply Nat.eqb_eq in Hl.
    apply in_map_iff in H. destruct H as [s0 [<- H0]]. cbn [su_voluind surf_tighten surf_renamed su_set_voluind] in Hl.
    apply tighten_one in Hl. cbn [su_index surf_tighten surf_renamed su_set_voluind].
    pose proof (@owner _ su_index su_voluind (surfs m) _ s0 Us H0 eq_refl) as Ho.
    split; [exists s0; auto|]. destruct Hl as [y [Hy Hl]]. exists y. apply in_map_iff in Hy. destruct Hy as [x [<- Hx]].
    split; [exists x; apply Ho; auto|]. intros z Hz. apply Hl. apply in_map. apply Ho. exact Hz.
  - intros [[s0 [H0 <-]] [y [[x Hx] Hall]]].
    pose proof (@owner _ su_index su_voluind (surfs m) _ s0 Us H0 eq_refl) as Ho.
    exists (surf_tighten (surf_renamed f s0)). split; [reflexivity|]. apply filter_In. split.
    + apply in_map_iff. exists s0. auto.
    + apply Nat.eqb_eq. cbn [su_voluind surf_tighten surf_renamed su_set_voluind]. apply tighten_one. exists y. split.
      * apply in_map_iff. exists x. split; [apply Hall; exact Hx|apply Ho; exact Hx].
      * intros z Hz. apply in_map_iff in Hz. destruct Hz as [w [<- Hw]]. apply Hall. apply Ho. exact Hw.
Qed.

Lemma coarsen3_spec f m : well_connected m -> volus m <> [] -> grouping (has_volu m) f ->
  (forall e, In e (edges m) -> (length (ed_vertind e) <= 2)%nat) ->
  (forall s, In s (surfs m) -> su_voluind s <> []) ->
  exists m', coarsen3 (fun x => Ok x) (map f (map vo_index (volus m))) m = Ok m' /\ coarsened3 f m m'.
Proof.
  intros W V G L2 LS. pose proof W as W0.
  destruct W0 as [[Uv [Us [Ue [Un [Zv [Zs [Ze Zn]]]]]]] [[M1 [M2 [M3 [M4 [M5 M6]]]]] [X1 [X2 [X3 [X4 X5]]]]]].
  pose proof G as [F0 F].
  unfold coarsen3. rewrite matches_map.
  2:{ intros c Hc. apply has_volu_In. apply has_volu_In in Hc. apply F. exact Hc. }
  destruct (merge_3d W G) as [m1 [Hrun [Hs1 [He1 [Hv1 [Hd1 [Hvo1 HVS1]]]]]]].
  rewrite Hrun. cbn [bind].
  rewrite tighten_ok by (rewrite He1; auto).
  cbn [bind]. set (m2 := mkMesh _ _ _ _ _).
  assert (Hsu2 : surfs m2 = map (fun s => surf_tighten (surf_renamed f s)) (surfs m)).
  { unfold m2. cbn [surfs]. rewrite Hs1, map_map. reflexivity. }
  assert (Hsid2 : map su_index (surfs m2) = map su_index (surfs m)) by (rewrite Hsu2, map_map; reflexivity).
  assert (Heid2 : map ed_index (edges m2) = map ed_index (edges m)).
  { unfold m2. cbn [edges]. rewrite He1, map_map. reflexivity. }
  assert (Hve2 : map ve_index (verts m2) = map ve_index (verts m)).
  { unfold m2. cbn [verts]. rewrite Hv1, map_map. reflexivity. }
  assert (Hvo2 : map vo_index (volus m2) = map vo_index (volus m)).
  { unfold m2. cbn [volus]. rewrite map_map. exact Hvo1. }
  assert (HEV2 : forall e v, EV m2 e v <-> EV m e v).
  { intros e v. unfold EV, m2. cbn [edges]. rewrite He1. apply lists_map_same. auto. }
  assert (HVE2 : forall v e, VE m2 v e <-> VE m v e).
  { intros v e. unfold VE, m2. cbn [verts]. rewrite Hv1. apply lists_tight; auto. }
  assert (HES2 : forall e s, ES m2 e s <-> ES m e s).
  { intros e s. unfold ES, m2. cbn [edges]. rewrite lists_tight by auto. rewrite He1. reflexivity. }
  assert (HSE2 : forall s e, SE m2 s e <-> SE m s e).
  { intros s e. unfold SE, m2. cbn [surfs]. rewrite lists_tight by auto. rewrite Hs1. apply lists_map_same. auto. }
  assert (HSV2 : forall s v, SV m2 s v <-> exists z, SV m s z /\ v = f z).
  { intros s v. unfold SV, m2. cbn [surfs]. rewrite lists_tight by auto. rewrite Hs1. apply lists_renamed; auto. }
  assert (HVS2 : forall v s, VS m2 v s <-> VS m v s \/ exists z, has_volu m z /\ f z = v /\ VS m z s).
  { intros v s. unfold VS at 1, m2. cbn [volus]. rewrite lists_tight by auto. apply HVS1. }
  assert (HEV : forall e v, EV m e v <-> VE m v e).
  { intros e v. split; intros H; [apply M2|apply M1]; auto; intros ->; [apply (X2 e)|apply (X1 v)]; exact H. }
  assert (HSE : forall s e, SE m s e <-> ES m e s).
  { intros s e. split; intros H; [apply M4|apply M3]; auto; intros ->; [apply (X3 s); exact H|]. apply (X5 V e); exact H. }
  assert (HT : forall s, In s (surfs m2) -> StronglySorted Z.lt (su_voluind s) /\ su_voluind s <> []).
  { intros s Hs. rewrite Hsu2 in Hs. apply in_map_iff in Hs. destruct Hs as [s0 [<- Hs0]].
    cbn [su_voluind surf_tighten surf_renamed su_set_voluind]. split; [apply tighten_strict|].
    intros E. specialize (LS s0 Hs0). destruct (su_voluind s0) as [|z r] eqn:Ez; [congruence|].
    assert (Hin : In (f z) (tighten (map f (su_voluind s0)))) by (apply tighten_In, in_map; rewrite Ez; left; auto).
    rewrite Ez, E in Hin. destruct Hin. }
  destruct (@remove_surfs_loop m2) as [m3 [Hloop [Hs3 [Hv3 [Hd3 [Hfr3 [Hvo3 [HES3 HVS3]]]]]]]]; auto.
  { rewrite Heid2; auto. } { rewrite Hvo2; auto. } { rewrite Hsid2; auto. }
  { intros s e. rewrite HSE2, HES2. apply HSE. }
  set (RS := map su_index (filter _ (surfs m2))) in *.
  rewrite Hloop. cbn [bind].
  assert (HRS : forall s, In s RS <-> has_surf m s /\ inner f (SV m s)).
  { intros s. unfold RS. rewrite Hsu2. apply inner_surf. auto. }
  assert (Heid3 : map ed_index (edges m3) = map ed_index (edges m)).
  { rewrite <- Heid2. apply (f_equal (map fst)) in Hfr3. rewrite !map_map in Hfr3. exact Hfr3. }
  assert (Hsid3 : map su_index (surfs m3) = map su_index (surfs m)).
  { rewrite Hs3, <- Hsid2, map_map. apply map_ext. intros a. destruct (_ =? _)%nat; reflexivity. }
  assert (HEV3 : forall e v, EV m3 e v <-> EV m e v).
  { intros e v. rewrite <- HEV2. apply lists_maps.
    - rewrite Heid3, Heid2. reflexivity.
    - apply (f_equal (map snd)) in Hfr3. rewrite !map_map in Hfr3. exact Hfr3. }
  assert (HVE3 : forall v e, VE m3 v e <-> VE m v e).
  { intros v e. unfold VE at 1. rewrite Hv3. apply HVE2. }
  assert (HSE3 : forall s e, SE m3 s e <-> SE m s e /\ ~ In s RS).
  { intros s e. unfold SE at 1. rewrite Hs3, lists_if_cleared; auto; [|rewrite Hsid2; auto]. fold (SE m2 s e). rewrite HSE2. reflexivity. }
  assert (HSV3 : forall s v, SV m3 s v <-> (exists z, SV m s z /\ v = f z) /\ ~ In s RS).
  { intros s v. unfold SV at 1. rewrite Hs3, lists_if_cleared; auto; [|rewrite Hsid2; auto]. fold (SV m2 s v). rewrite HSV2. reflexivity. }
  destruct (@remove_edges_loop 0%nat m3) as [m4 [Hloop4 [He4 [Hvo4 [Hd4 [Hfr4 [Hve4 [HVE4 HSE4]]]]]]]].
  { rewrite Heid3; auto. } { rewrite Hv3, Hve2; auto. } { rewrite Hsid3; auto. }
  { intros e v. rewrite HEV3, HVE3. apply HEV. }
  set (RE := map ed_index (filter _ (edges m3))) in *.
  rewrite Hloop4. cbn [bind].
  assert (Ue3 : NoDup (map ed_index (edges m3))) by (rewrite Heid3; auto).
  assert (HRE : forall e, In e RE <-> has_edge m e /\ ~ exists s, ES m e s /\ ~ In s RS).
  { intros e. assert (Hem : In e RE <-> has_edge m3 e /\ ~ exists s, ES m3 e s).
    { unfold RE. rewrite <- (@empties_In _ ed_index ed_surfind (edges m3) e Ue3).
      replace (filter (fun e0 : edge => (length (ed_surfind e0) =? 0)%nat) (edges m3)) with
        (filter (fun a : edge => is_nil (ed_surfind a)) (edges m3)); [reflexivity|].
      apply filter_ext. intros a. destruct (ed_surfind a); reflexivity. }
    rewrite Hem. unfold has_edge at 1. rewrite (has_of_idx ed_index (edges m) (edges m3) e Heid3). fold (has_edge m e).
    split; intros [H1 H2]; (split; [auto|]); intros [s Hs]; apply H2; exists s; revert Hs; rewrite HES3, HES2; tauto. }
  set (m' := mkMesh _ _ _ _ _). exists m'. split; [reflexivity|].
  assert (Dv : volus m' = drop vo_index (unused_cells vo_index (volus m4) (map f (map vo_index (volus m)))) (volus m4)) by reflexivity.
  assert (Ds : surfs m' = drop su_index RS (surfs m4)) by reflexivity.
  assert (De : edges m' = drop ed_index RE (edges m4)) by reflexivity.
  assert (Dn : verts m' = drop ve_index (lone_verts m4) (verts m4)) by reflexivity.
  assert (Hd' : meshDim m' = meshDim m) by (unfold m'; cbn [meshDim]; rewrite Hd4, Hd3; exact Hd1).
  clearbody m'.
  assert (Heid4 : map ed_index (edges m4) = map ed_index (edges m)).
  { rewrite He4, <- Heid3, map_map. apply map_ext. intros a. destruct (_ =? _)%nat; reflexivity. }
  assert (Hsid4 : map su_index (surfs m4) = map su_index (surfs m)).
  { rewrite <- Hsid3. apply (f_equal (map fst)) in Hfr4. rewrite !map_map in Hfr4. exact Hfr4. }
  assert (Hvid4 : map vo_index (volus m4) = map vo_index (volus m)) by (rewrite Hvo4, Hvo3; exact Hvo2).
  assert (Un4 : NoDup (map ve_index (verts m4))) by (rewrite Hve4, Hv3, Hve2; auto).
  assert (HhC : forall s, has_volu m' s <-> has_volu m s /\ f s = s).
  { intros s. unfold has_volu at 1. rewrite Dv. rewrite drop_has, unused_In.
    rewrite (has_of_idx vo_index (volus m) (volus m4) s Hvid4). fold (has_volu m s). split.
    - intros [H1 H2]. split; auto. destruct (in_dec Z.eq_dec s (map f (map vo_index (volus m)))) as [Hi|Hi]; [|tauto].
      apply in_map_iff in Hi. destruct Hi as [c [<- Hc]]. apply has_volu_In in Hc. apply F. exact Hc.
    - intros [H1 H2]. split; auto. intros [_ Hn]. apply Hn. apply in_map_iff. exists s. split; auto. apply has_volu_In; auto. }
  assert (HhS : forall s, has_surf m' s <-> has_surf m s /\ ~ inner f (SV m s)).
  { intros s. unfold has_surf at 1. rewrite Ds. rewrite drop_has, HRS.
    rewrite (has_of_idx su_index (surfs m) (surfs m4) s Hsid4). fold (has_surf m s). tauto. }
  assert (HhS' : forall s, has_surf m' s <-> has_surf m s /\ ~ In s RS).
  { intros s. rewrite HhS, HRS. tauto. }
  assert (Hses : forall s e, SE m s e -> has_surf m s /\ has_edge m e).
  { intros s e H. split; [exact (lists_has H)|]. apply HSE in H. exact (lists_has H). }
  assert (HhE0 : forall e, has_edge m' e <-> has_edge m e /\ ~ In e RE).
  { intros e. unfold has_edge at 1. rewrite De, drop_has.
    rewrite (has_of_idx ed_index (edges m) (edges m4) e Heid4). fold (has_edge m e). tauto. }
  assert (HhE : forall e, has_edge m' e <-> exists s, has_surf m' s /\ SE m s e).
  { intros e. rewrite HhE0, HRE. split.
    - intros [H1 H2]. destruct (@classic_es m e RS) as [[s [Hs Hn]]|Hno]; [|tauto].
      exists s. apply HSE in Hs. split; auto. apply HhS'. split; auto. apply (Hses s e Hs).
    - intros [s [H1 H2]]. split; [apply (Hses s e H2)|]. intros [_ Hn]. apply Hn. exists s. apply HSE in H2. apply HhS' in H1. tauto. }
  assert (HEV' : forall e v, EV m' e v <-> has_edge m' e /\ EV m e v).
  { intros e v. unfold EV at 1. rewrite De, drop_lists, He4, lists_if_cleared; auto.
    fold RE. rewrite HhE0. fold (EV m3 e v). rewrite HEV3. pose proof (@lists_has _ ed_index ed_vertind (edges m) e v).
    unfold EV, has_edge. tauto. }
  assert (HES' : forall e s, ES m' e s <-> has_surf m' s /\ ES m e s).
  { intros e s. unfold ES at 1. rewrite De, drop_lists, He4, lists_if_cleared; auto.
    fold RE. fold (ES m3 e s). rewrite HES3, HES2, HhS'. split.
    - intros [[[H1 H2] _] _]. split; auto. split; auto. apply HSE in H1. apply (Hses s e H1).
    - intros [[H1 H2] H3]. assert (~ In e RE) by (rewrite HRE; intros [_ Hn]; apply Hn; eauto). tauto. }
  assert (HVE' : forall v e, VE m' v e <-> VE m v e /\ has_edge m' e).
  { intros v e. unfold VE at 1. rewrite Dn, drop_lists. fold (VE m4 v e).
    rewrite lone_In by auto. rewrite HVE4, HVE3, HhE0. split.
    - intros [[H1 H2] H3]. apply HEV in H1 as H4. apply lists_has in H4. fold (has_edge m e) in H4. tauto.
    - intros [H1 [H2 H3]]. split; [tauto|]. intros [_ Hn]. apply Hn. exists e. rewrite HVE4, HVE3. tauto. }
  assert (HhV : forall v, has_vert m' v <-> exists e, has_edge m' e /\ EV m e v).
  { intros v. unfold has_vert at 1. rewrite Dn, drop_has, lone_In by auto. fold (has_vert m4 v). split.
    - intros [H1 H2]. destruct (find_at ve_index (verts m4) H1) as [a [_ [Ha Ea]]].
      destruct (ve_edgeind a) as [|e r] eqn:Er.
      + exfalso. apply H2. split; auto. intros [e He].
        apply (@owner _ ve_index ve_edgeind (verts m4) v a Un4 Ha Ea) in He. rewrite Er in He. destruct He.
      + exists e. assert (HV3 : VE m4 v e) by (exists a; rewrite Er; simpl; auto). apply HVE4 in HV3.
        rewrite HVE3 in HV3. rewrite HhE0. destruct HV3 as [HV3 Hn]. apply HEV in HV3 as HEe.
        split; auto. pose proof (lists_has HEe) as Hh. fold (has_edge m e) in Hh. tauto.
    - intros [e [H1 H2]]. assert (HV3 : VE m4 v e).
      { rewrite HVE4, HVE3. rewrite HhE0 in H1. apply HEV in H2. tauto. }
      split; [exact (lists_has HV3)|]. intros [_ Hn]. apply Hn. eauto. }
  assert (HSE' : forall s e, SE m' s e <-> has_surf m' s /\ SE m s e).
  { intros s e. unfold SE at 1. rewrite Ds, drop_lists. fold (SE m4 s e). rewrite HSE4, HSE3, HhS', HES3, HES2, HRE. split.
    - intros [[[H1 H2] _] _]. split; auto. split; auto. apply (Hses s e H1).
    - intros [[H1 H2] H3]. split; auto. split; auto. intros [[_ Hn] _]. apply Hn. exists s. apply HSE in H3. auto. }
  assert (HSV' : forall s v, SV m' s v <-> has_surf m' s /\ exists z, SV m s z /\ v = f z).
  { intros s v. unfold SV at 1. rewrite Ds, drop_lists. rewrite (@lists_maps _ su_index su_voluind (surfs m3)).
    2:{ rewrite Hsid4, Hsid3. reflexivity. }
    2:{ apply (f_equal (map snd)) in Hfr4. rewrite !map_map in Hfr4. exact Hfr4. }
    fold (SV m3 s v). rewrite HSV3, HhS'. split.
    - intros [[[z [H1 H2]] H3] _]. split; [|eauto]. split; auto. exact (lists_has H1).
    - intros [[H1 H2] H3]. tauto. }
  assert (HVS' : forall v s, VS m' v s <-> has_volu m' v /\ SV m' s v).
  { intros v s. unfold VS at 1. rewrite Dv, drop_lists, Hvo4. fold (VS m3 v s). rewrite HVS3, HVS2, HSV', HSV2.
    assert (Hun : has_volu m v -> (~ In v (unused_cells vo_index (volus m3) (map f (map vo_index (volus m)))) <-> has_volu m' v)).
    { intros Hs. unfold has_volu at 1. rewrite Dv, drop_has, <- Hvo4.
      rewrite (has_of_idx vo_index (volus m) (volus m4) v Hvid4). fold (has_volu m v). tauto. }
    assert (Hvs : forall z x, VS m z x -> SV m x z /\ has_volu m z /\ has_surf m x).
    { intros z x H. assert (SV m x z) by (apply M6; auto; intros ->; apply (X4 z); exact H).
      split; auto. split; [exact (lists_has H)|]. exact (lists_has H0). }
    split.
    - intros [[H1 H2] H3]. assert (Hs : has_volu m v).
      { destruct H1 as [H1|[z [Hz [<- _]]]]; [exact (lists_has H1)|]. apply F. exact Hz. }
      apply Hun in H3; auto. split; auto. apply HhC in H3 as [_ Hfs].
      assert (HZ : exists z, SV m s z /\ v = f z /\ has_surf m s).
      { destruct H1 as [H1|[z [Hz [<- H1]]]]; apply Hvs in H1; [exists v|exists z]; intuition. }
      destruct HZ as [z [Hz [Es Hh]]]. split; [|eauto].
      rewrite HhS'. split; auto. intros Hin. apply H2. split; [auto|eauto].
    - intros [Hs [He [z [Hz Es]]]]. pose proof Hs as Hs'. apply HhC in Hs as [Hs Hfs].
      split; [|apply Hun; auto]. split.
      + destruct (Z.eq_dec z 0) as [->|Hn].
        * rewrite F0 in Es. subst v. contradiction.
        * right. assert (HVS : VS m z s) by (apply M5; auto). exists z. split; [exact (lists_has HVS)|auto].
      + intros [Hr _]. apply HhS' in He. tauto. }
  split; [exact HhC|]. split; [exact HhS|]. split; [exact HhE|]. split; [exact HhV|]. split; [exact HSV'|].
  split; [exact HSE'|]. split; [exact HEV'|]. split; [exact Hd'|].
  split; [|split].
  - split; [rewrite Dv; apply drop_NoDup; rewrite Hvid4; auto|]. split; [rewrite Ds; apply drop_NoDup; rewrite Hsid4; auto|].
    split; [rewrite De; apply drop_NoDup; rewrite Heid4; auto|].
    split; [rewrite Dn; apply drop_NoDup; auto|].
    split; [rewrite HhC; tauto|].
    split; [rewrite HhS; tauto|]. split; [rewrite HhE0; tauto|].
    rewrite HhV. intros [e [_ H]]. apply (X2 e). exact H.
  - split; [intros v e H _; apply HVE' in H; apply HEV'; rewrite HEV; tauto|].
    split; [intros v e H _; apply HEV' in H; apply HVE'; rewrite <- HEV; tauto|].
    split; [intros e s H _; apply HES' in H; apply HSE'; rewrite HSE; tauto|].
    split; [intros e s H _; apply HSE' in H; apply HES'; rewrite <- HSE; tauto|].
    split; [|intros s v H _; apply HVS' in H; tauto].
    intros s v H Hn. apply HVS'. split; auto. apply HSV' in H. destruct H as [He [z [Hz ->]]]. apply HhC.
    destruct (Z.eq_dec z 0) as [->|Hz0]; [congruence|].
    assert (HVS : VS m z s) by (apply M5; auto). apply F. exact (lists_has HVS).
  - split; [intros v H; apply HVE' in H; apply (X1 v); tauto|].
    split; [intros e H; apply HEV' in H; apply (X2 e); tauto|].
    split; [intros s H; apply HSE' in H; apply (X3 s); tauto|].
    split; [intros v H; apply HVS' in H; destruct H as [_ H]; apply HSV' in H; destruct H as [H _]; apply HhS in H; tauto|].
    intros _ e H. apply HES' in H. apply (X5 V e). tauto.
Qed.

(** ** Reading past the end *)
Lemma for_each_stuck T S (l0 : list T) (body : Z -> S -> outcome S) s0 (bad : T -> bool) :
  (forall pre x post, l0 = pre ++ x :: post -> body (Z.of_nat (length pre)) s0 = if bad x then UB else Ok s0) ->
  for_each (upto_pos l0) body s0 = if existsb bad l0 then UB else Ok s0.
Proof.
  intros Hstep.
  assert (H : forall post pre, l0 = pre ++ post ->
    for_each (map Z.of_nat (seq (length pre) (length post))) body s0 = if existsb bad post then UB else Ok s0).
  { induction post as [|x post IH]; intros pre E; [reflexivity|].
    cbn [length seq map for_each existsb]. rewrite (Hstep pre x post E). destruct (bad x); [reflexivity|]. cbn [bind orb].
    rewrite <- (IH (pre ++ [x])) by (rewrite <- app_assoc; exact E). rewrite app_length. cbn [length].
    rewrite Nat.add_1_r. reflexivity. }
  apply (H l0 []). reflexivity.
Qed.

Lemma coarsen3_ub f m : well_connected m -> volus m <> [] -> grouping (has_volu m) f ->
  (forall e, In e (edges m) -> (length (ed_vertind e) <= 2)%nat) ->
  (forall s, In s (surfs m) -> su_voluind s <> []) ->
  (exists s, has_surf m s /\ inner f (SV m s)) ->
  coarsen3 (fun _ => UB) (map f (map vo_index (volus m))) m = UB.
Proof.
  intros W V G L2 LS Hin. pose proof W as [[_ [Us _]] _]. pose proof G as [F0 F].
  unfold coarsen3. rewrite matches_map.
  2:{ intros c Hc. apply has_volu_In. apply has_volu_In in Hc. apply F. exact Hc. }
  destruct (merge_3d W G) as [m1 [Hrun [Hs1 [He1 _]]]].
  rewrite Hrun. cbn [bind]. rewrite tighten_ok by (rewrite He1; auto).
  cbn [bind]. set (m2 := mkMesh _ _ _ _ _).
  assert (Hsu2 : surfs m2 = map (fun s => surf_tighten (surf_renamed f s)) (surfs m)).
  { unfold m2. cbn [surfs]. rewrite Hs1, map_map. reflexivity. }
  rewrite (@for_each_stuck surf _ (surfs m2) _ _ (fun s => (length (su_voluind s) =? 1)%nat)).
  - destruct Hin as [s Hs]. apply (inner_surf f m Us) in Hs. rewrite <- Hsu2 in Hs.
    apply in_map_iff in Hs. destruct Hs as [s2 [_ Hs2]]. apply filter_In in Hs2.
    assert (E : existsb (fun s => (length (su_voluind s) =? 1)%nat) (surfs m2) = true) by (apply existsb_exists; eauto).
    rewrite E. reflexivity.
  - intros pre x post E. unfold remove_inner_surf. rewrite E, at_split. cbn [bind].
    assert (Hx : In x (surfs m2)) by (rewrite E; apply in_app_iff; right; left; auto).
    rewrite Hsu2 in Hx. apply in_map_iff in Hx. destruct Hx as [s0 [<- Hs0]]. unfold same_sides.
    cbn [su_voluind surf_tighten surf_renamed su_set_voluind].
    assert (Hn : tighten (map f (su_voluind s0)) <> []).
    { intros En. specialize (LS s0 Hs0). destruct (su_voluind s0) as [|z r] eqn:Ez; [congruence|].
      assert (Hi : In (f z) (tighten (map f (z :: r)))) by (apply tighten_In, in_map; left; auto).
      rewrite En in Hi. destruct Hi. }
    pose proof (tighten_strict (map f (su_voluind s0))) as S.
    destruct (tighten (map f (su_voluind s0))) as [|a [|b r]]; [congruence|reflexivity|].
    change (at_ (a :: b :: r) 0) with (Ok a). change (at_ (a :: b :: r) 1) with (Ok b). cbn [bind length Nat.eqb].
    apply StronglySorted_inv in S. destruct S as [_ S]. apply Forall_inv in S.
    destruct (Z.eqb_spec a b); [lia|]. reflexivity.
Qed.

Lemma coarsen3_past f m past : well_connected m -> volus m <> [] -> grouping (has_volu m) f ->
  (forall e, In e (edges m) -> (length (ed_vertind e) <= 2)%nat) ->
  (forall s, In s (surfs m) -> su_voluind s <> []) ->
  (forall s, has_surf m s -> ~ inner f (SV m s)) ->
  coarsen3 past (map f (map vo_index (volus m))) m = coarsen3 (fun x => Ok x) (map f (map vo_index (volus m))) m.
Proof.
  intros W V G L2 LS Hin. pose proof W as [[_ [Us _]] _]. pose proof G as [F0 F].
  unfold coarsen3. destruct (mapping_matches _ _ _); [|reflexivity].
  destruct (merge_3d W G) as [m1 [Hrun [Hs1 [He1 _]]]].
  rewrite Hrun. cbn [bind]. rewrite tighten_ok by (rewrite He1; auto).
  cbn [bind]. set (m2 := mkMesh _ _ _ _ _).
  assert (Hsu2 : surfs m2 = map (fun s => surf_tighten (surf_renamed f s)) (surfs m)).
  { unfold m2. cbn [surfs]. rewrite Hs1, map_map. reflexivity. }
  assert (H : forall p, for_each (upto_pos (surfs m2)) (remove_inner_surf p) (m2, []) = Ok (m2, [])).
  { intros p. rewrite (@for_each_stuck surf _ (surfs m2) _ _ (fun _ => false)).
    - replace (existsb (fun _ => false) (surfs m2)) with false; [reflexivity|]. clear. induction (surfs m2) as [|a l IH]; [reflexivity|exact IH].
    - intros pre x post E. unfold remove_inner_surf. rewrite E, at_split. cbn [bind].
      assert (Hx : In x (surfs m2)) by (rewrite E; apply in_app_iff; right; left; auto).
      rewrite Hsu2 in Hx. apply in_map_iff in Hx. destruct Hx as [s0 [<- Hs0]]. unfold same_sides.
      cbn [su_voluind surf_tighten surf_renamed su_set_voluind].
      assert (Hn : tighten (map f (su_voluind s0)) <> []).
      { intros En. specialize (LS s0 Hs0). destruct (su_voluind s0) as [|z r] eqn:Ez; [congruence|].
        assert (Hi : In (f z) (tighten (map f (z :: r)))) by (apply tighten_In, in_map; left; auto).
        rewrite En in Hi. destruct Hi. }
      assert (Hl : length (tighten (map f (su_voluind s0))) <> 1%nat).
      { intros El. assert (Hs : has_surf m (su_index s0)) by (exists s0; auto).
        apply (Hin _ Hs). apply (inner_surf f m Us). apply in_map_iff.
        exists (surf_tighten (surf_renamed f s0)). split; [reflexivity|]. apply filter_In. split; [apply in_map_iff; eauto|].
        apply Nat.eqb_eq. exact El. }
      pose proof (tighten_strict (map f (su_voluind s0))) as S.
      destruct (tighten (map f (su_voluind s0))) as [|a [|b r]]; [congruence|cbn in Hl; lia|].
      change (at_ (a :: b :: r) 0) with (Ok a). change (at_ (a :: b :: r) 1) with (Ok b). cbn [bind].
      apply StronglySorted_inv in S. destruct S as [_ S]. apply Forall_inv in S.
      destruct (Z.eqb_spec a b); [lia|]. reflexivity. }
  rewrite !H. reflexivity.
Qed.
