(** Proofs about ForceCloseContainers. *)
From Verif Require Import Base Containers ContainersProofs Mesh SpecMesh MeshProofs SwitchProofs RemoveProofs Flood SpecFlood FloodProofs.
Set Implicit Arguments.
Open Scope Z_scope.

Lemma for_each_app A S (f : A -> S -> outcome S) l1 l2 s :
  for_each (l1 ++ l2) f s = do s1 <- for_each l1 f s; for_each l2 f s1.
Proof.
  revert s. induction l1 as [|a l1 IH]; intros s; simpl; auto.
  destruct (f a s); simpl; auto.
Qed.
(** A nested loop is a loop over the concatenation. *)
Lemma for_each_flat A B S (f : A -> S -> outcome S) (g : B -> S -> outcome S) (h : A -> list B) l :
  (forall a s, In a l -> f a s = for_each (h a) g s) ->
  forall s, for_each l f s = for_each (flat_map h l) g s.
Proof.
  induction l as [|a l IH]; intros H s; simpl; auto.
  rewrite for_each_app, <- H by (left; auto). destruct (f a s); simpl; auto.
  apply IH. intros; apply H; right; auto.
Qed.

Section Close.
Variables (A B : Type) (idxA : A -> Z) (idxB : B -> Z).
Variable push : Z -> A -> A.
Variable put : Z -> B -> B.
Hypothesis idx_push : forall x a, idxA (push x a) = idxA a.
Hypothesis idx_put : forall x b, idxB (put x b) = idxB b.

Definition close_step (op : Z * Z) (st : list A * list B) : outcome (list A * list B) :=
  do la <- modify (fst st) (find idxA (fst st) (fst op)) (push (snd op));
  do lb <- modify (snd st) (find idxB (snd st) (snd op)) (put (fst op));
  Ok (la, lb).

Definition pushed (ops : list (Z * Z)) (a : A) : A :=
  fold_left (fun a op => if idxA a =? fst op then push (snd op) a else a) ops a.
Definition placed (ops : list (Z * Z)) (b : B) : B :=
  fold_left (fun b op => if idxB b =? snd op then put (fst op) b else b) ops b.

Lemma close_run ops : forall la lb,
  NoDup (map idxA la) -> NoDup (map idxB lb) ->
  (forall b s, In (b, s) ops -> In b (map idxA la) /\ In s (map idxB lb)) ->
  for_each ops close_step (la, lb) = Ok (map (pushed ops) la, map (placed ops) lb).
Proof.
  induction ops as [|[b s] ops IH]; intros la lb Ua Ub H.
  - cbn [for_each]. f_equal. f_equal; symmetry; apply map_id.
  - cbn [for_each]. unfold close_step at 1. cbn [fst snd].
    destruct (H b s) as [Hb Hs]; [left; auto|].
    rewrite modify_find by auto. cbn [bind]. rewrite modify_find by auto. cbn [bind].
    rewrite IH.
    + f_equal. unfold on. rewrite !map_map. f_equal; apply map_ext; intros; reflexivity.
    + rewrite map_on; auto.
    + rewrite map_on; auto.
    + intros c t Hc. rewrite !map_on by auto. apply H. right; auto.
Qed.

Lemma idx_pushed ops a : idxA (pushed ops a) = idxA a.
Proof.
  unfold pushed. revert a. induction ops as [|op ops IH]; intros a; simpl; auto.
  rewrite IH. destruct (idxA a =? fst op); auto.
Qed.
Lemma idx_placed ops a : idxB (placed ops a) = idxB a.
Proof.
  unfold placed. revert a. induction ops as [|op ops IH]; intros a; simpl; auto.
  rewrite IH. destruct (idxB a =? snd op); auto.
Qed.

Lemma pushed_In (get : A -> list Z) : (forall x a, get (push x a) = get a ++ [x]) ->
  forall ops a x, In x (get (pushed ops a)) <-> In x (get a) \/ In (idxA a, x) ops.
Proof.
  intros Hg. induction ops as [|[b s] ops IH]; intros a x.
  - simpl. tauto.
  - change (pushed ((b, s) :: ops) a) with (pushed ops (if idxA a =? b then push s a else a)).
    rewrite IH. cbn [In]. destruct (Z.eqb_spec (idxA a) b) as [E|E].
    + rewrite Hg, idx_push, in_app_iff. cbn [In]. split.
      * intros [[H|[H|[]]]|H]; auto. right; left. congruence.
      * intros [H|[H|H]]; auto. left; right; left. congruence.
    + split; [tauto|]. intros [H|[H|H]]; auto. congruence.
Qed.

Lemma placed_last ops : forall b,
  placed ops b = b /\ (forall c, ~ In (c, idxB b) ops) \/
  exists c b', In (c, idxB b) ops /\ placed ops b = put c b' /\ (exists pre, b' = placed pre b).
Proof.
  induction ops as [|[c s] ops IH] using rev_ind; intros b.
  - left. split; auto. 
  - unfold placed. rewrite fold_left_app. fold (placed ops b). cbn [fold_left snd fst].
    rewrite idx_placed. destruct (Z.eqb_spec (idxB b) s) as [E|E].
    + right. exists c, (placed ops b). split; [apply in_or_app; right; left; congruence|]. split; auto. exists ops; auto.
    + destruct (IH b) as [[H1 H2]|[c' [b' [H1 [H2 H3]]]]].
      * left. split; auto. intros c' Hc. apply in_app_or in Hc. destruct Hc as [Hc|[Hc|[]]]; [apply (H2 c'); auto|]. congruence.
      * right. exists c', b'. split; [apply in_or_app; auto|]. auto.
Qed.

Lemma placed_keep C (f : B -> C) : (forall x b, f (put x b) = f b) -> forall ops b, f (placed ops b) = f b.
Proof.
  intros Hf ops. unfold placed. induction ops as [|op ops IH]; intros b; simpl; auto.
  rewrite IH. destruct (idxB b =? snd op); auto.
Qed.
End Close.

Lemma upto_In n : forall k x, In x (upto n k) <-> k <= x < k + Z.of_nat n.
Proof. induction n as [|n IH]; intros k x; cbn [upto In]; [lia|]. rewrite IH. lia. Qed.
Lemma upto_NoDup n : forall k, NoDup (upto n k).
Proof. induction n as [|n IH]; intros k; cbn [upto]; constructor; auto. rewrite upto_In. lia. Qed.

(** Positions and labels side by side. *)
Lemma combine_label A (idx : A -> Z) l block a b : length block = length l ->
  In (a, b) (combine l block) -> In a l /\ label idx l block (idx a) b.
Proof.
  intros Hl H. apply In_nth_error in H. destruct H as [p Hp].
  assert (G : forall l block p, nth_error (combine l block) p = Some (a, b) ->
     nth_error l p = Some a /\ nth_error block p = Some b).
  { clear. induction l as [|x l IH]; intros [|y block] [|p] H; simpl in *; try discriminate.
    - injection H as -> ->. auto.
    - apply IH; auto. }
  destruct (G _ _ _ Hp) as [H1 H2]. split; [eapply nth_error_In; eauto|]. exists p, a. auto.
Qed.
Lemma label_combine A (idx : A -> Z) l block i b : 
  label idx l block i b -> exists a, In (a, b) (combine l block) /\ idx a = i.
Proof.
  intros [p [a [H1 [H2 H3]]]]. exists a. split; auto.
  revert block p H1 H3. induction l as [|x l IH]; intros [|y block] [|p] H1 H3; simpl in *; try discriminate.
  - injection H1 as ->. injection H3 as ->. auto.
  - right. eapply IH; eauto.
Qed.

Lemma free_all A (idx : A -> Z) l i : (exists a, In a l /\ idx a = i) -> free_elem idx l [] i.
Proof. intros H. split; auto. intros [x [_ [p [a [_ [_ H2]]]]]]. destruct p; discriminate. Qed.

Lemma label_fun A (idx : A -> Z) l block i x y : NoDup (map idx l) ->
  label idx l block i x -> label idx l block i y -> x = y.
Proof.
  intros Hnd [p [a [H1 [H2 H3]]]] H. rewrite <- H2 in H. rewrite (@label_at _ idx l Hnd p a block y H1) in H. congruence.
Qed.

(** Vertices of a surface. *)
Lemma close3_spec m n block : well_connected m -> volus m <> [] ->
  (forall e, In e (edges m) -> length (ed_vertind e) = 2%nat) ->
  component_labels ve_index (verts m) (share_edge m) [] n block ->
  exists m', close3 m n block = Ok m' /\
    map vo_index (volus m') = upto (Z.to_nat n) 1 /\
    edges m' = edges m /\ verts m' = verts m /\ meshDim m' = meshDim m /\
    map (su_set_voluind []) (surfs m') = map (su_set_voluind []) (surfs m) /\
    (forall b s, VS m' b s <-> exists v e, label ve_index (verts m) block v b /\ VE m v e /\ ES m e s) /\
    Forall2 (fun a a' => (su_voluind a' = su_voluind a /\ su_edgeind a = []) \/
       exists v e b, SE m (su_index a) e /\ EV m e v /\ label ve_index (verts m) block v b /\
                     su_voluind a' = [b; 0]) (surfs m) (surfs m').
Proof.
  intros [[U1 [U2 [U3 [U4 UZ]]]] [[M1 [M2 [M3 [M4 [M5 M6]]]]] [X1 [X2 [X3 [X4 X5]]]]]] Hne Htwo [L1 [L2 [L3 [L4 L5]]]].
  specialize (X5 Hne).
  set (ops := flat_map (fun vb : vert * Z => map (fun s => (snd vb, s))
        (flat_map (fun e => match at_ (edges m) (find ed_index (edges m) e) with Ok ed => ed_surfind ed | _ => [] end)
           (ve_edgeind (fst vb)))) (combine (verts m) block)).
  assert (Hops : forall b s, In (b, s) ops <-> exists v e, label ve_index (verts m) block v b /\ VE m v e /\ ES m e s).
  { intros b s. unfold ops. rewrite in_flat_map. split.
    - intros [[v b'] [Hv H]]. apply in_map_iff in H. destruct H as [s' [E H]]. cbn [snd fst] in *. injection E as -> ->.
      apply in_flat_map in H. destruct H as [e [He H]].
      destruct (at_ (edges m) (find ed_index (edges m) e)) as [ed| | |] eqn:Ea; try contradiction.
      destruct (@find_at_inv _ ed_index (edges m) e ed Ea) as [Hi Ei].
      destruct (@combine_label _ ve_index (verts m) block v b L1 Hv) as [Hvi Hl].
      exists (ve_index v), e. split; auto. split; [exists v; auto|exists ed; auto].
    - intros [v [e [Hl [Hve Hes]]]]. destruct (label_combine Hl) as [a [Ha Ei]]. exists (a, b). split; auto.
      apply in_map_iff. exists s. split; auto. apply in_flat_map. exists e. cbn [fst]. split.
      + destruct (@combine_label _ ve_index (verts m) block a b L1 Ha) as [Hav _].
        apply (@owner _ ve_index ve_edgeind (verts m) _ _ U4 Hav Ei). exact Hve.
      + destruct (@find_at _ ed_index (edges m) e) as [ed [Hed [Hi Ee]]]; [eapply lists_has; eauto|].
        rewrite Hed. apply (@owner _ ed_index ed_surfind (edges m) _ _ U3 Hi Ee). exact Hes. }
  set (vs0 := map (fun i => mkVolu i false []) (upto (Z.to_nat n) 1)).
  assert (Eidx : map vo_index vs0 = upto (Z.to_nat n) 1).
  { unfold vs0. rewrite map_map. cbn [vo_index]. apply map_id. }
  set (push := fun s v => vo_set_surfind (vo_surfind v ++ [s]) v).
  set (put := fun b s => su_set_voluind [b; 0] s).
  assert (Hlab : forall v b, label ve_index (verts m) block v b -> 1 <= b <= n).
  { intros v b Hl. assert (Hf : free_elem ve_index (verts m) [] v).
    { apply free_all. destruct Hl as [p [a [H1 [H2 _]]]]. exists a. split; auto. eapply nth_error_In; eauto. }
    destruct (L3 v Hf) as [x [Hx Hr]]. rewrite (label_fun U4 Hl Hx). auto. }
  assert (Hsurf : forall e s, ES m e s -> has_surf m s).
  { intros e s H. eapply lists_has. apply M3; eauto. intros ->. apply (X5 _ H). }
  assert (Hrun : for_each (combine (verts m) block)
    (fun vb st => let '(v, b) := vb in
       for_each (ve_edgeind v)
         (fun e st => do ed <- at_ (edges m) (find ed_index (edges m) e);
                      for_each (ed_surfind ed) (close3_surf b) st) st) (vs0, surfs m) =
      Ok (map (pushed vo_index push ops) vs0, map (placed su_index put ops) (surfs m))).
  { rewrite <- (@close_run _ _ vo_index su_index push put).
    - assert (Hstep : forall b s st, close_step vo_index su_index push put (b, s) st = close3_surf b s st \/
          ~ In s (map su_index (snd st))).
      { intros b s [vs ss]. destruct (in_dec Z.eq_dec s (map su_index ss)) as [Hi|Hi]; [left|right; auto].
        unfold close_step, close3_surf. cbn [fst snd]. apply in_map_idx in Hi.
        destruct (@find_at _ su_index ss s Hi) as [su [Hsu _]]. rewrite Hsu. reflexivity. }
      (* run with the set of surface indices kept *)
      assert (G : forall b l st, (forall s, In s l -> In s (map su_index (surfs m))) ->
          map su_index (snd st) = map su_index (surfs m) ->
          for_each l (close3_surf b) st = for_each (map (fun s => (b, s)) l) (close_step vo_index su_index push put) st /\
          (forall st', for_each l (close3_surf b) st = Ok st' -> map su_index (snd st') = map su_index (surfs m))).
      { intros b. induction l as [|s l IH]; intros st Hl Hs; cbn [for_each map].
        - split; auto. intros st' E. injection E as <-. auto.
        - destruct (Hstep b s st) as [E|E]; [|exfalso; apply E; rewrite Hs; apply Hl; left; auto].
          rewrite E. destruct (close3_surf b s st) as [st1| | |] eqn:E1; cbn [bind]; try (split; [reflexivity|discriminate]).
          apply IH; [intros; apply Hl; right; auto|].
          destruct st as [vs ss]. unfold close3_surf in E1. cbn [snd] in Hs.
          destruct (at_ ss (find su_index ss s)); try discriminate. cbn [bind] in E1.
          destruct (modify vs _ _); try discriminate. cbn [bind] in E1.
          rewrite modify_find in E1; [|rewrite Hs; auto|rewrite Hs; apply Hl; left; auto]. cbn [bind] in E1.
          injection E1 as <-. cbn [snd]. rewrite map_on; auto. }
      unfold ops.
      assert (G2 : forall l st, (forall a b, In (a, b) l -> In a (verts m)) -> map su_index (snd st) = map su_index (surfs m) ->
        for_each l (fun vb st => let '(v, b) := vb in
          for_each (ve_edgeind v)
         (fun e st => do ed <- at_ (edges m) (find ed_index (edges m) e);
                      for_each (ed_surfind ed) (close3_surf b) st) st) st =
        for_each (flat_map (fun vb : vert * Z => map (fun s => (snd vb, s))
        (flat_map (fun e => match at_ (edges m) (find ed_index (edges m) e) with Ok ed => ed_surfind ed | _ => [] end)
           (ve_edgeind (fst vb)))) l) (close_step vo_index su_index push put) st).
      { induction l as [|[v b] l IH]; intros st Hl Hs; [reflexivity|].
        cbn [for_each flat_map fst snd]. rewrite for_each_app.
        assert (Hin : In v (verts m)) by (apply (Hl v b); left; auto).
        assert (G3 : forall es st, (forall e, In e es -> VE m (ve_index v) e) -> map su_index (snd st) = map su_index (surfs m) ->
          for_each es (fun e st => do ed <- at_ (edges m) (find ed_index (edges m) e);
                      for_each (ed_surfind ed) (close3_surf b) st) st =
          for_each (map (fun s => (b, s)) (flat_map (fun e => match at_ (edges m) (find ed_index (edges m) e) with Ok ed => ed_surfind ed | _ => [] end) es))
             (close_step vo_index su_index push put) st /\
          (forall st', for_each es (fun e st => do ed <- at_ (edges m) (find ed_index (edges m) e);
                      for_each (ed_surfind ed) (close3_surf b) st) st = Ok st' -> map su_index (snd st') = map su_index (surfs m))).
        { induction es as [|e es IHe]; intros s0 He Hs0; cbn [for_each flat_map map].
          - split; auto. intros st' E. injection E as <-. auto.
          - rewrite map_app, for_each_app.
            destruct (@find_at _ ed_index (edges m) e) as [ed [Hed [Hi Ee]]].
            { assert (Hve : VE m (ve_index v) e) by (apply He; left; auto).
              assert (e <> 0) by (intros ->; apply (X1 _ Hve)).
              eapply lists_has. apply (M1 _ _ Hve); auto. }
            rewrite Hed. cbn [bind].
            destruct (G b (ed_surfind ed) s0) as [G1 G1'].
            { intros s Hx. apply in_map_idx. apply (Hsurf e). exists ed; auto. }
            { auto. }
            rewrite G1 in *. destruct (for_each (map _ (ed_surfind ed)) _ s0) as [s1| | |]; cbn [bind]; try (split; [reflexivity|discriminate]).
            apply IHe; [intros; apply He; right; auto|]. apply G1'; auto. }
        destruct (G3 (ve_edgeind v) st) as [G4 G4'].
        { intros e He. exists v; auto. }
        { auto. }
        rewrite G4 in *. destruct (for_each (map _ (flat_map _ (ve_edgeind v))) _ st) as [s1| | |]; cbn [bind]; auto.
        apply IH; [intros a c Ha; apply (Hl a c); right; auto|]. apply G4'; auto. }
      apply G2; auto. intros a b Ha. apply in_combine_l in Ha. auto.
    - reflexivity.
    - reflexivity.
    - rewrite Eidx. apply upto_NoDup.
    - auto.
    - intros b s H. apply Hops in H. destruct H as [v [e [Hl [Hv He]]]]. split.
      + rewrite Eidx. apply upto_In. specialize (Hlab _ _ Hl). lia.
      + apply in_map_idx. apply (Hsurf e). auto. }
  unfold close3. fold vs0. rewrite Hrun. cbn [bind]. eexists. split; [reflexivity|]. cbn [volus surfs edges verts meshDim].
  split.
  { rewrite map_map. rewrite <- Eidx. apply map_ext. intros a. apply idx_pushed. reflexivity. }
  do 3 (split; [reflexivity|]). split.
  { rewrite map_map. apply map_ext. intros a. apply (@placed_keep _ su_index put _ (su_set_voluind [])). reflexivity. }
  split.
  { intros b s. rewrite <- Hops. unfold VS, lists. cbn [volus]. split.
    - intros [a [Ha [Ei Hs]]]. apply in_map_iff in Ha. destruct Ha as [a0 [<- Ha0]].
      rewrite (@pushed_In _ vo_index push ltac:(reflexivity) vo_surfind ltac:(reflexivity)) in Hs.
      rewrite idx_pushed in Ei by reflexivity. unfold vs0 in Ha0. apply in_map_iff in Ha0. destruct Ha0 as [i [<- _]].
      cbn [vo_surfind vo_index] in *. destruct Hs as [[]|Hs]. congruence.
    - intros H. assert (Hb : In b (map vo_index vs0)).
      { rewrite Eidx. apply upto_In. apply Hops in H. destruct H as [v [e [Hl _]]]. specialize (Hlab _ _ Hl). lia. }
      apply in_map_iff in Hb. destruct Hb as [a [Ea Ha]]. exists (pushed vo_index push ops a).
      split; [apply in_map; auto|]. split; [rewrite idx_pushed; auto|].
      rewrite (@pushed_In _ vo_index push ltac:(reflexivity) vo_surfind ltac:(reflexivity)). right. rewrite Ea. auto. }
  assert (G : forall l, (forall a, In a l -> In a (surfs m)) ->
    Forall2 (fun a a' => (su_voluind a' = su_voluind a /\ su_edgeind a = []) \/
       exists v e b, SE m (su_index a) e /\ EV m e v /\ label ve_index (verts m) block v b /\
                     su_voluind a' = [b; 0]) l (map (placed su_index put ops) l)).
  { induction l as [|a l IH]; intros Hl; constructor; [|apply IH; intros; apply Hl; right; auto].
    assert (Ha : In a (surfs m)) by (apply Hl; left; auto).
    destruct (@placed_last _ su_index put ltac:(reflexivity) ops a) as [[E Hno]|[b [a' [Hin [E _]]]]].
    - left. rewrite E. split; auto. destruct (su_edgeind a) as [|e r] eqn:Er; auto. exfalso.
      assert (Hse : SE m (su_index a) e) by (exists a; split; auto; split; auto; rewrite Er; left; auto).
      assert (e <> 0) by (intros ->; apply (X3 _ Hse)).
      assert (Hes : ES m e (su_index a)) by (apply M4; auto).
      destruct (@lists_has _ ed_index ed_surfind (edges m) _ _ Hes) as [ed [Hed Ee]].
      specialize (Htwo ed Hed). destruct (ed_vertind ed) as [|v rv] eqn:Ev; [discriminate|].
      assert (Hev : EV m e v) by (exists ed; split; auto; split; auto; rewrite Ev; left; auto).
      assert (v <> 0) by (intros ->; apply (X2 _ Hev)).
      assert (Hve : VE m v e) by (apply M2; auto).
      destruct (L3 v) as [b [Hb _]]; [apply free_all; eapply lists_has; eauto|].
      apply (Hno b). apply Hops. exists v, e. auto.
    - right. apply Hops in Hin. destruct Hin as [v [e [Hl0 [Hve Hes]]]].
      assert (e <> 0) by (intros ->; apply (X1 _ Hve)).
      assert (su_index a <> 0) by (intros E0; rewrite E0 in Hes; apply (X5 _ Hes)).
      exists v, e, b. split; [apply M3; auto|]. split; [apply M1; auto|]. split; auto. rewrite E. reflexivity. }
  apply G; auto.
Qed.

Lemma close2_spec m n block : well_connected m -> 
  component_labels ve_index (verts m) (share_edge m) [] n block ->
  exists m', close2 m n block = Ok m' /\
    map su_index (surfs m') = upto (Z.to_nat n) 1 /\
    volus m' = volus m /\ verts m' = verts m /\ meshDim m' = meshDim m /\
    map (ed_set_surfind []) (edges m') = map (ed_set_surfind []) (edges m) /\
    (forall b e, SE m' b e <-> exists v, label ve_index (verts m) block v b /\ VE m v e) /\
    Forall2 (fun a a' => (ed_surfind a' = ed_surfind a /\ ed_vertind a = []) \/
       exists v b, EV m (ed_index a) v /\ label ve_index (verts m) block v b /\
                     ed_surfind a' = [b; 0]) (edges m) (edges m').
Proof.
  intros [[U1 [U2 [U3 [U4 UZ]]]] [[M1 [M2 [M3 [M4 [M5 M6]]]]] [X1 [X2 [X3 [X4 X5]]]]]] [L1 [L2 [L3 [L4 L5]]]].
  set (ops := flat_map (fun vb : vert * Z => map (fun e => (snd vb, e)) (ve_edgeind (fst vb))) (combine (verts m) block)).
  assert (Hops : forall b e, In (b, e) ops <-> exists v, label ve_index (verts m) block v b /\ VE m v e).
  { intros b e. unfold ops. rewrite in_flat_map. split.
    - intros [[v b'] [Hv H]]. apply in_map_iff in H. destruct H as [s' [E H]]. cbn [snd fst] in *. injection E as -> ->.
      destruct (@combine_label _ ve_index (verts m) block v b L1 Hv) as [Hvi Hl].
      exists (ve_index v). split; auto. exists v; auto.
    - intros [v [Hl Hve]]. destruct (label_combine Hl) as [a [Ha Ei]]. exists (a, b). split; auto.
      apply in_map_iff. exists e. split; auto. cbn [fst].
      destruct (@combine_label _ ve_index (verts m) block a b L1 Ha) as [Hav _].
      apply (@owner _ ve_index ve_edgeind (verts m) _ _ U4 Hav Ei). exact Hve. }
  set (ss0 := map (fun i => mkSurf i false false [0; 0] []) (upto (Z.to_nat n) 1)).
  assert (Eidx : map su_index ss0 = upto (Z.to_nat n) 1).
  { unfold ss0. rewrite map_map. cbn [su_index]. apply map_id. }
  set (push := fun e s => su_set_edgeind (su_edgeind s ++ [e]) s).
  set (put := fun b e => ed_set_surfind [b; 0] e).
  assert (Hlab : forall v b, label ve_index (verts m) block v b -> 1 <= b <= n).
  { intros v b Hl. assert (Hf : free_elem ve_index (verts m) [] v).
    { apply free_all. destruct Hl as [p [a [H1 [H2 _]]]]. exists a. split; auto. eapply nth_error_In; eauto. }
    destruct (L3 v Hf) as [x [Hx Hr]]. rewrite (label_fun U4 Hl Hx). auto. }
  assert (Hedge : forall v e, VE m v e -> has_edge m e).
  { intros v e H. eapply lists_has. apply M1; eauto. intros ->. apply (X1 _ H). }
  assert (Hrun : for_each (combine (verts m) block)
    (fun vb st => let '(v, b) := vb in
       for_each (ve_edgeind v)
         (fun e st => let '(ss, es) := st in
            do ss1 <- modify ss (find su_index ss b) (fun s => su_set_edgeind (su_edgeind s ++ [e]) s);
            do es1 <- modify es (find ed_index es e) (ed_set_surfind [b; 0]);
            Ok (ss1, es1)) st) (ss0, edges m) =
      Ok (map (pushed su_index push ops) ss0, map (placed ed_index put ops) (edges m))).
  { rewrite <- (@close_run _ _ su_index ed_index push put).
    - apply (@for_each_flat _ _ _ _ (close_step su_index ed_index push put)
        (fun vb : vert * Z => map (fun e => (snd vb, e)) (ve_edgeind (fst vb)))).
      intros [v b] st _. cbn [fst snd]. generalize (ve_edgeind v) as es. intros es. revert st.
      induction es as [|e es IH]; intros [ss ee]; cbn [for_each map]; auto.
      unfold close_step at 1. cbn [fst snd].
      change (push e) with (fun s => su_set_edgeind (su_edgeind s ++ [e]) s). change (put b) with (ed_set_surfind [b; 0]).
      destruct (modify ss _ _); cbn [bind]; auto. destruct (modify ee _ _); cbn [bind]; auto.
    - reflexivity.
    - reflexivity.
    - rewrite Eidx. apply upto_NoDup.
    - auto.
    - intros b s H. apply Hops in H. destruct H as [v [Hl Hv]]. split.
      + rewrite Eidx. apply upto_In. specialize (Hlab _ _ Hl). lia.
      + apply in_map_idx. apply (Hedge v). auto. }
  unfold close2. fold ss0. rewrite Hrun. cbn [bind]. eexists. split; [reflexivity|]. cbn [volus surfs edges verts meshDim].
  split.
  { rewrite map_map. rewrite <- Eidx. apply map_ext. intros a. apply idx_pushed. reflexivity. }
  do 3 (split; [reflexivity|]). split.
  { rewrite map_map. apply map_ext. intros a. apply (@placed_keep _ ed_index put _ (ed_set_surfind [])). reflexivity. }
  split.
  { intros b s. rewrite <- Hops. unfold SE, lists. cbn [surfs]. split.
    - intros [a [Ha [Ei Hs]]]. apply in_map_iff in Ha. destruct Ha as [a0 [<- Ha0]].
      rewrite (@pushed_In _ su_index push ltac:(reflexivity) su_edgeind ltac:(reflexivity)) in Hs.
      rewrite idx_pushed in Ei by reflexivity. unfold ss0 in Ha0. apply in_map_iff in Ha0. destruct Ha0 as [i [<- _]].
      cbn [su_edgeind su_index] in *. destruct Hs as [[]|Hs]. congruence.
    - intros H. assert (Hb : In b (map su_index ss0)).
      { rewrite Eidx. apply upto_In. apply Hops in H. destruct H as [v [Hl _]]. specialize (Hlab _ _ Hl). lia. }
      apply in_map_iff in Hb. destruct Hb as [a [Ea Ha]]. exists (pushed su_index push ops a).
      split; [apply in_map; auto|]. split; [rewrite idx_pushed; auto|].
      rewrite (@pushed_In _ su_index push ltac:(reflexivity) su_edgeind ltac:(reflexivity)). right. rewrite Ea. auto. }
  assert (G : forall l, (forall a, In a l -> In a (edges m)) ->
    Forall2 (fun a a' => (ed_surfind a' = ed_surfind a /\ ed_vertind a = []) \/
       exists v b, EV m (ed_index a) v /\ label ve_index (verts m) block v b /\
                     ed_surfind a' = [b; 0]) l (map (placed ed_index put ops) l)).
  { induction l as [|a l IH]; intros Hl; constructor; [|apply IH; intros; apply Hl; right; auto].
    assert (Ha : In a (edges m)) by (apply Hl; left; auto).
    destruct (@placed_last _ ed_index put ltac:(reflexivity) ops a) as [[E Hno]|[b [a' [Hin [E _]]]]].
    - left. rewrite E. split; auto. destruct (ed_vertind a) as [|v r] eqn:Er; auto. exfalso.
      assert (Hev : EV m (ed_index a) v) by (exists a; split; auto; split; auto; rewrite Er; left; auto).
      assert (v <> 0) by (intros ->; apply (X2 _ Hev)).
      assert (Hve : VE m v (ed_index a)) by (apply M2; auto).
      destruct (L3 v) as [b [Hb _]]; [apply free_all; eapply lists_has; eauto|].
      apply (Hno b). apply Hops. exists v. auto.
    - right. apply Hops in Hin. destruct Hin as [v [Hl0 Hve]].
      assert (ed_index a <> 0) by (intros E0; rewrite E0 in Hve; apply (X1 _ Hve)).
      exists v, b. split; [apply M1; auto|]. split; auto. rewrite E. reflexivity. }
  apply G; auto.
Qed.
