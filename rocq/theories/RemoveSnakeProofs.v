(** Proofs about RemoveSnakeInVolu. *)
From Coq Require Import ZArith List Lia Bool.
From Verif Require Import Base Containers ContainersProofs Mesh SpecMesh MeshProofs SwitchProofs RemoveProofs MergeProofs
  Flood SpecFlood FloodProofs CloseProofs PropsFlood Edit SpecEdit EditProofs CropProofs
  Num Snake SpecSnake Spawn SpecSpawn SpawnProofs RemoveSnake SpecRemoveSnake.
Import ListNotations.
Import Mesh.
Set Implicit Arguments.
Open Scope Z_scope.

Lemma combine_upto_pos A (l : list A) a p : In (a, p) (combine l (upto_pos l)) <-> 0 <= p /\ nth_error l (Z.to_nat p) = Some a.
Proof.
  unfold upto_pos. assert (G : forall k, In (a, p) (combine l (map Z.of_nat (seq k (length l)))) <-> Z.of_nat k <= p /\ nth_error l (Z.to_nat p - k) = Some a).
  { induction l as [|x l IH]; intros k; simpl.
    - split; [tauto|]. intros [_ H]. destruct (Z.to_nat p - k)%nat; discriminate.
    - rewrite IH. split.
      + intros [H|[H1 H2]].
        * injection H as -> <-. split; [lia|]. rewrite Nat2Z.id, Nat.sub_diag. reflexivity.
        * split; [lia|]. replace (Z.to_nat p - k)%nat with (S (Z.to_nat p - S k)) by lia. exact H2.
      + intros [H1 H2]. destruct (Z.eq_dec p (Z.of_nat k)) as [->|Hn].
        * rewrite Nat2Z.id, Nat.sub_diag in H2. injection H2 as ->. auto.
        * right. split; [lia|]. replace (Z.to_nat p - k)%nat with (S (Z.to_nat p - S k)) in H2 by lia. exact H2. }
  rewrite G, Nat.sub_0_r. simpl. tauto.
Qed.
Lemma at_of A (l : list A) p a : 0 <= p -> nth_error l (Z.to_nat p) = Some a -> at_ l p = Ok a.
Proof. intros H1 H2. unfold at_. destruct (Z.ltb_spec p 0); [lia|]. rewrite H2. auto. Qed.
Lemma nth_map_eq A B (f : A -> Z) (g : B -> Z) l l' p a : map f l = map g l' -> nth_error l p = Some a -> exists b, nth_error l' p = Some b /\ g b = f a.
Proof.
  intros E H. assert (H1 : nth_error (map g l') p = Some (f a)) by (rewrite <- E, nth_error_map, H; reflexivity).
  rewrite nth_error_map in H1. destruct (nth_error l' p) as [b|]; [|discriminate]. exists b. split; auto. simpl in H1. congruence.
Qed.
Lemma at_list A (l : list A) ps : (forall p, In p ps -> exists a, at_ l p = Ok a) ->
  exists r, omap_list (at_ l) ps = Ok r /\ forall a, In a r <-> exists p, In p ps /\ at_ l p = Ok a.
Proof.
  induction ps as [|p ps IH]; intros H; cbn [omap_list].
  - exists []. split; auto. intros a. simpl. split; [tauto|intros [? [[] _]]].
  - destruct (H p (or_introl eq_refl)) as [a Ea]. rewrite Ea. cbn [bind].
    destruct IH as [r [Er Hr]]; [intros; apply H; right; auto|]. rewrite Er. cbn [bind].
    eexists. split; [reflexivity|]. intros b. simpl. rewrite Hr. split.
    + intros [<-|[q [Hq Eq]]]; [exists p|exists q]; auto.
    + intros [q [[<-|Hq] Eq]]; [left; congruence|right; exists q; auto].
Qed.

Lemma joined_sym c u v : same_part c u v -> same_part c v u.
Proof.
  unfold same_part. induction 1 as [u H|u v w H IH A F]; [constructor; auto|].
  assert (G : forall x, joined (has_vert c) (share_edge c) v x -> joined (has_vert c) (share_edge c) w x).
  { induction 1 as [y Hy|y a b Hab IHa Aab Fb].
    - eapply joined_step; [apply joined_refl; auto| |auto]. destruct A as [e [A1 A2]]. exists e. auto.
    - eapply joined_step; [exact (IHa H A IH)|exact Aab|exact Fb]. }
  auto.
Qed.
Lemma joined_trans c u v w : same_part c u v -> same_part c v w -> same_part c u w.
Proof. unfold same_part. intros H1 H2. induction H2 as [v Hv|v a b Ha IH Aab Fb]; auto. eapply joined_step; [exact (IH H1)|exact Aab|exact Fb]. Qed.
Lemma joined_ends c u v : same_part c u v -> has_vert c u /\ has_vert c v.
Proof. unfold same_part. induction 1; tauto. Qed.
Lemma joined_edge c e u v : has_vert c u -> has_vert c v -> EV c e u -> EV c e v -> same_part c u v.
Proof. intros H1 H2 E1 E2. eapply joined_step; [apply joined_refl; auto| |auto]. exists e; auto. Qed.

Lemma joined_ext f g a u v : (forall x, f x <-> g x) -> joined f a u v -> joined g a u v.
Proof. intros E. induction 1 as [u H|u v w H IH A F]; [constructor; apply E; auto|]. eapply joined_step; [exact IH|exact A|apply E; exact F]. Qed.

Section One.
Variable N : num.
Variables (k : snake N) (cells : list Z) (o : Z).
Notation c := (k_conn k).
Hypothesis W : well_connected c.
Hypothesis V : volus c <> [].
Hypothesis C : closed c.
Hypothesis I : in_step k.
Hypothesis Wh : whole c.

Lemma two e : In e (edges c) -> length (ed_vertind e) = 2%nat.
Proof using C. intros He. destruct (C e He) as [[a [b [_ [_ [_ E]]]]] _]. rewrite E. auto. Qed.
Lemma end_vert e n : EV c e n -> has_vert c n.
Proof using W. apply (ev_vert W). Qed.
Lemma ve_ev v e : VE c v e <-> EV c e v.
Proof using W.
  destruct W as [_ [[M1 [M2 _]] [X1 [X2 _]]]]. split; intros H.
  - apply M1; auto. intros ->. apply (X1 _ H).
  - apply M2; auto. intros ->. apply (X2 _ H).
Qed.
Lemma es_se e s : ES c e s <-> SE c s e.
Proof using W V.
  destruct W as [_ [[_ [_ [M3 [M4 _]]]] [_ [_ [X3 [_ X5]]]]]]. split; intros H.
  - apply M3; auto. intros ->. apply (X5 V _ H).
  - apply M4; auto. intros ->. apply (X3 _ H).
Qed.
Lemma has_s e s : ES c e s -> has_surf c s.
Proof using W V. intros H. apply es_se in H. apply lists_has in H. exact H. Qed.

Lemma snax_in_cells_ok : exists vs, snax_in_cells k cells = Ok vs /\ forall v, In v vs <-> in_cells k cells v.
Proof using W V C I.
  pose proof W as [[_ [Us [Ue _]]] _]. destruct I as [_ [_ I3]]. unfold snax_in_cells.
  match goal with |- context [omap_list ?f cells] =>
    destruct (@omap_concat _ _ f (fun q v => exists s, In (s, q) (k_surfs k) /\ on_surface c s v) cells) as [bs [E Hb]] end.
  { intros q _.
    assert (Sib : forall p, In p (siblings q (k_surfs k)) <-> 0 <= p /\ exists s, nth_error (k_surfs k) (Z.to_nat p) = Some (s, q)).
    { intros p. unfold siblings. rewrite in_map_iff. split.
      - intros [[[s q'] p'] [<- H]]. apply filter_In in H. destruct H as [H H']. simpl in H'. apply Z.eqb_eq in H'. subst q'.
        apply combine_upto_pos in H. simpl. split; [tauto|]. exists s. tauto.
      - intros [H0 [s Hs]]. exists ((s, q), p). split; auto. apply filter_In. split; [apply combine_upto_pos; auto|]. simpl. apply Z.eqb_refl. }
    destruct (@at_list _ (surfs c) (siblings q (k_surfs k))) as [ss [Ess Hss]].
    { intros p Hp. apply Sib in Hp. destruct Hp as [H0 [s Hs]]. destruct (@nth_map_eq _ _ _ _ _ _ _ _ I3 Hs) as [b [Hb _]].
      exists b. apply at_of; auto. }
    rewrite Ess. cbn [bind].
    assert (Sf : forall x, In x ss <-> In x (surfs c) /\ In (su_index x, q) (k_surfs k)).
    { intros x. rewrite Hss. split.
      - intros [p [Hp Ep]]. apply Sib in Hp. destruct Hp as [H0 [s Hs]]. destruct (@nth_map_eq _ _ _ _ _ _ _ _ I3 Hs) as [b [Hb Ib]].
        rewrite (at_of _ H0 Hb) in Ep. injection Ep as ->. split; [eapply nth_error_In; eauto|]. simpl in Ib. rewrite Ib. eapply nth_error_In; eauto.
      - intros [Hx Hq]. apply In_nth_error in Hq. destruct Hq as [p Hp]. exists (Z.of_nat p). split.
        + apply Sib. rewrite Nat2Z.id. split; [lia|eauto].
        + destruct (@nth_map_eq _ _ _ _ _ _ _ _ I3 Hp) as [b [Hb Ib]]. simpl in Ib.
          assert (b = x) by (eapply (NoDup_idx_inj su_index (surfs c)); eauto; eapply nth_error_In; eauto). subst b.
          apply at_of; [lia|]. rewrite Nat2Z.id. auto. }
    destruct (@fetch _ ed_index (edges c) (concat (map su_edgeind ss))) as [es [Ees [Mes Hes]]].
    { intros e He. apply concat_In in He. destruct He as [x [Hx Hxe]]. apply Sf in Hx. apply (se_edge W) with (s := su_index x). exists x. tauto. }
    rewrite Ees. cbn [bind]. eexists. split; [reflexivity|]. intros v. rewrite concat_In. split.
    - intros [e [He Hv]]. assert (Hi : In (ed_index e) (concat (map su_edgeind ss))) by (rewrite <- Mes; apply in_map; auto).
      apply concat_In in Hi. destruct Hi as [x [Hx Hxe]]. apply Sf in Hx. exists (su_index x). split; [tauto|].
      exists (ed_index e). split; [exists x; tauto|exists e; auto].
    - intros [s [Hs [e [He Hv]]]]. destruct He as [x [Hx [<- Hxe]]].
      assert (Hi : In e (map ed_index es)) by (rewrite Mes; apply concat_In; exists x; split; auto; apply Sf; auto).
      apply in_map_iff in Hi. destruct Hi as [y [<- Hy]]. exists y. split; auto. apply (lists_one ed_index ed_vertind (edges c)); auto. }
  rewrite E. cbn [bind]. eexists. split; [reflexivity|]. intros v. rewrite Hb. unfold in_cells. split.
  - intros [q [Hq [s [H1 H2]]]]. exists s, q. auto.
  - intros [s [q [H1 [H2 H3]]]]. exists q. eauto.
Qed.

Variables (n : Z) (blocks : list Z).
Hypothesis L : component_labels ve_index (verts c) (share_edge c) [] n blocks.
Notation lab := (label ve_index (verts c) blocks).

Lemma lab_one v : has_vert c v -> exists b, lab v b /\ 1 <= b <= n.
Proof using L. intros H. destruct L as [_ [_ [L3 _]]]. destruct (L3 v) as [b Hb]; [apply free_all; auto|]. eauto. Qed.
Lemma lab_part u v b : has_vert c u -> has_vert c v -> lab u b -> (lab v b <-> same_part c u v).
Proof using L W.
  pose proof W as [[_ [_ [_ [Un _]]]] _]. intros Hu Hv Lu. destruct L as [_ [_ [_ [_ L5]]]].
  assert (F : forall x, free_elem ve_index (verts c) [] x <-> has_vert c x).
  { intros x. split; [intros [H _]; auto|apply free_all]. }
  assert (J : joined (free_elem ve_index (verts c) []) (share_edge c) u v <-> same_part c u v).
  { split; apply joined_ext; intros x; [|symmetry]; apply F. }
  rewrite <- J, <- (L5 u v (proj2 (F u) Hu) (proj2 (F v) Hv)). split.
  - intros Lv. exists b. auto.
  - intros [x [H1 H2]]. rewrite (label_fun Un Lu H1). auto.
Qed.

Lemma marks_ok vs : (forall v, In v vs -> has_vert c v) ->
  exists flags, mark_blocks c n blocks (0 <? o) vs = Ok flags /\ length flags = Z.to_nat n /\
    forall v b, lab v b -> 1 <= b <= n -> nth_error flags (Z.to_nat (b - 1)) =
      Some (if existsb (fun u => match at_ blocks (find ve_index (verts c) u) with Ok x => x =? b | _ => false end) vs then 0 <? o else negb (0 <? o)).
Proof using L W.
  intros Hvs. unfold mark_blocks. set (dv := 0 <? o).
  assert (Lk : forall v, has_vert c v -> exists b, at_ blocks (find ve_index (verts c) v) = Ok b /\ 1 <= b <= n).
  { intros v Hv. destruct (lab_one Hv) as [b [[p [a [H1 [H2 H3]]]] Hb]]. exists b. split; auto.
    pose proof W as [[_ [_ [_ [Un _]]]] _].
    destruct (find_spec ve_index (verts c) v) as [[_ F]|[j [x [Ej [Hx Ix]]]]]; [exfalso; apply F; auto|].
    assert (j = p). { apply (proj1 (NoDup_nth_error (map ve_index (verts c))) Un); [rewrite map_length; apply nth_error_Some; congruence|].
      rewrite !nth_error_map, Hx, H1. simpl. congruence. }
    subst j. rewrite Ej. apply at_of; [lia|]. rewrite Nat2Z.id. auto. }
  assert (G : forall l fl, (forall v, In v l -> has_vert c v) -> length fl = Z.to_nat n ->
    exists fl', for_each l (fun v fl => do b <- at_ blocks (find ve_index (verts c) v) ; modify fl (b - 1) (fun _ => dv)) fl = Ok fl' /\
      length fl' = Z.to_nat n /\
      forall b, 1 <= b <= n -> nth_error fl' (Z.to_nat (b - 1)) =
        if existsb (fun u => match at_ blocks (find ve_index (verts c) u) with Ok x => x =? b | _ => false end) l then Some dv else nth_error fl (Z.to_nat (b - 1))).
  { induction l as [|v l IH]; intros fl Hl Len; cbn [for_each].
    - exists fl. split; auto.
    - destruct (Lk v (Hl v (or_introl eq_refl))) as [b [Eb Hb]]. rewrite Eb. cbn [bind]. unfold modify.
      destruct (nth_error fl (Z.to_nat (b - 1))) as [y|] eqn:Ey; [|apply nth_error_None in Ey; lia].
      rewrite (@at_of _ fl (b - 1) _ ltac:(lia) Ey). cbn [bind].
      destruct (IH (upd fl (Z.to_nat (b - 1)) dv)) as [fl' [E' [Len' H']]]; [intros; apply Hl; right; auto|rewrite upd_length; auto|].
      exists fl'. split; auto. split; auto. intros b' Hb'. rewrite H' by auto. cbn [existsb]. rewrite Eb.
      destruct (existsb _ l); [rewrite orb_true_r; auto|]. rewrite orb_false_r. destruct (Z.eqb_spec b b') as [->|Hn].
      + apply nth_error_upd_same. lia.
      + apply nth_error_upd_other. lia. }
  destruct (G vs (repeat (negb dv) (Z.to_nat n)) Hvs (repeat_length _ _)) as [fl [E [Len H]]].
  exists fl. split; auto. split; auto. intros v b _ Hb. rewrite H by auto.
  assert (R : nth_error (repeat (negb dv) (Z.to_nat n)) (Z.to_nat (b - 1)) = Some (negb dv)).
  { destruct (nth_error (repeat (negb dv) (Z.to_nat n)) (Z.to_nat (b - 1))) as [y|] eqn:Ey.
    - apply nth_error_In, repeat_spec in Ey. congruence.
    - apply nth_error_None in Ey. rewrite repeat_length in Ey. lia. }
  rewrite R. destruct (existsb _ vs); auto.
Qed.

Variable flags : list bool.
Hypothesis Fl : forall v b, lab v b -> 1 <= b <= n -> exists d, nth_error flags (Z.to_nat (b - 1)) = Some d /\ (d = true <-> goes k cells o v).

Lemma collected : exists ls, omap_list (collect k flags) (combine (upto_pos blocks) blocks) = Ok ls /\
  (forall v, In v (concat (map (fun t => fst (fst t)) ls)) <-> goes k cells o v) /\
  (forall e, In e (concat (map (fun t => snd (fst t)) ls)) <-> exists v, goes k cells o v /\ VE c v e) /\
  (forall s, In s (concat (map snd ls)) <-> exists v e, goes k cells o v /\ VE c v e /\ ES c e s).
Proof using W L Fl I V.
  pose proof W as [[_ [_ [Ue [Un _]]]] _]. destruct I as [I1 _]. pose proof L as [Len _].
  assert (One : forall q, In q (combine (upto_pos blocks) blocks) -> exists t, collect k flags q = Ok t /\
    exists v, nth_error (verts c) (Z.to_nat (fst q)) = Some v /\
    (forall x, In x (fst (fst t)) <-> x = ve_index v /\ goes k cells o x) /\
    (forall e, In e (snd (fst t)) <-> goes k cells o (ve_index v) /\ VE c (ve_index v) e) /\
    (forall s, In s (snd t) <-> goes k cells o (ve_index v) /\ exists e, VE c (ve_index v) e /\ ES c e s)).
  { intros [p b] Hq.
    assert (Hp : 0 <= p /\ nth_error blocks (Z.to_nat p) = Some b).
    { apply combine_upto_pos. unfold upto_pos in *. clear - Hq. revert Hq. generalize 0%nat. induction blocks as [|x l IH]; intros k0 H; simpl in *; auto.
      destruct H as [H|H]; [left; congruence|right; apply IH; auto]. }
    destruct Hp as [Hp Hb].
    destruct (nth_error (verts c) (Z.to_nat p)) as [v|] eqn:Ev.
    2:{ apply nth_error_None in Ev. assert (nth_error blocks (Z.to_nat p) <> None) by congruence. apply nth_error_Some in H. lia. }
    assert (Hv : In v (verts c)) by (eapply nth_error_In; eauto).
    assert (Lv : lab (ve_index v) b) by (exists (Z.to_nat p), v; auto).
    assert (Rb : 1 <= b <= n). { destruct (@lab_one (ve_index v)) as [b' [Lb Hb']]; [exists v; auto|]. rewrite (label_fun Un Lv Lb). auto. }
    destruct (Fl Lv Rb) as [d [Ed Hd]]. unfold collect. cbn [fst snd]. rewrite (@at_of _ flags (b - 1) _ ltac:(lia) Ed). cbn [bind].
    destruct d.
    - destruct (@nth_map_eq _ _ _ _ _ _ _ _ (eq_sym I1) Ev) as [x [Hx Ix]]. rewrite (at_of _ Hp Hx), (at_of _ Hp Ev). cbn [bind].
      destruct (@fetch _ ed_index (edges c) (ve_edgeind v)) as [es [Ees [Mes Hes]]].
      { intros e He. assert (VE c (ve_index v) e) by (exists v; auto). apply ve_ev in H. apply lists_has in H. exact H. }
      rewrite Ees. cbn [bind]. eexists. split; [reflexivity|]. exists v. split; auto. cbn [fst snd].
      assert (G : goes k cells o (ve_index v)) by (apply Hd; auto).
      split; [|split].
      + intros y. simpl. rewrite Ix. split; [intros [<-|[]]; auto|intros [-> _]; auto].
      + intros e. rewrite <- (lists_one ve_index ve_edgeind (verts c) _ e Un Hv). unfold VE. tauto.
      + intros s. rewrite concat_In. split.
        * intros [e [He Hs]]. split; auto. exists (ed_index e). split; [exists v; split; auto; split; auto; rewrite <- Mes; apply in_map; auto|exists e; auto].
        * intros [_ [e [He Hs]]]. apply (lists_one ve_index ve_edgeind (verts c) _ e Un Hv) in He. rewrite <- Mes in He.
          apply in_map_iff in He. destruct He as [y [<- Hy]]. exists y. split; auto. apply (lists_one ed_index ed_surfind (edges c)); auto.
    - eexists. split; [reflexivity|]. exists v. split; auto. cbn [fst snd].
      assert (G : ~ goes k cells o (ve_index v)) by (rewrite <- Hd; discriminate).
      split; [|split]; intros y; simpl; (split; [tauto|]); intros H; exfalso; apply G; [destruct H as [<- H]; auto|tauto|tauto]. }
  assert (All_ : forall l, (forall q, In q l -> In q (combine (upto_pos blocks) blocks)) -> exists ls, omap_list (collect k flags) l = Ok ls /\
    let here := fun v => exists q x, In q l /\ nth_error (verts c) (Z.to_nat (fst q)) = Some x /\ ve_index x = v in
    (forall v, In v (concat (map (fun t => fst (fst t)) ls)) <-> here v /\ goes k cells o v) /\
    (forall e, In e (concat (map (fun t => snd (fst t)) ls)) <-> exists v, here v /\ goes k cells o v /\ VE c v e) /\
    (forall s, In s (concat (map snd ls)) <-> exists v e, here v /\ goes k cells o v /\ VE c v e /\ ES c e s)).
  { induction l as [|q l IH]; intros H; cbn [omap_list].
    - exists []. split; auto. cbn. repeat split; intros; try tauto.
      + destruct H0 as [[q [x [[] _]]] _].
      + destruct H0 as [v [[q [x [[] _]]] _]].
      + destruct H0 as [v [e [[q [x [[] _]]] _]]].
    - destruct (One q (H q (or_introl eq_refl))) as [t [Et [x [Ex [T1 [T2 T3]]]]]]. rewrite Et. cbn [bind].
      destruct IH as [ls [Els [S1 [S2 S3]]]]; [intros; apply H; right; auto|]. rewrite Els. cbn [bind].
      eexists. split; [reflexivity|]. cbn zeta in *. cbn [map concat].
      set (h1 := fun v => exists q0 x0, In q0 l /\ nth_error (verts c) (Z.to_nat (fst q0)) = Some x0 /\ ve_index x0 = v) in *.
      assert (Hh : forall v, (exists q0 x0, In q0 (q :: l) /\ nth_error (verts c) (Z.to_nat (fst q0)) = Some x0 /\ ve_index x0 = v) <-> v = ve_index x \/ h1 v).
      { intros v. split.
        - intros [q0 [x0 [[<-|Hq0] [A B]]]]; [left; congruence|right; exists q0, x0; auto].
        - intros [->|[q0 [x0 [A B]]]]; [exists q, x; simpl; auto|exists q0, x0; simpl; tauto]. }
      split; [|split].
      + intros v. rewrite in_app_iff, T1, S1, Hh. intuition congruence.
      + intros e. rewrite in_app_iff, T2, S2. split.
        * intros [[A B]|[v [A B]]]; [exists (ve_index x)|exists v]; rewrite Hh; auto.
        * intros [v [A B]]. rewrite Hh in A. destruct A as [->|A]; [left; auto|right; exists v; auto].
      + intros s. rewrite in_app_iff, T3, S3. split.
        * intros [[A [e B]]|[v [e [A B]]]]; [exists (ve_index x), e|exists v, e]; rewrite Hh; auto.
        * intros [v [e [A B]]]. rewrite Hh in A. destruct A as [->|A]; [left; split; [tauto|exists e; tauto]|right; exists v, e; auto]. }
  destruct (All_ _ (fun q Hq => Hq)) as [ls [E [S1 [S2 S3]]]]. exists ls. split; auto. cbn zeta in *.
  assert (Here : forall v, goes k cells o v -> exists q x, In q (combine (upto_pos blocks) blocks) /\ nth_error (verts c) (Z.to_nat (fst q)) = Some x /\ ve_index x = v).
  { intros v [[x [Hx Ix]] _]. apply In_nth_error in Hx. destruct Hx as [p Hp].
    destruct (nth_error blocks p) as [b|] eqn:Eb.
    2:{ apply nth_error_None in Eb. assert (nth_error (verts c) p <> None) by congruence. apply nth_error_Some in H. lia. }
    exists (Z.of_nat p, b), x. simpl. rewrite Nat2Z.id. split; auto.
    assert (Q : In (b, Z.of_nat p) (combine blocks (upto_pos blocks))) by (apply combine_upto_pos; rewrite Nat2Z.id; split; [lia|auto]).
    revert Q. clear. generalize (Z.of_nat p). unfold upto_pos. generalize 0%nat. induction blocks as [|y l IH]; intros k0 z H; simpl in *; auto.
    destruct H as [H|H]; [left; congruence|right; apply IH; auto]. }
  split; [|split].
  - intros v. rewrite S1. split; [tauto|]. intros G. auto.
  - intros e. rewrite S2. split; [intros [v H]; exists v; tauto|intros [v [G H]]; exists v; auto].
  - intros s. rewrite S3. split; [intros [v [e H]]; exists v, e; tauto|intros [v [e [G H]]]; exists v, e; auto].
Qed.
End One.

Lemma removes3e Ls : forall m m', well_connected m -> (forall i, In i Ls -> has_surf m i) ->
  for_each Ls (fun v m => remove_index 3 v m) m = Ok m' -> map ed_vertind (edges m') = map ed_vertind (edges m).
Proof.
  induction Ls as [|i r IH]; intros m m' W HL E; cbn [for_each] in E; [injection E as <-; auto|].
  destruct (@wc_remove3 m i W) as [m1 [E1 [O1 [R1 S1]]]]; [apply HL; left; auto|].
  destruct (@remove3_spec m i W) as [m2 [E2 [_ [_ [Q _]]]]]; [apply HL; left; auto|].
  assert (W1 : well_connected m1).
  { eapply restr_wc; eauto; [eapply objs_unique; eauto; apply W|apply objs_volus; auto]. }
  rewrite E1 in E. cbn [bind] in E. change (remove_index 3 i m) with (remove3 i m) in E1. rewrite E1 in E2. injection E2 as <-.
  rewrite <- Q. apply IH; auto. intros x Hx. apply (objs_has O1). apply HL. right; auto.
Qed.
Lemma two_sorted l a b : StronglySorted Z.lt l -> a <> b -> (forall x, In x l <-> x = a \/ x = b) -> exists x y, x <> y /\ l = [x; y] /\ (x = a \/ x = b) /\ (y = a \/ y = b).
Proof.
  intros Hs Hab H. destruct l as [|x [|y [|z r]]].
  - exfalso. apply (proj2 (H a)); auto.
  - exfalso. assert (A : In a [x]) by (apply H; auto). assert (B : In b [x]) by (apply H; auto). simpl in *. intuition congruence.
  - inversion Hs as [|? ? _ F]; subst. inversion F; subst. exists x, y. repeat split; [lia| |]; apply H; simpl; auto.
  - exfalso. inversion Hs as [|? ? Hs' F]; subst. inversion F as [|? ? F1 F2]; subst. inversion F2; subst.
    inversion Hs' as [|? ? _ F']; subst. inversion F'; subst.
    assert (x = a \/ x = b) by (apply H; simpl; auto). assert (y = a \/ y = b) by (apply H; simpl; auto). assert (z = a \/ z = b) by (apply H; simpl; auto). lia.
Qed.
Lemma drop_map A B (f : A -> Z) (g : B -> Z) d l : forall l', map f l = map g l' -> map f (drop f d l) = map g (drop g d l').
Proof.
  induction l as [|a l IH]; intros [|b l'] E; simpl in *; try discriminate; auto. injection E as E1 E2. rewrite E1.
  destruct (negb _); simpl; [rewrite E1; f_equal|]; apply IH; auto.
Qed.
Lemma drop_In A (f : A -> Z) d l a : In a (drop f d l) <-> In a l /\ ~ In (f a) d.
Proof. unfold drop. rewrite filter_In, negb_true_iff, mem_z_not_In. tauto. Qed.

Section Two.
Variable N : num.
Variables (k : snake N) (cells : list Z) (o : Z).
Notation c := (k_conn k).
Hypothesis W : well_connected c.
Hypothesis V : volus c <> [].
Hypothesis C : closed c.
Hypothesis I : in_step k.
Hypothesis Wh : whole c.
Notation gone := (goes k cells o).

Lemma goes_part u v : same_part c u v -> gone u -> gone v.
Proof.
  intros S0 [G1 G2]. split; [apply (joined_ends S0)|].
  assert (E : part_in_cells k cells u <-> part_in_cells k cells v).
  { split; intros [w [H1 H2]]; exists w; split; auto; eapply joined_trans; eauto. apply joined_sym; auto. }
  destruct (0 <? o); rewrite <- E; auto.
Qed.
Definition goneE e := exists v, gone v /\ VE c v e.
Definition goneS s := exists v, gone v /\ on_surface c s v.
Lemma goneE_end e v : EV c e v -> (goneE e <-> gone v).
Proof using W.
  intros H. split.
  - intros [u [G Hu]]. apply (ve_ev k W) in Hu. eapply goes_part; [|exact G]. eapply joined_edge; eauto; [apply G|apply (ev_vert W H)].
  - intros G. exists v. split; auto. apply (ve_ev k W). auto.
Qed.
Lemma goneS_corner s v : on_surface c s v -> (goneS s <-> gone v).
Proof using W Wh.
  intros H. split.
  - intros [u [G Hu]]. eapply goes_part; [|exact G]. assert (Hs : has_surf c s) by (destruct H as [e [He _]]; apply lists_has in He; exact He).
    destruct (Wh Hs) as [_ Q]. apply Q; auto.
  - intros G. exists v. auto.
Qed.

Lemma parts_gone : exists n blocks flags vs ls, snax_in_cells k cells = Ok vs /\ connected_vertex c [] = Ok (n, blocks) /\
  mark_blocks c n blocks (0 <? o) vs = Ok flags /\ omap_list (collect k flags) (combine (upto_pos blocks) blocks) = Ok ls /\
  (forall v, In v (concat (map (fun t => fst (fst t)) ls)) <-> gone v) /\
  (forall e, In e (concat (map (fun t => snd (fst t)) ls)) <-> goneE e) /\
  (forall s, In s (concat (map snd ls)) <-> goneS s).
Proof using W V C I.
  pose proof W as [[_ [_ [_ [Un _]]]] _].
  destruct (@snax_in_cells_ok N k cells W V C I) as [vs [Ev Hv]].
  destruct (@C19_connected_vertices c [] W (two k C)) as [n [blocks [Ec L]]]; [auto|].
  assert (Hvs : forall v, In v vs -> has_vert c v). { intros v H. apply Hv in H. destruct H as [s [q [_ [_ [e [_ H]]]]]]. apply (ev_vert W H). }
  destruct (@marks_ok N k o W n blocks L vs Hvs) as [flags [Em [Len Hf]]].
  assert (Fl : forall v b, label ve_index (verts c) blocks v b -> 1 <= b <= n -> exists d, nth_error flags (Z.to_nat (b - 1)) = Some d /\ (d = true <-> gone v)).
  { intros v b Lv Hb. eexists. split; [apply (Hf v b Lv Hb)|].
    assert (Hvv : has_vert c v) by (destruct Lv as [p [a [H1 [H2 _]]]]; exists a; split; auto; eapply nth_error_In; eauto).
    assert (P : existsb (fun u => match at_ blocks (find ve_index (verts c) u) with Ok x => x =? b | _ => false end) vs = true <-> part_in_cells k cells v).
    { rewrite existsb_exists.
      assert (At : forall u, has_vert c u -> forall x, at_ blocks (find ve_index (verts c) u) = Ok x <-> label ve_index (verts c) blocks u x).
      { intros u Hu x. destruct (find_spec ve_index (verts c) u) as [[_ F]|[j [y [Ej [Hy Iy]]]]]; [exfalso; apply F; auto|].
        rewrite Ej, <- Iy. rewrite (@label_at _ ve_index (verts c) Un j y blocks x Hy). unfold at_. destruct (Z.ltb_spec (Z.of_nat j) 0); [lia|].
        rewrite Nat2Z.id. destruct (nth_error blocks j) as [z|]; split; intros Q; try discriminate; congruence. }
      split.
      - intros [u [Hu Q]]. destruct (at_ blocks (find ve_index (verts c) u)) as [x| | |] eqn:Ex; try discriminate. apply Z.eqb_eq in Q. subst x.
        apply At in Ex; [|auto]. exists u. split; [|apply Hv; auto]. apply (lab_part k W L Hvv (Hvs u Hu) Lv). auto.
      - intros [u [Hs Hc]]. exists u. split; [apply Hv; auto|]. assert (Hu : has_vert c u) by (apply (joined_ends Hs)).
        apply (lab_part k W L Hvv Hu Lv) in Hs. apply At in Hs; auto. rewrite Hs. apply Z.eqb_refl. }
    unfold goes. revert P. generalize (existsb (fun u => match at_ blocks (find ve_index (verts c) u) with Ok x => x =? b | _ => false end) vs).
    intros t P. destruct (0 <? o), t; cbn [negb]; intuition discriminate. }
  destruct (@collected N k cells o W V I n blocks L flags Fl) as [ls [El [S1 [S2 S3]]]].
  exists n, blocks, flags, vs, ls. repeat (split; [assumption|]).
  intros s. rewrite S3. unfold goneS, on_surface. split.
  - intros [v [e [G [A B]]]]. exists v. split; auto. exists e. split; [apply (es_se k W V); auto|apply (ve_ev k W); auto].
  - intros [v [G [e [A B]]]]. exists v, e. split; auto. split; [apply (ve_ev k W); auto|apply (es_se k W V); auto].
Qed.

(** What is left. *)
Definition left_over (k' : snake N) : Prop :=
  (forall x, In x (k_snaxs k') <-> In x (k_snaxs k) /\ ~ gone (sx_index x)) /\
  (forall p, In p (k_edges k') <-> In p (k_edges k) /\ ~ goneE (fst p)) /\
  (forall p, In p (k_surfs k') <-> In p (k_surfs k) /\ ~ goneS (fst p)) /\
  (forall v, has_vert (k_conn k') v <-> has_vert c v /\ ~ gone v) /\
  (forall v e, VE (k_conn k') v e <-> VE c v e /\ ~ gone v) /\
  (forall e v, EV (k_conn k') e v <-> EV c e v /\ ~ gone v) /\
  (forall e s, ES (k_conn k') e s <-> ES c e s /\ ~ goneE e) /\
  (forall s e, SE (k_conn k') s e <-> SE c s e /\ ~ goneE e) /\
  well_connected (k_conn k') /\ closed (k_conn k') /\ in_step k' /\ meshDim (k_conn k') = meshDim c /\
  exists cell, (forall b, has_volu (k_conn k') b <-> exists v, has_vert (k_conn k') v /\ cell v = b) /\
    (forall u v, has_vert (k_conn k') u -> has_vert (k_conn k') v -> (cell u = cell v <-> same_part c u v)) /\
    (forall s v, In s (surfs (k_conn k')) -> on_surface (k_conn k') (su_index s) v -> su_voluind s = [cell v; 0]).

Lemma remove_parts_ok : exists k', remove_parts k cells o = Ok k' /\ left_over k' /\ k_in k' = k_in k /\ k_flipped k' = k_flipped k.
Proof using W V C I Wh.
  destruct parts_gone as [n [blocks [flags [vs [ls [E1 [E2 [E3 [E4 [G1 [G2 G3]]]]]]]]]]].
  unfold remove_parts. rewrite E1. cbn [bind]. rewrite E2. cbn [bind]. rewrite E3. cbn [bind]. rewrite E4. cbn [bind].
  set (dn := concat (map (fun t => fst (fst t)) ls)) in *. set (de := concat (map (fun t => snd (fst t)) ls)) in *. set (ds := concat (map snd ls)) in *.
  assert (T1 : forall v, In v (tighten dn) <-> gone v) by (intros; rewrite tighten_In; auto).
  assert (T2 : forall v, In v (tighten de) <-> goneE v) by (intros; rewrite tighten_In; auto).
  assert (T3 : forall v, In v (tighten ds) <-> goneS v) by (intros; rewrite tighten_In; auto).
  assert (Hds : forall s, In s ds -> has_surf c s). { intros s Hs. apply G3 in Hs. destruct Hs as [v [_ [e [He _]]]]. apply lists_has in He. exact He. }
  destruct (@removes3 ds c W Hds) as [c1 [Er [W1 [O1 [R1 S1]]]]]. rewrite Er. cbn [bind].
  pose proof (@removes3e ds c c1 W Hds Er) as Ev.
  destruct O1 as [O1a [O1b [O1c [O1d O1e]]]]. destruct R1 as [A1 [A2 [A3 [A4 [A5 A6]]]]].
  set (cd := mkMesh (volus c1) (drop su_index (tighten ds) (surfs c1)) (drop ed_index (tighten de) (edges c1)) (drop ve_index (tighten dn) (verts c1)) (meshDim c1)).
  (* the edges keep their ends *)
  assert (Two1 : forall e, In e (edges c1) -> exists e0, In e0 (edges c) /\ ed_index e0 = ed_index e /\ ed_vertind e0 = ed_vertind e).
  { intros e He. apply In_nth_error in He. destruct He as [p Hp].
    destruct (nth_error (edges c) p) as [e0|] eqn:E0.
    - exists e0. split; [eapply nth_error_In; eauto|]. split.
      + assert (Q : nth_error (map ed_index (edges c1)) p = nth_error (map ed_index (edges c)) p) by (rewrite O1c; auto).
        rewrite !nth_error_map, Hp, E0 in Q. cbn in Q. congruence.
      + assert (Q : nth_error (map ed_vertind (edges c1)) p = nth_error (map ed_vertind (edges c)) p) by (rewrite Ev; auto).
        rewrite !nth_error_map, Hp, E0 in Q. cbn in Q. congruence.
    - exfalso. assert (Q : length (map ed_index (edges c1)) = length (map ed_index (edges c))) by (rewrite O1c; auto).
      rewrite !map_length in Q. apply nth_error_None in E0. assert (nth_error (edges c1) p <> None) by congruence. apply nth_error_Some in H. lia. }
  assert (Twod : forall e, In e (edges cd) -> length (ed_vertind e) = 2%nat).
  { intros e He. apply drop_In in He. destruct He as [He _]. destruct (Two1 e He) as [e0 [H1 [_ H2]]]. rewrite <- H2. apply (two k C e0 H1). }
  rewrite (@mesh_tighten_Ok cd) by (intros e He; rewrite (Twod e He); auto). cbn [bind].
  set (c2 := tightened cd) in *.
  destruct (tightened_refs cd) as [B1 [B2 [B3 [B4 [B5 B6]]]]]. fold c2 in B1, B2, B3, B4, B5, B6.
  assert (Ob : objs cd c2) by (apply same_objs, tightened_objects).
  destruct (objs_has Ob) as [Hbv [Hbs [Hbe Hbn]]].
  (* references *)
  assert (K1 : forall v e, VE c2 v e <-> VE c v e /\ ~ gone v).
  { intros v e. rewrite B1. unfold VE at 1. cbn [verts cd]. rewrite drop_lists, T1. fold (VE c1 v e). rewrite A1. unfold T. tauto. }
  assert (K2 : forall e v, EV c2 e v <-> EV c e v /\ ~ gone v).
  { intros e v. rewrite B2. unfold EV at 1. cbn [edges cd]. rewrite drop_lists, T2. fold (EV c1 e v). rewrite A2. unfold T. split.
    - intros [[H _] Hn]. split; auto. rewrite <- (goneE_end H). auto.
    - intros [H Hn]. split; [tauto|]. rewrite (goneE_end H). auto. }
  assert (Esn : forall e s, ES c e s -> has_edge c e) by (intros e s H; apply lists_has in H; exact H).
  assert (EndOf : forall e, has_edge c e -> exists v, EV c e v).
  { intros e [x [Hx <-]]. destruct (C x Hx) as [[a [b [_ [_ [_ Q]]]]] _]. exists a. exists x. rewrite Q. simpl. auto. }
  assert (ESg : forall e s, ES c e s -> (goneE e <-> goneS s)).
  { intros e s H. destruct (EndOf e (Esn e s H)) as [v Hv]. rewrite (goneE_end Hv). symmetry. apply goneS_corner. exists e. split; auto. apply (es_se k W V). auto. }
  assert (K3 : forall e s, ES c2 e s <-> ES c e s /\ ~ goneE e).
  { intros e s. rewrite B3. unfold ES at 1. cbn [edges cd]. rewrite drop_lists, T2. fold (ES c1 e s). rewrite A3, G3. unfold T. split.
    - tauto.
    - intros [H Hn]. rewrite <- (ESg e s H). tauto. }
  assert (K4 : forall s e, SE c2 s e <-> SE c s e /\ ~ goneE e).
  { intros s e. rewrite B4. unfold SE at 1. cbn [surfs cd]. rewrite drop_lists, T3. fold (SE c1 s e). rewrite A4, G3. unfold T. split.
    - intros [[H [_ _]] Hn]. split; auto. rewrite (ESg e s); auto. apply (es_se k W V). auto.
    - intros [H Hn]. rewrite (ESg e s) in Hn by (apply (es_se k W V); auto). tauto. }
  assert (PV : forall v, has_vert c2 v <-> has_vert c v /\ ~ gone v).
  { intros v. rewrite Hbn. unfold has_vert at 1. cbn [verts cd]. rewrite drop_has, T1.
    assert (Q : (exists a, In a (verts c1) /\ ve_index a = v) <-> has_vert c v) by (change (has_vert c1 v <-> has_vert c v); rewrite !has_vert_In, O1d; tauto).
    rewrite Q. tauto. }
  assert (PEd : forall e, has_edge c2 e <-> has_edge c e /\ ~ goneE e).
  { intros v. rewrite Hbe. unfold has_edge at 1. cbn [edges cd]. rewrite drop_has, T2.
    assert (Q : (exists a, In a (edges c1) /\ ed_index a = v) <-> has_edge c v) by (change (has_edge c1 v <-> has_edge c v); rewrite !has_edge_In, O1c; tauto).
    rewrite Q. tauto. }
  assert (PSu : forall e, has_surf c2 e <-> has_surf c e /\ ~ goneS e).
  { intros v. rewrite Hbs. unfold has_surf at 1. cbn [surfs cd]. rewrite drop_has, T3.
    assert (Q : (exists a, In a (surfs c1) /\ su_index a = v) <-> has_surf c v) by (change (has_surf c1 v <-> has_surf c v); rewrite !has_surf_In, O1b; tauto).
    rewrite Q. tauto. }
  (* the mesh that is closed again *)
  assert (Vol2 : volus c2 <> []).
  { intros Q. apply V. assert (map vo_index (volus c2) = map vo_index (volus c)) by (destruct Ob as [-> _]; exact O1a). rewrite Q in H. destruct (volus c); [auto|discriminate]. }
  assert (W2 : well_connected c2).
  { assert (Ud : unique_indices cd).
    { pose proof W1 as [[U1 [U2 [U3 [U4 [Z1 [Z2 [Z3 Z4]]]]]]] _]. unfold unique_indices. cbn [volus surfs edges verts cd].
      repeat (split; [first [exact U1 | apply drop_NoDup; assumption]|]). unfold has_volu, has_surf, has_edge, has_vert. cbn [volus surfs edges verts cd].
      rewrite !drop_has. split; [exact Z1|]. split; [intros [Q _]; exact (Z2 Q)|]. split; [intros [Q _]; exact (Z3 Q)|intros [Q _]; exact (Z4 Q)]. }
    apply (@restr_wc c c2 (fun v => ~ gone v) (fun e => ~ goneE e) (fun s => ~ goneS s) T W).
    - apply (objs_unique Ob Ud).
    - auto.
    - unfold T. repeat apply conj.
      + intros v e. rewrite K1. split; [|tauto]. intros [H Hn]. split; auto. split; auto. rewrite (@goneE_end e v); auto. apply (ve_ev k W). auto.
      + intros e v. rewrite K2. split; [|tauto]. intros [H Hn]. split; auto. split; auto. rewrite (goneE_end H). auto.
      + intros e s. rewrite K3. split; [|tauto]. intros [H Hn]. split; auto. split; auto. rewrite <- (ESg e s H). auto.
      + intros s e. rewrite K4. split; [|tauto]. intros [H Hn]. split; auto. split; auto. rewrite <- (ESg e s); auto. apply (es_se k W V). auto.
      + intros s v _. rewrite B5. unfold SV at 1. cbn [surfs cd]. rewrite drop_lists, T3. fold (SV c1 s v). rewrite S1, G3. tauto.
      + intros v s. rewrite B6. unfold VS at 1. cbn [volus cd]. fold (VS c1 v s). rewrite A6, G3. unfold T. tauto. }
  assert (Ed2 : forall e, In e (edges c2) -> exists e0, In e0 (edges c) /\ ed_index e0 = ed_index e /\ ed_vertind e0 = ed_vertind e /\ StronglySorted Z.lt (ed_surfind e)).
  { intros e He. unfold c2, tightened in He. cbn [edges] in He. apply in_map_iff in He. destruct He as [e1 [<- He]].
    apply drop_In in He. destruct He as [He _]. destruct (Two1 e1 He) as [e0 [H1 [H2 H3]]]. exists e0. split; auto. split; [exact H2|]. split; [exact H3|].
    apply tighten_strict. }
  assert (Two2 : forall e, In e (edges c2) -> length (ed_vertind e) = 2%nat).
  { intros e He. destruct (Ed2 e He) as [e0 [H1 [_ [H2 _]]]]. rewrite <- H2. apply (two k C e0 H1). }
  assert (Cl2 : closed c2).
  { intros e He. destruct (Ed2 e He) as [e0 [H1 [H2 [H3 H4]]]]. destruct (C e0 H1) as [Q1 [a [b [Hab [Ha [Hb Q]]]]]].
    rewrite <- H3. split; [exact Q1|].
    assert (Hx : forall x, In x (ed_surfind e) <-> x = a \/ x = b).
    { intros x. pose proof W2 as [[_ [_ [Ue2 _]]] _]. rewrite <- (@lists_one _ ed_index ed_surfind (edges c2) e x Ue2 He). fold (ES c2 (ed_index e) x). rewrite K3.
      pose proof W as [[_ [_ [Ue _]]] _]. unfold ES. rewrite <- H2, (@lists_one _ ed_index ed_surfind (edges c) e0 x Ue H1), Q.
      assert (Hn : ~ goneE (ed_index e0)) by (rewrite H2; apply PEd; exists e; auto). simpl. intuition auto. }
    destruct (two_sorted H4 Hab Hx) as [x [y [Hxy [-> [X Y]]]]]. exists x, y. split; auto. split; [intuition congruence|]. split; [intuition congruence|auto]. }
  assert (J2 : forall u v, has_vert c2 u -> (joined (has_vert c2) (share_edge c2) u v <-> same_part c u v)).
  { intros u v Hu. split.
    - clear Hu. induction 1 as [u Hu|u v w H IH [e [Q1 Q2]] Hw]; [constructor; apply PV; auto|].
      eapply joined_step; [exact IH| |apply PV; exact Hw]. exists e. split; apply K2; auto.
    - intros H. assert (Hg : ~ gone u) by (apply PV; auto). clear Hu. unfold same_part in H. induction H as [u Hu|u v w H IH [e [Q1 Q2]] Hw].
      + constructor. apply PV. auto.
      + assert (Gv : ~ gone v). { intros Q. apply Hg. eapply goes_part; [|exact Q]. apply joined_sym. exact H. }
        assert (Gw : ~ gone w). { rewrite <- (goneE_end Q2), (goneE_end Q1). auto. }
        eapply joined_step; [exact (IH Hg)| |apply PV; auto]. exists e. split; apply K2; auto. }
  destruct (@C54_close_3d c2 W2 Vol2 Two2) as [c3 [n3 [bl3 [Ef [L3 [Fv [Fs [Fi [Fe [Fn [Fd [Fm _]]]]]]]]]]]].
  rewrite Ef. cbn [bind]. eexists. split; [reflexivity|]. split; [|split; reflexivity].
  assert (Fsi : map su_index (surfs c3) = map su_index (surfs c2)).
  { transitivity (map su_index (map (su_set_voluind []) (surfs c3))); [rewrite map_map; reflexivity|]. rewrite Fm, map_map. reflexivity. }
  assert (Fse : map su_edgeind (surfs c3) = map su_edgeind (surfs c2)).
  { transitivity (map su_edgeind (map (su_set_voluind []) (surfs c3))); [rewrite map_map; reflexivity|]. rewrite Fm, map_map. reflexivity. }
  assert (SE3 : forall s e, SE c3 s e <-> SE c2 s e) by (intros; unfold SE; apply lists_maps; auto).
  assert (VE3 : forall v e, VE c3 v e <-> VE c2 v e) by (intros; unfold VE; rewrite Fn; tauto).
  assert (EV3 : forall e v, EV c3 e v <-> EV c2 e v) by (intros; unfold EV; rewrite Fe; tauto).
  assert (ES3 : forall e s, ES c3 e s <-> ES c2 e s) by (intros; unfold ES; rewrite Fe; tauto).
  assert (OS3 : forall s v, on_surface c3 s v <-> on_surface c2 s v).
  { intros s v. split; intros [e [Q1 Q2]]; exists e; (split; [apply SE3|apply EV3]); auto. }
  assert (OSc : forall s v, on_surface c2 s v -> on_surface c s v).
  { intros s v [e [Q1 Q2]]. exists e. split; [apply K4; auto|apply K2; auto]. }
  assert (HV3 : forall v, has_vert c3 v <-> has_vert c2 v) by (intros; unfold has_vert; rewrite Fn; tauto).
  assert (Un2 : NoDup (map ve_index (verts c2))) by (destruct W2 as [[_ [_ [_ [U _]]]] _]; auto).
  assert (Lab : forall v, has_vert c2 v -> exists b, label ve_index (verts c2) bl3 v b /\ 1 <= b <= n3).
  { intros v Hv. destruct L3 as [_ [_ [Q _]]]. apply Q. apply free_all. auto. }
  assert (Sj : forall s, In s (surfs c3) -> (exists v, on_surface c2 (su_index s) v) /\
             forall v, on_surface c2 (su_index s) v -> exists b, label ve_index (verts c2) bl3 v b /\ su_voluind s = [b; 0]).
  { intros s Hs. assert (H2 : has_surf c2 (su_index s)) by (apply has_surf_In; rewrite <- Fsi; apply in_map; auto). apply PSu in H2. destruct H2 as [Hc Hg].
    destruct (Wh Hc) as [[v Hv] Q].
    assert (On : forall v, on_surface c (su_index s) v -> on_surface c2 (su_index s) v).
    { intros w [e [Q1 Q2]]. assert (Hw : ~ gone w) by (rewrite <- (@goneS_corner (su_index s) w); [auto|exists e; auto]).
      exists e. split; [apply K4; split; auto; rewrite (goneE_end Q2); auto|apply K2; auto]. }
    split; [exists v; auto|]. apply Fi; auto. intros a b Ha Hb. apply J2.
    - destruct Ha as [e [_ Ha]]. apply (ev_vert W2 Ha).
    - apply Q; auto. }
  set (cell := fun v => match at_ bl3 (find ve_index (verts c2) v) with Ok b => b | _ => 0 end).
  assert (Cell : forall v b, has_vert c2 v -> (label ve_index (verts c2) bl3 v b <-> cell v = b)).
  { intros v b Hv. unfold cell. destruct (find_spec ve_index (verts c2) v) as [[_ F]|[j [y [Ej [Hy Iy]]]]]; [exfalso; apply F; auto|].
    rewrite Ej, <- Iy. rewrite (@label_at _ ve_index (verts c2) Un2 j y bl3 b Hy). unfold at_. destruct (Z.ltb_spec (Z.of_nat j) 0); [lia|].
    rewrite Nat2Z.id. destruct (nth_error bl3 j) as [z|] eqn:Ez; [split; congruence|]. exfalso. apply nth_error_None in Ez. destruct L3 as [Le _].
    assert (nth_error (verts c2) j <> None) by congruence. apply nth_error_Some in H0. lia. }
  assert (Csame : forall u v, has_vert c2 u -> has_vert c2 v -> (cell u = cell v <-> same_part c u v)).
  { intros u v Hu Hv. rewrite <- (J2 u v Hu). destruct L3 as [_ [_ [_ [_ L5]]]].
    pose proof (L5 u v (free_all _ _ Hu) (free_all _ _ Hv)) as Q.
    assert (J : joined (has_vert c2) (share_edge c2) u v <-> joined (free_elem ve_index (verts c2) []) (share_edge c2) u v).
    { split; apply joined_ext; intros x; (split; [|]); intros Hx; try (apply free_all; exact Hx); destruct Hx as [Hx _]; exact Hx. }
    rewrite J, <- Q. split.
    - intros E. exists (cell u). split; apply Cell; auto.
    - intros [x [X1 X2]]. apply Cell in X1; auto. apply Cell in X2; auto. congruence. }
  assert (HVo : forall b, has_volu c3 b <-> exists v, has_vert c3 v /\ cell v = b).
  { intros b. rewrite has_volu_In, Fv, upto_In. destruct L3 as [_ [_ [Q1 [Q2 _]]]]. split.
    - intros Hb. destruct (Q2 b) as [v [[Hv _] Lv]]; [lia|]. exists v. rewrite HV3. split; auto. apply Cell; auto.
    - intros [v [Hv <-]]. apply HV3 in Hv. destruct (Lab v Hv) as [b [Lb Hb]]. apply Cell in Lb; auto. lia. }
  assert (SVs : forall s v, In s (surfs c3) -> on_surface c3 (su_index s) v -> su_voluind s = [cell v; 0]).
  { intros s v Hs Hv. apply OS3 in Hv. destruct (Sj s Hs) as [_ Q]. destruct (Q v Hv) as [b [Lb ->]]. apply Cell in Lb; [congruence|].
    destruct Hv as [e [_ Hv]]. apply (ev_vert W2 Hv). }
  unfold left_over. cbn [k_snaxs k_edges k_surfs k_conn].
  assert (Us3 : NoDup (map su_index (surfs c3))) by (rewrite Fsi; destruct W2 as [[_ [U _]] _]; auto).
  split; [intros x; rewrite drop_In, T1; tauto|]. split; [intros x; rewrite drop_In, T2; tauto|]. split; [intros x; rewrite drop_In, T3; tauto|].
  split; [intros v; rewrite HV3; apply PV|]. split; [intros; rewrite VE3; apply K1|]. split; [intros; rewrite EV3; apply K2|].
  split; [intros; rewrite ES3; apply K3|]. split; [intros; rewrite SE3; apply K4|]. split; [|split; [|split; [|split; [|exists cell; split; [exact HVo|split; [|exact SVs]]]]]].
  - (* well connected *)
    pose proof W2 as [[_ [Us2 [Ue2 [_ [_ [Zs [Ze Zn]]]]]]] [[M1 [M2 [M3 [M4 _]]]] [X1 [X2 [X3 [_ X5]]]]]].
    split; [|split].
    + unfold unique_indices. rewrite Fv, Fsi, Fe, Fn. split; [apply upto_NoDup|]. split; auto. split; auto. split; auto.
      split; [rewrite has_volu_In, Fv, upto_In; lia|]. split; [rewrite has_surf_In, Fsi, <- has_surf_In; auto|]. unfold has_edge, has_vert. rewrite Fe, Fn. split; auto.
    + unfold mutual. repeat apply conj.
      * intros v e. rewrite VE3, EV3. apply M1.
      * intros v e. rewrite VE3, EV3. apply M2.
      * intros v e. rewrite ES3, SE3. apply M3.
      * intros v e. rewrite ES3, SE3. apply M4.
      * intros s b [x [Hx [<- Hb]]] Hz. destruct (Sj x Hx) as [[v Hv] Q]. destruct (Q v Hv) as [b' [Lb Eb]]. rewrite Eb in Hb. destruct Hb as [<-|[<-|[]]]; [|congruence].
        apply Fs. destruct Hv as [e [Q1 Q2]]. exists v, e. split; auto. split; [apply (M2 _ _ Q2); intros ->; apply (X2 _ Q2)|apply (M4 _ _ Q1); intros ->; apply (X3 _ Q1)].
      * intros s b Hb Hz. apply Fs in Hb. destruct Hb as [v [e [Lb [Q1 Q2]]]].
        assert (Q1' : EV c2 e v) by (apply M1; auto; intros ->; apply (X1 _ Q1)). assert (Q2' : SE c2 s e) by (apply M3; auto).
        assert (Hs3 : has_surf c3 s). { rewrite has_surf_In, Fsi, <- has_surf_In. apply lists_has in Q2'. exact Q2'. }
        destruct Hs3 as [x [Hx <-]]. destruct (Sj x Hx) as [_ Q]. destruct (Q v) as [b' [Lb' Eb]]; [exists e; auto|].
        exists x. split; auto. split; auto. rewrite Eb, (label_fun Un2 Lb Lb'). left. auto.
    + unfold exterior_only. repeat apply conj; intros.
      * rewrite VE3. auto.
      * rewrite EV3. auto.
      * rewrite SE3. auto.
      * intros Q. apply Fs in Q. destruct Q as [u [e [_ [_ Q]]]]. apply (X5 Vol2 _ Q).
      * rewrite ES3. auto.
  - unfold closed. rewrite Fe. exact Cl2.
  - destruct I as [I1 [I2 I3]]. unfold in_step. cbn [k_snaxs k_edges k_surfs k_conn]. destruct Ob as [_ [Ob2 [Ob3 [Ob4 _]]]].
    rewrite Fe, Fn, Fsi, Ob2, Ob3, Ob4. cbn [surfs edges verts cd].
    split; [|split]; apply drop_map; congruence.
  - rewrite Fd. destruct Ob as [_ [_ [_ [_ ->]]]]. exact O1e.
  - intros u v Hu Hv. apply HV3 in Hu. apply HV3 in Hv. apply Csame; auto.
Qed.
End Two.
