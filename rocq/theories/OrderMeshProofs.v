(** Edge ordering on a mesh. *)
From Verif Require Import Base Containers ContainersProofs Mesh SpecMesh MeshProofs FloodProofs Order SpecOrder OrderProofs.
Set Implicit Arguments.
Open Scope Z_scope.

Lemma reach_mono A (R S : A -> A -> Prop) : (forall x y, R x y -> S x y) -> forall x y, reach R x y -> reach S x y.
Proof. intros H x y. induction 1; [constructor|]. econstructor; eauto. Qed.

Definition entry (m : mesh) (e : Z) (x : edge) :=
  In x (edges m) /\ ed_index x = e /\ exists a b, ed_vertind x = [a; b].

Lemma pairs_len m l es : Forall2 (entry m) l es -> length (flat_map ed_vertind es) = (2 * length l)%nat.
Proof.
  induction 1 as [|e x l es [_ [_ [a [b E]]]] H IH]; auto. simpl. rewrite app_length, E, IH. simpl. lia.
Qed.
Lemma pairs_pos m l es : Forall2 (entry m) l es -> forall p e, nth_error l p = Some e ->
  exists a b, edge_is m e a b /\ nth_error (flat_map ed_vertind es) (2 * p) = Some a /\
    nth_error (flat_map ed_vertind es) (2 * p + 1) = Some b.
Proof.
  induction 1 as [|e x l es [Hi [Ei [a [b E]]]] H IH]; intros p f Hp; [destruct p; discriminate|].
  destruct p as [|p]; simpl in Hp.
  - injection Hp as <-. exists a, b. split; [exists x; auto|]. simpl. rewrite E. auto.
  - destruct (IH p f Hp) as [a' [b' [H1 [H2 H3]]]]. exists a', b'. split; auto.
    replace (2 * S p)%nat with (S (S (2 * p))) by lia. simpl flat_map. rewrite E. auto.
Qed.

Section Surface.
Variable m : mesh.
Hypothesis Hu : NoDup (map ed_index (edges m)).

Lemma edge_is_fun e a b c d : edge_is m e a b -> edge_is m e c d -> a = c /\ b = d.
Proof.
  intros [x [Hx [Ex Vx]]] [y [Hy [Ey Vy]]].
  assert (x = y) by (eapply (@NoDup_idx_inj _ ed_index); eauto; congruence). subst y.
  rewrite Vx in Vy. injection Vy as -> ->. auto.
Qed.

Section Pairs.
Variables (l : list Z) (es : list edge).
Hypothesis Hes : Forall2 (entry m) l es.
Let e2v := flat_map ed_vertind es.

Lemma pair_mesh e a b : pair_of l e2v e a b <-> In e l /\ edge_is m e a b.
Proof.
  split.
  - intros [p [H1 [H2 H3]]]. split; [eapply nth_error_In; eauto|].
    destruct (pairs_pos Hes p H1) as [a' [b' [H4 [H5 H6]]]]. unfold e2v in *. congruence.
  - intros [H1 H2]. apply In_nth_error in H1. destruct H1 as [p Hp].
    destruct (pairs_pos Hes p Hp) as [a' [b' [H4 [H5 H6]]]].
    destruct (edge_is_fun H2 H4) as [-> ->]. exists p. auto.
Qed.
Lemma joins_mesh e a b : joins l e2v e a b <-> In e l /\ edge_joins m e a b.
Proof. unfold joins, edge_joins. rewrite !pair_mesh. tauto. Qed.
Lemma touches_mesh e v : touches l e2v e v <-> In e l /\ edge_touches m e v.
Proof.
  split.
  - intros [a [b [H Hv]]]. apply pair_mesh in H. destruct H as [Hi H]. split; auto.
    destruct Hv as [->| ->]; [exists b; left; auto|exists a; right; auto].
  - intros [Hi [w [H|H]]]; [exists v, w|exists w, v]; (split; [apply pair_mesh; auto|auto]).
Qed.
Lemma share_mesh e f : share l e2v e f <-> edges_meet m l e f.
Proof.
  unfold share, edges_meet. split.
  - intros [v [H1 H2]]. apply touches_mesh in H1, H2. destruct H1, H2. split; auto. split; auto. exists v. auto.
  - intros [H1 [H2 [v [H3 H4]]]]. exists v. rewrite !touches_mesh. auto.
Qed.

Lemma loops_regular : NoDup l -> simple_loops m l -> two_regular e2v.
Proof.
  intros Hnd [HS1 HS2].
  assert (Hlen : length e2v = (2 * length l)%nat) by (apply (pairs_len Hes)).
  assert (Hloop : forall p, (p < length l)%nat -> va e2v p <> vb e2v p).
  { intros p Hp. destruct (nth_error l p) as [e|] eqn:Ee; [|apply nth_error_None in Ee; lia].
    destruct (pairs_pos Hes p Ee) as [a [b [H1 [H2 H3]]]].
    destruct (HS1 e (nth_error_In _ _ Ee)) as [c [d [H4 Hcd]]]. destruct (edge_is_fun H1 H4) as [-> ->].
    fold e2v in H2, H3. unfold va, vb.
    rewrite (nth_error_nth _ _ 0 H2), (nth_error_nth _ _ 0 H3). auto. }
  split.
  - intros v Hv. apply In_nth_error in Hv. destruct Hv as [x Hx].
    assert (Hhalf : forall x y, nth_error e2v x = Some v -> nth_error e2v y = Some v -> (x / 2 = y / 2)%nat -> x = y).
    { clear x Hx. intros x y Hx Hy E. destruct (Nat.eq_dec x y) as [|Hne]; auto. exfalso.
      destruct (@pos_tou e2v l Hlen x v Hx) as [Hp _].
      assert (Ex := Nat.div_mod_eq x 2). assert (Ey := Nat.div_mod_eq y 2).
      assert (Bx := Nat.mod_upper_bound x 2). assert (By := Nat.mod_upper_bound y 2).
      apply (Hloop _ Hp). unfold va, vb.
      destruct (le_lt_dec x y).
      - replace (2 * (x / 2))%nat with x by lia. replace (x + 1)%nat with y by lia.
        rewrite (nth_error_nth _ _ 0 Hx), (nth_error_nth _ _ 0 Hy). auto.
      - replace (2 * (x / 2))%nat with y by lia. replace (y + 1)%nat with x by lia.
        rewrite (nth_error_nth _ _ 0 Hx), (nth_error_nth _ _ 0 Hy). auto. }
    assert (Hat : forall y, nth_error e2v y = Some v -> exists e, nth_error l (y / 2) = Some e /\ In e l /\ edge_touches m e v).
    { intros y Hy. assert (T := @pos_tou e2v l Hlen y v Hy).
      exists (o l (y / 2)). split; [apply o_at; apply T|]. apply touches_mesh. apply touches_tou; auto. eauto. }
    destruct (Hat x Hx) as [e [Ee [Hi Te]]].
    destruct (HS2 e v Hi Te) as [f [Hf [Hfe [Tf Honly]]]].
    assert (Tf' : touches l e2v f v) by (apply touches_mesh; auto).
    apply (@touches_tou e2v l Hlen) in Tf'. destruct Tf' as [q [Ef Tq]].
    destruct (tou_pos Hlen Tq) as [y [Hy Ey]].
    assert (Hxy : x <> y).
    { intros ->. apply Hfe. assert (H := o_at l (proj1 Tq)). rewrite Ey in Ee. congruence. }
    assert (HP : Permutation (positions (Z.eqb v) e2v) [x; y]).
    { apply NoDup_Permutation; [apply positions_NoDup|repeat constructor; simpl; intuition congruence|].
      intros z. rewrite positions_spec. split.
      - intros [a [Hz Ea]]. apply Z.eqb_eq in Ea. subst a. destruct (Hat z Hz) as [g [Eg [Hg Tg]]].
        destruct (Honly g Hg Tg) as [->| ->]; [left|right; left].
        + apply Hhalf; auto. apply (proj1 (NoDup_nth_error l) Hnd); [apply nth_error_Some; congruence|congruence].
        + apply Hhalf; auto. rewrite Ey. symmetry. apply (proj1 (NoDup_nth_error l) Hnd); [apply nth_error_Some; congruence|].
          rewrite Eg, (o_at l (proj1 Tq)). congruence.
      - intros [<-|[<-|[]]]; exists v; rewrite Z.eqb_refl; auto. }
    rewrite (Permutation_length HP). reflexivity.
  - intros p a b Ha Hb. assert (Hp : (p < length l)%nat).
    { assert ((2 * p < length e2v)%nat) by (apply nth_error_Some; congruence). lia. }
    assert (H := Hloop p Hp). unfold va, vb in H.
    rewrite (nth_error_nth _ _ 0 Ha), (nth_error_nth _ _ 0 Hb) in H. auto.
Qed.
End Pairs.

Lemma simple_loops_set l l' : (forall e, In e l <-> In e l') -> simple_loops m l -> simple_loops m l'.
Proof.
  intros H [H1 H2]. split.
  - intros e He. apply H1, H; auto.
  - intros e v He Hv. destruct (H2 e v (proj2 (H e) He) Hv) as [f [A [B [C D]]]]. exists f. rewrite <- H.
    split; auto. split; auto. split; auto. intros g Hg. apply D. apply H; auto.
Qed.

Lemma surface_order0 table edgeind : (forall l, is_table l (table l)) -> edgeind <> [] -> simple_loops m edgeind ->
  exists c l vs e0, surf_order m table edgeind = Ok (c, l) /\
    In e0 edgeind /\ (forall e, In e edgeind -> e0 <= e) /\
    polygon (edge_joins m) l vs /\ NoDup l /\ NoDup vs /\
    (forall e, In e l <-> In e edgeind /\ reach (edges_meet m edgeind) e0 e) /\
    (c = ordered \/ c = truncated) /\
    (c = ordered <-> forall e, In e edgeind -> reach (edges_meet m edgeind) e0 e).
Proof.
  intros Ht Hne HS. set (l0 := tighten edgeind).
  assert (Hin : forall e, In e l0 <-> In e edgeind) by (intros e; apply tighten_In).
  assert (Hnd : NoDup l0) by (apply strict_NoDup, tighten_strict).
  assert (HS0 : simple_loops m l0) by (apply (@simple_loops_set edgeind); auto; intros e; symmetry; auto).
  assert (Hl0 : exists e0 r, l0 = e0 :: r).
  { apply list_cons. destruct edgeind as [|e r]; [congruence|].
    assert (H : In e l0) by (apply Hin; left; auto). destruct l0; [destruct H|simpl; lia]. }
  destruct Hl0 as [e0 [r E0]].
  assert (Hes : exists es, omap_list (fun e => at_ (edges m) (find ed_index (edges m) e)) l0 = Ok es /\ Forall2 (entry m) l0 es).
  { apply omap_list_ok. intros e He. destruct (proj1 HS0 e He) as [a [b [[x [Hx [Ex Vx]]] _]]].
    destruct (@find_at _ ed_index (edges m) e) as [y [Hy [Hi Ei]]]; [exists x; auto|].
    exists y. split; auto. split; auto. split; auto.
    assert (x = y) by (eapply (@NoDup_idx_inj _ ed_index); eauto; congruence). subst y. eauto. }
  destruct Hes as [es [Hrun Hes]].
  set (e2v := flat_map ed_vertind es) in *.
  assert (Hlen : length e2v = (2 * length l0)%nat) by (apply (pairs_len Hes)).
  assert (Hreg : two_regular e2v) by (apply (@loops_regular l0 es Hes Hnd HS0)).
  destruct (order_regular true Hlen Hnd (Ht e2v) Hreg) as [c [l [Hr [H1 [H2 [[vs [H3 H4]] [H5 H6]]]]]]]; [rewrite E0; discriminate|].
  assert (Eo : o l0 0 = e0) by (rewrite E0; auto). rewrite Eo in H5.
  assert (Hshare : forall x y, share l0 e2v x y <-> edges_meet m edgeind x y).
  { intros x y. unfold e2v. rewrite (share_mesh Hes x y). unfold edges_meet. rewrite !Hin. tauto. }
  assert (Hreach : forall e, reach (share l0 e2v) e0 e <-> reach (edges_meet m edgeind) e0 e).
  { intros e. split; apply reach_mono; intros x y; apply Hshare. }
  exists c, l, vs, e0. split.
  { unfold surf_order, edge_pairs. destruct edgeind as [|z zs]; [congruence|]. cbv zeta. fold l0. rewrite Hrun. cbn [bind]. fold e2v. exact Hr. }
  split; [apply Hin; rewrite E0; left; auto|]. split.
  { intros e He. apply Hin in He. assert (HSt := tighten_strict edgeind). fold l0 in HSt. rewrite E0 in HSt, He.
    inversion HSt as [|? ? _ HF]. destruct He as [->|He]; [lia|]. rewrite Forall_forall in HF. specialize (HF e He). lia. }
  split.
  { split; [apply H3|]. intros i e a b Hi Ha Hb. apply (proj1 (joins_mesh Hes e a b)). apply (proj2 H3 i); auto. }
  split; auto. split; auto.
  assert (Hmem : forall e, In e l <-> In e edgeind /\ reach (edges_meet m edgeind) e0 e).
  { intros e. rewrite H5, Hin, Hreach. tauto. }
  split; auto. split; [tauto|]. destruct H6 as [[-> HP]|[-> HL]].
  - split; auto. intros _ e He. apply Hmem. apply (Permutation_in e (Permutation_sym HP)). apply Hin; auto.
  - split; [discriminate|]. intros Hall. exfalso.
    assert (L : (length l0 <= length l)%nat).
    { apply NoDup_incl_length; auto. intros e He. apply Hmem. split; [apply Hin; auto|apply Hall; apply Hin; auto]. }
    lia.
Qed.

(** Reading the vertices. *)
Lemma edge_ends_is e a b : edge_is m e a b -> edge_ends m e = Ok (a, b).
Proof.
  intros [x [Hx [Ex Vx]]]. unfold edge_ends.
  destruct (@find_at _ ed_index (edges m) e) as [y [Hy [Hi Ei]]]; [exists x; auto|].
  assert (x = y) by (eapply (@NoDup_idx_inj _ ed_index); eauto; congruence). subst y.
  rewrite Hy. cbn [bind]. rewrite Vx. reflexivity.
Qed.

Definition picked (past ab : Z * Z) : Z :=
  if ((fst ab =? fst past) || (snd ab =? fst past))%bool then fst past else snd past.

Lemma verts_from (E : Z -> Z * Z) : forall l past vs, length vs = length l ->
  (forall e, In e l -> edge_ends m e = Ok (E e)) ->
  (forall i e v, nth_error l i = Some e -> nth_error vs i = Some v -> v = picked (nth i (past :: map E l) past) (E e)) ->
  ordered_verts_from m past l = Ok vs.
Proof.
  induction l as [|e l IH]; intros past vs Hl HE HP; destruct vs as [|v vs]; try discriminate; auto.
  cbn [ordered_verts_from]. rewrite (HE e (or_introl eq_refl)). cbn [bind].
  rewrite (IH (E e) vs).
  - cbn [bind]. rewrite (HP 0%nat e v eq_refl eq_refl). reflexivity.
  - simpl in Hl. lia.
  - intros f Hf. apply HE. right; auto.
  - intros i f w Hi Hw. rewrite (HP (S i) f w Hi Hw). f_equal. simpl.
    assert (Hlt : (i < length l)%nat) by (apply nth_error_Some; congruence).
    destruct i as [|i]; auto. apply nth_indep. rewrite map_length. lia.
Qed.

Lemma nth_cycle (vs : list Z) i : (i < length vs)%nat ->
  nth_error (tl vs ++ firstn 1 vs) i = nth_error vs (if (S i =? length vs)%nat then 0 else S i)%nat.
Proof.
  intros H. destruct vs as [|v vs]; [simpl in H; lia|]. simpl tl. simpl firstn.
  destruct (Nat.eqb_spec (S i) (length (v :: vs))) as [E|E]; simpl in E, H.
  - rewrite nth_error_app2 by lia. replace (i - length vs)%nat with 0%nat by lia. reflexivity.
  - rewrite nth_error_app1 by lia. reflexivity.
Qed.

Lemma polygon_verts l vs : (3 <= length l)%nat -> NoDup vs -> polygon (edge_joins m) l vs -> ordered_verts m l = Ok vs.
Proof.
  intros H3 HN [HL HP]. set (k := length l) in *.
  set (E := fun e => match edge_ends m e with Ok p => p | _ => (0, 0) end).
  set (V := fun i => nth i vs 0).
  assert (HV : forall i, (i < k)%nat -> nth_error vs i = Some (V i)) by (intros i Hi; apply nth_error_nth'; lia).
  assert (HVinj : forall i j, (i < k)%nat -> (j < k)%nat -> V i = V j -> i = j).
  { intros i j Hi Hj Eq. apply (proj1 (NoDup_nth_error vs) HN); [lia|]. rewrite !HV by auto. congruence. }
  set (nx := fun i => (if (S i =? k)%nat then 0 else S i)%nat).
  assert (Hnx : forall i, (i < k)%nat -> (nx i < k)%nat) by (intros i Hi; unfold nx; destruct (Nat.eqb_spec (S i) k); lia).
  assert (HE : forall i e, nth_error l i = Some e ->
     edge_ends m e = Ok (E e) /\ (E e = (V i, V (nx i)) \/ E e = (V (nx i), V i))).
  { intros i e He. assert (Hi : (i < k)%nat) by (apply nth_error_Some; congruence).
    assert (Hb : nth_error (tl vs ++ firstn 1 vs) i = Some (V (nx i))).
    { rewrite nth_cycle by lia. rewrite HL. apply HV. apply Hnx; auto. }
    destruct (HP i e _ _ He (HV i Hi) Hb) as [J|J]; apply edge_ends_is in J; unfold E; rewrite J; auto. }
  destruct (nth_error l (k - 1)) as [el|] eqn:Eel; [|apply nth_error_None in Eel; fold k in Eel; lia].
  unfold ordered_verts. replace (at_ l (Z.of_nat (length l) - 1)) with (Ok el : outcome Z).
  2:{ symmetry. apply at_Ok. fold k. split; [lia|]. replace (Z.to_nat (Z.of_nat k - 1)) with (k - 1)%nat by lia. auto. }
  cbn [bind]. rewrite (proj1 (HE _ _ Eel)). cbn [bind].
  apply verts_from with (E := E); auto.
  { intros e He. apply In_nth_error in He. destruct He as [i Hi]. apply (HE i e Hi). }
  intros i e v He Hv. assert (Hi : (i < k)%nat) by (apply nth_error_Some; congruence).
  rewrite HV in Hv by auto. injection Hv as <-.
  set (j := (if (i =? 0)%nat then k - 1 else i - 1)%nat).
  assert (Hj : (j < k)%nat) by (unfold j; destruct (Nat.eqb_spec i 0); lia).
  assert (Hji : nx j = i) by (unfold nx, j; destruct (Nat.eqb_spec i 0);
    match goal with |- context [(S ?a =? k)%nat] => destruct (Nat.eqb_spec (S a) k) end; lia).
  destruct (nth_error l j) as [ej|] eqn:Eej; [|apply nth_error_None in Eej; fold k in Eej; lia].
  replace (nth i (E el :: map E l) (E el)) with (E ej).
  2:{ unfold j in Eej. destruct i as [|i]; simpl in *.
      - congruence.
      - rewrite Nat.sub_0_r in Eej. symmetry. erewrite nth_indep; [|rewrite map_length; fold k; lia].
        rewrite (map_nth E l ej i). f_equal. apply nth_error_nth; auto. }
  assert (Hd1 : V j <> V i) by (intros Eq; apply HVinj in Eq; auto; unfold j in Eq; destruct (Nat.eqb_spec i 0); lia).
  assert (Hd2 : V j <> V (nx i)).
  { intros Eq; apply HVinj in Eq; auto. unfold nx, j in Eq. destruct (Nat.eqb_spec i 0), (Nat.eqb_spec (S i) k); lia. }
  destruct (proj2 (HE _ _ Eej)) as [Ep|Ep], (proj2 (HE _ _ He)) as [Ec|Ec]; rewrite Ep, Ec, Hji; unfold picked; cbn [fst snd].
  - destruct (Z.eqb_spec (V i) (V j)), (Z.eqb_spec (V (nx i)) (V j)); simpl; congruence.
  - destruct (Z.eqb_spec (V i) (V j)), (Z.eqb_spec (V (nx i)) (V j)); simpl; congruence.
  - rewrite Z.eqb_refl. reflexivity.
  - rewrite Z.eqb_refl, orb_true_r. reflexivity.
Qed.
End Surface.

Lemma surface_order m table edgeind :
  NoDup (map ed_index (edges m)) -> (forall l, is_table l (table l)) ->
  edgeind <> [] -> simple_loops m edgeind ->
  exists c l vs e0, surf_order m table edgeind = Ok (c, l) /\
    In e0 edgeind /\ (forall e, In e edgeind -> e0 <= e) /\
    polygon (edge_joins m) l vs /\ NoDup l /\ NoDup vs /\
    (forall e, In e l <-> In e edgeind /\ reach (edges_meet m edgeind) e0 e) /\
    (c = ordered \/ c = truncated) /\
    (c = ordered <-> forall e, In e edgeind -> reach (edges_meet m edgeind) e0 e).
Proof. intros. apply surface_order0; auto. Qed.
Lemma verts_of_polygon m l vs :
  NoDup (map ed_index (edges m)) -> (3 <= length l)%nat -> NoDup vs -> polygon (edge_joins m) l vs ->
  ordered_verts m l = Ok vs.
Proof. intros. apply polygon_verts; auto. Qed.

Lemma flat_len A B (f : A -> list B) l : forallb (fun a => (length (f a) =? 2)%nat) l = true ->
  length (flat_map f l) = (2 * length l)%nat.
Proof.
  induction l as [|a l IH]; simpl; auto. intros H. apply andb_true_iff in H. destruct H as [H1 H2].
  apply Nat.eqb_eq in H1. rewrite app_length, IH by auto. lia.
Qed.
Lemma omap_list_length A B (f : A -> outcome B) : forall l bs, omap_list f l = Ok bs -> length bs = length l.
Proof.
  induction l as [|a l IH]; intros bs H; simpl in H; [injection H as <-; auto|].
  destruct (f a); try discriminate. cbn [bind] in H. destruct (omap_list f l) as [r| | |]; try discriminate.
  cbn [bind] in H. injection H as <-. simpl. f_equal. apply IH; auto.
Qed.
Lemma vertex_order m table edgeind c l : (forall l, is_table l (table l)) ->
  vert_order m table edgeind = Ok (c, l) -> NoDup l /\ (forall e, In e l <-> In e edgeind).
Proof.
  intros Ht Hrun.
  assert (Hin : forall e, In e (tighten edgeind) <-> In e edgeind) by (intros e; apply tighten_In).
  assert (Hnd : NoDup (tighten edgeind)) by (apply strict_NoDup, tighten_strict).
  assert (Hdone : Permutation l (tighten edgeind) -> NoDup l /\ (forall e, In e l <-> In e edgeind)).
  { intros HP. split; [apply (Permutation_NoDup (Permutation_sym HP)); auto|].
    intros e. rewrite <- Hin. split; apply Permutation_in; auto. apply Permutation_sym; auto. }
  apply Hdone. unfold vert_order in Hrun.
  destruct (length (tighten edgeind) <? 2)%nat eqn:El; [injection Hrun as _ <-; auto|].
  destruct (omap_list _ (tighten edgeind)) as [es| | |] eqn:Ees; try discriminate. cbn [bind] in Hrun.
  destruct (forallb _ es) eqn:Ef; cbn [negb] in Hrun; [|injection Hrun as _ <-; auto].
  destruct (order_list _ _ _ _ _) as [[c' r]| | |] eqn:Eo; try discriminate. cbn [bind fst snd] in Hrun.
  assert (Hlen : length (flat_map ed_surfind es) = (2 * length (tighten edgeind))%nat).
  { rewrite (flat_len _ _ Ef), (omap_list_length _ _ Ees). auto. }
  injection Hrun as <- <-. destruct (Z.eqb_spec c' ordered) as [->|]; auto.
  destruct (order_sound false Hlen Hnd (Ht _) Eo) as [[_ [E0 ->]]|[[_ [HP _]]|[[C _]|[_ [k [C [Hk _]]]]]]].
  - rewrite E0. auto.
  - exact HP.
  - discriminate.
  - unfold ordered in C. lia.
Qed.
