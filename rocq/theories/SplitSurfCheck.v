(** Decision procedures for the hypotheses of C110, used on examples. *)
From Verif Require Import Base Containers ContainersProofs Mesh SpecMesh MeshProofs FloodProofs
  Order SpecOrder OrderProofs OrderMeshProofs SpecSplitSurf SplitSurfProofs.
Import Mesh.
Set Implicit Arguments.
Open Scope Z_scope.

Section Check.
Variable m : mesh.
Definition endsb (e : Z) : option (Z * Z) :=
  match List.find (fun x => ed_index x =? e) (edges m) with
  | Some x => match ed_vertind x with [a; b] => Some (a, b) | _ => None end
  | None => None
  end.
Definition touchb (e v : Z) : bool := match endsb e with Some (a, b) => (a =? v) || (b =? v) | None => false end.
Definition meetb (e f : Z) : bool :=
  match endsb e with Some (a, b) => touchb f a || touchb f b | None => false end.
Hypothesis U : NoDup (map ed_index (edges m)).

Lemma endsb_is e a b : endsb e = Some (a, b) <-> edge_is m e a b.
Proof using U.
  unfold endsb, edge_is. split.
  - destruct (List.find _ _) as [x|] eqn:E; [|discriminate]. apply find_some in E as [I E]. apply Z.eqb_eq in E.
    intros H. exists x. split; auto. split; auto. destruct (ed_vertind x) as [|c [|d [|]]]; try discriminate. congruence.
  - intros [x [I [E V]]]. destruct (List.find _ _) as [y|] eqn:F.
    + apply find_some in F as [J F]. apply Z.eqb_eq in F.
      assert (y = x) by (eapply (@NoDup_idx_inj _ ed_index); eauto; congruence). subst y. rewrite V. reflexivity.
    + pose proof (find_none _ _ F x I) as N. simpl in N. apply Z.eqb_neq in N. congruence.
Qed.
Lemma touchb_ok e v : touchb e v = true <-> edge_touches m e v.
Proof using U.
  unfold touchb, edge_touches, edge_joins. split.
  - destruct (endsb e) as [[a b]|] eqn:E; [|discriminate]. apply endsb_is in E. intros H. apply orb_true_iff in H as [H|H]; apply Z.eqb_eq in H; subst v;
      [exists b; auto|exists a; auto].
  - intros [w [H|H]]; apply endsb_is in H; rewrite H, Z.eqb_refl; auto. apply orb_true_r.
Qed.
Lemma meetb_ok e f : meetb e f = true -> exists v, edge_touches m e v /\ edge_touches m f v.
Proof using U.
  unfold meetb. destruct (endsb e) as [[a b]|] eqn:E; [|discriminate]. apply endsb_is in E. intros H. apply orb_true_iff in H as [H|H]; apply touchb_ok in H.
  - exists a. split; auto. exists b. left. auto.
  - exists b. split; auto. exists a. right. auto.
Qed.

(** Simple polygons. *)
Definition one_otherb (l : list Z) (e v : Z) : bool :=
  match filter (fun g => touchb g v && negb (g =? e)) (tighten l) with [_] => true | _ => false end.
Definition simple_loopsb (l : list Z) : bool :=
  forallb (fun e => match endsb e with
                    | Some (a, b) => negb (a =? b) && one_otherb l e a && one_otherb l e b
                    | None => false end) l.
Lemma simple_loopsb_ok l : simple_loopsb l = true -> simple_loops m l.
Proof using U.
  intros H. unfold simple_loopsb in H. rewrite forallb_forall in H. split.
  - intros e He. specialize (H e He). destruct (endsb e) as [[a b]|] eqn:E; [|discriminate]. exists a, b.
    split; [apply endsb_is; auto|]. apply andb_true_iff in H as [H _]. apply andb_true_iff in H as [H _].
    apply negb_true_iff, Z.eqb_neq in H. auto.
  - intros e v He Hv. specialize (H e He). destruct (endsb e) as [[a b]|] eqn:E; [|discriminate].
    apply touchb_ok in Hv. unfold touchb in Hv. rewrite E in Hv.
    apply andb_true_iff in H as [H H2]. apply andb_true_iff in H as [_ H1].
    assert (O : one_otherb l e v = true) by (apply orb_true_iff in Hv as [Q|Q]; apply Z.eqb_eq in Q; subst v; auto).
    unfold one_otherb in O. destruct (filter _ _) as [|f [|]] eqn:F; try discriminate.
    assert (G : forall g, In g l /\ edge_touches m g v /\ g <> e <-> g = f).
    { intros g. rewrite <- touchb_ok. transitivity (In g [f]); [|simpl; split; [intros [->|[]]; auto|auto]].
      rewrite <- F, filter_In, tighten_In, andb_true_iff, negb_true_iff, Z.eqb_neq. tauto. }
    destruct (proj2 (G f) eq_refl) as [G1 [G2 G3]]. exists f. split; auto. split; auto. split; auto.
    intros g Hg Tg. destruct (Z.eq_dec g e); auto. right. apply G. auto.
Qed.

(** Polygons counted by growing connected sets. *)
Fixpoint grow (n : nat) (l seen : list Z) : list Z :=
  match n with
  | O => seen
  | S n' => grow n' l (seen ++ filter (fun f => negb (mem_z f seen) && existsb (fun e => meetb e f) seen) l)
  end.
Lemma grow_ok n l e0 : forall seen, In e0 l -> (forall e, In e seen -> reach (edges_meet m l) e0 e) ->
  forall e, In e (grow n l seen) -> reach (edges_meet m l) e0 e.
Proof using U.
  induction n as [|n IH]; intros seen I0 H e He; simpl in He; auto. eapply IH; [exact I0| |exact He].
  intros f Hf. apply in_app_iff in Hf as [Hf|Hf]; auto. apply filter_In in Hf as [F1 F2]. apply andb_true_iff in F2 as [_ F2].
  apply existsb_exists in F2 as [g [G1 G2]]. pose proof (H g G1) as Rg. eapply reach_step; [exact Rg|].
  split; [exact (@reach_In m l e0 g I0 Rg)|]. split; auto. apply meetb_ok; auto.
Qed.
Fixpoint at_mostb (k : nat) (l todo : list Z) : bool :=
  match todo, k with
  | [], _ => true
  | _ :: _, O => false
  | e :: _, S k' => let c := grow (length l) l [e] in at_mostb k' l (filter (fun f => negb (mem_z f c)) todo)
  end.
Lemma filter_one A (f : A -> bool) l : NoDup l -> (forall x y, In x l -> In y l -> f x = true -> f y = true -> x = y) ->
  (length (filter f l) <= 1)%nat.
Proof.
  intros N H. assert (NF := NoDup_filter f N). destruct (filter f l) as [|x [|y r]] eqn:E; simpl; try lia.
  assert (X : In x (filter f l)) by (rewrite E; simpl; auto). assert (Y : In y (filter f l)) by (rewrite E; simpl; auto).
  apply filter_In in X as [X1 X2]. apply filter_In in Y as [Y1 Y2]. assert (x = y) by auto. subst y.
  inversion NF as [|? ? NN _]; subst. exfalso. apply NN. simpl. auto.
Qed.
Lemma filter_split A (f : A -> bool) l : length l = (length (filter f l) + length (filter (fun x => negb (f x)) l))%nat.
Proof. induction l as [|x r IH]; simpl; auto. destruct (f x); simpl; lia. Qed.
Lemma at_mostb_ok l : forall k todo, incl todo l -> at_mostb k l todo = true ->
  forall es, NoDup es -> incl es todo ->
    (forall e f, In e es -> In f es -> e <> f -> ~ reach (edges_meet m l) e f) -> (length es <= k)%nat.
Proof using U.
  induction k as [|k IH]; intros todo IT H es N I D.
  - destruct todo as [|x r]; [|discriminate]. destruct es as [|y es]; [auto|]. exfalso. apply (I y). simpl. auto.
  - destruct todo as [|x r].
    { destruct es as [|y es]; [simpl; lia|]. exfalso. apply (I y). simpl. auto. }
    cbn [at_mostb] in H. set (c := grow (length l) l [x]) in *. set (f := fun e => mem_z e c).
    assert (Hx : In x l) by (apply IT; simpl; auto).
    assert (R : forall e, In e c -> reach (edges_meet m l) x e).
    { apply grow_ok; auto. intros e [<-|[]]. constructor. }
    rewrite (filter_split f es).
    assert (A : (length (filter f es) <= 1)%nat).
    { apply filter_one; auto. intros a b Ia Ib Fa Fb. destruct (Z.eq_dec a b) as [|Hne]; auto. exfalso.
      apply (D a b Ia Ib Hne). apply mem_z_In in Fa. apply mem_z_In in Fb. eapply reach_snoc; [apply reach_sym|]; apply R; auto. }
    assert (B : (length (filter (fun e => negb (f e)) es) <= k)%nat).
    { eapply (IH _ _ H).
      - apply NoDup_filter; auto.
      - intros e He. apply filter_In in He as [He1 He2]. apply filter_In. split; auto.
      - intros a b Ia Ib. apply filter_In in Ia as [Ia _]. apply filter_In in Ib as [Ib _]. apply D; auto. }
    lia.
  Unshelve. intros e He. apply filter_In in He as [He _]. auto.
Qed.
Definition orderableb (k : nat) (s : surf) : bool :=
  negb (su_ordered s) && simple_loopsb (su_edgeind s) && at_mostb k (su_edgeind s) (su_edgeind s).
Lemma orderableb_ok k : forallb (orderableb k) (surfs m) = true -> forall s, In s (surfs m) -> orderable k m s.
Proof using U.
  intros H s Is. rewrite forallb_forall in H. specialize (H s Is). unfold orderableb in H.
  apply andb_true_iff in H as [H H3]. apply andb_true_iff in H as [H1 H2]. apply negb_true_iff in H1.
  unfold orderable. rewrite H1. split; [apply simple_loopsb_ok; auto|]. intros es N I D.
  apply (@at_mostb_ok (su_edgeind s) k (su_edgeind s)); auto. intros e He; auto.
Qed.
End Check.
Definition sidedb (m : mesh) : bool :=
  forallb (fun s => forallb (fun v => 0 <=? v) (su_voluind s) && (2 <=? length (su_voluind s))%nat) (surfs m).
Lemma sidedb_ok m : sidedb m = true -> sided m.
Proof.
  unfold sidedb. rewrite forallb_forall. intros H. split.
  - intros i v [s [Is [_ Hv]]]. specialize (H s Is). apply andb_true_iff in H as [H _]. rewrite forallb_forall in H. apply Z.leb_le. auto.
  - intros _ s Is. specialize (H s Is). apply andb_true_iff in H as [_ H]. apply Nat.leb_le. auto.
Qed.
