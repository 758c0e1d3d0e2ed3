(** Boolean forms of the notions of SpecOrient.v, for concrete meshes. *)
From Verif Require Import Base Mesh Edit Order SpecMesh SpecOrder SpecEdit MeshProofs MeshCheck PropsOrder PropsTetgen Orient SpecOrient.
Import Mesh.
Set Implicit Arguments.
Open Scope Z_scope.

Definition polygonb (m : mesh) (l vs : list Z) : bool :=
  (length vs =? length l)%nat && forallb (fun p => joinsb m (fst p) (fst (snd p)) (snd (snd p))) (combine l (combine vs (tl vs ++ firstn 1 vs))).
Lemma combine_nth A B (l : list A) (l' : list B) i a b : nth_error l i = Some a -> nth_error l' i = Some b -> In (a, b) (combine l l').
Proof.
  revert l' i. induction l as [|x l IH]; intros [|y l'] [|i] H H'; simpl in *; try discriminate.
  - left. congruence.
  - right. eapply IH; eauto.
Qed.
Lemma combine_nth_error A B (l : list A) (l' : list B) i a b : nth_error l i = Some a -> nth_error l' i = Some b -> nth_error (combine l l') i = Some (a, b).
Proof. revert l' i. induction l as [|x l IH]; intros [|y l'] [|i] H H'; simpl in *; try discriminate; [congruence|]. apply IH; auto. Qed.
Lemma polygonb_ok m l vs : polygonb m l vs = true -> polygon (edge_joins m) l vs.
Proof.
  unfold polygonb. rewrite andb_true_iff, Nat.eqb_eq, forallb_forall. intros [L H]. split; auto.
  intros i e a b E A B. apply joinsb_ok. apply (H (e, (a, b))). eapply combine_nth; eauto. apply combine_nth_error; auto.
Qed.
Fixpoint distinctb (l : list Z) : bool := match l with [] => true | x :: r => negb (existsb (Z.eqb x) r) && distinctb r end.
Lemma distinctb_ok l : distinctb l = true -> NoDup l.
Proof.
  induction l as [|x r IH]; simpl; intros H; constructor; apply andb_true_iff in H as [H1 H2]; auto.
  intros I. apply negb_true_iff in H1. assert (X : existsb (Z.eqb x) r = true) by (apply existsb_exists; exists x; split; auto; apply Z.eqb_refl). congruence.
Qed.
Definition facesb (m : mesh) : bool := forallb (fun s =>
  match ordered_verts m (su_edgeind s), su_voluind s with
  | Ok vs, [a; b] => (3 <=? length vs)%nat && distinctb vs && polygonb m (su_edgeind s) vs && negb (a =? b)
  | _, _ => false
  end) (surfs m).
Lemma facesb_ok m : facesb m = true -> faces m.
Proof.
  unfold facesb. rewrite forallb_forall. intros H s Is. specialize (H s Is).
  destruct (ordered_verts m (su_edgeind s)) as [vs| | |]; try discriminate. destruct (su_voluind s) as [|a [|b [|]]]; try discriminate.
  rewrite !andb_true_iff in H. destruct H as [[[H1 H2] H3] H4]. apply Nat.leb_le in H1. apply distinctb_ok in H2.
  apply polygonb_ok in H3. apply negb_true_iff, Z.eqb_neq in H4. split; [exists vs; split; auto|exists a, b; auto].
Qed.
Definition followsb (l : list Z) (p q : Z) : bool := existsb (fun x => (fst x =? p) && (snd x =? q)) (combine l (tl l ++ firstn 1 l)).
Lemma combine_In_nth A B (l : list A) (l' : list B) a b : In (a, b) (combine l l') -> exists i, nth_error l i = Some a /\ nth_error l' i = Some b.
Proof.
  revert l'. induction l as [|x l IH]; intros [|y l'] H; simpl in *; try contradiction. destruct H as [H|H].
  - injection H as -> ->. exists 0%nat. auto.
  - destruct (IH _ H) as [i I]. exists (S i). auto.
Qed.
Lemma followsb_ok l p q : followsb l p q = true <-> follows l p q.
Proof.
  unfold followsb, follows. rewrite existsb_exists. split.
  - intros [[a b] [H1 H2]]. rewrite andb_true_iff, !Z.eqb_eq in H2. simpl in H2. destruct H2; subst. apply combine_In_nth; auto.
  - intros [i [A B]]. exists (p, q). split; [eapply combine_nth; eauto|]. simpl. rewrite !Z.eqb_refl. reflexivity.
Qed.
Definition firstb (s : surf) (v : Z) : bool := match su_voluind s with a :: _ => a =? v | [] => false end.
Lemma firstb_ok s v : firstb s v = true <-> first_side s v.
Proof. unfold firstb, first_side. destruct (su_voluind s); simpl; [split; discriminate|]. rewrite Z.eqb_eq. split; congruence. Qed.
Definition alikeb (m : mesh) (s t : surf) : bool :=
  match ordered_verts m (su_edgeind s), ordered_verts m (su_edgeind t) with
  | Ok vs, Ok ws =>
    forallb (fun x : edge => negb (existsb (Z.eqb (ed_index x)) (su_edgeind s)) || negb (existsb (Z.eqb (ed_index x)) (su_edgeind t)) ||
      match ed_vertind x with
      | [a; b] => forallb (fun v => (v =? 0) || negb (existsb (Z.eqb v) (su_voluind t)) ||
                    Bool.eqb (Bool.eqb (followsb vs a b) (followsb ws a b)) (negb (Bool.eqb (firstb s v) (firstb t v)))) (su_voluind s)
      | _ => true
      end) (edges m)
  | _, _ => true
  end.
Lemma alikeb_ok m s t : NoDup (map ed_index (edges m)) -> alikeb m s t = true -> alike m s t.
Proof.
  unfold alikeb. intros N H e a b v vs ws Es Et [x [X1 [X2 X3]]] V0 Vs Vt [C1 [C2 C3]] [D1 [D2 D3]].
  assert (Ovs : ordered_verts m (su_edgeind s) = Ok vs) by (apply C22_ordered_verts; auto; rewrite <- (proj1 C3); auto). rewrite Ovs in H.
  assert (Ows : ordered_verts m (su_edgeind t) = Ok ws) by (apply C22_ordered_verts; auto; rewrite <- (proj1 D3); auto). rewrite Ows in H.
  rewrite forallb_forall in H. specialize (H x X1). rewrite X2, X3 in H.
  assert (IN : forall y l, In y l -> existsb (Z.eqb y) l = true) by (intros y l Y; apply existsb_exists; exists y; split; auto; apply Z.eqb_refl).
  rewrite (IN e _ Es), (IN e _ Et) in H. cbn [negb orb] in H. rewrite forallb_forall in H. specialize (H v Vs).
  rewrite (IN v _ Vt) in H. replace (v =? 0) with false in H by (symmetry; apply Z.eqb_neq; auto). cbn [negb orb] in H.
  rewrite <- !followsb_ok, <- !firstb_ok.
  destruct (followsb vs a b), (followsb ws a b), (firstb s v), (firstb t v); simpl in H; try discriminate H; split; intros K; try tauto; try (intros [K1 K2]); intuition discriminate.
Qed.
Definition orientedb (m : mesh) : bool := forallb (fun s => forallb (fun t => (su_index s =? su_index t) || alikeb m s t) (surfs m)) (surfs m).
Lemma orientedb_ok m : NoDup (map ed_index (edges m)) -> orientedb m = true -> oriented m.
Proof.
  unfold orientedb. intros N H s t Is It Ne. rewrite forallb_forall in H. specialize (H s Is). rewrite forallb_forall in H. specialize (H t It).
  apply orb_true_iff in H as [H|H]; [apply Z.eqb_eq in H; contradiction|]. apply alikeb_ok; auto.
Qed.
