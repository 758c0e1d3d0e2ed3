(** ReOrder. *)
From Verif Require Import Base Containers ContainersProofs Mesh SpecMesh MeshProofs Order Edit SpecOrder SpecEdit.
Set Implicit Arguments.
Open Scope Z_scope.

Section Renum.
Variables (A : Type) (idx : A -> Z) (l : list A).
Hypothesis Hnd : NoDup (map idx l).

Lemma renum_at j a : nth_error l j = Some a -> renum idx l (idx a) = Z.of_nat j + 1.
Proof.
  intros H. unfold renum. destruct (find_spec idx l (idx a)) as [[H1 H2]|[k [b [H1 [H2 H3]]]]].
  - exfalso. apply H2. exists a. split; auto. eapply nth_error_In; eauto.
  - assert (k = j); [|subst; lia].
    apply (proj1 (NoDup_nth_error (map idx l)) Hnd).
    + rewrite map_length. apply nth_error_Some. congruence.
    + rewrite !nth_error_map, H, H2. simpl. congruence.
Qed.

Lemma number_shift set : forall (r : list A) n, (forall j a, nth_error r j = Some a -> renum idx l (idx a) = n + Z.of_nat j) ->
  number set n r = map (fun a => set (renum idx l (idx a)) a) r.
Proof.
  induction r as [|a r IH]; intros n H; auto. simpl. f_equal.
  - f_equal. rewrite (H 0%nat a eq_refl). lia.
  - apply IH. intros j b Hb. rewrite (H (S j) b Hb). lia.
Qed.
Lemma number_renum set : number set 1 l = map (fun a => set (renum idx l (idx a)) a) l.
Proof. apply number_shift. intros j a Ha. rewrite (renum_at _ Ha). lia. Qed.

Lemma renum_numbering has : (forall i, has i <-> exists a, In a l /\ idx a = i) -> ~ has 0 ->
  numbering (renum idx l) has (length l).
Proof.
  intros Hh H0. split; [|split].
  - unfold renum. destruct (find_spec idx l 0) as [[H1 H2]|[k [b [H1 [H2 H3]]]]]; [lia|].
    exfalso. apply H0, Hh. exists b. split; auto. eapply nth_error_In; eauto.
  - intros i Hi. apply Hh in Hi. destruct Hi as [a [Ha <-]]. apply In_nth_error in Ha. destruct Ha as [j Hj].
    rewrite (renum_at _ Hj). assert ((j < length l)%nat) by (apply nth_error_Some; congruence). lia.
  - intros i k Hi Hk E. apply Hh in Hi, Hk. destruct Hi as [a [Ha <-]], Hk as [b [Hb <-]].
    apply In_nth_error in Ha, Hb. destruct Ha as [j Hj], Hb as [j' Hj'].
    rewrite (renum_at _ Hj), (renum_at _ Hj') in E. assert (j = j') by lia. congruence.
Qed.
Lemma numbered_map set : (forall i a, idx (set i a) = i) -> numbered (map idx (number set 1 l)).
Proof.
  intros Hs j i Hj. rewrite number_renum, map_map in Hj.
  rewrite nth_error_map in Hj. destruct (nth_error l j) as [a|] eqn:E; [|discriminate].
  simpl in Hj. rewrite Hs in Hj. injection Hj as <-. apply renum_at; auto.
Qed.
End Renum.

Lemma perm_has A (idx : A -> Z) l l' : Permutation l' l -> forall i, (exists a, In a l /\ idx a = i) <-> exists a, In a l' /\ idx a = i.
Proof.
  intros H i. split; intros [a [Ha E]]; exists a; split; auto; [apply (Permutation_in a (Permutation_sym H))|apply (Permutation_in a H)]; auto.
Qed.

Lemma reorder_spec m vos sus eds ves : unique_indices m ->
  Permutation vos (volus m) -> Permutation sus (surfs m) -> Permutation eds (edges m) -> Permutation ves (verts m) ->
  let m' := reorder vos sus eds ves m in
  exists fn fe fs fv,
    relabelled fn fe fs fv m m' /\
    numbering fn (has_vert m) (length (verts m)) /\ numbering fe (has_edge m) (length (edges m)) /\
    numbering fs (has_surf m) (length (surfs m)) /\ numbering fv (has_volu m) (length (volus m)) /\
    numbered (map ve_index (verts m')) /\ numbered (map ed_index (edges m')) /\
    numbered (map su_index (surfs m')) /\ numbered (map vo_index (volus m')).
Proof.
  intros [U1 [U2 [U3 [U4 [Z1 [Z2 [Z3 Z4]]]]]]] P1 P2 P3 P4 m'.
  assert (N1 : NoDup (map vo_index vos)) by (apply (Permutation_NoDup (Permutation_sym (Permutation_map vo_index P1))); auto).
  assert (N2 : NoDup (map su_index sus)) by (apply (Permutation_NoDup (Permutation_sym (Permutation_map su_index P2))); auto).
  assert (N3 : NoDup (map ed_index eds)) by (apply (Permutation_NoDup (Permutation_sym (Permutation_map ed_index P3))); auto).
  assert (N4 : NoDup (map ve_index ves)) by (apply (Permutation_NoDup (Permutation_sym (Permutation_map ve_index P4))); auto).
  exists (renum ve_index ves), (renum ed_index eds), (renum su_index sus), (renum vo_index vos).
  split; [|split; [|split; [|split; [|split; [|split; [|split; [|split]]]]]]].
  - repeat apply conj; simpl; auto.
    + rewrite (@number_renum _ ve_index ves N4). apply Permutation_map. auto.
    + rewrite (@number_renum _ ed_index eds N3). apply Permutation_map. auto.
    + rewrite (@number_renum _ su_index sus N2). apply Permutation_map. auto.
    + rewrite (@number_renum _ vo_index vos N1). apply Permutation_map. auto.
  - rewrite <- (Permutation_length P4). apply renum_numbering; auto. intros i. apply perm_has; auto.
  - rewrite <- (Permutation_length P3). apply renum_numbering; auto. intros i. apply perm_has; auto.
  - rewrite <- (Permutation_length P2). apply renum_numbering; auto. intros i. apply perm_has; auto.
  - rewrite <- (Permutation_length P1). apply renum_numbering; auto. intros i. apply perm_has; auto.
  - simpl. apply numbered_map; auto.
  - simpl. apply numbered_map; auto.
  - simpl. apply numbered_map; auto.
  - simpl. apply numbered_map; auto.
Qed.

(** Consequences of a relabelling. *)
Lemma lists_relabelled A (idx : A -> Z) get l l' f g (mk : A -> A) hasA hasB nA nB :
  Permutation l' (map mk l) -> (forall a, idx (mk a) = f (idx a)) -> (forall a, get (mk a) = map g (get a)) ->
  (forall i, hasA i <-> exists a, In a l /\ idx a = i) ->
  numbering f hasA nA -> numbering g hasB nB ->
  (forall i x, lists idx get l i x -> x = 0 \/ hasB x) ->
  forall i x, hasA i -> x = 0 \/ hasB x -> lists idx get l' (f i) (g x) <-> lists idx get l i x.
Proof.
  intros HP Hi Hg HA [_ [_ Fi]] [G0 [Gr Gi]] Hk i x Hhi Hx. unfold lists. split.
  - intros [a' [Ha' [E' Hin]]]. apply (Permutation_in a' HP) in Ha'. apply in_map_iff in Ha'.
    destruct Ha' as [a [<- Ha]]. rewrite Hi in E'. rewrite Hg in Hin. apply in_map_iff in Hin.
    destruct Hin as [y [Ey Hy]].
    assert (idx a = i) by (apply Fi; auto; apply HA; eauto).
    assert (Hyk : y = 0 \/ hasB y) by (apply (Hk (idx a)); exists a; auto).
    assert (y = x).
    { destruct Hx as [->|Hx], Hyk as [->|Hyk]; auto.
      - rewrite G0 in Ey. specialize (Gr y Hyk). lia.
      - rewrite G0 in Ey. specialize (Gr x Hx). lia. }
    subst. exists a. auto.
  - intros [a [Ha [Ei Hin]]]. exists (mk a). split.
    + apply (Permutation_in _ (Permutation_sym HP)). apply in_map; auto.
    + rewrite Hi, Hg, Ei. split; auto. apply in_map; auto.
Qed.
