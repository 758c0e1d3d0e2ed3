(** Proofs about the order of snaxels along an edge. *)
From Coq Require Import Permutation Sorted.
From Verif Require Import Base Containers ContainersProofs Mesh Flood Num Snake SpecSnake MeshProofs CloseProofs EditProofs SnakeProofs SnakeTimeProofs.
Set Implicit Arguments.
Open Scope Q_scope.

(** ** OrderOnEdge *)
Lemma insert_perm x l : Permutation (insert Qn x l) (x :: l).
Proof.
  induction l as [|y l IH]; simpl; auto. destruct (qlt y x); auto.
  rewrite IH. apply perm_swap.
Qed.
Lemma sort_perm l : Permutation (sort Qn l) l.
Proof. induction l as [|x l IH]; simpl; auto. rewrite insert_perm. constructor; auto. Qed.
Lemma insert_sorted x l : StronglySorted Qle l -> StronglySorted Qle (insert Qn x l).
Proof.
  induction l as [|y l IH]; intros H; simpl; [repeat constructor|].
  apply StronglySorted_inv in H. destruct H as [H1 H2]. destruct (qlt y x) eqn:E.
  - apply qlt_true in E. constructor; auto. eapply Permutation_Forall; [symmetry; apply insert_perm|].
    constructor; auto. lra.
  - apply qlt_false in E. constructor; [constructor; auto|]. constructor; auto.
    eapply Forall_impl; [|exact H2]. simpl. intros z Hz. lra.
Qed.
Lemma sort_sorted l : StronglySorted Qle (sort Qn l).
Proof. induction l; simpl; [constructor|apply insert_sorted; auto]. Qed.

(** No two entries are equal numbers. *)
Definition distinct (l : list Q) : Prop := forall i j x y, nth_error l i = Some x -> nth_error l j = Some y -> x == y -> i = j.
Lemma distinct_cons x l : distinct (x :: l) -> (forall y, In y l -> ~ x == y) /\ distinct l.
Proof.
  intros H. split.
  - intros y Hy E. apply In_nth_error in Hy. destruct Hy as [k Hk]. specialize (H 0%nat (S k) x y eq_refl Hk E). discriminate.
  - intros i j a b Hi Hj E. specialize (H (S i) (S j) a b Hi Hj E). lia.
Qed.
Lemma distinct_cons_r x l : (forall y, In y l -> ~ x == y) -> distinct l -> distinct (x :: l).
Proof.
  intros H1 H2 [|i] [|j] a b Hi Hj E; simpl in *; auto.
  - injection Hi as <-. apply nth_error_In in Hj. destruct (H1 _ Hj E).
  - injection Hj as <-. apply nth_error_In in Hi. destruct (H1 _ Hi). lra.
  - f_equal. eapply H2; eauto.
Qed.
Lemma distinct_perm l l' : Permutation l l' -> distinct l -> distinct l'.
Proof.
  induction 1 as [|x l l' P IH|x y l|l l' l'' P1 IH1 P2 IH2]; intros H; auto.
  - apply distinct_cons in H. destruct H as [H1 H2]. apply distinct_cons_r; auto.
    intros y Hy. apply H1. apply Permutation_sym in P. eapply Permutation_in; eauto.
  - apply distinct_cons in H. destruct H as [H1 H2]. apply distinct_cons in H2. destruct H2 as [H2 H3].
    apply distinct_cons_r; [|apply distinct_cons_r; auto].
    + intros z [<-|Hz]; [|auto]. intros E. apply (H1 x); [left; auto|lra].
    + intros z Hz. apply H1. right; auto.
Qed.
Definition qltb (x y : Q) : bool := match x ?= y with Lt => true | _ => false end.
Lemma qltb_true x y : qltb x y = true <-> x < y.
Proof. unfold qltb. rewrite Qlt_alt. destruct (x ?= y); split; congruence. Qed.
Lemma rank_sorted l j x : StronglySorted Qle l -> distinct l -> nth_error l j = Some x ->
  length (filter (fun y => qltb y x) l) = j.
Proof.
  revert j. induction l as [|y l IH]; intros j Hs Hd Hj; [destruct j; discriminate|].
  apply StronglySorted_inv in Hs. destruct Hs as [Hs Hall]. apply distinct_cons in Hd. destruct Hd as [Hn Hd].
  rewrite Forall_forall in Hall. destruct j as [|j]; simpl in *.
  - injection Hj as <-. assert (Eyy : qltb y y = false) by (apply not_true_is_false; rewrite qltb_true; lra). rewrite Eyy.
    assert (E : filter (fun z => qltb z y) l = []); [|rewrite E; auto].
    destruct (filter (fun z => qltb z y) l) as [|z r] eqn:E; auto. exfalso.
    assert (Hz : In z (filter (fun z => qltb z y) l)) by (rewrite E; simpl; auto). apply filter_In in Hz.
    destruct Hz as [Hz K]. apply qltb_true in K. specialize (Hall _ Hz). lra.
  - assert (Hin := nth_error_In _ _ Hj). specialize (Hn _ Hin). specialize (Hall _ Hin).
    assert (Eyx : qltb y x = true) by (apply qltb_true; destruct (Qlt_le_dec y x); auto; exfalso; apply Hn; lra). rewrite Eyx. simpl. f_equal. auto.
Qed.
Lemma filter_perm_length A (f : A -> bool) l l' : Permutation l l' -> length (filter f l) = length (filter f l').
Proof. induction 1; simpl; auto; repeat match goal with |- context [f ?x] => destruct (f x) end; simpl; congruence. Qed.
Lemma filter_map_length A B (f : A -> B) (g : B -> bool) l : length (filter g (map f l)) = length (filter (fun x => g (f x)) l).
Proof. induction l as [|x l IH]; simpl; auto. destruct (g (f x)); simpl; auto. Qed.

Lemma combine_upto_nth A (l : list A) k x o : In (x, o) (combine l (upto (length l) k)) <->
  exists i, nth_error l i = Some x /\ o = (k + Z.of_nat i)%Z.
Proof.
  revert k. induction l as [|y l IH]; intros k; simpl.
  - split; [tauto|]. intros [[|i] [H _]]; discriminate.
  - rewrite IH. split.
    + intros [E|[i [H1 H2]]]; [injection E as <- <-; exists 0%nat; simpl; split; auto; lia|exists (S i); simpl; split; auto; lia].
    + intros [[|i] [H1 H2]]; [left; injection H1 as <-; f_equal; lia|right; exists i; split; auto; lia].
Qed.
Lemma find_sub_key choose keys k x : legal_choose choose -> distinct keys -> nth_error keys k = Some x ->
  find_sub Qn choose (combine keys (upto (length keys) 0)) x = Z.of_nat k.
Proof.
  intros Hc Hd Hk. unfold find_sub.
  set (hits := map snd (filter (fun kp : Q * Z => @neq Qn (fst kp) x) (combine keys (upto (length keys) 0)))).
  assert (Hin : forall o, In o hits <-> o = Z.of_nat k).
  { intros o. unfold hits. rewrite in_map_iff. split.
    - intros [[y o'] [<- H]]. apply filter_In in H. destruct H as [H E]. simpl in *. apply Qeq_bool_iff in E.
      apply combine_upto_nth in H. destruct H as [i [Hi ->]]. rewrite (Hd i k y x Hi Hk E). lia.
    - intros ->. exists (x, Z.of_nat k). split; auto. apply filter_In. split; [|apply Qeq_bool_iff; reflexivity].
      apply combine_upto_nth. exists k. split; auto. }
  change (match hits with [] => (-1)%Z | h :: r => choose (h :: r) end = Z.of_nat k).
  destruct hits as [|h r] eqn:E.
  - exfalso. destruct (proj2 (Hin (Z.of_nat k)) eq_refl).
  - apply Hin. apply Hc. discriminate.
Qed.

Lemma same_order_refl N (l : list (snax N)) : Forall2 same_but_order l l.
Proof. induction l; constructor; auto. repeat split. Qed.
Lemma same_order_trans N (l1 l2 l3 : list (snax N)) :
  Forall2 same_but_order l1 l2 -> Forall2 same_but_order l2 l3 -> Forall2 same_but_order l1 l3.
Proof.
  intros H. revert l3. induction H as [|a b r r' H1 H2 IH]; intros l3 H; inversion H; subst; constructor; auto.
  unfold same_but_order in *. intuition congruence.
Qed.
(** Writing one order after the other *)
Lemma assign_ok N (subs : list Z) : forall order k (l : list (snax N)),
  (forall o, In o order -> (0 <= o < Z.of_nat (length subs))%Z) -> NoDup order -> NoDup subs ->
  (forall p, In p subs -> (0 <= p < Z.of_nat (length l))%Z) ->
  exists l', for_each (combine order (upto (length order) k))
           (fun kj l => do p <- at_ subs (fst kj); modify l p (sx_set_order (snd kj + 1))) l = Ok l' /\
    Forall2 same_but_order l l' /\
    (forall p, (forall o, In o order -> nth_error subs (Z.to_nat o) <> Some p) -> (0 <= p)%Z ->
       nth_error l' (Z.to_nat p) = nth_error l (Z.to_nat p)) /\
    (forall j o p s, nth_error order j = Some o -> nth_error subs (Z.to_nat o) = Some p ->
       nth_error l' (Z.to_nat p) = Some s -> sx_order s = (k + Z.of_nat j + 1)%Z).
Proof.
  induction order as [|o order IH]; intros k l Ho Hno Hns Hp.
  - exists l. split; [auto|]. split; [|split; auto].
    + clear. induction l; constructor; auto. repeat split.
    + intros [|j]; discriminate.
  - inversion Hno as [|? ? Hnot Hno']; subst.
    destruct (at_in_range subs (Ho o (or_introl eq_refl))) as [p Ep].
    pose proof (proj1 (at_Ok _ _ _) Ep) as [Hop Hnp].
    destruct (at_in_range l (Hp p (nth_error_In _ _ Hnp))) as [s Es].
    pose proof (proj1 (at_Ok _ _ _) Es) as [Hp0 Hns'].
    cbn [length upto combine for_each fst snd]. rewrite Ep. cbn [bind]. unfold modify at 1. rewrite Es. cbn [bind].
    set (l1 := upd l (Z.to_nat p) (sx_set_order (k + 1) s)).
    destruct (IH (k + 1)%Z l1) as [l' [E1 [E2 [E3 E4]]]]; auto.
    { intros; apply Ho; right; auto. }
    { intros q Hq. unfold l1. rewrite upd_length. auto. }
    assert (Hlen : (Z.to_nat p < length l)%nat) by (apply nth_error_Some; congruence).
    assert (Hpnot : forall o', In o' order -> nth_error subs (Z.to_nat o') <> Some p).
    { intros o' Ho' K. apply Hnot. replace o with o'; auto.
      assert (Z.to_nat o' = Z.to_nat o).
      { apply (proj1 (NoDup_nth_error subs) Hns); [apply nth_error_Some; congruence|congruence]. }
      pose proof (Ho o' (or_intror Ho')). lia. }
    exists l'. split; [exact E1|]. split; [|split].
    + assert (Hb : Forall2 same_but_order l l1).
      { unfold l1. revert Hns'. generalize (Z.to_nat p) as n. clear. induction l as [|t l IH]; intros [|n] H; simpl in *; try discriminate.
        - injection H as ->. constructor; [repeat split|]. clear. induction l; constructor; auto. repeat split.
        - constructor; [repeat split|auto]. }
      exact (same_order_trans Hb E2).
    + intros q Hq Hq0. rewrite E3; [|intros; apply Hq; right; auto|auto]. unfold l1. apply nth_error_upd_other.
      intros K. apply (Hq o); [left; auto|]. rewrite Hnp. f_equal. lia.
    + intros [|j] o' p' s' Hj Hs' Hl'; simpl in Hj.
      * injection Hj as <-. rewrite Hnp in Hs'. injection Hs' as <-. rewrite E3 in Hl' by auto.
        unfold l1 in Hl'. rewrite nth_error_upd_same in Hl' by auto. injection Hl' as <-. simpl. lia.
      * rewrite (E4 j o' p' s' Hj Hs' Hl'). lia.
Qed.

Lemma along_low (s : qsnax) : along s = low s.
Proof. reflexivity. Qed.

Section OrderEdge.
Variable choose : list Z -> Z.
Variable rng : Z -> list Z.
Variable l : list qsnax.
Hypothesis Hch : legal_choose choose.
Hypothesis legal : legal_rng l rng.
Hypothesis Hnd : NoDup (map (fun s => sx_index s) l).

Lemma order_edge_single e st : (length (rng e) <= 1)%nat -> @order_edge Qn choose rng e st = Ok st.
Proof.
  intros H. unfold order_edge. destruct st as [l0 t]. destruct (Nat.ltb_spec 1 (length (rng e))); [lia|auto].
Qed.
Lemma order_edge_ok e : (1 < length (rng e))%nat ->
  (forall s t, In s l -> In t l -> sx_edge s = e -> sx_edge t = e -> low s == low t -> s = t) ->
  exists l' t', order_edge choose rng e (l, []) = Ok (l', t') /\ Forall2 same_but_order l l' /\
    forall k s s', nth_error l k = Some s -> nth_error l' k = Some s' ->
      sx_order s' = if (sx_edge s =? e)%Z then (Z.of_nat (before l s) + 1)%Z else sx_order s.
Proof.
  intros Hlong Hdis. unfold order_edge. rewrite (proj2 (Nat.ltb_lt _ _) Hlong).
  assert (Hnl : NoDup l) by (apply NoDup_map_inv in Hnd; auto).
  destruct (@omap_at _ l (rng e) (fun p Hp => rng_range legal _ _ Hp)) as [ss [_ HF]].
  destruct (@sibs_match rng l e _ _ legal eq_refl HF) as [M1 M2]. destruct (M2 Hnl) as [Hnss Hlen].
  assert (Ek : omap_list (fun p => do s <- at_ l p; Ok (along s)) (rng e) = Ok (map (fun s : qsnax => low s) ss)).
  { assert (Hr : forall p, In p (rng e) -> (0 <= p)%Z) by (intros p Hp; apply (rng_range legal) in Hp; lia).
    revert HF Hr. generalize (rng e) as ps. clear. intros ps HF. induction HF as [|p s ps ss Hp HF IH]; intros Hr; auto.
    cbn [omap_list map]. rewrite (proj2 (at_Ok l p s)) by (split; [apply Hr; left; auto|auto]). cbn [bind].
    rewrite IH by (intros; apply Hr; right; auto). auto. }
  rewrite Ek. cbn [bind]. set (keys := map (fun s : qsnax => low s) ss).
  assert (Hkd : distinct keys).
  { intros i j x y Hi Hj E. unfold keys in *. rewrite nth_error_map in Hi, Hj.
    destruct (nth_error ss i) as [s|] eqn:Ei; [|discriminate]. destruct (nth_error ss j) as [t|] eqn:Ej; [|discriminate].
    simpl in Hi, Hj. injection Hi as <-. injection Hj as <-.
    assert (s = t).
    { apply nth_error_In in Ei, Ej. apply M1 in Ei, Ej. apply Hdis; tauto. }
    subst t. apply (proj1 (NoDup_nth_error ss) Hnss); [apply nth_error_Some; congruence|congruence]. }
  unfold find_sub_list. cbv zeta.
  set (order := map (find_sub Qn choose (combine keys (upto (length keys) 0))) (sort Qn keys)).
  assert (Hperm := sort_perm keys).
  assert (Hord : forall j o, nth_error order j = Some o -> exists i x, o = Z.of_nat i /\ nth_error keys i = Some x /\ nth_error (sort Qn keys) j = Some x).
  { intros j o Hj. unfold order in Hj. rewrite nth_error_map in Hj. destruct (nth_error (sort Qn keys) j) as [x|] eqn:Ex; [|discriminate].
    simpl in Hj. injection Hj as <-.
    assert (In x keys) by (eapply Permutation_in; [exact Hperm|eapply nth_error_In; exact Ex]).
    apply In_nth_error in H. destruct H as [i Hi]. exists i, x. split; auto. apply find_sub_key; auto. }
  assert (Hklen : length keys = length (rng e)) by (unfold keys; rewrite map_length; symmetry; apply (Forall2_len HF)).
  assert (Hrange : forall o, In o order -> (0 <= o < Z.of_nat (length (rng e)))%Z).
  { intros o Ho. apply In_nth_error in Ho. destruct Ho as [j Hj]. destruct (Hord j o Hj) as [i [x [-> [Hi _]]]].
    assert (i < length keys)%nat by (apply nth_error_Some; congruence). lia. }
  assert (Hsd : distinct (sort Qn keys)) by (eapply distinct_perm; [symmetry; exact Hperm|auto]).
  assert (Hno : NoDup order).
  { apply NoDup_nth_error. intros i j Hi E.
    destruct (nth_error order i) as [o|] eqn:Ei; [|apply nth_error_None in Ei; lia]. symmetry in E.
    destruct (Hord i o Ei) as [a [x [Ea [Ha Hx]]]]. destruct (Hord j o E) as [b [y [Eb [Hb Hy]]]].
    assert (a = b) by lia. subst b. assert (x = y) by congruence. subst y. apply (Hsd i j x x Hx Hy). reflexivity. }
  destruct (@assign_ok Qn (rng e) order 0 l) as [l' [E1 [E2 [E3 E4]]]]; auto.
  { apply (proj1 (legal e)). }
  { intros p Hp. apply (rng_range legal _ _ Hp). }
  exists l', (combine keys (upto (length keys) 0)). split.
  { transitivity (do l0 <- assign_orders (rng e) order l; Ok (l0, combine keys (upto (length keys) 0))); [reflexivity|].
    unfold assign_orders. rewrite E1. auto. }
  split; auto.
  intros k s s' Hs Hs'. destruct (Z.eqb_spec (sx_edge s) e) as [He|He].
  - assert (Hin : In (Z.of_nat k) (rng e)) by (rewrite <- He; apply (rng_self legal); auto).
    apply In_nth_error in Hin. destruct Hin as [i Hi]. destruct (Forall2_ex HF _ Hi) as [s0 [Hs0 Hl0]].
    rewrite Nat2Z.id in Hl0. assert (s0 = s) by congruence. subst s0.
    assert (Hki : nth_error keys i = Some (low s)) by (unfold keys; rewrite nth_error_map, Hs0; auto).
    assert (Hins : In (low s) (sort Qn keys)).
    { eapply Permutation_in; [symmetry; exact Hperm|]. eapply nth_error_In; exact Hki. }
    apply In_nth_error in Hins. destruct Hins as [j Hj].
    assert (Hoj : nth_error order j = Some (Z.of_nat i)).
    { etransitivity; [exact (map_nth_error (find_sub Qn choose (combine keys (upto (length keys) 0))) j (sort Qn keys) Hj)|].
      f_equal. apply find_sub_key; auto. }
    rewrite (E4 j (Z.of_nat i) (Z.of_nat k) s'); [|exact Hoj|rewrite Nat2Z.id; auto|rewrite Nat2Z.id; auto].
    f_equal. f_equal. rewrite Z.add_0_l. f_equal.
    rewrite <- (@rank_sorted _ _ _ (sort_sorted keys) Hsd Hj).
    rewrite (filter_perm_length _ Hperm). unfold keys. rewrite filter_map_length. unfold before.
    apply filter_perm_length. apply NoDup_Permutation; auto.
    + unfold siblings. apply NoDup_filter; auto.
    + intros t. unfold siblings. rewrite M1, filter_In, Z.eqb_eq, He. tauto.
  - assert (E : nth_error l' (Z.to_nat (Z.of_nat k)) = nth_error l (Z.to_nat (Z.of_nat k))).
    { apply E3; [|lia]. intros o _ K. apply nth_error_In in K. apply (proj2 (legal e)) in K.
      destruct K as [_ [t [Ht Te]]]. rewrite Nat2Z.id in Ht. congruence. }
    rewrite Nat2Z.id in E. congruence.
Qed.

Lemma order_on_edge_ok e0 :
  (forall e, e <> e0 -> (length (rng e) <= 1)%nat) ->
  (forall s t, In s l -> In t l -> sx_edge s = e0 -> sx_edge t = e0 -> low s == low t -> s = t) ->
  exists l', order_on_edge choose rng l = Ok l' /\ Forall2 same_but_order l l' /\
    forall k s s', nth_error l k = Some s -> nth_error l' k = Some s' ->
      sx_order s' = if (1 <? length (siblings l s))%nat then (Z.of_nat (before l s) + 1)%Z else sx_order s.
Proof.
  intros Hone Hdis. unfold order_on_edge.
  assert (Hnl : NoDup l) by (apply NoDup_map_inv in Hnd; auto).
  assert (Hsib : forall s, In s l -> length (siblings l s) = length (rng (sx_edge s))).
  { intros s Hs. destruct (@omap_at _ l (rng (sx_edge s)) (fun p Hp => rng_range legal _ _ Hp)) as [ss [_ HF]].
    destruct (@sibs_match rng l (sx_edge s) _ _ legal eq_refl HF) as [M1 M2]. destruct (M2 Hnl) as [_ Hlen].
    rewrite (Forall2_len HF). symmetry. exact Hlen. }
  assert (Hskip : forall es st, ~ In e0 es -> for_each es (@order_edge Qn choose rng) st = Ok st).
  { induction es as [|e es IH]; intros st Hn; auto. cbn [for_each]. rewrite order_edge_single by (apply Hone; intros ->; apply Hn; left; auto).
    cbn [bind]. apply IH. intros K; apply Hn; right; auto. }
  assert (Hrefl : Forall2 same_but_order l l) by (clear; induction l; constructor; auto; repeat split).
  destruct (Nat.ltb_spec 1 (length (rng e0))) as [Hm|Hm].
  - assert (Hin : In e0 (tighten (map (fun s => sx_edge s) l))).
    { apply tighten_In. destruct (rng e0) as [|p r] eqn:Er; [simpl in Hm; lia|].
      destruct (proj1 (proj2 (legal e0) p)) as [_ [s [Hs He]]]; [rewrite Er; left; auto|].
      apply in_map_iff. exists s. split; auto. eapply nth_error_In; eauto. }
    apply in_split in Hin. destruct Hin as [e1 [e2 Esp]].
    assert (Hnd2 : NoDup (e1 ++ e0 :: e2)) by (rewrite <- Esp; apply strict_NoDup, tighten_strict).
    apply NoDup_remove_2 in Hnd2.
    destruct (@order_edge_ok e0 Hm Hdis) as [l' [t' [E1 [E2 E3]]]].
    exists l'. split; [|split; auto].
    + change (map (@sx_edge Qn) l) with (map (fun s : qsnax => sx_edge s) l).
      rewrite Esp. rewrite for_each_app. rewrite Hskip by (intros K; apply Hnd2; apply in_or_app; auto).
      cbn [bind for_each]. rewrite E1. cbn [bind]. rewrite Hskip by (intros K; apply Hnd2; apply in_or_app; auto). auto.
    + intros k s s' Hs Hs'. rewrite (E3 k s s' Hs Hs'). rewrite (Hsib s) by (eapply nth_error_In; eauto).
      destruct (Z.eqb_spec (sx_edge s) e0) as [->|Hne]; [rewrite (proj2 (Nat.ltb_lt _ _) Hm); auto|].
      specialize (Hone _ Hne). destruct (Nat.ltb_spec 1 (length (rng (sx_edge s)))); [lia|auto].
  - exists l. split; [|split; auto].
    + assert (Hall : forall es st, for_each es (@order_edge Qn choose rng) st = Ok st).
      { induction es as [|e es IH]; intros st; auto. cbn [for_each].
        rewrite order_edge_single by (destruct (Z.eq_dec e e0) as [->|]; auto). apply IH. }
      rewrite Hall. auto.
    + intros k s s' Hs Hs'. rewrite (Hsib s) by (eapply nth_error_In; eauto).
      assert (length (rng (sx_edge s)) <= 1)%nat by (destruct (Z.eq_dec (sx_edge s) e0) as [->|]; auto).
      destruct (Nat.ltb_spec 1 (length (rng (sx_edge s)))); [lia|]. congruence.
Qed.
End OrderEdge.

(** ** ReorderOnEdge *)
Definition memn (k : nat) (subs : list Z) : bool := existsb (fun p => (p =? Z.of_nat k)%Z) subs.
Lemma memn_In k subs : memn k subs = true <-> In (Z.of_nat k) subs.
Proof.
  unfold memn. rewrite existsb_exists. split.
  - intros [p [H E]]. apply Z.eqb_eq in E. congruence.
  - intros H. exists (Z.of_nat k). split; auto. apply Z.eqb_refl.
Qed.
Lemma Forall2_upd N (l : list (snax N)) n s o : nth_error l n = Some s ->
  Forall2 same_but_order l (upd l n (sx_set_order o s)).
Proof.
  revert n. induction l as [|t l IH]; intros [|n] H; simpl in *; try discriminate.
  - injection H as ->. constructor; [repeat split|apply same_order_refl].
  - constructor; [repeat split|auto].
Qed.
(** A loop that gives every listed snaxel a new order. *)
Lemma reorders_ok N (f : snax N -> Z) subs : forall l, NoDup subs ->
  (forall p, In p subs -> (0 <= p < Z.of_nat (length l))%Z) ->
  exists l', for_each subs (fun p l => modify l p (fun s => sx_set_order (f s) s)) l = Ok l' /\
    Forall2 same_but_order l l' /\
    forall k s, nth_error l k = Some s ->
      nth_error l' k = Some (if memn k subs then sx_set_order (f s) s else s).
Proof.
  induction subs as [|p subs IH]; intros l Hnd Hr.
  - exists l. split; [auto|]. split; [apply same_order_refl|]. intros k s Hs. auto.
  - inversion Hnd as [|? ? Hni Hnd']; subst.
    destruct (at_in_range l (Hr p (or_introl eq_refl))) as [s Es].
    cbn [for_each]. unfold modify at 1. rewrite Es. cbn [bind]. apply at_Ok in Es. destruct Es as [Hp0 Es].
    set (l1 := upd l (Z.to_nat p) (sx_set_order (f s) s)).
    destruct (IH l1 Hnd') as [l' [E1 [E2 E3]]].
    { intros q Hq. unfold l1. rewrite upd_length. apply Hr; right; auto. }
    exists l'. split; [exact E1|]. split; [eapply same_order_trans; [apply Forall2_upd; eauto|exact E2]|].
    intros k t Ht. assert (Hkl : (Z.to_nat p < length l)%nat) by (apply nth_error_Some; congruence).
    unfold memn. cbn [existsb]. destruct (Z.eqb_spec p (Z.of_nat k)) as [->|Hne].
    + rewrite Nat2Z.id in *. assert (t = s) by congruence. subst t.
      rewrite (E3 k (sx_set_order (f s) s)) by (unfold l1; rewrite Nat2Z.id; apply nth_error_upd_same; auto).
      assert (Em : memn k subs = false) by (apply not_true_is_false; rewrite memn_In; auto).
      unfold memn in Em. unfold memn. rewrite Em. auto.
    + cbn [orb]. apply E3. unfold l1. rewrite nth_error_upd_other by lia. auto.
Qed.
Definition is_fresh {N} (s : snax N) : bool := (sx_order s =? -1)%Z.
Lemma news_ok N M subs : forall (l : list (snax N)) inc, NoDup subs ->
  (forall p, In p subs -> (0 <= p < Z.of_nat (length l))%Z) ->
  exists l' inc', for_each subs (reorder_new M) (l, inc) = Ok (l', inc') /\
    Forall2 same_but_order l l' /\
    (forall k s, nth_error l k = Some s ->
      nth_error l' k = Some (if (memn k subs && is_fresh s)%bool then sx_set_order (arrival_order M s) s else s)) /\
    (inc' = true <-> inc = true \/ exists k s, nth_error l k = Some s /\ In (Z.of_nat k) subs /\ is_fresh s = true /\ arrival_order M s = 0%Z).
Proof.
  induction subs as [|p subs IH]; intros l inc Hnd Hr.
  - exists l, inc. split; [auto|]. split; [apply same_order_refl|]. split; [auto|]. split; auto. intros [H|[k [s [_ [[] _]]]]]; auto.
  - inversion Hnd as [|? ? Hni Hnd']; subst.
    destruct (at_in_range l (Hr p (or_introl eq_refl))) as [s Es].
    cbn [for_each]. unfold reorder_new at 1. rewrite Es. cbn [bind]. pose proof Es as Es1. apply at_Ok in Es1. destruct Es1 as [Hp0 Es1].
    assert (Hkl : (Z.to_nat p < length l)%nat) by (apply nth_error_Some; congruence).
    fold (is_fresh s). destruct (is_fresh s) eqn:Ef.
    + unfold modify. rewrite Es. cbn [bind]. cbv zeta.
      set (l1 := upd l (Z.to_nat p) (sx_set_order (arrival_order M s) s)).
      destruct (IH l1 (inc || (arrival_order M s =? 0)%Z)%bool Hnd') as [l' [inc' [E1 [E2 [E3 E4]]]]].
      { intros q Hq. unfold l1. rewrite upd_length. apply Hr; right; auto. }
      exists l', inc'. split; [exact E1|]. split; [eapply same_order_trans; [apply Forall2_upd; eauto|exact E2]|]. split.
      * intros k t Ht. unfold memn. cbn [existsb]. destruct (Z.eqb_spec p (Z.of_nat k)) as [->|Hne].
        -- rewrite Nat2Z.id in *. assert (t = s) by congruence. subst t. rewrite Ef.
           rewrite (E3 k (sx_set_order (arrival_order M s) s)) by (unfold l1; rewrite Nat2Z.id; apply nth_error_upd_same; auto).
           assert (Em : memn k subs = false) by (apply not_true_is_false; rewrite memn_In; auto).
           rewrite Em. auto.
        -- cbn [orb]. apply E3. unfold l1. rewrite nth_error_upd_other by lia. auto.
      * rewrite E4. rewrite orb_true_iff, Z.eqb_eq. split.
        -- intros [[H|H]|[k [t [Ht [Hk [Hf Ha]]]]]]; auto.
           ++ right. exists (Z.to_nat p), s. rewrite Z2Nat.id by lia. simpl. auto.
           ++ right. exists k, t. unfold l1 in Ht. rewrite nth_error_upd_other in Ht by (intros K; apply Hni; replace p with (Z.of_nat k) by lia; auto).
              simpl. auto.
        -- intros [H|[k [t [Ht [[Hk|Hk] [Hf Ha]]]]]]; auto.
           ++ subst p. rewrite Nat2Z.id in *. assert (t = s) by congruence. subst t. auto.
           ++ right. exists k, t. unfold l1. rewrite nth_error_upd_other by (intros K; apply Hni; replace p with (Z.of_nat k) by lia; auto). auto.
    + destruct (IH l inc Hnd') as [l' [inc' [E1 [E2 [E3 E4]]]]].
      { intros q Hq. apply Hr; right; auto. }
      exists l', inc'. split; [exact E1|]. split; auto. split.
      * intros k t Ht. rewrite (E3 k t Ht). unfold memn. cbn [existsb].
        destruct (Z.eqb_spec p (Z.of_nat k)) as [->|Hne]; auto. rewrite Nat2Z.id in *.
        assert (t = s) by congruence. subst t. rewrite Ef, !andb_false_r. auto.
      * rewrite E4. split.
        -- intros [H|[k [t [Ht [Hk H]]]]]; auto. right. exists k, t. simpl. auto.
        -- intros [H|[k [t [Ht [[Hk|Hk] [Hf Ha]]]]]]; auto; [|right; exists k, t; auto].
           subst p. rewrite Nat2Z.id in *. congruence.
Qed.
Lemma max_ok N subs : forall (l : list (snax N)) m, (forall p, In p subs -> (0 <= p < Z.of_nat (length l))%Z) ->
  exists M, for_each subs (fun p m => do s <- at_ l p; Ok (if (m <=? sx_order s)%Z then sx_order s else m)) m = Ok M /\
    (m <= M)%Z /\ (forall k s, nth_error l k = Some s -> In (Z.of_nat k) subs -> (sx_order s <= M)%Z) /\
    (M = m \/ exists k s, nth_error l k = Some s /\ In (Z.of_nat k) subs /\ sx_order s = M).
Proof.
  induction subs as [|p subs IH]; intros l m Hr.
  - exists m. split; [auto|]. split; [lia|]. split; [intros ? ? ? []|auto].
  - destruct (at_in_range l (Hr p (or_introl eq_refl))) as [s Es].
    cbn [for_each]. rewrite Es. cbn [bind]. apply at_Ok in Es. destruct Es as [Hp0 Es].
    destruct (IH l (if (m <=? sx_order s)%Z then sx_order s else m)) as [M [E1 [E2 [E3 E4]]]].
    { intros; apply Hr; right; auto. }
    exists M. split; [exact E1|]. split; [destruct (Z.leb_spec m (sx_order s)); lia|]. split.
    + intros k t Ht [Hk|Hk]; [|eauto]. subst p. rewrite Nat2Z.id in Es. assert (t = s) by congruence. subst t.
      destruct (Z.leb_spec m (sx_order s)); lia.
    + destruct E4 as [E4|[k [t [Ht [Hk Et]]]]].
      * destruct (Z.leb_spec m (sx_order s)); [right; exists (Z.to_nat p), s; rewrite Z2Nat.id by lia; simpl; auto|left; auto].
      * right. exists k, t. simpl. auto.
Qed.

(** The outcome for one snaxel [s] of an edge with siblings [ss] *)
Definition top (ss : list qsnax) (M : Z) : Prop :=
  (0 <= M)%Z /\ (forall t, In t ss -> (sx_order t <= M)%Z) /\ (M = 0%Z \/ exists t, In t ss /\ sx_order t = M).
Definition base (M : Z) (s : qsnax) : Z := if is_fresh s then arrival_order M s else sx_order s.
Definition reordered (ss : list qsnax) (s : qsnax) (o : Z) : Prop :=
  ((length ss <= 1)%nat /\ o = 1%Z) \/
  ((1 < length ss)%nat /\ exists M, top ss M /\
     ((o = (base M s + 1)%Z /\ exists t, In t ss /\ is_fresh t = true /\ arrival_order M t = 0%Z) \/
      (o = base M s /\ forall t, In t ss -> is_fresh t = true -> arrival_order M t <> 0%Z))).

Lemma reorder_edge_ok rng (l : list qsnax) e : legal_rng l rng -> NoDup l -> rng e <> [] ->
  exists l', reorder_edge rng e l = Ok l' /\ Forall2 same_but_order l l' /\
    (forall k s, nth_error l k = Some s -> sx_edge s <> e -> nth_error l' k = Some s) /\
    (forall k s s', nth_error l k = Some s -> nth_error l' k = Some s' -> sx_edge s = e ->
       reordered (siblings l s) s (sx_order s')).
Proof.
  intros legal Hnl Hne.
  assert (Hrange : forall p, In p (rng e) -> (0 <= p < Z.of_nat (length l))%Z) by (intros p Hp; apply (rng_range legal _ _ Hp)).
  destruct (@omap_at _ l (rng e) Hrange) as [ss [_ HF]].
  destruct (@sibs_match rng l e _ _ legal eq_refl HF) as [M1 M2]. destruct (M2 Hnl) as [Hnss Hlen].
  pose proof (Forall2_len HF) as Hlen2. pose proof (proj1 (legal e)) as Hnr.
  assert (Hmem : forall k s, nth_error l k = Some s -> (memn k (rng e) = true <-> sx_edge s = e)).
  { intros k s Hs. rewrite memn_In. split.
    - intros H. apply (proj2 (legal e)) in H. destruct H as [_ [t [Ht Te]]]. rewrite Nat2Z.id in Ht. congruence.
    - intros <-. apply (rng_self legal); auto. }
  assert (Hsib : forall s, sx_edge s = e -> siblings l s = filter (fun t => sx_edge t =? e)%Z l) by (intros s <-; auto).
  assert (Hsin : forall s t, sx_edge s = e -> (In t (siblings l s) <-> exists k, nth_error l k = Some t /\ In (Z.of_nat k) (rng e))).
  { intros s t Hs. rewrite (Hsib s Hs), filter_In, Z.eqb_eq. split.
    - intros [Ht Te]. apply In_nth_error in Ht. destruct Ht as [k Hk]. exists k. split; auto. rewrite <- Te. apply (rng_self legal); auto.
    - intros [k [Hk Hin]]. split; [eapply nth_error_In; eauto|]. apply (Hmem k t Hk). apply memn_In; auto. }
  unfold reorder_edge. destruct (Nat.ltb_spec 1 (length (rng e))) as [Hm|Hm].
  - destruct (@max_ok _ (rng e) l 0 Hrange) as [M [E1 [E2 [E3 E4]]]].
    unfold max_order. rewrite E1. cbn [bind].
    destruct (@news_ok _ M (rng e) l false Hnr Hrange) as [l1 [inc [F1 [F2 [F3 F4]]]]].
    rewrite F1. cbn [bind].
    assert (Htop : forall s, sx_edge s = e -> top (siblings l s) M).
    { intros s Hs. split; [lia|]. split.
      - intros t Ht. apply (Hsin s t Hs) in Ht. destruct Ht as [k [Hk Hin]]. eauto.
      - destruct E4 as [E4|[k [t [Ht [Hin Et]]]]]; auto. right. exists t. split; auto. apply (Hsin s t Hs). eauto. }
    assert (Hl1 : length l1 = length l) by (symmetry; apply (Forall2_len F2)).
    destruct inc.
    + destruct (@reorders_ok _ (fun s : qsnax => sx_order s + 1)%Z (rng e) l1 Hnr) as [l2 [G1 [G2 G3]]].
      { intros p Hp. rewrite Hl1. auto. }
      exists l2. split; [exact G1|]. split; [eapply same_order_trans; eauto|]. split.
      * intros k s Hs He. rewrite (G3 k s).
        -- assert (E : memn k (rng e) = false) by (apply not_true_is_false; rewrite (Hmem k s Hs); auto). rewrite E; auto.
        -- rewrite (F3 k s Hs). assert (E : memn k (rng e) = false) by (apply not_true_is_false; rewrite (Hmem k s Hs); auto).
           rewrite E. auto.
      * intros k s s' Hs Hs' He. right. rewrite (Hsib s He), <- Hlen, <- Hlen2, <- (Hsib s He). split; auto.
        exists M. split; auto. left. assert (E : memn k (rng e) = true) by (apply (Hmem k s Hs); auto).
        rewrite (G3 k _ (F3 k s Hs)), E in Hs'. injection Hs' as <-. split.
        -- unfold base. cbn [andb]. destruct (is_fresh s); auto.
        -- destruct (proj1 F4 eq_refl) as [K|[k' [t [Ht [Hin [Hf Ha]]]]]]; [discriminate|].
           exists t. split; auto. apply (Hsin s t He). eauto.
    + exists l1. split; [auto|]. split; auto. split.
      * intros k s Hs He. rewrite (F3 k s Hs). assert (E : memn k (rng e) = false) by (apply not_true_is_false; rewrite (Hmem k s Hs); auto).
        rewrite E. auto.
      * intros k s s' Hs Hs' He. right. rewrite (Hsib s He), <- Hlen, <- Hlen2, <- (Hsib s He). split; auto.
        exists M. split; auto. right. assert (E : memn k (rng e) = true) by (apply (Hmem k s Hs); auto).
        rewrite (F3 k s Hs), E in Hs'. injection Hs' as <-. split.
        -- unfold base. cbn [andb]. destruct (is_fresh s); auto.
        -- intros t Ht Hf Ha. apply (Hsin s t He) in Ht. destruct Ht as [k' [Hk' Hin]].
           assert (false = true); [|discriminate]. apply F4. right. exists k', t. auto.
  - destruct (rng e) as [|p [|p2 r]] eqn:Er; [congruence| |simpl in Hm; lia].
    change (at_ [p] 0) with (Ok p). cbn [bind].
    destruct (at_in_range l (Hrange p (or_introl eq_refl))) as [s Es]. unfold modify. rewrite Es. cbn [bind].
    apply at_Ok in Es. destruct Es as [Hp0 Es].
    assert (Hkl : (Z.to_nat p < length l)%nat) by (apply nth_error_Some; congruence).
    eexists. split; [reflexivity|]. split; [apply Forall2_upd; auto|]. split.
    + intros k t Ht He. rewrite nth_error_upd_other; auto. intros K. apply He. apply (Hmem k t Ht). apply memn_In. left. lia.
    + intros k t t' Ht Ht' He. left. rewrite (Hsib t He), <- Hlen, <- Hlen2. split; [simpl; lia|].
      assert (Hk : In (Z.of_nat k) [p]) by (apply memn_In, (Hmem k t Ht); auto). destruct Hk as [Hk|[]].
      subst p. rewrite Nat2Z.id in Ht'. rewrite nth_error_upd_same in Ht' by (rewrite Nat2Z.id in Hkl; auto).
      injection Ht' as <-. auto.
Qed.

Lemma legal_same rng N (l l' : list (snax N)) : Forall2 same_but_order l l' -> legal_rng l rng -> legal_rng l' rng.
Proof.
  intros HF legal e. split; [apply (proj1 (legal e))|]. intros p. rewrite (proj2 (legal e) p). split; intros [H0 [s [Hs He]]]; split; auto.
  - destruct (Forall2_ex HF _ Hs) as [s' [Hs' S]]. exists s'. split; auto. destruct S as [_ [_ [_ [_ [_ [S _]]]]]]. congruence.
  - destruct (Forall2_ex_r HF _ Hs) as [s' [Hs' S]]. exists s'. split; auto. destruct S as [_ [_ [_ [_ [_ [S _]]]]]]. congruence.
Qed.
Lemma map_index_same N (l l' : list (snax N)) : Forall2 same_but_order l l' -> map (fun s => sx_index s) l' = map (fun s => sx_index s) l.
Proof. induction 1 as [|a b r r' H1 H2 IH]; simpl; auto. f_equal; auto. apply H1. Qed.
Lemma siblings_same (l l' : list qsnax) e : Forall2 same_but_order l l' ->
  (forall k s, nth_error l k = Some s -> sx_edge s = e -> nth_error l' k = Some s) ->
  filter (fun t => sx_edge t =? e)%Z l' = filter (fun t => sx_edge t =? e)%Z l.
Proof.
  induction 1 as [|a b r r' H1 H2 IH]; intros H; simpl; auto.
  assert (E : sx_edge b = sx_edge a) by apply H1. rewrite E.
  rewrite IH by (intros k s Hs; apply (H (S k) s Hs)).
  destruct (Z.eqb_spec (sx_edge a) e) as [Ea|Ea]; auto. f_equal. specialize (H 0%nat a eq_refl Ea). simpl in H. congruence.
Qed.

Lemma reorder_ok rng (l : list qsnax) : legal_rng l rng -> NoDup (map (fun s => sx_index s) l) ->
  exists l', reorder_on_edge rng l = Ok l' /\ Forall2 same_but_order l l' /\
    forall k s s', nth_error l k = Some s -> nth_error l' k = Some s' -> reordered (siblings l s) s (sx_order s').
Proof.
  intros legal Hnd. unfold reorder_on_edge.
  assert (Hgo : forall es (cur : list qsnax), NoDup es -> Forall2 same_but_order l cur ->
     (forall e, In e es -> rng e <> []) ->
     (forall k s, nth_error l k = Some s -> In (sx_edge s) es -> nth_error cur k = Some s) ->
     (forall k s s', nth_error l k = Some s -> nth_error cur k = Some s' -> ~ In (sx_edge s) es ->
        reordered (siblings l s) s (sx_order s')) ->
     exists l', for_each es (reorder_edge rng) cur = Ok l' /\ Forall2 same_but_order l l' /\
       forall k s s', nth_error l k = Some s -> nth_error l' k = Some s' -> reordered (siblings l s) s (sx_order s')).
  { induction es as [|e es IH]; intros cur Hes HF Hne Hun Hdo.
    - exists cur. split; [auto|]. split; auto. intros k s s' Hs Hs'. apply (Hdo k); auto.
    - inversion Hes as [|? ? Hni Hes']; subst.
      assert (Hnc : NoDup cur) by (apply (NoDup_map_inv (fun s => sx_index s)); rewrite (map_index_same HF); auto).
      destruct (@reorder_edge_ok rng cur e (legal_same HF legal) Hnc (Hne e (or_introl eq_refl))) as [l1 [E1 [E2 [E3 E4]]]].
      cbn [for_each]. rewrite E1. cbn [bind]. apply IH; auto.
      + eapply same_order_trans; eauto.
      + intros; apply Hne; right; auto.
      + intros k s Hs Hin. apply E3; [apply Hun; [auto|right; auto]|]. intros <-; contradiction.
      + intros k s s' Hs Hs' Hn. destruct (Z.eq_dec (sx_edge s) e) as [He|He].
        * assert (Hc : nth_error cur k = Some s) by (apply Hun; [auto|left; auto]).
          specialize (E4 k s s' Hc Hs' He). unfold siblings in *. rewrite He in *.
          rewrite (@siblings_same l cur e) in E4; auto. intros k' t Ht Te. apply Hun; auto. left; auto.
        * destruct (Forall2_ex HF _ Hs) as [c [Hc Sc]].
          assert (Hce : sx_edge c <> e) by (destruct Sc as [_ [_ [_ [_ [_ [Sc _]]]]]]; congruence).
          rewrite (E3 k c Hc Hce) in Hs'. injection Hs' as <-.
          apply (Hdo k s c Hs Hc). intros [K|K]; [congruence|contradiction]. }
  apply (Hgo (tighten (map (fun s => sx_edge s) l)) l).
  - apply strict_NoDup, tighten_strict.
  - apply same_order_refl.
  - intros e He Hr. apply tighten_In, in_map_iff in He. destruct He as [s [<- Hs]]. apply In_nth_error in Hs. destruct Hs as [k Hk].
    pose proof (rng_self legal _ Hk) as K. rewrite Hr in K. destruct K.
  - auto.
  - intros k s s' Hs _ Hn. exfalso. apply Hn. apply tighten_In, in_map_iff. exists s. split; auto. eapply nth_error_In; eauto.
Qed.

Lemma arrival_low M (s : qsnax) : low s == 0 -> arrival_order M s = 0%Z.
Proof.
  unfold low, arrival_order. qn. destruct (Z.ltb_spec (sx_to s) (sx_from s)) as [H|H]; cbn [andb negb]; intros E.
  - assert (E1 : Qeq_bool (sx_d s) 0 = false) by (apply not_true_is_false; rewrite Qeq_bool_iff; lra).
    assert (E2 : Qeq_bool (sx_d s) 1 = true) by (rewrite Qeq_bool_iff; lra). rewrite E1, E2. auto.
  - rewrite (proj2 (Qeq_bool_iff _ _) E). auto.
Qed.
Lemma arrival_high M (s : qsnax) : low s == 1 -> arrival_order M s = (M + 1)%Z.
Proof.
  unfold low, arrival_order. qn. destruct (Z.ltb_spec (sx_to s) (sx_from s)) as [H|H]; cbn [andb negb]; intros E.
  - assert (E1 : Qeq_bool (sx_d s) 0 = true) by (rewrite Qeq_bool_iff; lra). rewrite E1. auto.
  - assert (E1 : Qeq_bool (sx_d s) 0 = false) by (apply not_true_is_false; rewrite Qeq_bool_iff; lra).
    rewrite E1, (proj2 (Qeq_bool_iff _ _) E). auto.
Qed.

(** The conditions under which new snaxels are placed correctly: they sit at the
    ends, at most one at each end. *)
Definition arrivals_ok (l : list qsnax) : Prop :=
  (forall s, In s l -> fresh s -> low s == 0 \/ low s == 1) /\
  (forall s t, In s l -> In t l -> sx_edge s = sx_edge t -> fresh_low s -> fresh_low t -> s = t) /\
  (forall s t, In s l -> In t l -> sx_edge s = sx_edge t -> fresh_high s -> fresh_high t -> s = t).
Lemma is_fresh_iff (s : qsnax) : is_fresh s = true <-> fresh s.
Proof. unfold is_fresh, fresh. apply Z.eqb_eq. Qed.
Lemma settled_In (l : list qsnax) s : In s (settled l) <-> In s l /\ ~ fresh s.
Proof. unfold settled, fresh. rewrite filter_In, negb_true_iff, Z.eqb_neq. tauto. Qed.
Lemma top_fun ss M M' : top ss M -> top ss M' -> M = M'.
Proof.
  intros [A1 [A2 A3]] [B1 [B2 B3]].
  assert (M <= M')%Z by (destruct A3 as [->|[t [Ht <-]]]; auto).
  assert (M' <= M)%Z by (destruct B3 as [->|[t [Ht <-]]]; auto). lia.
Qed.
Lemma count_fresh (f : qsnax -> bool) (ss : list qsnax) : NoDup ss ->
  ((exists s, In s ss /\ f s = false) -> (length (filter f ss) < length ss)%nat) /\
  ((exists s t, In s ss /\ In t ss /\ s <> t /\ f s = false /\ f t = false) -> (length (filter f ss) + 2 <= length ss)%nat).
Proof.
  assert (Hle : forall r, (length (filter f r) <= length r)%nat).
  { induction r as [|x r IH]; simpl; auto. destruct (f x); simpl; lia. }
  assert (H1 : forall r, (exists s, In s r /\ f s = false) -> (length (filter f r) < length r)%nat).
  { induction r as [|x r IH]; intros [s [Hs E]]; [destruct Hs|]. simpl. specialize (Hle r). destruct Hs as [->|Hs].
    - rewrite E. lia.
    - specialize (IH (ex_intro _ s (conj Hs E))). destruct (f x); simpl; lia. }
  intros Hnd. split; [apply H1|]. induction Hnd as [|x r Hx Hr IH]; intros [s [t [Hs [Ht [Hne [Es Et]]]]]]; [destruct Hs|].
  simpl. destruct Hs as [->|Hs].
  - rewrite Es. destruct Ht as [->|Ht]; [congruence|]. specialize (H1 r (ex_intro _ t (conj Ht Et))). lia.
  - destruct Ht as [->|Ht]; [rewrite Et; specialize (H1 r (ex_intro _ s (conj Hs Es))); lia|].
    assert (length (filter f r) + 2 <= length r)%nat by (apply IH; exists s, t; auto). destruct (f x); simpl; lia.
Qed.

Lemma reorder_good rng (l : list qsnax) : legal_rng l rng -> NoDup (map (fun s => sx_index s) l) ->
  (forall s, In s l -> in01 (sx_d s)) -> arrivals_ok l ->
  well_ordered (settled l) -> (forall s, In s l -> ~ fresh s -> (1 <= sx_order s)%Z) ->
  exists l', reorder_on_edge rng l = Ok l' /\ Forall2 same_but_order l l' /\ well_ordered l' /\
    (* settled snaxels keep their relative order *)
    (forall i j s t s' t', nth_error l i = Some s -> nth_error l j = Some t -> nth_error l' i = Some s' -> nth_error l' j = Some t' ->
       sx_edge s = sx_edge t -> ~ fresh s -> ~ fresh t -> (sx_order s < sx_order t)%Z -> (sx_order s' < sx_order t')%Z) /\
    (orders_full (settled l) -> orders_full l').
Proof.
  intros legal Hnd H01 [Hend [Hlow Hhigh]] Hwo Hpos.
  destruct (@reorder_ok rng l legal Hnd) as [l' [E [HF Hre]]]. exists l'. split; [auto|]. split; [auto|].
  assert (Hnl : NoDup l) by (apply NoDup_map_inv in Hnd; auto).
  assert (Hwo' : forall s t, In s l -> In t l -> s <> t -> sx_edge s = sx_edge t -> ~ fresh s -> ~ fresh t ->
    sx_order s <> sx_order t /\ ((sx_order s < sx_order t)%Z -> low s <= low t)).
  { intros s t Hs Ht Hne He Fs Ft.
    assert (Ks : In s (settled l)) by (apply settled_In; auto). assert (Kt : In t (settled l)) by (apply settled_In; auto).
    apply In_nth_error in Ks, Kt. destruct Ks as [a Ka], Kt as [b Kb].
    destruct (Hwo a b s t Ka Kb) as [_ K]; auto. intros ->. congruence. }
  assert (Hl01 : forall s, In s l -> 0 <= low s /\ low s <= 1).
  { intros s Hs. specialize (H01 s Hs). unfold in01, low in *. destruct (sx_to s <? sx_from s)%Z; lra. }
  assert (Hsame : forall i s s', nth_error l i = Some s -> nth_error l' i = Some s' -> sx_edge s' = sx_edge s /\ low s' = low s /\ In s l).
  { intros i s s' Hs Hs'. destruct (Forall2_ex HF _ Hs) as [c [Hc [S1 [S2 [S3 [S4 [S5 [S6 S7]]]]]]]].
    assert (c = s') by congruence. subst c. split; auto. split; [unfold low; rewrite S2, S4, S5; auto|eapply nth_error_In; eauto]. }
  assert (Hsibl : forall s t, sx_edge s = sx_edge t -> siblings l s = siblings l t) by (unfold siblings; intros s t ->; auto).
  assert (Hsibi : forall s t, In t (siblings l s) <-> In t l /\ sx_edge t = sx_edge s) by (intros; unfold siblings; rewrite filter_In, Z.eqb_eq; tauto).
  assert (Hsnd : forall s, NoDup (siblings l s)) by (intros; unfold siblings; apply NoDup_filter; auto).
  (* one edge with several snaxels: the two values *)
  assert (Hbase : forall M s, In s l -> top (siblings l s) M ->
    (fresh s /\ low s == 0 /\ base M s = 0%Z) \/ (fresh s /\ low s == 1 /\ base M s = (M + 1)%Z) \/
    (~ fresh s /\ base M s = sx_order s /\ (1 <= sx_order s <= M)%Z)).
  { intros M s Hs HM. unfold base. destruct (is_fresh s) eqn:Ef.
    - apply is_fresh_iff in Ef. destruct (Hend s Hs Ef) as [L|L].
      + left. rewrite arrival_low by auto. auto.
      + right; left. rewrite arrival_high by auto. auto.
    - right; right. assert (Fs : ~ fresh s) by (rewrite <- is_fresh_iff; congruence). split; auto. split; auto.
      split; auto. apply HM. apply Hsibi. auto. }
  assert (Hlong : forall s t, In s l -> In t l -> s <> t -> sx_edge s = sx_edge t -> (1 < length (siblings l s))%nat).
  { intros s t Hs Ht Hne He. assert (Ks : In s (siblings l s)) by (apply Hsibi; auto). assert (Kt : In t (siblings l s)) by (apply Hsibi; auto).
    destruct (siblings l s) as [|x [|y r]]; simpl in *; try tauto; [|lia]. destruct Ks as [->|[]], Kt as [->|[]]. congruence. }
  assert (Hcmp : forall i j s t s' t', nth_error l i = Some s -> nth_error l j = Some t -> nth_error l' i = Some s' -> nth_error l' j = Some t' ->
       sx_edge s = sx_edge t -> s <> t -> exists M c, top (siblings l s) M /\ top (siblings l t) M /\
         sx_order s' = (base M s + c)%Z /\ sx_order t' = (base M t + c)%Z /\
         ((c = 1%Z /\ exists u, In u (siblings l s) /\ fresh u /\ arrival_order M u = 0%Z) \/
          (c = 0%Z /\ forall u, In u (siblings l s) -> fresh u -> arrival_order M u <> 0%Z))).
  { intros i j s t s' t' Hs Ht Hs' Ht' He Hne.
    assert (HL := Hlong s t (nth_error_In _ _ Hs) (nth_error_In _ _ Ht) Hne He).
    pose proof (Hre i s s' Hs Hs') as R1. pose proof (Hre j t t' Ht Ht') as R2. rewrite <- (Hsibl s t He) in *.
    destruct R1 as [[K _]|[_ [M [T1 R1]]]]; [lia|]. destruct R2 as [[K _]|[_ [M' [T2 R2]]]]; [lia|].
    assert (M' = M) by (eapply top_fun; eauto). subst M'.
    destruct R1 as [[O1 [u [Hu [Fu Au]]]]|[O1 N1]], R2 as [[O2 [w [Hw [Fw Aw]]]]|[O2 N2]].
    - exists M, 1%Z. repeat (split; [auto|]). left. split; auto. exists u. rewrite <- is_fresh_iff. auto.
    - destruct (N2 u Hu Fu Au).
    - destruct (N1 w Hw Fw Aw).
    - exists M, 0%Z. split; auto. split; auto. split; [lia|]. split; [lia|]. right. split; auto. intros x Hx Fx. apply N1; auto. apply is_fresh_iff; auto. }
  assert (Hneq : forall i j s t, nth_error l i = Some s -> nth_error l j = Some t -> i <> j -> s <> t).
  { intros i j s t Hi Hj Hij ->. apply Hij. apply (proj1 (NoDup_nth_error l) Hnl); [apply nth_error_Some; congruence|congruence]. }
  assert (Hc1 : forall M c s, In s l -> top (siblings l s) M ->
     ((c = 1%Z /\ exists u, In u (siblings l s) /\ fresh u /\ arrival_order M u = 0%Z) \/
      (c = 0%Z /\ forall u, In u (siblings l s) -> fresh u -> arrival_order M u <> 0%Z)) -> (1 <= base M s + c)%Z).
  { intros M c s Hs HM Hc. pose proof (proj1 HM) as HM0. destruct (Hbase M s Hs HM) as [[F [L B]]|[[F [L B]]|[F [B O]]]]; rewrite B.
    - destruct Hc as [[-> _]|[-> K]]; [lia|]. exfalso. apply (K s); auto; [apply Hsibi; auto|]. apply arrival_low; auto.
    - destruct Hc as [[-> _]|[-> _]]; lia.
    - destruct Hc as [[-> _]|[-> _]]; lia. }
  split; [|split].
  - intros i j s' t' Hs' Ht' Hij He'.
    destruct (Forall2_ex_r HF _ Hs') as [s [Hs _]]. destruct (Forall2_ex_r HF _ Ht') as [t [Ht _]].
    destruct (Hsame i s s' Hs Hs') as [A1 [A2 A3]]. destruct (Hsame j t t' Ht Ht') as [B1 [B2 B3]].
    assert (He : sx_edge s = sx_edge t) by congruence. assert (Hne := Hneq i j s t Hs Ht Hij).
    destruct (Hcmp i j s t s' t' Hs Ht Hs' Ht' He Hne) as [M [c [T1 [T2 [O1 [O2 Hc]]]]]].
    rewrite O1, O2, A2, B2. split; [apply Hc1; auto|].
    pose proof (Hl01 s A3) as Ls. pose proof (Hl01 t B3) as Lt.
    destruct (Hbase M s A3 T1) as [[F1 [L1 K1]]|[[F1 [L1 K1]]|[F1 [K1 P1]]]], (Hbase M t B3 T2) as [[F2 [L2 K2]]|[[F2 [L2 K2]]|[F2 [K2 P2]]]];
      rewrite K1, K2; pose proof (proj1 T1) as HM0.
    + exfalso. apply Hne. apply Hlow; unfold fresh_low; auto.
    + split; [lia|]. intros _. lra.
    + split; [lia|]. intros _. lra.
    + split; [lia|]. lia.
    + exfalso. apply Hne. apply Hhigh; unfold fresh_high; auto.
    + split; [lia|]. lia.
    + split; [lia|]. lia.
    + split; [lia|]. intros _. lra.
    + destruct (Hwo' s t A3 B3 Hne He F1 F2) as [W1 W2]. split; [lia|]. intros K. apply W2. lia.
  - intros i j s t s' t' Hs Ht Hs' Ht' He F1 F2 Hlt.
    assert (Hne : s <> t) by (intros ->; lia).
    destruct (Hcmp i j s t s' t' Hs Ht Hs' Ht' He Hne) as [M [c [T1 [T2 [O1 [O2 _]]]]]]. rewrite O1, O2.
    destruct (Hbase M s (nth_error_In _ _ Hs) T1) as [[F [_ K1]]|[[F [_ K1]]|[_ [K1 _]]]]; try contradiction.
    destruct (Hbase M t (nth_error_In _ _ Ht) T2) as [[F [_ K2]]|[[F [_ K2]]|[_ [K2 _]]]]; try contradiction. lia.
  - intros Hfull s' Hs'. apply In_nth_error in Hs'. destruct Hs' as [i Hs'].
    destruct (Forall2_ex_r HF _ Hs') as [s [Hs _]]. destruct (Hsame i s s' Hs Hs') as [A1 [A2 A3]].
    assert (Elen : length (siblings l' s') = length (siblings l s)).
    { unfold siblings. rewrite A1. generalize (sx_edge s) as e. clear - HF. intros e. induction HF as [|a b r r' H1 H2 IH]; simpl; auto.
      assert (Eb : sx_edge b = sx_edge a) by apply H1. rewrite Eb. destruct (sx_edge a =? e)%Z; simpl; auto. }
    rewrite Elen. destruct (Hre i s s' Hs Hs') as [[K ->]|[K [M [T R]]]].
    + assert (In s (siblings l s)) by (apply Hsibi; auto). destruct (siblings l s); [destruct H|simpl in *; lia].
    + assert (Eset : length (siblings (settled l) s) = length (filter (fun u => negb (is_fresh u)) (siblings l s))).
      { unfold siblings, settled, is_fresh. clear. induction l as [|a r IH]; simpl; auto.
        destruct (sx_order a =? -1)%Z eqn:E1, (sx_edge a =? sx_edge s)%Z eqn:E2; simpl; rewrite ?E1, ?E2; simpl; auto. }
      assert (HMle : (M <= Z.of_nat (length (filter (fun u => negb (is_fresh u)) (siblings l s))))%Z).
      { destruct T as [T0 [T1 T2]]. destruct T2 as [->|[t [Ht Et]]]; [lia|].
        apply Hsibi in Ht. destruct Ht as [Ht Te]. destruct (Z.eq_dec M 0) as [->|HM0]; [lia|].
        assert (Ft : ~ fresh t) by (unfold fresh; lia).
        assert (Kt : In t (settled l)) by (apply settled_In; auto). specialize (Hfull t Kt).
        unfold siblings in Hfull at 1. rewrite Te in Hfull. fold (siblings (settled l) s) in Hfull. lia. }
      destruct (@count_fresh (fun u => negb (is_fresh u)) (siblings l s) (Hsnd s)) as [C1 C2].
      assert (Hss : In s (siblings l s)) by (apply Hsibi; auto).
      assert (Hcase : exists c, sx_order s' = (base M s + c)%Z /\
         ((c = 1%Z /\ exists u, In u (siblings l s) /\ fresh u /\ arrival_order M u = 0%Z) \/
          (c = 0%Z /\ forall u, In u (siblings l s) -> fresh u -> arrival_order M u <> 0%Z))).
      { destruct R as [[O [u [Hu [Fu Au]]]]|[O N1]].
        - exists 1%Z. split; auto. left. split; auto. exists u. rewrite <- is_fresh_iff. auto.
        - exists 0%Z. split; [lia|]. right. split; auto. intros x Hx Fx. apply N1; auto. apply is_fresh_iff; auto. }
      destruct Hcase as [c [O Hc]]. split; [rewrite O; apply (Hc1 M c s A3 T Hc)|]. rewrite O.
      assert (Fneg : forall u, fresh u -> negb (is_fresh u) = false) by (intros u Fu; apply is_fresh_iff in Fu; rewrite Fu; auto).
      destruct (Hbase M s A3 T) as [[F [L B]]|[[F [L B]]|[F [B P]]]]; rewrite B.
      * destruct Hc as [[-> _]|[-> _]]; lia.
      * destruct Hc as [[-> [u [Hu [Fu Au]]]]|[-> _]].
        -- assert (s <> u). { intros <-. rewrite arrival_high in Au by auto. destruct T; lia. }
           assert (length (filter (fun u => negb (is_fresh u)) (siblings l s)) + 2 <= length (siblings l s))%nat by (apply C2; exists s, u; split; [auto|split; [auto|split; [auto|split; apply Fneg; auto]]]). lia.
        -- assert (length (filter (fun u => negb (is_fresh u)) (siblings l s)) < length (siblings l s))%nat by (apply C1; exists s; auto). lia.
      * destruct Hc as [[-> [u [Hu [Fu Au]]]]|[-> _]].
        -- assert (length (filter (fun u => negb (is_fresh u)) (siblings l s)) < length (siblings l s))%nat by (apply C1; exists u; split; [exact Hu|apply Fneg; exact Fu]). lia.
        -- assert (length (filter (fun u => negb (is_fresh u)) (siblings l s)) <= length (siblings l s))%nat.
           { clear. induction (siblings l s) as [|x r IH]; simpl; auto. destruct (negb (is_fresh x)); simpl; lia. }
           lia.
Qed.
