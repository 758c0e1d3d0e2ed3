(** Lemmas about the translation of the output of tetgen. *)
From Verif Require Import Base Containers Mesh Flood Edit Order Tetgen SpecMesh SpecTetgen ContainersProofs MeshProofs CloseProofs.
Import Mesh.
Set Implicit Arguments.
Open Scope Z_scope.

Lemma modify_Ok A (l : list A) p f : 0 <= p < Z.of_nat (length l) ->
  exists a, nth_error l (Z.to_nat p) = Some a /\ modify l p f = Ok (upd l (Z.to_nat p) (f a)).
Proof.
  intros H. destruct (nth_error l (Z.to_nat p)) as [a|] eqn:E.
  - exists a. split; auto. unfold modify. assert (K : at_ l p = Ok a) by (apply at_Ok; split; [lia|auto]). rewrite K. reflexivity.
  - apply nth_error_None in E. lia.
Qed.
Lemma at_in A (l : list A) p : 0 <= p < Z.of_nat (length l) -> exists a, nth_error l (Z.to_nat p) = Some a /\ at_ l p = Ok a.
Proof.
  intros H. destruct (nth_error l (Z.to_nat p)) as [a|] eqn:E.
  - exists a. split; auto. apply at_Ok. split; [lia|auto].
  - apply nth_error_None in E. lia.
Qed.

Section Connect.
Variables (A B : Type) (getA : A -> list Z) (setA : list Z -> A -> A) (getB : B -> list Z) (setB : list Z -> B -> B).
Hypotheses (ga : forall l a, getA (setA l a) = l) (sa : forall l l' a, setA l (setA l' a) = setA l a) (ia : forall a, setA (getA a) a = a)
  (gb : forall l b, getB (setB l b) = l) (sb : forall l l' b, setB l (setB l' b) = setB l b) (ib : forall b, setB (getB b) b = b).
Variables (first : Z) (entries : list Z) (n : Z).
Let val (ij : Z * Z) : Z := nth (Z.to_nat (fst ij * n + snd ij)) entries 0.
Definition toA (ps : list (Z * Z)) (i : Z) : list Z := map (fun ij => val ij + incr first) (filter (fun ij => fst ij =? i) ps).
Definition toB (ps : list (Z * Z)) (p : Z) : list Z := map (fun ij => fst ij + 1) (filter (fun ij => val ij + deincr first =? p) ps).
Lemma connect_all ps : forall (la : list A) (lb : list B),
  (forall ij, In ij ps -> 0 <= fst ij < Z.of_nat (length la) /\ 0 <= fst ij * n + snd ij < Z.of_nat (length entries) /\
     0 <= val ij + deincr first < Z.of_nat (length lb)) ->
  exists la' lb', for_each ps (connect getA setA getB setB first entries n) (la, lb) = Ok (la', lb') /\
    length la' = length la /\ length lb' = length lb /\
    (forall i a, nth_error la i = Some a -> nth_error la' i = Some (setA (getA a ++ toA ps (Z.of_nat i)) a)) /\
    (forall p b, nth_error lb p = Some b -> nth_error lb' p = Some (setB (getB b ++ toB ps (Z.of_nat p)) b)).
Proof using All.
  induction ps as [|ij ps IH]; intros la lb H.
  - exists la, lb. split; [reflexivity|]. split; auto. split; auto. unfold toA, toB. simpl.
    split; intros; rewrite app_nil_r, ?ia, ?ib; auto.
  - destruct (H ij (or_introl eq_refl)) as [H1 [H2 H3]].
    destruct (@at_in _ entries _ H2) as [x [Ex Ax]].
    assert (Vx : val ij = x) by (unfold val; eapply nth_error_nth; eauto).
    rewrite Vx in H3.
    destruct (@modify_Ok _ la _ (push getA setA (x + incr first)) H1) as [a [Ha Ma]].
    destruct (@modify_Ok _ lb _ (push getB setB (fst ij + 1)) H3) as [b [Hb Mb]].
    destruct (IH (upd la (Z.to_nat (fst ij)) (push getA setA (x + incr first) a)) (upd lb (Z.to_nat (x + deincr first)) (push getB setB (fst ij + 1) b)))
      as [la' [lb' [E [L1 [L2 [P1 P2]]]]]].
    { intros q Hq. rewrite !upd_length. apply H. simpl. auto. }
    exists la', lb'. split.
    { cbn [for_each]. unfold connect at 1. rewrite Ax. cbn [bind fst snd]. rewrite Ma. cbn [bind]. rewrite Mb. exact E. }
    rewrite !upd_length in *. split; auto. split; auto.
    split.
    + intros i a' Hi. unfold toA. simpl. destruct (Z.eqb_spec (fst ij) (Z.of_nat i)) as [Q|Q].
      * rewrite Q, Nat2Z.id in Ha. assert (a' = a) by congruence. subst a'.
        rewrite (P1 i (push getA setA (x + incr first) a)).
        -- unfold push. rewrite ga, sa. unfold toA. simpl. rewrite Vx, <- app_assoc. reflexivity.
        -- rewrite Q, Nat2Z.id. apply nth_error_upd_same. apply nth_error_Some. congruence.
      * rewrite (P1 i a'); [reflexivity|]. rewrite nth_error_upd_other; auto. lia.
    + intros p b' Hp. unfold toB. simpl. rewrite Vx. destruct (Z.eqb_spec (x + deincr first) (Z.of_nat p)) as [Q|Q].
      * rewrite Q, Nat2Z.id in Hb. assert (b' = b) by congruence. subst b'.
        rewrite (P2 p (push getB setB (fst ij + 1) b)).
        -- unfold push. rewrite gb, sb. unfold toB. simpl. rewrite <- app_assoc. reflexivity.
        -- rewrite Q, Nat2Z.id. apply nth_error_upd_same. apply nth_error_Some. congruence.
      * rewrite (P2 p b'); [reflexivity|]. rewrite nth_error_upd_other; auto. lia.
Qed.
End Connect.

Lemma pairs_In count n ij : In ij (pairs count n) <-> 0 <= fst ij < Z.of_nat count /\ 0 <= snd ij < Z.of_nat n.
Proof. destruct ij as [i j]. unfold pairs. rewrite in_prod_iff, !upto_In. simpl. lia. Qed.
Lemma upto_length n : forall k, length (upto n k) = n.
Proof. induction n; intros; simpl; auto. Qed.
Lemma upto_nth n : forall k p, (p < n)%nat -> nth_error (upto n k) p = Some (k + Z.of_nat p).
Proof.
  induction n; intros k p H; [lia|]. destruct p; simpl; [f_equal; lia|]. rewrite IHn by lia. f_equal. lia.
Qed.
Lemma nth_error_ext A (l l' : list A) : (forall p, nth_error l p = nth_error l' p) -> l = l'.
Proof.
  revert l'. induction l as [|a l IH]; intros [|b l'] H; auto; [specialize (H 0%nat); discriminate..|].
  f_equal; [specialize (H 0%nat); simpl in H; congruence|]. apply IH. intros p. apply (H (S p)).
Qed.
Lemma is_map A (l : list A) n (f : Z -> A) : length l = n -> (forall p, (p < n)%nat -> nth_error l p = Some (f (Z.of_nat p))) ->
  l = map f (upto n 0).
Proof.
  intros L H. apply nth_error_ext. intros p. destruct (Nat.lt_ge_cases p n) as [Q|Q].
  - rewrite H, nth_error_map, upto_nth by auto. reflexivity.
  - rewrite (proj2 (nth_error_None l p)) by lia. symmetry. apply nth_error_None. rewrite map_length, upto_length. auto.
Qed.
Lemma map_seq_upto n : forall k, map Z.of_nat (seq k n) = upto n (Z.of_nat k).
Proof. induction n; intros; simpl; auto. f_equal. rewrite IHn. f_equal. lia. Qed.
Lemma upto_shift n : forall k, map (fun i => i + 1) (upto n k) = upto n (k + 1).
Proof. induction n; intros; simpl; auto. f_equal. apply IHn. Qed.
Lemma numbered_map A (idx : A -> Z) f n : (forall i, idx (f i) = i + 1) -> numbered_from_1 idx (map f (upto n 0)) n.
Proof.
  intros H. unfold numbered_from_1. rewrite map_map, map_seq_upto. rewrite (map_ext _ (fun i => i + 1)) by auto. apply upto_shift.
Qed.
Lemma numbered_In A (idx : A -> Z) l n k : numbered_from_1 idx l n -> (exists a, In a l /\ idx a = k) <-> 1 <= k <= Z.of_nat n.
Proof.
  intros H. unfold numbered_from_1 in H. rewrite map_seq_upto in H.
  split.
  - intros [a [Ha E]]. assert (In k (map idx l)) by (apply in_map_iff; eauto). rewrite H, upto_In in H0. lia.
  - intros Hk. assert (In k (map idx l)) by (rewrite H, upto_In; lia). apply in_map_iff in H0. destruct H0 as [a [E Ha]]. eauto.
Qed.
Lemma numbered_NoDup A (idx : A -> Z) l n : numbered_from_1 idx l n -> NoDup (map idx l).
Proof. intros H. unfold numbered_from_1 in H. rewrite H, map_seq_upto. apply upto_NoDup. Qed.
Lemma lists_upto A (idx : A -> Z) (get : A -> list Z) f n k x : (forall i, idx (f i) = i + 1) ->
  lists idx get (map f (upto n 0)) k x <-> 1 <= k <= Z.of_nat n /\ In x (get (f (k - 1))).
Proof.
  intros H. split.
  - intros [a [Ha [E Hx]]]. apply in_map_iff in Ha. destruct Ha as [i [Ea Hi]]. apply upto_In in Hi. subst a. rewrite H in E.
    subst k. replace (i + 1 - 1) with i by lia. split; [lia|auto].
  - intros [Hk Hx]. exists (f (k - 1)). split; [apply in_map, upto_In; lia|]. split; auto. rewrite H. lia.
Qed.

Lemma NoDup_prod A B (l : list A) (l' : list B) : NoDup l -> NoDup l' -> NoDup (list_prod l l').
Proof.
  intros H H'. induction H as [|a l N H IH]; simpl; [constructor|].
  assert (K : forall (l1 l2 : list (A * B)), NoDup l1 -> NoDup l2 -> (forall x, In x l1 -> ~ In x l2) -> NoDup (l1 ++ l2)).
  { induction l1 as [|x l1 IH1]; simpl; auto. intros l2 D1 D2 D. inversion D1; subst. constructor.
    - rewrite in_app_iff. intros [Q|Q]; [auto|]. exact (D x (or_introl eq_refl) Q).
    - apply IH1; auto. }
  apply K; auto.
  - apply FinFun.Injective_map_NoDup; auto. intros x y E. congruence.
  - intros [x y] Hx Hy. apply in_map_iff in Hx. destruct Hx as [z [E _]]. injection E as -> ->. apply in_prod_iff in Hy. tauto.
Qed.
Lemma one_filter A (f : A -> bool) l : NoDup l ->
  (length (filter f l) = 1%nat <-> exists a, In a l /\ f a = true /\ forall b, In b l -> f b = true -> b = a).
Proof.
  intros D. split.
  - intros H. destruct (filter f l) as [|a [|b r]] eqn:E; try discriminate. exists a.
    assert (Ia : In a (filter f l)) by (rewrite E; simpl; auto). apply filter_In in Ia. split; [tauto|]. split; [tauto|].
    intros b Hb Fb. assert (Ib : In b (filter f l)) by (apply filter_In; auto). rewrite E in Ib. destruct Ib as [->|[]]; auto.
  - intros [a [Ha [Fa U]]]. pose proof (NoDup_filter f D) as D'.
    assert (Ia : In a (filter f l)) by (apply filter_In; auto).
    destruct (filter f l) as [|x [|y r]] eqn:E; [destruct Ia|auto|]. exfalso.
    assert (Hx : In x (filter f l)) by (rewrite E; simpl; auto). assert (Hy : In y (filter f l)) by (rewrite E; simpl; auto).
    apply filter_In in Hx. apply filter_In in Hy. assert (x = a) by (apply U; tauto). assert (y = a) by (apply U; tauto). subst.
    inversion D' as [|? ? N _]. apply N. simpl. auto.
Qed.

(** One table of the output. *)
Section Table.
Variables (first : Z) (l : list Z) (count n max : nat).
Hypotheses (F : first = 0 \/ first = 1) (T : table first l count n max).
Let N := Z.of_nat n.
Let ps := pairs count n.
Let val (ij : Z * Z) : Z := nth (Z.to_nat (fst ij * N + snd ij)) l 0.
Lemma in_table ij : In ij ps -> (Z.to_nat (fst ij * N + snd ij) < count * n)%nat /\ 0 <= fst ij * N + snd ij /\
  nth_error l (Z.to_nat (fst ij * N + snd ij)) = Some (val ij) /\ first <= val ij < first + Z.of_nat max.
Proof using All.
  intros H. apply pairs_In in H. destruct H as [H1 H2]. destruct T as [T1 T2]. fold N in H2.
  assert (Q : 0 <= fst ij * N + snd ij < Z.of_nat count * N) by nia.
  assert (Q' : (Z.to_nat (fst ij * N + snd ij) < count * n)%nat) by (unfold N in *; nia).
  split; auto. split; [lia|].
  destruct (nth_error l (Z.to_nat (fst ij * N + snd ij))) as [x|] eqn:E.
  - assert (val ij = x) by (unfold val; eapply nth_error_nth; eauto). rewrite H. split; auto. eapply T2; eauto.
  - apply nth_error_None in E. lia.
Qed.
Lemma incr_is : incr first = 1 - first. Proof using All. destruct F as [-> | ->]; reflexivity. Qed.
Lemma deincr_is : deincr first = - first. Proof using All. destruct F as [-> | ->]; reflexivity. Qed.
Lemma toA_In i x : 1 <= i <= Z.of_nat count -> In x (toA first l N ps (i - 1)) <-> entry first l N i x.
Proof using All.
  intros Hi. unfold toA. rewrite in_map_iff. split.
  - intros [ij [E H]]. apply filter_In in H. destruct H as [H E']. apply Z.eqb_eq in E'. destruct (in_table _ H) as [_ [_ [E2 _]]].
    apply pairs_In in H. exists (snd ij). split; [unfold N; lia|]. split; [lia|]. rewrite <- E'. rewrite E2. f_equal.
    fold (val ij) in E. rewrite incr_is in E. lia.
  - intros [j [Hj [_ E]]]. exists (i - 1, j). simpl. rewrite incr_is. split; [rewrite (nth_error_nth _ _ _ E); lia|].
    apply filter_In. split; [apply pairs_In; unfold N in *; simpl; lia|]. simpl. apply Z.eqb_refl.
Qed.
Lemma entry_bounds i x : 1 <= i <= Z.of_nat count -> entry first l N i x -> 1 <= x <= Z.of_nat max.
Proof using All.
  intros Hi [j [Hj [_ E]]]. destruct (in_table (i - 1, j)) as [_ [_ [E2 B]]]; [apply pairs_In; simpl; unfold N in *; lia|].
  simpl in E2. rewrite E in E2. injection E2 as E2. lia.
Qed.
Lemma toB_In p i : In i (toB first l N ps (p - 1)) <-> 1 <= i <= Z.of_nat count /\ entry first l N i p.
Proof using All.
  unfold toB. rewrite in_map_iff. split.
  - intros [ij [E H]]. apply filter_In in H. destruct H as [H E']. apply Z.eqb_eq in E'. destruct (in_table _ H) as [_ [_ [E2 _]]].
    apply pairs_In in H. split; [lia|]. exists (snd ij). split; [unfold N; lia|]. split; [lia|]. replace (i - 1) with (fst ij) by lia. rewrite E2. f_equal.
    fold (val ij) in E'. rewrite deincr_is in E'. lia.
  - intros [Hi [j [Hj [_ E]]]]. exists (i - 1, j). simpl. rewrite deincr_is. split; [lia|].
    apply filter_In. split; [apply pairs_In; unfold N in *; simpl; lia|]. simpl. rewrite (nth_error_nth _ _ _ E). apply Z.eqb_eq. lia.
Qed.
Lemma toB_once p : length (toB first l N ps (p - 1)) = 1%nat <-> once l (count * n) (p - 1 + first).
Proof using All.
  unfold toB. rewrite map_length, one_filter by (apply NoDup_prod; apply upto_NoDup). fold ps. split.
  - intros [ij [H [E U]]]. apply Z.eqb_eq in E. rewrite deincr_is in E. destruct (in_table _ H) as [B [B0 [E2 _]]].
    exists (Z.to_nat (fst ij * N + snd ij)). split; auto. fold (val ij) in E. split; [rewrite E2; f_equal; lia|].
    intros q Hq Eq. assert (n <> 0)%nat by nia.
    assert (K : In (Z.of_nat q / N, Z.of_nat q mod N) ps).
    { apply pairs_In. simpl. fold N. assert (0 < N) by (unfold N; lia). pose proof (Z.mod_pos_bound (Z.of_nat q) N H1).
      split; [|auto]. split; [apply Z.div_pos; lia|]. apply Z.div_lt_upper_bound; [lia|]. unfold N. nia. }
    assert (D : Z.of_nat q / N * N + Z.of_nat q mod N = Z.of_nat q) by (pose proof (Z.div_mod (Z.of_nat q) N); unfold N in *; lia).
    rewrite <- (U _ K).
    + cbn [fst snd]. rewrite D, Nat2Z.id. reflexivity.
    + cbn [fst snd]. rewrite D, Nat2Z.id, (nth_error_nth _ _ _ Eq), deincr_is. apply Z.eqb_eq. lia.
  - intros [q [Hq [Eq U]]]. assert (n <> 0)%nat by nia.
    assert (K : In (Z.of_nat q / N, Z.of_nat q mod N) ps).
    { apply pairs_In. simpl. fold N. assert (0 < N) by (unfold N; lia). pose proof (Z.mod_pos_bound (Z.of_nat q) N H0).
      split; [|auto]. split; [apply Z.div_pos; lia|]. apply Z.div_lt_upper_bound; [lia|]. unfold N. nia. }
    assert (D : Z.of_nat q / N * N + Z.of_nat q mod N = Z.of_nat q) by (pose proof (Z.div_mod (Z.of_nat q) N); unfold N in *; lia).
    exists (Z.of_nat q / N, Z.of_nat q mod N). split; auto. cbn [fst snd]. rewrite D, Nat2Z.id, (nth_error_nth _ _ _ Eq), deincr_is.
    split; [apply Z.eqb_eq; lia|].
    intros ij Hij E. destruct (in_table _ Hij) as [B [B0 [E2 _]]]. apply Z.eqb_eq in E. fold (val ij) in E.
    assert (Q : Z.to_nat (fst ij * N + snd ij) = q) by (apply U; auto; rewrite E2; f_equal; lia).
    apply pairs_In in Hij. fold N in Hij. destruct ij as [i j]. simpl in *. assert (Q' : Z.of_nat q = i * N + j) by lia. rewrite Q'.
    f_equal; [rewrite Z.div_add_l by lia; rewrite Z.div_small by lia; lia|].
    rewrite Z.add_comm, Z.mod_add by lia. rewrite Z.mod_small by lia. reflexivity.
Qed.
End Table.
