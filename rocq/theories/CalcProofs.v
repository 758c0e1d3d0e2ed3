(** Lemmas about the sums built by the assembly of the optimisation problem. *)
From Coq Require Import Reals List Lia Lra ZArith.
From Verif Require Import Base RsvsMath SpecRsvs SpecCentre Calc SpecCalc RsvsObjProofs.
Set Implicit Arguments.
Open Scope R_scope.

(** *** Sums *)
Lemma total_app A (f : A -> R) l l' : total f (l ++ l') = total f l + total f l'.
Proof. unfold total. rewrite map_app, sum_app. reflexivity. Qed.
Lemma total_ext A (f g : A -> R) l : (forall a, In a l -> f a = g a) -> total f l = total g l.
Proof.
  unfold total. induction l as [|a r IH]; intros H; cbn; auto. rewrite IH; [rewrite H; [reflexivity|left; auto]|intros; apply H; right; auto].
Qed.
Lemma total_scale A (f : A -> R) x l : total (fun a => x * f a) l = x * total f l.
Proof. unfold total. induction l; cbn; [ring|rewrite IHl; ring]. Qed.
Lemma total_scale_r A (f : A -> R) x l : total (fun a => f a * x) l = total f l * x.
Proof. unfold total. induction l; cbn; [ring|rewrite IHl; ring]. Qed.
Lemma total_plus A (f g : A -> R) l : total (fun a => f a + g a) l = total f l + total g l.
Proof. unfold total. induction l; cbn; [ring|rewrite IHl; ring]. Qed.
Lemma total_zero A (f : A -> R) l : (forall a, In a l -> f a = 0) -> total f l = 0.
Proof. intros H. rewrite (total_ext f (fun _ => 0)); auto. unfold total. induction l; cbn; [auto|rewrite IHl; [ring|intros; apply H; right; auto]]. Qed.
Lemma total_map A B (f : B -> R) (g : A -> B) l : total f (map g l) = total (fun a => f (g a)) l.
Proof. unfold total. rewrite map_map. reflexivity. Qed.
Lemma total_abs A (f : A -> R) l : Rabs (total f l) <= total (fun a => Rabs (f a)) l.
Proof.
  unfold total. induction l; cbn; [rewrite Rabs_R0; lra|]. eapply Rle_trans; [apply Rabs_triang|]. lra.
Qed.
Lemma total_le A (f g : A -> R) l : (forall a, In a l -> f a <= g a) -> total f l <= total g l.
Proof.
  unfold total. induction l as [|a r IH]; intros H; cbn; [lra|]. pose proof (H a (or_introl eq_refl)).
  pose proof (IH ltac:(intros; apply H; right; auto)). lra.
Qed.

(** *** Searches *)
Lemma lookup_Ok A k (l : list (Z * A)) a d : lookup k l = Ok a -> assoc d k l = a /\ In (k, a) l.
Proof.
  unfold assoc. induction l as [|[i x] r IH]; cbn; [discriminate|]. destruct (Z.eqb_spec i k) as [->|N].
  - intros H. injection H as ->. auto.
  - intros H. destruct (IH H). auto.
Qed.
Lemma lookup_snax_Ok k l x : lookup_snax k l = Ok x -> List.find (fun x => Z.eqb (x_index x) k) l = Some x.
Proof.
  unfold lookup_snax. induction l as [|y r IH]; cbn; [discriminate|]. destruct (Z.eqb (x_index y) k); auto.
  intros H. injection H as ->. auto.
Qed.
Lemma index_of_nth k l q : index_of k l = Some q -> nth_error l q = Some k.
Proof.
  revert q. induction l as [|x r IH]; cbn; [discriminate|]. intros q. destruct (Z.eqb_spec x k) as [->|N].
  - intros H. injection H as <-. reflexivity.
  - destruct (index_of k r); [|discriminate]. intros H. injection H as <-. cbn. auto.
Qed.
Lemma index_of_in k l : (exists q, index_of k l = Some q) <-> In k l.
Proof.
  induction l as [|x r IH]; cbn; [split; [intros [? H]; discriminate|tauto]|]. destruct (Z.eqb_spec x k) as [->|N].
  - split; eauto.
  - destruct (index_of k r); split; eauto; intros; [right; apply IH; eauto| |].
    + destruct H as [? H]; discriminate.
    + destruct H as [H|H]; [contradiction|]. apply IH in H. destruct H; discriminate.
Qed.
Lemma in_map_in l k : in_map l k = true <-> In k l.
Proof.
  unfold in_map. rewrite <- index_of_in. destruct (index_of k l); split; eauto; try discriminate. intros [? H]; discriminate.
Qed.
Lemma index_of_complete k l q : NoDup l -> nth_error l q = Some k -> index_of k l = Some q.
Proof.
  intros N. revert q. induction N as [|x r Hx N IH]; intros q; destruct q; cbn; try discriminate.
  - intros H. injection H as ->. rewrite Z.eqb_refl. auto.
  - intros H. destruct (Z.eqb_spec x k) as [->|_]; [exfalso; apply Hx; eapply nth_error_In; eauto|]. rewrite (IH _ H). auto.
Qed.

(** *** sort and unique *)
Lemma insert_in x l y : In y (insert x l) <-> y = x \/ In y l.
Proof.
  induction l as [|z r IH]; cbn; [intuition|]. destruct (Z.ltb x z); [cbn; intuition|].
  destruct (Z.eqb_spec x z) as [->|_]; [cbn; intuition|]. cbn. rewrite IH. intuition.
Qed.
Lemma sort_unique_in l y : In y (sort_unique l) <-> In y l.
Proof. unfold sort_unique. induction l; cbn; [tauto|]. rewrite insert_in, IHl. intuition. Qed.
Inductive increasing : list Z -> Prop :=
| inc_nil : increasing []
| inc_cons x l : (forall y, In y l -> (x < y)%Z) -> increasing l -> increasing (x :: l).
Lemma insert_inc x l : increasing l -> increasing (insert x l).
Proof.
  induction 1 as [|z r H I IH]; cbn; [constructor; [cbn; tauto|constructor]|].
  destruct (Z.ltb_spec x z).
  - constructor; [|constructor; auto]. intros y [<-|K]; [auto|]. specialize (H _ K). lia.
  - destruct (Z.eqb_spec x z); [constructor; auto|]. constructor; auto. intros y K. apply insert_in in K. destruct K as [->|K]; [lia|auto].
Qed.
Lemma sort_unique_inc l : increasing (sort_unique l).
Proof. unfold sort_unique. induction l; cbn; [constructor|apply insert_inc; auto]. Qed.
Lemma inc_nodup l : increasing l -> NoDup l.
Proof. induction 1; constructor; auto. intros K. specialize (H _ K). lia. Qed.
Lemma sort_unique_nodup l : NoDup (sort_unique l).
Proof. apply inc_nodup, sort_unique_inc. Qed.

Lemma concat_all_Ok A B (f : A -> outcome (list B)) l r : concat_all f l = Ok r ->
  (forall b, In b r <-> exists a x, In a l /\ f a = Ok x /\ In b x) /\ (forall a, In a l -> exists x, f a = Ok x).
Proof.
  revert r. induction l as [|a l IH]; cbn; intros r H.
  - injection H as <-. split; [intros b; split; [intros []|intros (? & ? & [] & _)]|intros ? []].
  - destruct (f a) as [x| | |] eqn:E; cbn [bind] in H; try discriminate.
    destruct (concat_all f l) as [y| | |]; cbn [bind] in H; try discriminate. injection H as <-.
    destruct (IH _ eq_refl) as [I J]. split.
    + intros b. rewrite in_app_iff, I. split.
      * intros [K|(a' & x' & K & E' & M)]; [exists a, x; auto|exists a', x'; auto].
      * intros (a' & x' & [<-|K] & E' & M); [rewrite E in E'; injection E' as <-; auto|right; eauto].
    + intros a' [<-|K]; eauto.
Qed.

(** *** Scattered additions *)
Definition cut (keep : R -> bool) (x : R) : R := if keep x then x else 0.
Lemma scatter1_is keep qs d s v q : scatter1 keep qs d s v q =
  v q + s * total (fun iq => if Nat.eqb (snd iq) q then cut keep (d (fst iq)) else 0) (combine (seq 0 (length qs)) qs).
Proof.
  unfold scatter1. generalize (combine (seq 0 (length qs)) qs). intros l. revert v. induction l as [|[i p] r IH]; intros v; cbn [fold_left].
  - unfold total. cbn. ring.
  - rewrite IH. change (total ?f ((i, p) :: r)) with (f (i, p) + total f r). cbn [fst snd]. unfold cut.
    destruct (keep (d i)); unfold add1; destruct (Nat.eqb_spec q p); destruct (Nat.eqb_spec p q); try congruence; ring.
Qed.
Definition pair_total (qs : list nat) (h : nat -> nat -> R) (a b : nat) : R :=
  total (fun iq => total (fun jq => if andb (Nat.eqb (snd jq) a) (Nat.eqb (snd iq) b) then h (fst jq) (fst iq) else 0)
    (combine (seq 0 (length qs)) qs)) (combine (seq 0 (length qs)) qs).
Lemma scatter2_is keep qs h s m a b : scatter2 keep qs h s m a b =
  m a b + s * pair_total qs (fun i j => cut keep (h i j)) a b.
Proof.
  unfold scatter2, pair_total. generalize (combine (seq 0 (length qs)) qs) at 2 4. intros l. generalize (combine (seq 0 (length qs)) qs). intros l2.
  revert m. induction l as [|[i p] r IH]; intros m; cbn [fold_left].
  - unfold total. cbn. ring.
  - rewrite IH. change (total ?f ((i, p) :: r)) with (f (i, p) + total f r). cbn beta. rewrite Rmult_plus_distr_l, <- Rplus_assoc. f_equal.
    clear IH. revert m. cbn [fst snd]. induction l2 as [|[j q] r2 IH]; intros m; cbn [fold_left]; [unfold total; cbn; ring|].
    rewrite IH. change (total ?f ((j, q) :: r2)) with (f (j, q) + total f r2). cbn [fst snd]. unfold cut at 2.
    destruct (keep (h j i)); unfold add2; destruct (Nat.eqb_spec a q), (Nat.eqb_spec b p), (Nat.eqb_spec q a), (Nat.eqb_spec p b); cbn; try congruence; ring.
Qed.
(** With positions that do not repeat, only one entry counts. *)
Lemma one_entry (qs : list nat) (f : nat -> R) i q : NoDup qs -> nth_error qs i = Some q ->
  total (fun iq => if Nat.eqb (snd iq) q then f (fst iq) else 0) (combine (seq 0 (length qs)) qs) = f i.
Proof.
  intros N. replace (f i) with (f (0 + i)%nat) by (f_equal; lia). generalize 0%nat as s. revert i.
  induction N as [|p r Hp N IH]; intros i s; destruct i; cbn [nth_error length seq combine]; try discriminate; intros H.
  - injection H as ->. change (total ?g ((s, q) :: ?l)) with (g (s, q) + total g l). cbn [fst snd]. rewrite Nat.eqb_refl, total_zero; [rewrite Nat.add_0_r; ring|].
    intros [j p] K. cbn. destruct (Nat.eqb_spec p q) as [->|]; auto. exfalso. apply Hp. eapply in_combine_r; eauto.
  - change (total ?g ((s, p) :: ?l)) with (g (s, p) + total g l). cbn [fst snd].
    rewrite (IH _ (S s) H). destruct (Nat.eqb_spec p q) as [->|]; [exfalso; apply Hp; eapply nth_error_In; eauto|].
    rewrite Rplus_0_l. f_equal. lia.
Qed.
Lemma no_entry (qs : list nat) (f : nat -> R) q : ~ In q qs ->
  total (fun iq => if Nat.eqb (snd iq) q then f (fst iq) else 0) (combine (seq 0 (length qs)) qs) = 0.
Proof.
  intros N. apply total_zero. intros [j p] K. cbn. destruct (Nat.eqb_spec p q) as [->|]; auto. exfalso. apply N. eapply in_combine_r; eauto.
Qed.

(** *** One triangle *)
(** What a triangle does not touch. *)
Definition frame (c c' : calc) : Prop :=
  nDv c' = nDv c /\ nConstr c' = nConstr c /\ cutoff c' = cutoff c /\ useCentre c' = useCentre c /\ useHessian c' = useHessian c /\
  lagMult c' = lagMult c /\ nLag c' = nLag c /\ constrTarg c' = constrTarg c /\ deltaDV c' = deltaDV c /\ dvMap c' = dvMap c /\ constrMap c' = constrMap c.
Lemma frame_refl c : frame c c. Proof. repeat split. Qed.
Lemma frame_trans a b c : frame a b -> frame b c -> frame a c.
Proof. unfold frame. intuition congruence. Qed.
Lemma frame_full c c' : frame c c' -> full_math c' = full_math c.
Proof. unfold frame, full_math. intros (-> & _ & -> & _). reflexivity. Qed.
Definition keeps (c : calc) : R -> bool := if full_math c then (fun _ => true) else (fun x => negb (is_zero x)).
Definition same_obj (c c' : calc) : Prop := obj c' = obj c /\ dObj c' = dObj c /\ HObj c' = HObj c /\ dvAct c' = dvAct c /\ constrAct c' = constrAct c.
Definition same_constr (c c' : calc) : Prop := constr c' = constr c /\ dConstr c' = dConstr c /\ HConstr c' = HConstr c.

(** The sum of the influences of a list of targets on constraint [k]. *)
Definition hits (ks : list Z) (k : nat) : R := total (fun z => if Z.eqb z (Z.of_nat k) then 1 else 0) ks.
Lemma hits_findall m z k : hits (findall z m) k = times m z k.
Proof.
  unfold hits, findall, times. rewrite total_map. unfold total. induction m as [|[a b] r IH]; cbn; auto.
  destruct (Z.eqb a z); cbn; rewrite <- IH; ring.
Qed.
Section Cells.
Variables (qs : list nat) (val : R) (dpart : vec) (hpart : mat) (isDeriv : bool) (infl : list R).
Let D (c : calc) (q : nat) := total (fun iq => if Nat.eqb (snd iq) q then cut (keeps c) (dpart (fst iq)) else 0) (combine (seq 0 (length qs)) qs).
Let H (c : calc) (a b k : nat) := pair_total qs (fun i j => cut (keeps c) (hpart i j * lagMult c k)) a b.
(** [c'] is [c] with the influence [w k] on each constraint. *)
Definition added (w : nat -> R) (c c' : calc) : Prop :=
  frame c c' /\ same_obj c c' /\ (forall k, constr c' k = constr c k + w k * val) /\
  (forall k q, dConstr c' k q = dConstr c k q + (if isDeriv then w k * D c q else 0)) /\
  (forall a b, HConstr c' a b = HConstr c a b + (if isDeriv then sum_to (nConstr c) (fun k => w k * H c a b k) else 0)).
Lemma added_trans w w' a b c : added w a b -> added w' b c -> added (fun k => w k + w' k) a c.
Proof.
  intros (F & O & V & J & K) (F' & O' & V' & J' & K').
  assert (Ek : keeps b = keeps a) by (unfold keeps; rewrite (frame_full F); reflexivity).
  assert (El : lagMult b = lagMult a) by apply F. assert (En : nConstr b = nConstr a) by apply F.
  repeat split; try (destruct F as (?&?&?&?&?&?&?&?&?&?&?), F' as (?&?&?&?&?&?&?&?&?&?&?); congruence);
    try (destruct O as (?&?&?&?&?), O' as (?&?&?&?&?); congruence).
  - intros k. rewrite V', V. ring.
  - intros k q. rewrite J', J. unfold D. rewrite Ek. destruct isDeriv; ring.
  - intros x y. rewrite K', K. unfold H. rewrite Ek, El, En. destruct isDeriv; [|ring].
    rewrite Rplus_assoc. f_equal. unfold sum_to. induction (seq 0 (nConstr a)); cbn; [ring|]. rewrite <- IHl. ring.
Qed.
Lemma added_ext w w' c c' : (forall k, w k = w' k) -> added w c c' -> added w' c c'.
Proof.
  intros E (F & O & V & J & K). split; auto. split; auto. split; [intros; rewrite <- E; auto|]. split; [intros; rewrite <- E; auto|].
  intros a b. rewrite K. destruct isDeriv; auto. f_equal. unfold sum_to. f_equal. apply map_ext. intros. rewrite E. auto.
Qed.
Lemma added_none c c' : frame c c' -> same_obj c c' -> same_constr c c' -> added (fun _ => 0) c c'.
Proof.
  intros F O (A & B & C). split; auto. split; auto. rewrite A, B, C. split; [intros; ring|]. split; [intros; destruct isDeriv; ring|].
  intros. destruct isDeriv; [|ring]. unfold sum_to. assert (Z : forall l, fold_right Rplus 0 (map (fun k => 0 * H c a b k) l) = 0) by (induction l; cbn; [auto|rewrite IHl; ring]).
  rewrite Z. ring.
Qed.
Lemma sum_to_pick n k x : (k < n)%nat -> sum_to n (fun i => (if Nat.eqb i k then 1 else 0) * x i) = x k.
Proof.
  intros L. unfold sum_to. assert (Q : forall m s, (s <= k < s + m)%nat -> fold_right Rplus 0 (map (fun i => (if Nat.eqb i k then 1 else 0) * x i) (seq s m)) = x k).
  { induction m as [|m IH]; intros s K; [lia|]. cbn. destruct (Nat.eqb_spec s k) as [->|N].
    - assert (Z : forall m s, (k < s)%nat -> fold_right Rplus 0 (map (fun i => (if Nat.eqb i k then 1 else 0) * x i) (seq s m)) = 0).
      { clear. induction m; intros s L; cbn; auto. destruct (Nat.eqb_spec s k); [lia|]. rewrite IHm; [ring|lia]. }
      rewrite Z; [ring|lia].
    - rewrite IH; [ring|lia]. }
  apply Q. lia.
Qed.
Lemma one_target f k c : (k < nConstr c)%nat ->
  added (fun i => f * (if Nat.eqb i k then 1 else 0)) c
    (let c1 := add_constr c k (f * val) in if isDeriv then assign_derivs c1 qs dpart hpart k f else c1).
Proof.
  intros L. cbv zeta. destruct isDeriv eqn:Ed.
  - split; [repeat split|]. split; [repeat split|]. cbn [constr dConstr HConstr assign_derivs add_constr].
    split; [intros i; unfold add1; destruct (Nat.eqb i k); ring|]. rewrite Ed. split.
    + intros i q. destruct (Nat.eqb i k); [|ring]. rewrite scatter1_is. unfold D, keeps. change (full_math (add_constr c k (f * val))) with (full_math c). ring.
    + intros a b. rewrite scatter2_is. change (full_math (add_constr c k (f * val))) with (full_math c). cbn [lagMult add_constr].
      f_equal. transitivity (f * sum_to (nConstr c) (fun i => (if Nat.eqb i k then 1 else 0) * H c a b i)).
      * rewrite sum_to_pick; auto.
      * unfold sum_to. induction (seq 0 (nConstr c)); cbn; [ring|]. rewrite <- IHl. ring.
  - split; [repeat split|]. split; [repeat split|]. rewrite Ed. cbn [constr dConstr HConstr add_constr].
    split; [intros i; unfold add1; destruct (Nat.eqb i k); ring|]. split; intros; ring.
Qed.
Lemma constr_cell_added ic c c' : constr_cell qs val dpart hpart isDeriv infl ic c = Ok c' ->
  added (fun k => nth (fst ic) infl 0 * times (constrMap c) (snd ic) k) c c'.
Proof.
  unfold constr_cell. intros E. apply added_ext with (w := fun k => nth (fst ic) infl 0 * hits (findall (snd ic) (constrMap c)) k); [intros k; rewrite hits_findall; reflexivity|].
  revert E. generalize (findall (snd ic) (constrMap c)). intros ks. revert c. induction ks as [|z r IH]; intros c E.
  - injection E as <-. eapply added_ext; [|apply added_none; [apply frame_refl|repeat split|repeat split]]. intros k. unfold hits, total. cbn. ring.
  - destruct (Z.eqb_spec z (-1)) as [->|N1].
    + cbn [bind] in E. specialize (IH _ E). eapply added_ext; [|eapply added_trans; [apply added_none; [| |]|exact IH]]; [|repeat split..].
      intros k. unfold hits, total. cbn [map fold_right]. destruct (Z.eqb_spec (-1) (Z.of_nat k)); [lia|]. ring.
    + destruct (andb _ _) eqn:Er in E; cbn [bind] in E; [|discriminate]. apply andb_prop in Er. destruct Er as [E1 E2].
      apply Z.leb_le in E1. apply Z.ltb_lt in E2. destruct (at_ infl (Z.of_nat (fst ic))) as [f| | |] eqn:Ef; cbn [bind] in E; try discriminate.
      assert (f = nth (fst ic) infl 0) as ->.
      { apply at_Ok in Ef. rewrite Nat2Z.id in Ef. symmetry. apply nth_error_nth. apply Ef. }
      specialize (IH _ E). eapply added_ext; [|eapply added_trans; [apply one_target|exact IH]]; [|lia].
      intros k. unfold hits, total. cbn [map fold_right].
      destruct (Z.eqb_spec z (Z.of_nat k)), (Nat.eqb_spec k (Z.to_nat z)); try lia; ring.
Qed.
Lemma constr_cells_added l c c' : constr_cells qs val dpart hpart isDeriv infl l c = Ok c' ->
  added (fun k => total (fun ic => nth (fst ic) infl 0 * times (constrMap c) (snd ic) k) l) c c'.
Proof.
  revert c. induction l as [|ic r IH]; cbn [constr_cells]; intros c E.
  - injection E as <-. apply added_none; [apply frame_refl|repeat split|repeat split].
  - destruct (constr_cell _ _ _ _ _ _ ic c) as [c1| | |] eqn:E1; cbn [bind] in E; try discriminate.
    pose proof (constr_cell_added _ _ E1) as A. pose proof (IH _ E) as B.
    assert (Em : constrMap c1 = constrMap c) by apply A. rewrite Em in B.
    eapply added_ext; [|eapply added_trans; [exact A|exact B]]. intros k. reflexivity.
Qed.
End Cells.
Lemma weight_is m t k : total (fun ic => nth (fst ic) (influence t) 0 * times m (snd ic) k) (combine (seq 0 (length (celltarg t))) (celltarg t)) = weight m t k.
Proof.
  unfold weight. assert (Q : forall (cs : list Z) (w : list R) s, (forall j, nth j (skipn s w) 0 = nth (s + j) w 0) ->
     total (fun ic => nth (fst ic) w 0 * times m (snd ic) k) (combine (seq s (length cs)) cs) = total (fun ci => snd ci * times m (fst ci) k) (combine cs (skipn s w))).
  { induction cs as [|z r IH]; intros w s Hs; [reflexivity|]. cbn [length seq combine].
    change (total ?f ((s, z) :: ?l)) with (f (s, z) + total f l). cbn [fst snd].
    assert (Hs' : forall j, nth j (skipn (S s) w) 0 = nth (S s + j) w 0).
    { clear. generalize (S s). intros n. revert w. induction n; intros w j; cbn; auto. destruct w; [destruct j; auto|]. apply IHn. }
    rewrite IH; auto. pose proof (Hs 0%nat) as H0. rewrite Nat.add_0_r in H0. rewrite <- H0.
    assert (Es : skipn (S s) w = tl (skipn s w)).
    { clear. revert w. induction s; intros [|x w]; cbn; auto. apply IHs. }
    rewrite Es. destruct (skipn s w) as [|x w']; cbn [nth tl combine].
    - replace (combine r []) with (@nil (Z * R)) by (destruct r; auto). unfold total. cbn. ring.
    - change (total ?f ((z, x) :: ?l)) with (f (z, x) + total f l). cbn. ring. }
  rewrite (Q _ _ 0%nat); auto.
Qed.
