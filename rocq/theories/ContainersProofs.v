(** Proofs about the container model. *)
From Verif Require Import Base Containers SpecContainers.
Set Implicit Arguments.
Open Scope Z_scope.

(** ** Hash tables *)

Lemma entries_app k t1 t2 : entries k (t1 ++ t2) = entries k t1 ++ entries k t2.
Proof. unfold entries. rewrite filter_app, map_app. reflexivity. Qed.

Lemma entries_hash_from T (key : T -> Z) l n k :
  entries k (hash_from key l n) = positions_from (fun e => key e =? k) l n.
Proof.
  revert n; induction l as [|e r IH]; intros n; simpl; auto.
  unfold entries in *. simpl. destruct (key e =? k); simpl; rewrite IH; reflexivity.
Qed.

Lemma entries_hash_all T (key : T -> Z) l k :
  entries k (hash_all key l) = positions (fun e => key e =? k) l.
Proof. apply entries_hash_from. Qed.

Lemma hash_from_app T (key : T -> Z) l1 l2 n :
  hash_from key (l1 ++ l2) n = hash_from key l1 n ++ hash_from key l2 (n + length l1).
Proof.
  revert n; induction l1 as [|e r IH]; intros n; simpl.
  - rewrite Nat.add_0_r; reflexivity.
  - rewrite IH. replace (n + S (length r))%nat with (S n + length r)%nat by lia. reflexivity.
Qed.

Lemma hash_all_snoc T (key : T -> Z) l e :
  hash_all key (l ++ [e]) = hash_all key l ++ [(key e, length l)].
Proof. unfold hash_all. rewrite hash_from_app. reflexivity. Qed.

Lemma hash_from_map T U (key : U -> Z) (f : T -> U) l n :
  hash_from key (map f l) n = hash_from (fun e => key (f e)) l n.
Proof. revert n; induction l as [|e r IH]; intros n; simpl; congruence. Qed.

Lemma hash_from_ext T (key key' : T -> Z) l n :
  (forall e, key e = key' e) -> hash_from key l n = hash_from key' l n.
Proof. intros H. revert n; induction l as [|e r IH]; intros n; simpl; congruence. Qed.

Lemma find_first_legal t k : legal_find t k (find_first t k).
Proof.
  unfold find_first, legal_find. destruct (entries k t) as [|p r]; [left; auto|].
  right. exists p. simpl; auto.
Qed.

Lemma legal_find_hash T (key : T -> Z) l k r :
  legal_find (hash_all key l) k r ->
  (r = -1 <-> ~ exists e, In e l /\ key e = k) /\
  (r <> -1 -> exists e, at_ l r = Ok e /\ key e = k).
Proof.
  unfold legal_find. rewrite entries_hash_all. intros H.
  assert (Hin : forall e, In e l -> key e = k -> exists p, In p (positions (fun e => key e =? k) l)).
  { intros e He Hk. destruct (In_nth_error _ _ He) as [p Hp]. exists p.
    apply positions_spec. exists e. split; auto. lia. }
  destruct H as [[Hnil ->]|[p [Hp ->]]].
  - split; [|congruence]. split; auto. intros _ [e [He Hk]].
    destruct (Hin e He Hk) as [p Hp]. rewrite Hnil in Hp. destruct Hp.
  - apply positions_spec in Hp. destruct Hp as [e [Hn Hk]].
    split.
    + split; [lia|]. intros Hno. exfalso. apply Hno. exists e. split; [|lia].
      eapply nth_error_In; eauto.
    + intros _. exists e. split; [|lia]. apply at_Ok. rewrite Nat2Z.id. split; [lia|auto].
Qed.

Lemma find_first_hash_mem l k :
  negb (find_first (hash_all (fun x => x) l) k =? -1) = mem_z k l.
Proof.
  pose proof (find_first_legal (hash_all (fun x => x) l) k) as H.
  apply legal_find_hash in H. destruct H as [H _].
  destruct (mem_z k l) eqn:Hm.
  - apply mem_z_In in Hm. destruct (Z.eqb_spec (find_first (hash_all (fun x => x) l) k) (-1)) as [He|He]; auto.
    exfalso. apply H in He. apply He. exists k; auto.
  - apply mem_z_not_In in Hm. apply negb_false_iff, Z.eqb_eq, H.
    intros [e [He ->]]. auto.
Qed.

(** ** Maximum index *)

Lemma max_index_cons T (index : T -> Z) e l :
  max_index index (e :: l) = Z.max (index e) (max_index index l).
Proof. simpl. destruct (Z.ltb_spec (max_index index l) (index e)); lia. Qed.

Lemma max_index_app T (index : T -> Z) l1 l2 :
  max_index index (l1 ++ l2) = Z.max (max_index index l1) (max_index index l2).
Proof.
  induction l1 as [|e r IH].
  - simpl. assert (0 <= max_index index l2).
    { induction l2 as [|e r IH]; [simpl; lia|]. rewrite max_index_cons. lia. }
    lia.
  - change ((e :: r) ++ l2) with (e :: (r ++ l2)). rewrite !max_index_cons, IH. lia.
Qed.

Lemma max_index_nonneg T (index : T -> Z) l : 0 <= max_index index l.
Proof. induction l as [|e r IH]; [simpl; lia|]. rewrite max_index_cons. lia. Qed.

Lemma max_index_ge T (index : T -> Z) l e : In e l -> index e <= max_index index l.
Proof.
  induction l as [|x r IH]; [intros []|]. rewrite max_index_cons.
  intros [->|H]; [lia|]. specialize (IH H). lia.
Qed.

Lemma max_index_attained T (index : T -> Z) l :
  max_index index l = 0 \/ exists e, In e l /\ index e = max_index index l.
Proof.
  induction l as [|x r IH]; [auto|]. rewrite max_index_cons.
  destruct (Z.max_spec (index x) (max_index index r)) as [[Hlt ->]|[Hle ->]].
  - destruct IH as [IH|[e [He Hi]]]; [auto|]. right. exists e. simpl; auto.
  - right. exists x. simpl; auto.
Qed.

Lemma max_index_map T (index : T -> Z) (f : T -> T) l :
  (forall e, index (f e) = index e) -> max_index index (map f l) = max_index index l.
Proof.
  intros H. induction l as [|x r IH]; auto.
  change (map f (x :: r)) with (f x :: map f r). rewrite !max_index_cons, H, IH. reflexivity.
Qed.

(** ** PopulateIndices *)

Section Number.
Variable T : Type.
Variable index : T -> Z.
Variable set_index : Z -> T -> T.
Hypothesis Hset : forall z e, index (set_index z e) = z.

Lemma number_from_length l n : length (number_from set_index l n) = length l.
Proof. revert n; induction l as [|e r IH]; intros n; simpl; auto. Qed.

Lemma number_from_index l n p e :
  nth_error (number_from set_index l n) p = Some e -> index e = n + Z.of_nat p.
Proof.
  revert n p; induction l as [|x r IH]; intros n [|p]; simpl; try discriminate.
  - intros [= <-]. rewrite Hset. lia.
  - intros H. apply IH in H. lia.
Qed.

Lemma number_from_max l n : 0 <= n ->
  max_index index (number_from set_index l n) = match l with [] => 0 | _ => n + Z.of_nat (length l) - 1 end.
Proof.
  revert n; induction l as [|x r IH]; intros n Hn; auto.
  change (number_from set_index (x :: r) n) with (set_index n x :: number_from set_index r (n + 1)).
  rewrite max_index_cons, Hset, IH by lia. destruct r; cbn [length]; lia.
Qed.
End Number.

(** ** ArrayStruct *)
Section ArrayStruct.
Variable T : Type.
Variable index : T -> Z.
Variable set_index : Z -> T -> T.
Variable parent : T -> Z.
Variable prepare_elem : T -> T.
Variable ready_elem : bool -> T -> bool.
Variable change_elem : Z -> Z -> Z -> Z -> T -> T.
Variable default_elem : T.
Hypothesis Hset : forall z e, index (set_index z e) = z.
Hypothesis Hprep : forall e, index (prepare_elem e) = index e.
Hypothesis Hprep_parent : forall e, parent (prepare_elem e) = parent e.
Hypothesis Hset_parent : forall z e, parent (set_index z e) = parent e.
Hypothesis Hchg_parent : forall a b c d e, parent (change_elem a b c d e) = parent e.

Notation arr := (arr T).
Notation prepare := (prepare index prepare_elem).
Notation run := (run index set_index prepare_elem change_elem default_elem).
Notation step := (step index set_index prepare_elem change_elem default_elem).

Definition inv (s : arr) : Prop :=
  (isHash s = true -> table s = hash_all index (elems s)) /\
  (isSetMI s = true -> maxIndex s = max_index index (elems s)).

Lemma inv_fresh g : inv (fresh T g).
Proof. split; simpl; discriminate. Qed.

Lemma inv_hash_array s : inv s -> inv (hash_array index s).
Proof. intros [H1 H2]; split; simpl; auto. Qed.

Lemma inv_set_max s : inv s -> inv (set_max_index index s).
Proof. intros [H1 H2]; split; simpl; auto. Qed.

Lemma hash_all_map_prep l : hash_all index (map prepare_elem l) = hash_all index l.
Proof. unfold hash_all. rewrite hash_from_map. apply hash_from_ext. auto. Qed.

Lemma inv_prepare s : inv s -> inv (prepare s).
Proof.
  intros [H1 H2]. unfold Containers.prepare, inv.
  destruct s as [l t m h mi rd im]; simpl in *.
  destruct mi, h; simpl; repeat split; intros; auto;
    rewrite ?hash_all_map_prep, ?(max_index_map index prepare_elem _ Hprep); auto.
Qed.

Lemma inv_push e s : inv s -> inv (push_back index e s).
Proof.
  intros [H1 H2]; split; simpl; intros H.
  - rewrite hash_all_snoc, (H1 H). reflexivity.
  - rewrite max_index_app, (H2 H). pose proof (max_index_nonneg index (elems s)).
    rewrite max_index_cons. cbn [max_index].
    destruct (Z.ltb_spec (max_index index (elems s)) (index e)); lia.
Qed.

Lemma inv_reset l s : inv (with_elems_reset l s).
Proof. split; simpl; discriminate. Qed.

Lemma inv_populate s : inv (populate index set_index s).
Proof.
  split; simpl; intros _; auto.
  rewrite (number_from_max index set_index Hset) by lia. destruct (elems s); cbn [length]; lia.
Qed.

Lemma inv_step s o s' : inv s -> step s o = Ok s' -> inv s'.
Proof.
  intros Hi. destruct o; cbn [Containers.step]; try (intros [= <-]).
  - apply inv_push; auto.
  - unfold edit. destruct (at_ (elems s) a); simpl; try discriminate.
    intros [= <-]. apply inv_reset.
  - split; simpl; discriminate.
  - apply inv_reset.
  - apply inv_populate.
  - apply inv_reset.
  - apply inv_reset.
  - split; simpl; auto.
  - apply inv_reset.
  - split; simpl; discriminate.
  - apply inv_prepare; auto.
  - apply inv_hash_array; auto.
  - apply inv_set_max; auto.
Qed.

Lemma inv_run ops : forall s s', inv s -> run ops s = Ok s' -> inv s'.
Proof.
  induction ops as [|o r IH]; intros s s' Hi; cbn [Containers.run].
  - intros [= <-]; auto.
  - destruct (step s o) eqn:Hs; cbn [bind]; try discriminate.
    apply IH. eapply inv_step; eauto.
Qed.

Lemma prepare_flags s : isHash (prepare s) = true /\ isSetMI (prepare s) = true /\
  elems (prepare s) = map prepare_elem (elems s).
Proof.
  unfold Containers.prepare. destruct s as [l t m h mi rd im]; simpl.
  destruct mi, h; simpl; auto.
Qed.

Lemma prepare_exact ops g s :
  run ops (fresh T g) = Ok s ->
  table (prepare s) = hash_all index (elems (prepare s)) /\
  maxIndex (prepare s) = max_index index (elems (prepare s)).
Proof.
  intros Hr. pose proof (inv_run _ (inv_fresh g) Hr) as Hi.
  apply inv_prepare in Hi. destruct Hi as [H1 H2].
  destruct (prepare_flags s) as [F1 [F2 _]]. auto.
Qed.

Lemma checkready_exact ops g s :
  run ops (fresh T g) = Ok s -> checkready ready_elem s = true ->
  table s = hash_all index (elems s) /\ maxIndex s = max_index index (elems s).
Proof.
  intros Hr Hc. pose proof (inv_run _ (inv_fresh g) Hr) as [H1 H2].
  unfold checkready in Hc. rewrite !andb_true_iff in Hc. tauto.
Qed.


Definition rinv (s : arr) : Prop := readyforuse s = true -> isHash s = true /\ isSetMI s = true.

Lemma rinv_step s o s' : is_remove o = false -> rinv s -> step s o = Ok s' -> rinv s'.
Proof.
  intros Hnr Hi. destruct o; cbn [Containers.step]; try discriminate; try (intros [= <-]);
    try (unfold rinv in *; simpl; discriminate); auto.
  - unfold edit. destruct (at_ (elems s) a); simpl; try discriminate.
    intros [= <-]. unfold rinv; simpl; discriminate.
  - unfold rinv. intros _. destruct (prepare_flags s) as [F1 [F2 _]]. auto.
  - unfold rinv in *; simpl. intros H; apply Hi in H. tauto.
  - unfold rinv in *; simpl. intros H; apply Hi in H. tauto.
Qed.

Lemma rinv_run ops : forall s s',
  forallb (fun o => negb (is_remove o)) ops = true -> rinv s -> run ops s = Ok s' -> rinv s'.
Proof.
  induction ops as [|o r IH]; intros s s' Hn Hi; cbn [Containers.run].
  - intros [= <-]; auto.
  - cbn [forallb] in Hn. apply andb_true_iff in Hn. destruct Hn as [Hn1 Hn2].
    destruct (step s o) eqn:Hs; cbn [bind]; try discriminate.
    apply IH; auto. eapply rinv_step; eauto. destruct (is_remove o); auto; discriminate.
Qed.

Lemma ready_exact ops g s :
  forallb (fun o => negb (is_remove o)) ops = true ->
  run ops (fresh T g) = Ok s -> readyforuse s = true ->
  table s = hash_all index (elems s) /\ maxIndex s = max_index index (elems s).
Proof.
  intros Hn Hr Hc. pose proof (inv_run _ (inv_fresh g) Hr) as [H1 H2].
  assert (Hri : rinv s) by (eapply rinv_run; eauto; unfold rinv; simpl; discriminate).
  destruct (Hri Hc). auto.
Qed.

Lemma remove_elems del s :
  elems (remove index del s) =
  filter (fun e => if in_dec Z.eq_dec (index e) del then false else true) (elems s).
Proof.
  unfold remove; simpl. apply filter_ext. intros e. unfold in_del_hash.
  rewrite find_first_hash_mem. destruct (in_dec Z.eq_dec (index e) del) as [H|H].
  - apply mem_z_In in H. rewrite H. reflexivity.
  - apply mem_z_not_In in H. rewrite H. reflexivity.
Qed.

(** ** SnakStruct *)
Notation snak := (snak T).
Notation srun := (srun index set_index parent prepare_elem change_elem default_elem).
Notation sstep := (sstep index set_index parent prepare_elem change_elem default_elem).
Notation sprepare := (sprepare index parent prepare_elem).


Definition pinv (s : snak) : Prop :=
  isHashParent s = true -> ptable s = hash_all parent (elems (base s)).

Lemma hash_parent_map_prep l : hash_all parent (map prepare_elem l) = hash_all parent l.
Proof. unfold hash_all. rewrite hash_from_map. apply hash_from_ext. auto. Qed.

Lemma hash_parent_number l : forall n z,
  hash_from parent (number_from set_index l z) n = hash_from parent l n.
Proof. induction l as [|e r IH]; intros n z; simpl; auto. rewrite Hset_parent, IH. reflexivity. Qed.

Lemma pinv_sprepare s : pinv s -> pinv (sprepare s).
Proof.
  unfold pinv, Containers.sprepare. intros H. cbn [isHashParent].
  destruct (isHashParent s) eqn:Hp; cbn [isHashParent base ptable hash_parent].
  - intros _. rewrite (H eq_refl).
    rewrite (proj2 (proj2 (prepare_flags (base s)))). symmetry. apply hash_parent_map_prep.
  - intros _. reflexivity.
Qed.

Lemma pinv_step s o s' : keeps_parent o = true -> pinv s -> sstep s o = Ok s' -> pinv s'.
Proof.
  intros Hk Hi. destruct o; cbn [Containers.sstep keeps_parent] in *; try discriminate; try (intros [= <-]).
  - unfold pinv in *; simpl. intros H. rewrite hash_all_snoc, (Hi H). reflexivity.
  - unfold sedit. destruct (edit a f (base s)); simpl; try discriminate. intros [= <-].
    unfold pinv; simpl; discriminate.
  - unfold pinv; simpl; discriminate.
  - unfold pinv; simpl; discriminate.
  - unfold pinv in *; simpl. intros H. rewrite (Hi H). symmetry. apply hash_parent_number.
  - unfold pinv in *; simpl. intros H. rewrite (Hi H). unfold hash_all.
    rewrite hash_from_map. symmetry. apply hash_from_ext. intros; apply Hchg_parent.
  - unfold pinv in *; simpl. intros _. reflexivity.
  - apply pinv_sprepare; auto.
  - unfold pinv in *; simpl; auto.
  - unfold pinv in *; simpl; auto.
Qed.

Lemma pinv_run ops : forall s s',
  forallb keeps_parent ops = true -> pinv s -> srun ops s = Ok s' -> pinv s'.
Proof.
  induction ops as [|o r IH]; intros s s' Hn Hi; cbn [Containers.srun].
  - intros [= <-]; auto.
  - cbn [forallb] in Hn. apply andb_true_iff in Hn. destruct Hn as [Hn1 Hn2].
    destruct (sstep s o) eqn:Hs; cbn [bind]; try discriminate.
    apply IH; auto. eapply pinv_step; eauto.
Qed.

Lemma sprepare_exact ops g s :
  forallb keeps_parent ops = true -> srun ops (sfresh T g) = Ok s ->
  ptable (sprepare s) = hash_all parent (elems (base (sprepare s))).
Proof.
  intros Hk Hr.
  assert (Hp : pinv s) by (eapply pinv_run; eauto; unfold pinv; simpl; discriminate).
  apply pinv_sprepare in Hp. apply Hp.
  unfold Containers.sprepare. cbn [isHashParent]. destruct (isHashParent s) eqn:E; simpl; auto.
Qed.

(** The base tables of a SnakStruct behave as those of an ArrayStruct. *)
Lemma sstep_base s o s' : sstep s o = Ok s' -> inv (base s) -> inv (base s').
Proof.
  intros Hs Hi.
  destruct o; cbn [Containers.sstep] in Hs;
    try (injection Hs as <-; cbn [base spush_back sremove sconcatenate spopulate schange sassign sclear sinit sread with_base with_base_reset]).
  - apply inv_push; auto.
  - unfold sedit in Hs. destruct (edit a f (base s)) eqn:He; cbn [bind] in Hs; try discriminate.
    injection Hs as <-; simpl. apply (inv_step (OEdit a f) Hi). exact He.
  - eapply (inv_step (ORemove del) Hi); reflexivity.
  - eapply (inv_step (OConcat other) Hi); reflexivity.
  - eapply (inv_step (OPopulate) Hi); reflexivity.
  - eapply (inv_step (OChange nv ne ns nvo) Hi); reflexivity.
  - eapply (inv_step (OAssign n e) Hi); reflexivity.
  - eapply (inv_step (OClear) Hi); reflexivity.
  - apply inv_reset.
  - eapply (inv_step (ORead inmesh l) Hi); reflexivity.
  - unfold Containers.sprepare. cbn [isHashParent]. destruct (isHashParent s); simpl; apply inv_prepare; auto.
  - apply inv_hash_array; auto.
  - apply inv_set_max; auto.
Qed.

Lemma srun_base ops : forall s s', srun ops s = Ok s' -> inv (base s) -> inv (base s').
Proof.
  induction ops as [|o r IH]; intros s s' Hr Hi; cbn [Containers.srun] in Hr.
  - injection Hr as <-; auto.
  - destruct (sstep s o) eqn:Hs; cbn [bind] in Hr; try discriminate.
    eapply IH; eauto. eapply sstep_base; eauto.
Qed.

End ArrayStruct.

(** ** DeHashParent *)


Lemma seek_app k t : let (b, i) := seek k t in
  t = b ++ i /\ ~ In k (map fst b) /\
  match i with [] => ~ In k (map fst t) | (k', _) :: _ => k' = k end.
Proof.
  induction t as [|[k' p] r IH]; simpl; [tauto|].
  destruct (Z.eqb_spec k' k) as [->|Hne].
  - simpl. tauto.
  - destruct (seek k r) as [b i]. destruct IH as [-> [Hb Hi]]. simpl.
    split; [reflexivity|]. split; [tauto|].
    destruct i as [|[k2 p2] i]; auto. tauto.
Qed.

Lemma grouped_app_r b t : grouped (b ++ t) -> grouped t.
Proof. induction b as [|[k p] b IH]; simpl; auto. inversion 1; auto. Qed.

(** If (k,pos) is stored, walking from the head of the group reaches it. *)
Lemma walk_found k pos it :
  grouped it -> (match it with (k', _) :: _ => k' = k | [] => False end) ->
  In (k, pos) it ->
  exists b r, walk k pos it = Ok (b, (k, pos) :: r) /\ it = b ++ (k, pos) :: r.
Proof.
  induction it as [|[k' p] r IH]; simpl; intros Hg Hh Hin; [tauto|]. subst k'.
  destruct (Nat.eqb_spec p pos) as [->|Hne]; cbn [negb andb].
  - exists [], r. auto.
  - rewrite Z.eqb_refl. destruct Hin as [[= ->]|Hin]; [congruence|].
    inversion Hg as [|k0 p0 t0 Hg' Hc]; subst.
    destruct Hc as [Hc|Hc].
    + destruct (IH Hg' Hc Hin) as [b [r' [Hw Heq]]].
      rewrite Hw. cbn [bind]. exists ((k, p) :: b), r'. simpl. split; [reflexivity|].
      rewrite Heq at 1. reflexivity.
    + exfalso. apply Hc. apply in_map_iff. exists (k, pos); auto.
Qed.

Lemma dehash_found k pos t :
  grouped t -> In (k, pos) t ->
  exists b r, t = b ++ (k, pos) :: r /\ dehash k pos t = Ok (b ++ r).
Proof.
  intros Hg Hin. unfold dehash. pose proof (seek_app k t) as Hs.
  destruct (seek k t) as [b0 i0]. destruct Hs as [-> [Hb Hi]].
  assert (Hhead : match i0 with (k', _) :: _ => k' = k | [] => False end).
  { destruct i0 as [|[k' p'] i0]; auto. exfalso. apply Hi, in_map_iff. exists (k, pos); auto. }
  assert (Hin' : In (k, pos) i0).
  { apply in_app_or in Hin. destruct Hin as [Hin|Hin]; auto.
    exfalso. apply Hb, in_map_iff. exists (k, pos); auto. }
  destruct (@walk_found k pos i0 (@grouped_app_r _ _ Hg) Hhead Hin') as [b1 [r [Hw ->]]].
  rewrite Hw. cbn [bind]. rewrite Nat.eqb_refl, Z.eqb_refl. cbn [andb].
  exists (b0 ++ b1), r. rewrite <- !app_assoc. auto.
Qed.

Lemma entries_remove k pos b r k' :
  entries k' (b ++ (k, pos) :: r) =
  if k =? k' then entries k' b ++ pos :: entries k' r else entries k' (b ++ r).
Proof.
  rewrite !entries_app. unfold entries at 2. simpl. destruct (k =? k'); simpl; auto.
Qed.

Lemma grouped_remove b x r : grouped (b ++ x :: r) -> grouped (b ++ r).
Proof.
  induction b as [|[k p] b IH]; simpl.
  - inversion 1; auto.
  - inversion 1 as [|k0 p0 t0 Hg Hc]; subst. constructor; [auto|].
    destruct b as [|[kb pb] b]; simpl in *.
    + destruct x as [kx px]. destruct Hc as [->|Hc].
      * inversion Hg as [|k1 p1 t1 Hg1 Hc1]; subst. destruct Hc1 as [Hc1|Hc1]; [|right; auto].
        left. destruct r as [|[kr pr] r]; auto.
      * right. tauto.
    + destruct Hc as [Hc|Hc]; [left; auto|]. right.
      rewrite map_app in *. intros [Hk|Hk]; [apply Hc; auto|]. apply Hc. right.
      apply in_app_or in Hk. apply in_or_app. simpl. tauto.
Qed.

(** dehash never gives a wrong table: when it returns, the pair was there. *)
Lemma walk_sound k pos it b i : walk k pos it = Ok (b, i) -> it = b ++ i.
Proof.
  revert b i; induction it as [|[k' p] r IH]; simpl; intros b i; [discriminate|].
  destruct (negb (Nat.eqb p pos) && (k' =? k)).
  - destruct (walk k pos r) as [[b' i']| | |] eqn:Hw; simpl; try discriminate.
    intros [= <- <-]. simpl. f_equal. apply IH; auto.
  - intros [= <- <-]. reflexivity.
Qed.

Lemma dehash_sound k pos t t' :
  dehash k pos t = Ok t' ->
  exists b r, t = b ++ (k, pos) :: r /\ t' = b ++ r.
Proof.
  unfold dehash. pose proof (seek_app k t) as Hs.
  destruct (seek k t) as [b0 i0]. destruct Hs as [-> _].
  destruct (walk k pos i0) as [[b1 i1]| | |] eqn:Hw; simpl; try discriminate.
  apply walk_sound in Hw. subst i0.
  destruct i1 as [|[k' p] r]; try discriminate.
  destruct (Nat.eqb_spec p pos) as [->|]; simpl; try discriminate.
  destruct (Z.eqb_spec k' k) as [->|]; simpl; try discriminate.
  intros [= <-]. exists (b0 ++ b1), r. rewrite <- !app_assoc. auto.
Qed.

Lemma walk_safe_spec k pos it :
  grouped it -> (match it with (k', _) :: _ => k' = k | [] => True end) ->
  walk_safe k pos it = true <-> In (k, pos) it.
Proof.
  induction it as [|[k' p] r IH]; simpl; intros Hg Hh.
  - split; [discriminate|tauto].
  - subst k'. inversion Hg as [|k0 p0 t0 Hg' Hc]; subst. rewrite Z.eqb_refl, !andb_true_r.
    destruct (Nat.eqb_spec p pos) as [->|Hne]; cbn [negb]; [tauto|].
    destruct Hc as [Hc|Hc].
    + rewrite IH; auto.
      * split; auto. intros [[= He]|H]; [congruence|auto].
      * destruct r as [|[k1 p1] r]; auto.
    + assert (Hnin : ~ In (k, pos) r).
      { intros H. apply Hc, in_map_iff. exists (k, pos); auto. }
      assert (walk_safe k pos r = false) as ->.
      { destruct r as [|[k1 p1] r]; auto. simpl.
        destruct (Z.eqb_spec k1 k) as [->|]; [exfalso; apply Hc; simpl; auto|].
        rewrite !andb_false_r. reflexivity. }
      split; [discriminate|]. intros [[= He]|H]; [congruence|tauto].
Qed.

Lemma walk_safe_seek k pos t :
  grouped t -> (walk_safe k pos (snd (seek k t)) = true <-> In (k, pos) t).
Proof.
  intros Hg. pose proof (seek_app k t) as Hs. destruct (seek k t) as [b i].
  destruct Hs as [-> [Hb Hi]]. cbn [snd]. rewrite walk_safe_spec.
  - rewrite in_app_iff. split; auto. intros [H|H]; auto.
    exfalso. apply Hb, in_map_iff. exists (k, pos); auto.
  - apply (@grouped_app_r _ _ Hg).
  - destruct i as [|[k' p'] i]; auto.
Qed.

(** ** Modification tracking *)
Section Modif.
Variable T : Type.


Lemma mrun_flags ops : forall (s s' : marr T),
  mrun ops s = Ok s' ->
  length s' = length s /\
  forall p e, nth_error s p = Some e ->
    exists e', nth_error s' p = Some e' /\ snd e' = snd e || written p ops /\
      (written p ops = false -> e' = e).
Proof.
  induction ops as [|o r IH]; intros s s' Hr; cbn [mrun] in Hr.
  - injection Hr as <-. split; auto. intros p e Hp. exists e.
    rewrite orb_false_r. auto.
  - destruct (mstep s o) as [s1| | |] eqn:Hs; cbn [bind] in Hr; try discriminate.
    destruct (IH _ _ Hr) as [Hl Hf]. destruct o as [a|a f]; cbn [mstep] in Hs.
    + destruct (at_ s a); cbn [bind] in Hs; try discriminate. injection Hs as <-.
      split; auto.
    + destruct (at_ s a) as [ea| | |] eqn:Ha; cbn [bind] in Hs; try discriminate.
      apply at_Ok in Ha. destruct Ha as [Ha Hn]. injection Hs as <-.
      rewrite upd_length in Hl. split; auto. intros p e Hp.
      destruct (Z.eqb_spec a (Z.of_nat p)) as [Heq|Hne].
      * assert (Hlt : (Z.to_nat a < length s)%nat) by (apply nth_error_Some; congruence).
        subst a. rewrite Nat2Z.id in *.
        destruct (Hf p _ (nth_error_upd_same _ _ Hlt)) as [e' [He' [Hs' _]]].
        exists e'. split; auto. cbn [snd] in Hs'. rewrite Hs'. unfold written. cbn [existsb].
        rewrite Z.eqb_refl. split; [destruct (snd e); reflexivity|discriminate].
      * assert (Hne' : Z.to_nat a <> p) by lia.
        rewrite <- (nth_error_upd_other s (f (fst ea), true) Hne') in Hp.
        destruct (Hf p e Hp) as [e' [He' [Hs' Hk]]]. exists e'. split; auto.
        unfold written in *. cbn [existsb]. rewrite (proj2 (Z.eqb_neq _ _) Hne). auto.
Qed.

Lemma modif_after ops (l : list T) (s' : marr T) b :
  length b = length l ->
  mrun ops (set_no_modif (combine l b)) = Ok s' ->
  length s' = length l /\
  (forall p e', nth_error s' p = Some e' -> snd e' = written p ops) /\
  (forall p e, nth_error l p = Some e -> written p ops = false -> nth_error s' p = Some (e, false)).
Proof.
  intros Hb Hr. apply mrun_flags in Hr. destruct Hr as [Hl Hf].
  assert (Hlen : length (set_no_modif (combine l b)) = length l).
  { unfold set_no_modif. rewrite map_length, combine_length. lia. }
  assert (Hinit : forall p e, nth_error l p = Some e ->
            nth_error (set_no_modif (combine l b)) p = Some (e, false)).
  { clear Hf Hl Hlen s'. revert b Hb. induction l as [|x r IH]; intros [|y b] Hb [|p] e; simpl in *; try discriminate.
    - intros [= ->]; reflexivity.
    - apply IH. lia. }
  rewrite Hlen in Hl. split; auto. split.
  - intros p e' Hp.
    assert (Hlt : (p < length l)%nat) by (rewrite <- Hl; apply nth_error_Some; congruence).
    destruct (nth_error l p) as [e|] eqn:He; [|apply nth_error_None in He; lia].
    destruct (Hf p _ (Hinit p e He)) as [e2 [He2 [Hs2 _]]].
    assert (e2 = e') by congruence. subst. exact Hs2.
  - intros p e He Hw. destruct (Hf p _ (Hinit p e He)) as [e2 [He2 [_ Hk]]].
    rewrite He2. f_equal. auto.
Qed.

End Modif.

(** ** HashedVector *)
Definition hinv (s : hvec) : Prop := vtable s = hash_all (fun x => x) (vec s).


Lemma hinv_step s o s' : hv_keeps o = true -> hinv s -> hstep s o = Ok s' -> hinv s'.
Proof.
  intros Hk Hi. destruct o; cbn [hstep hv_keeps] in *; try discriminate; intros [= <-].
  - unfold hinv in *; simpl. rewrite hash_all_snoc, Hi. reflexivity.
  - reflexivity.
  - reflexivity.
Qed.

Lemma hinv_run ops : forall s s',
  forallb hv_keeps ops = true -> hinv s -> hrun ops s = Ok s' -> hinv s'.
Proof.
  induction ops as [|o r IH]; intros s s' Hn Hi; cbn [hrun].
  - intros [= <-]; auto.
  - cbn [forallb] in Hn. apply andb_true_iff in Hn. destruct Hn as [Hn1 Hn2].
    destruct (hstep s o) eqn:Hs; cbn [bind]; try discriminate.
    apply IH; auto. eapply hinv_step; eauto.
Qed.

Lemma hrun_app ops1 ops2 s : hrun (ops1 ++ ops2) s = do s1 <- hrun ops1 s; hrun ops2 s1.
Proof.
  revert s; induction ops1 as [|o r IH]; intros s; cbn [app hrun bind]; auto.
  destruct (hstep s o); cbn [bind]; auto.
Qed.

Lemma hv_current pre post s :
  forallb hv_keeps post = true ->
  hrun (pre ++ HGenerate :: post) hv_fresh = Ok s -> hinv s.
Proof.
  intros Hp. rewrite hrun_app. destruct (hrun pre hv_fresh) as [s1| | |]; cbn [bind]; try discriminate.
  cbn [hrun hstep bind]. intros H. refine (hinv_run _ Hp _ H). reflexivity.
Qed.

Lemma filter_count_occ k l :
  length (positions (fun x => x =? k) l) = count_occ Z.eq_dec l k.
Proof.
  unfold positions. generalize 0%nat. induction l as [|x r IH]; intros n; auto.
  cbn [positions_from count_occ]. destruct (Z.eqb_spec x k), (Z.eq_dec x k); try congruence;
    cbn [length]; rewrite IH; reflexivity.
Qed.

(** ** sort and unique *)
Lemma sort_insert_perm x l : Permutation (sort_insert x l) (x :: l).
Proof.
  induction l as [|y r IH]; simpl; auto. destruct (x <=? y); auto.
  rewrite IH. apply perm_swap.
Qed.
Lemma sort_perm l : Permutation (sort_z l) l.
Proof. induction l as [|x r IH]; simpl; auto. rewrite sort_insert_perm, IH. auto. Qed.

Lemma sort_insert_sorted x l : StronglySorted Z.le l -> StronglySorted Z.le (sort_insert x l).
Proof.
  induction l as [|y r IH]; simpl; intros H.
  - constructor; auto.
  - destruct (Z.leb_spec x y).
    + constructor; auto. inversion H as [|? ? Hs Hf]; subst. constructor; auto.
      eapply Forall_impl; [|exact Hf]. simpl. intros; lia.
    + inversion H as [|? ? Hs Hf]; subst. constructor; [apply IH; auto|].
      apply Forall_forall. intros z Hz.
      apply (Permutation_in _ (sort_insert_perm x r)) in Hz. destruct Hz as [<-|Hz]; [lia|].
      rewrite Forall_forall in Hf. auto.
Qed.
Lemma sort_sorted l : StronglySorted Z.le (sort_z l).
Proof. induction l as [|x r IH]; simpl; [constructor|]. apply sort_insert_sorted; auto. Qed.

Lemma unique_In l z : In z (unique_z l) <-> In z l.
Proof.
  induction l as [|x r IH]; [simpl; tauto|].
  destruct r as [|y r']; [simpl; tauto|].
  change (unique_z (x :: y :: r')) with (if x =? y then unique_z (y :: r') else x :: unique_z (y :: r')).
  destruct (Z.eqb_spec x y) as [->|Hne].
  - rewrite IH. simpl. tauto.
  - cbn [In] in *. rewrite IH. tauto.
Qed.

Lemma unique_strict l : StronglySorted Z.le l -> StronglySorted Z.lt (unique_z l).
Proof.
  induction l as [|x r IH]; intros H; [constructor|].
  destruct r as [|y r']; [repeat constructor|].
  change (unique_z (x :: y :: r')) with (if x =? y then unique_z (y :: r') else x :: unique_z (y :: r')).
  inversion H as [|? ? Hs Hf]; subst. destruct (Z.eqb_spec x y) as [->|Hne]; [auto|].
  constructor; [auto|]. apply Forall_forall. intros z Hz. apply (proj1 (unique_In _ _)) in Hz.
  inversion Hs as [|? ? Hs' Hf']; subst. inversion Hf as [|? ? Hxy Hf2]; subst.
  destruct Hz as [<-|Hz]; [lia|]. rewrite Forall_forall in Hf'. specialize (Hf' _ Hz). lia.
Qed.

Lemma tighten_In l z : In z (tighten l) <-> In z l.
Proof.
  unfold tighten. rewrite unique_In. split; apply Permutation_in;
    [apply sort_perm | apply Permutation_sym, sort_perm].
Qed.
Lemma tighten_strict l : StronglySorted Z.lt (tighten l).
Proof. apply unique_strict, sort_sorted. Qed.

Lemma strict_ext l1 : forall l2, StronglySorted Z.lt l1 -> StronglySorted Z.lt l2 ->
  (forall z, In z l1 <-> In z l2) -> l1 = l2.
Proof.
  induction l1 as [|x r IH]; intros [|y r2] H1 H2 Hin; auto.
  - exfalso. apply (proj2 (Hin y)). simpl; auto.
  - exfalso. apply (proj1 (Hin x)). simpl; auto.
  - inversion H1 as [|? ? Hs1 Hf1]; inversion H2 as [|? ? Hs2 Hf2]; subst.
    rewrite Forall_forall in Hf1, Hf2.
    assert (x = y).
    { destruct (proj1 (Hin x) (or_introl eq_refl)) as [He|Hx]; auto.
      destruct (proj2 (Hin y) (or_introl eq_refl)) as [He|Hy]; auto.
      specialize (Hf1 _ Hy). specialize (Hf2 _ Hx). lia. }
    subst y. f_equal. apply IH; auto. intros z. split; intros Hz.
    + destruct (proj1 (Hin z) (or_intror Hz)) as [He|H]; auto.
      subst. specialize (Hf1 _ Hz). lia.
    + destruct (proj2 (Hin z) (or_intror Hz)) as [He|H]; auto.
      subst. specialize (Hf2 _ Hz). lia.
Qed.

Lemma tighten_idem l : tighten (tighten l) = tighten l.
Proof.
  apply strict_ext; try apply tighten_strict. intros z. rewrite !tighten_In. tauto.
Qed.

Lemma strict_NoDup l : StronglySorted Z.lt l -> NoDup l.
Proof.
  induction 1 as [|x l Hs IH Hf]; constructor; auto. intros H.
  rewrite Forall_forall in Hf. specialize (Hf _ H). lia.
Qed.

(** ** Keyed accumulation *)
Section Pair.
Variable S_ : Type.
Variable szero : S_.
Variable sadd : S_ -> S_ -> S_.

Definition hpinv (s : hpair S_) : Prop :=
  phtable s = hash_all (fun x => x) (pvec s) /\
  length (targ s) = length (pvec s) /\ NoDup (pvec s).

Lemma hpinv_find (s : hpair S_) k : hpinv s ->
  (find_first (phtable s) k = -1 /\ ~ In k (pvec s)) \/
  (exists p, find_first (phtable s) k = Z.of_nat p /\ nth_error (pvec s) p = Some k).
Proof.
  intros [Ht _]. pose proof (find_first_legal (phtable s) k) as H.
  set (ff := find_first (phtable s) k) in *. clearbody ff. rewrite Ht in H.
  apply legal_find_hash in H. destruct H as [H1 H2].
  destruct (Z.eq_dec ff (-1)) as [E|E].
  - left. split; auto. intros Hin. apply (proj1 H1 E). exists k; auto.
  - right. destruct (H2 E) as [e [Ha ->]]. apply at_Ok in Ha. destruct Ha as [Hp Hn].
    exists (Z.to_nat ff). split; [lia|auto].
Qed.

Lemma nth_error_unique (l : list Z) p q k :
  NoDup l -> nth_error l p = Some k -> nth_error l q = Some k -> p = q.
Proof.
  intros Hnd Hp Hq. apply (proj1 (NoDup_nth_error l) Hnd).
  - apply nth_error_Some. congruence.
  - congruence.
Qed.

(** [hp_get] as a function of position. *)
Lemma hp_get_at (s : hpair S_) k p : hpinv s -> nth_error (pvec s) p = Some k ->
  exists v, nth_error (targ s) p = Some v /\ hp_get szero k s = Ok v.
Proof.
  intros Hi Hp. destruct (hpinv_find k Hi) as [[E Hno]|[q [E Hq]]].
  - exfalso. apply Hno. eapply nth_error_In; eauto.
  - destruct Hi as [_ [Hlen Hnd]]. assert (q = p) by (eapply nth_error_unique; eauto). subst q.
    assert (Hlt : (p < length (targ s))%nat) by (rewrite Hlen; apply nth_error_Some; congruence).
    destruct (nth_error (targ s) p) as [v|] eqn:Hv; [|apply nth_error_None in Hv; lia].
    exists v. split; auto. unfold hp_get. rewrite E.
    destruct (Z.eqb_spec (Z.of_nat p) (-1)); [lia|]. apply at_Ok. rewrite Nat2Z.id. split; [lia|auto].
Qed.

Lemma hp_get_absent (s : hpair S_) k : hpinv s -> ~ In k (pvec s) -> hp_get szero k s = Ok szero.
Proof.
  intros Hi Hno. unfold hp_get. destruct (hpinv_find k Hi) as [[-> _]|[q [_ Hq]]]; auto.
  exfalso. apply Hno. eapply nth_error_In; eauto.
Qed.

Lemma hp_get_total (s : hpair S_) k : hpinv s -> exists v, hp_get szero k s = Ok v.
Proof.
  intros Hi. destruct (in_dec Z.eq_dec k (pvec s)) as [Hin|Hno].
  - apply In_nth_error in Hin. destruct Hin as [p Hp]. destruct (hp_get_at p Hi Hp) as [v [_ Hv]]. eauto.
  - eauto using hp_get_absent.
Qed.

Lemma hpinv_push (s : hpair S_) k v : hpinv s -> ~ In k (pvec s) -> hpinv (hp_push k v s).
Proof.
  intros [H1 [H2 H3]] Hno. split; [|split]; simpl.
  - rewrite hash_all_snoc, H1. reflexivity.
  - rewrite !app_length; simpl; lia.
  - apply Permutation_NoDup with (l := k :: pvec s); [|constructor; auto].
    apply Permutation_cons_append.
Qed.

Lemma hpinv_settarg (s : hpair S_) p v : hpinv s ->
  hpinv {| pvec := pvec s; phtable := phtable s; targ := upd (targ s) p v |}.
Proof. intros [H1 [H2 H3]]. split; [|split]; simpl; auto. rewrite upd_length; auto. Qed.

Lemma hp_update_spec (s : hpair S_) k f : hpinv s ->
  exists s', hp_update szero k f s = Ok s' /\ hpinv s' /\
    (forall v, hp_get szero k s = Ok v -> hp_get szero k s' = Ok (f v)) /\
    (forall k', k' <> k -> hp_get szero k' s' = hp_get szero k' s) /\
    (forall k', In k' (pvec s') <-> In k' (pvec s) \/ k' = k).
Proof.
  intros Hi. unfold hp_update.
  destruct (hpinv_find k Hi) as [[E Hno]|[p [E Hp]]]; rewrite E.
  - rewrite Z.eqb_refl. cbn [pvec hp_push targ phtable].
    replace (Z.of_nat (length (pvec s ++ [k])) - 1) with (Z.of_nat (length (pvec s)))
      by (rewrite app_length; simpl; lia).
    pose proof (@hpinv_push s k szero Hi Hno) as Hpi.
    pose proof Hi as [_ [Hlen _]].
    assert (Hat : at_ (targ s ++ [szero]) (Z.of_nat (length (pvec s))) = Ok szero).
    { apply at_Ok. rewrite Nat2Z.id. split; [lia|]. rewrite <- Hlen, nth_error_app2, Nat.sub_diag; auto. }
    rewrite Hat. cbn [bind]. eexists. split; [reflexivity|].
    pose proof (hpinv_settarg (length (pvec s)) (f szero) Hpi) as Hpi'.
    cbn [pvec hp_push targ phtable] in Hpi'. rewrite Nat2Z.id. split; [exact Hpi'|].
    split; [|split].
    + intros v Hv. rewrite (hp_get_absent _ Hi Hno) in Hv. injection Hv as <-.
      assert (Hn : nth_error (pvec s ++ [k]) (length (pvec s)) = Some k)
        by (rewrite nth_error_app2, Nat.sub_diag; auto).
      destruct (hp_get_at _ Hpi' Hn) as [v [Hv ->]]. cbn [targ] in Hv.
      rewrite nth_error_upd_same in Hv by (rewrite app_length; simpl; lia). congruence.
    + intros k' Hne. destruct (in_dec Z.eq_dec k' (pvec s)) as [Hin|Hnin].
      * apply In_nth_error in Hin. destruct Hin as [q Hq].
        assert (Hlt : (q < length (pvec s))%nat) by (apply nth_error_Some; congruence).
        destruct (hp_get_at _ Hi Hq) as [v [Hv ->]].
        assert (Hq' : nth_error (pvec s ++ [k]) q = Some k') by (rewrite nth_error_app1; auto).
        destruct (hp_get_at _ Hpi' Hq') as [v' [Hv' ->]]. cbn [targ] in Hv'.
        rewrite nth_error_upd_other, nth_error_app1 in Hv' by lia. congruence.
      * rewrite (hp_get_absent _ Hi Hnin). apply (hp_get_absent _ Hpi'). cbn [pvec].
        rewrite in_app_iff. simpl. intros [H|[H|[]]]; auto.
    + intros k'. cbn [pvec]. rewrite in_app_iff. simpl. intuition congruence.
  - assert (Hneq : Z.of_nat p =? -1 = false) by lia. rewrite Hneq.
    destruct (hp_get_at _ Hi Hp) as [v [Hv Hg]].
    assert (Hat : at_ (targ s) (Z.of_nat p) = Ok v) by (apply at_Ok; rewrite Nat2Z.id; split; [lia|auto]).
    rewrite Hat. cbn [bind]. eexists. split; [reflexivity|]. rewrite Nat2Z.id.
    pose proof (hpinv_settarg p (f v) Hi) as Hpi'. split; [exact Hpi'|].
    assert (Hlt : (p < length (targ s))%nat) by (apply nth_error_Some; congruence).
    split; [|split].
    + intros v0 Hv0. rewrite Hg in Hv0. injection Hv0 as <-.
      destruct (hp_get_at p Hpi' Hp) as [v' [Hv' ->]]. cbn [targ] in Hv'.
      rewrite nth_error_upd_same in Hv' by auto. congruence.
    + intros k' Hne. destruct (in_dec Z.eq_dec k' (pvec s)) as [Hin|Hnin].
      * apply In_nth_error in Hin. destruct Hin as [q Hq].
        destruct (hp_get_at _ Hi Hq) as [w [Hw ->]].
        destruct (hp_get_at q Hpi' Hq) as [v' [Hv' ->]]. cbn [targ] in Hv'.
        rewrite nth_error_upd_other in Hv' by (intros ->; congruence). congruence.
      * rewrite (hp_get_absent _ Hi Hnin). apply (hp_get_absent _ Hpi'). auto.
    + intros k'. cbn [pvec]. split; auto. intros [H| ->]; auto. eapply nth_error_In; eauto.
Qed.

(** Sum, in order, of the contributions made to one entry. *)
Fixpoint contributions (i j : Z) (l : list (Z * Z * S_)) (acc : S_) : S_ :=
  match l with
  | [] => acc
  | (a, b, v) :: r => contributions i j r (if (a =? i) && (b =? j) then sadd acc v else acc)
  end.

Definition in_dims (nRow nCol : Z) (c : Z * Z * S_) : Prop :=
  0 <= fst (fst c) < nRow /\ 0 <= snd (fst c) < nCol.

Lemma key_inj nRow a b i j : 0 <= a < nRow -> 0 <= i < nRow ->
  a + nRow * b = i + nRow * j -> a = i /\ b = j.
Proof.
  intros Ha Hi H. assert (b = j).
  { assert (E1 : (a + nRow * b) / nRow = b) by (rewrite Z.mul_comm, Z.div_add, Z.div_small; lia).
    assert (E2 : (i + nRow * j) / nRow = j) by (rewrite Z.mul_comm, Z.div_add, Z.div_small; lia).
    congruence. }
  subst; lia.
Qed.

Lemma sm_accumulate_spec nRow nCol : nRow * nCol <= 2147483648 -> forall l s,
  hpinv s -> Forall (in_dims nRow nCol) l ->
  exists s', sm_accumulate szero sadd nRow l s = Ok s' /\ hpinv s' /\
   (forall k, In k (pvec s') <-> In k (pvec s) \/ exists c, In c l /\ k = fst (fst c) + nRow * snd (fst c)) /\
   (forall i j v, 0 <= i < nRow -> hp_get szero (i + nRow * j) s = Ok v ->
      hp_get szero (i + nRow * j) s' = Ok (contributions i j l v)).
Proof.
  intros Hsz. induction l as [|[[a b] w] r IH]; intros s Hi Hd.
  - exists s. cbn [sm_accumulate contributions]. split; [auto|]. split; [auto|]. split; auto.
    intros k. split; auto. intros [H|[c [[] _]]]; auto.
  - inversion Hd as [|? ? Hd1 Hd2]; subst. destruct Hd1 as [Ha Hb]; cbn [fst snd] in Ha, Hb.
    assert (Hnn : 0 <= nRow * b) by (apply Z.mul_nonneg_nonneg; lia).
    assert (Hle : nRow * b <= nRow * nCol - nRow) by nia.
    cbn [sm_accumulate]. unfold sm_key.
    assert (in_int (nRow * b) && in_int (a + nRow * b) = true) as -> by (unfold in_int; lia).
    cbn [bind].
    destruct (hp_update_spec (a + nRow * b) (fun x => sadd x w) Hi) as [s1 [E [Hi1 [Hg [Ho Hv]]]]].
    rewrite E. cbn [bind]. destruct (IH s1 Hi1 Hd2) as [s' [E' [Hi' [Hv' Hg']]]].
    exists s'. split; auto. split; auto. split.
    + intros k. rewrite Hv', Hv. split.
      * intros [[H|H]|[c [Hc1 Hc2]]]; auto.
        -- right. exists (a, b, w). simpl; auto.
        -- right. exists c. simpl; auto.
      * intros [H|[c [[<-|Hc1] Hc2]]]; auto. right. exists c; auto.
    + intros i j v Hij Hs. cbn [contributions].
      destruct ((a =? i) && (b =? j)) eqn:Eab.
      * apply andb_true_iff in Eab. rewrite !Z.eqb_eq in Eab. destruct Eab; subst.
        apply Hg'; auto.
      * apply Hg'; auto. rewrite Ho; [assumption|].
        intros Heq; apply (@key_inj nRow i j a b) in Heq; lia.
Qed.

Lemma hpinv_fresh : hpinv (hp_fresh S_).
Proof. split; [|split]; simpl; auto. constructor. Qed.

(** Decoding. *)
Lemma decode_key nRow i j : 0 <= i < nRow -> 0 <= j ->
  Z.rem (i + nRow * j) nRow = i /\ Z.quot (i + nRow * j) nRow = j.
Proof.
  intros Hi Hj. assert (0 <= nRow * j) by (apply Z.mul_nonneg_nonneg; lia).
  rewrite Z.rem_mod_nonneg, Z.quot_div_nonneg by lia. split.
  - rewrite Z.mul_comm, Z.mod_add, Z.mod_small; lia.
  - rewrite Z.mul_comm, Z.div_add, Z.div_small; lia.
Qed.

Lemma sm_dense_from_spec nRow nCol (s : hpair S_) : hpinv s ->
  (forall k, In k (pvec s) -> exists i j, 0 <= i < nRow /\ 0 <= j < nCol /\ k = i + nRow * j) ->
  forall n i0 m, (i0 + n = length (pvec s))%nat ->
  exists m', sm_dense_from nRow s n i0 m = Ok m' /\
    forall i j, 0 <= i < nRow -> 0 <= j < nCol ->
      match positions_from (fun k => k =? i + nRow * j) (skipn i0 (pvec s)) i0 with
      | [] => m' i j = m i j
      | _ => hp_get szero (i + nRow * j) s = Ok (m' i j)
      end.
Proof.
  intros Hi Hk. induction n as [|n IH]; intros i0 m Hn; cbn [sm_dense_from].
  - exists m. split; auto. intros i j _ _. rewrite skipn_all2 by lia. reflexivity.
  - destruct (nth_error (pvec s) i0) as [k|] eqn:Hnk; [|apply nth_error_None in Hnk; lia].
    destruct (Hk k (nth_error_In _ _ Hnk)) as [a [b [Ha [Hb Ek]]]].
    destruct (hp_get_at _ Hi Hnk) as [v [Hv Hg]].
    assert (E1 : at_ (pvec s) (Z.of_nat i0) = Ok k) by (apply at_Ok; rewrite Nat2Z.id; split; [lia|auto]).
    assert (E2 : at_ (targ s) (Z.of_nat i0) = Ok v) by (apply at_Ok; rewrite Nat2Z.id; split; [lia|auto]).
    unfold sm_triplet. assert (nRow =? 0 = false) as -> by lia.
    rewrite E1, E2. cbn [bind]. destruct (@decode_key nRow a b) as [D1 D2]; [lia|lia|].
    rewrite Ek, D1, D2 in *. destruct (IH (S i0) (mat_set m a b v)) as [m' [Em Hm]]; [lia|].
    exists m'. split; auto. intros i j Hi' Hj'. specialize (Hm i j Hi' Hj').
    assert (Hskip : skipn i0 (pvec s) = (a + nRow * b) :: skipn (S i0) (pvec s)).
    { clear -Hnk. revert Hnk. generalize (pvec s) as l. induction i0 as [|n IH]; intros [|x l] H; simpl in *; try discriminate.
      - injection H as ->. reflexivity.
      - apply IH; auto. }
    rewrite Hskip. cbn [positions_from].
    destruct (Z.eqb_spec (a + nRow * b) (i + nRow * j)) as [He|Hne].
    + apply (@key_inj nRow) in He; [|lia|lia]. destruct He as [-> ->].
      destruct (positions_from (fun k0 => k0 =? i + nRow * j) (skipn (S i0) (pvec s)) (S i0)) as [|q qs] eqn:Hpos.
      * rewrite Hm. unfold mat_set. rewrite !Z.eqb_refl. cbn [andb]. exact Hg.
      * exact Hm.
    + destruct (positions_from (fun k0 => k0 =? i + nRow * j) (skipn (S i0) (pvec s)) (S i0)) as [|q qs] eqn:Hpos; auto.
      rewrite Hm. unfold mat_set. destruct (Z.eqb_spec i a) as [->|], (Z.eqb_spec j b) as [->|]; simpl; auto. congruence.
Qed.

Lemma sm_total nRow nCol l : nRow * nCol <= 2147483648 -> Forall (in_dims nRow nCol) l ->
  exists s m, sm_accumulate szero sadd nRow l (hp_fresh S_) = Ok s /\
    sm_dense szero nRow s = Ok m /\
    forall i j, 0 <= i < nRow -> 0 <= j < nCol -> m i j = contributions i j l szero.
Proof.
  intros Hsz Hd.
  destruct (@sm_accumulate_spec nRow nCol Hsz l _ hpinv_fresh Hd) as [s [E [Hi [Hv Hg]]]].
  assert (Hk : forall k, In k (pvec s) -> exists i j, 0 <= i < nRow /\ 0 <= j < nCol /\ k = i + nRow * j).
  { intros k Hk. apply Hv in Hk. destruct Hk as [[]|[c [Hc ->]]].
    rewrite Forall_forall in Hd. destruct (Hd _ Hc). eauto. }
  destruct (@sm_dense_from_spec nRow nCol s Hi Hk (length (pvec s)) 0 (fun _ _ => szero) eq_refl) as [m [Em Hm]].
  exists s, m. split; auto. split; auto. intros i j Hii Hjj. specialize (Hm i j Hii Hjj).
  specialize (Hg i j szero Hii eq_refl). cbn [skipn] in Hm.
  destruct (positions_from _ _ 0) as [|q qs] eqn:Hpos.
  - rewrite Hm. rewrite hp_get_absent in Hg; [congruence|auto|].
    intros Hin. apply In_nth_error in Hin. destruct Hin as [p Hp].
    assert (Hin : In p (positions (fun k => k =? i + nRow * j) (pvec s)))
      by (apply positions_spec; eexists; split; [exact Hp|apply Z.eqb_refl]).
    unfold positions in Hin. rewrite Hpos in Hin. destruct Hin.
  - congruence.
Qed.
End Pair.

(** ** Property-level lemmas *)

Lemma upd_split A (l : list A) n a : (n < length l)%nat ->
  upd l n a = firstn n l ++ a :: skipn (S n) l.
Proof.
  revert n; induction l as [|x r IH]; intros [|n] H; simpl in *; try lia; auto.
  f_equal. apply IH. lia.
Qed.

Lemma number_combine (E : elem_class) (l : list E) n :
  number_from (@e_set E) l (Z.of_nat n) =
  map (fun '(e, i) => e_set E (Z.of_nat i) e) (combine l (seq n (length l))).
Proof.
  revert n; induction l as [|e r IH]; intros n; auto.
  cbn [number_from length seq combine map]. rewrite <- IH. f_equal. f_equal. lia.
Qed.


Lemma plain_step_ok (E : elem_class) (s : arr E) (o : op E) :
  omap (@elems E) (step (@e_index E) (@e_set E) (@e_prep E) (@e_change E) (@e_default E) s o)
  = plain_step E (elems s) o.
Proof.
  destruct o; cbn [step plain_step omap bind elems]; auto.
  - unfold omap, edit. destruct (at_ (elems s) a) as [e| | |] eqn:Ha; cbn [bind]; auto.
    cbn [elems with_elems_reset]. f_equal. apply at_Ok in Ha. destruct Ha as [_ Hn].
    apply upd_split. apply nth_error_Some. congruence.
  - f_equal. exact (remove_elems (@e_index E) del s).
  - f_equal. cbn [populate hash_array elems]. change 1 with (Z.of_nat 1). apply number_combine.
  - f_equal. exact (proj2 (proj2 (@prepare_flags E (@e_index E) (@e_prep E) s))).
Qed.

Lemma plain_run_ok (E : elem_class) ops : forall (s : arr E),
  omap (@elems E) (run_on E ops s) = plain_run E ops (elems s).
Proof.
  induction ops as [|o r IH]; intros s; [reflexivity|].
  unfold run_on in *. cbn [run plain_run]. rewrite <- plain_step_ok.
  destruct (step (@e_index E) (@e_set E) (@e_prep E) (@e_change E) (@e_default E) s o) as [s1| | |]; cbn [bind omap]; auto.
Qed.

Lemma positions_exact_hash T (key : T -> Z) l k :
  positions_exact key l k (entries k (hash_all key l)).
Proof.
  rewrite entries_hash_all. split; [apply positions_NoDup|]. intros p.
  rewrite positions_spec. split; intros [e [H1 H2]]; exists e; (split; [auto|lia]).
Qed.

Lemma hash_all_nth T (key : T -> Z) l k p :
  In (k, p) (hash_all key l) <-> exists e, nth_error l p = Some e /\ key e = k.
Proof.
  unfold hash_all. enough (H : forall n, In (k, p) (hash_from key l n) <->
    (n <= p)%nat /\ exists e, nth_error l (p - n) = Some e /\ key e = k).
  { rewrite H, Nat.sub_0_r. split; [tauto|]. intros; split; [lia|auto]. }
  induction l as [|x r IH]; intros n; cbn [hash_from].
  - split; [intros []|]. intros [_ [e [H _]]]. destruct (p - n)%nat; discriminate.
  - cbn [In]. rewrite IH. split.
    + intros [[= <- <-]|[Hle [e [He Hk]]]].
      * split; auto. rewrite Nat.sub_diag. exists x; auto.
      * split; [lia|]. replace (p - n)%nat with (S (p - S n))%nat by lia. exists e; auto.
    + intros [Hle [e [He Hk]]]. destruct (Nat.eq_dec n p) as [->|Hne].
      * rewrite Nat.sub_diag in He. injection He as ->. left. congruence.
      * right. split; [lia|]. replace (p - n)%nat with (S (p - S n))%nat in He by lia. exists e; auto.
Qed.

Lemma hash_all_NoDup T (key : T -> Z) l : NoDup (hash_all key l).
Proof.
  unfold hash_all. enough (H : forall n, NoDup (hash_from key l n)) by apply H.
  induction l as [|x r IH]; intros n; cbn [hash_from]; constructor; auto.
  intros H. assert (Hg : forall l n k p, In (k, p) (hash_from key l n) -> (n <= p)%nat).
  { clear. induction l as [|x r IH]; intros n k p; cbn [hash_from In]; [tauto|].
    intros [[= <- <-]|H]; auto. apply IH in H. lia. }
  apply Hg in H. lia.
Qed.

Lemma entries_In k p t : In p (entries k t) <-> In (k, p) t.
Proof.
  unfold entries. rewrite in_map_iff. split.
  - intros [[k' p'] [Hp Hf]]. apply filter_In in Hf. cbn [fst snd] in *. destruct Hf as [Hf He].
    apply Z.eqb_eq in He. subst; auto.
  - intros H. exists (k, p). split; auto. apply filter_In. split; auto. apply Z.eqb_refl.
Qed.

Lemma entries_NoDup k t : NoDup t -> NoDup (entries k t).
Proof.
  unfold entries. induction 1 as [|[k' p] t Hni Hnd IH]; cbn [filter map fst]; [constructor|].
  destruct (Z.eqb_spec k' k) as [->|]; auto. cbn [map snd]. constructor; auto.
  rewrite in_map_iff. intros [[k2 p2] [He Hf]]. apply filter_In in Hf. cbn [fst snd] in *.
  destruct Hf as [Hf E]. apply Z.eqb_eq in E. subst. auto.
Qed.


Lemma dehash_calls_ok T (parent : T -> Z) ps : forall (s : snak T),
  grouped (ptable s) -> NoDup (ptable s) -> NoDup ps ->
  (forall k p, In (k, p) (ptable s) -> exists e, nth_error (elems (base s)) p = Some e /\ parent e = k) ->
  (forall p, In p ps -> exists e, at_ (elems (base s)) p = Ok e /\ In (parent e, Z.to_nat p) (ptable s)) ->
  exists s', dehash_calls parent ps s = Ok s' /\ base s' = base s /\
    grouped (ptable s') /\ NoDup (ptable s') /\
    forall k p, In (k, p) (ptable s') <-> In (k, p) (ptable s) /\ ~ In (Z.of_nat p) ps.
Proof.
  induction ps as [|p ps IH]; intros s Hg Hnd Hps Hcur Hin.
  - exists s. cbn [dehash_calls]. repeat split; auto; tauto.
  - inversion Hps as [|? ? Hnp Hps']; subst.
    destruct (Hin p (or_introl eq_refl)) as [e [He Hp]].
    cbn [dehash_calls]. unfold dehash_parent. rewrite He. cbn [bind].
    apply at_Ok in He. destruct He as [Hp0 He].
    destruct (dehash_found _ _ Hg Hp) as [b [r [Ht Hd]]]. rewrite Hd. cbn [bind].
    set (s1 := {| base := base s; ptable := b ++ r; isHashParent := isHashParent s |}).
    assert (Hmem : forall k q, In (k, q) (ptable s1) <-> In (k, q) (ptable s) /\ q <> Z.to_nat p).
    { intros k q. cbn [ptable s1]. rewrite Ht in Hnd. apply NoDup_remove in Hnd.
      destruct Hnd as [Hnd Hnin]. rewrite Ht. rewrite !in_app_iff. cbn [In]. split.
      - intros H. split; [tauto|]. intros ->.
        assert (Hk : k = parent e).
        { destruct (Hcur k (Z.to_nat p)) as [e' [He' <-]]; [rewrite Ht, in_app_iff; cbn [In]; tauto|congruence]. }
        subst k. apply Hnin. apply in_or_app. auto.
      - intros [[H|[[= Hk Hq]|H]] Hne]; auto. congruence. }
    destruct (IH s1) as [s' [E [Hb [Hg' [Hnd' Hm']]]]].
    + cbn [ptable s1]. rewrite Ht in Hg. eapply grouped_remove; eauto.
    + cbn [ptable s1]. rewrite Ht in Hnd. eapply NoDup_remove_1; eauto.
    + auto.
    + intros k q H. apply Hmem in H. apply Hcur. tauto.
    + intros q Hq. destruct (Hin q (or_intror Hq)) as [e' [He' Hq']]. exists e'. split; auto.
      apply Hmem. split; auto. apply at_Ok in He'. destruct He' as [Hq0 _].
      intros Heq. apply Hnp. replace p with q by lia. auto.
    + exists s'. split; [exact E|]. split; [exact Hb|]. split; [auto|]. split; [auto|].
      intros k q. rewrite Hm', Hmem. cbn [In]. split.
      * intros [[H1 H2] H3]. split; auto. intros [H4|H4]; auto. apply H2. lia.
      * intros [H1 H2]. split; [split; auto|]; intros H3; apply H2; auto. left. lia.
Qed.

Lemma dehash_exact T (parent : T -> Z) (s : snak T) ps :
  grouped (ptable s) ->
  Permutation (hash_all parent (elems (base s))) (ptable s) ->
  NoDup ps ->
  (forall p, In p ps -> 0 <= p < Z.of_nat (length (elems (base s)))) ->
  exists s', dehash_calls parent ps s = Ok s' /\ base s' = base s /\
    forall k, NoDup (entries k (ptable s')) /\
      forall p, In p (entries k (ptable s')) <->
        (exists e, nth_error (elems (base s)) p = Some e /\ parent e = k) /\ ~ In (Z.of_nat p) ps.
Proof.
  intros Hg Hperm Hps Hr.
  assert (Hmem : forall k p, In (k, p) (ptable s) <-> exists e, nth_error (elems (base s)) p = Some e /\ parent e = k).
  { intros k p. rewrite <- hash_all_nth. split; apply Permutation_in; auto using Permutation_sym. }
  destruct (@dehash_calls_ok T parent ps s) as [s' [E [Hb [Hg' [Hnd' Hm']]]]]; auto.
  - eapply Permutation_NoDup; eauto. apply hash_all_NoDup.
  - intros k p H. apply Hmem; auto.
  - intros p Hp. destruct (at_in_range (elems (base s)) (Hr p Hp)) as [e He]. exists e. split; auto.
    apply Hmem. apply at_Ok in He. exists e. tauto.
  - exists s'. split; auto. split; auto. intros k. split; [apply entries_NoDup; auto|].
    intros p. rewrite entries_In, Hm', Hmem. tauto.
Qed.

Lemma snak_srun_inv (E : elem_class) ops g (s : snak E) :
  srun_on E ops (sfresh E g) = Ok s ->
  (isHash (base s) = true -> table (base s) = hash_all (@e_index E) (elems (base s))).
Proof.
  intros Hr. assert (H : inv (@e_index E) (base s)).
  { eapply srun_base; try exact Hr; try exact (inv_fresh _ g);
      try apply e_set_index; try apply e_prep_index; try apply e_prep_parent;
      try apply e_set_parent; try apply e_change_parent; try exact (@e_ready E). }
  apply H.
Qed.

Ltac close_class E :=
  try exact (@e_parent E); try exact (@e_ready E); try apply e_set_index; try apply e_prep_index; try apply e_prep_parent;
  try apply e_set_parent; try apply e_change_parent.

Lemma prepared_tables (E : elem_class) ops g (s : arr E) :
  run_on E ops (fresh E g) = Ok s ->
  table (prepare_on E s) = hash_all (@e_index E) (elems (prepare_on E s)) /\
  maxIndex (prepare_on E s) = max_index (@e_index E) (elems (prepare_on E s)).
Proof. intros Hr. unfold prepare_on. unshelve eapply prepare_exact; try exact Hr; close_class E. Qed.

Lemma checkready_tables (E : elem_class) ops g (s : arr E) :
  run_on E ops (fresh E g) = Ok s -> checkready (@e_ready E) s = true ->
  table s = hash_all (@e_index E) (elems s) /\ maxIndex s = max_index (@e_index E) (elems s).
Proof. intros Hr Hc. unshelve eapply checkready_exact; try exact Hr; try exact Hc; close_class E. Qed.

Lemma ready_tables (E : elem_class) ops g (s : arr E) :
  forallb (fun o => negb (is_remove o)) ops = true ->
  run_on E ops (fresh E g) = Ok s -> readyforuse s = true ->
  table s = hash_all (@e_index E) (elems s) /\ maxIndex s = max_index (@e_index E) (elems s).
Proof. intros Hn Hr Hc. unshelve eapply ready_exact; try exact Hn; try exact Hr; try exact Hc; close_class E. Qed.

Lemma sprepared_table (E : elem_class) ops g (s : snak E) :
  forallb (@keeps_parent E) ops = true ->
  srun_on E ops (sfresh E g) = Ok s ->
  ptable (sprepare_on E s) = hash_all (@e_parent E) (elems (base (sprepare_on E s))).
Proof. intros Hk Hr. unfold sprepare_on. unshelve eapply sprepare_exact; try exact Hk; try exact Hr; close_class E. Qed.


Lemma hp_updates_spec S_ (szero : S_) l :
  exists s, hp_updates szero l (hp_fresh S_) = Ok s /\
    forall k, hp_get szero k s =
      Ok (fold_left (fun acc w => if fst w =? k then snd w acc else acc) l szero).
Proof.
  enough (H : forall l s (g : Z -> S_), hpinv s -> (forall k, hp_get szero k s = Ok (g k)) ->
    exists s', hp_updates szero l s = Ok s' /\
     forall k, hp_get szero k s' =
      Ok (fold_left (fun acc w => if fst w =? k then snd w acc else acc) l (g k))).
  { apply (H l (hp_fresh S_) (fun _ => szero)); [|reflexivity].
    split; [|split]; simpl; auto. constructor. }
  clear l. induction l as [|[k f] r IH]; intros s g Hi Hg.
  - exists s. split; auto.
  - cbn [hp_updates]. destruct (@hp_update_spec S_ szero (fun x _ => x) s k f Hi) as [s1 [E [Hi1 [H1 [H2 _]]]]].
    rewrite E. cbn [bind]. specialize (IH s1 (fun k' => if k =? k' then f (g k') else g k') Hi1).
    destruct IH as [s' [E' Hg']].
    + intros k'. destruct (Z.eqb_spec k k') as [<-|Hne]; [auto|]. rewrite H2; auto.
    + exists s'. split; [exact E'|]. intros k'. rewrite Hg'. reflexivity.
Qed.
