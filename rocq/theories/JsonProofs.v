(** Maps, references, flatten and unflatten. *)
From Coq Require Import String Ascii ZArith QArith List Bool Lia DecimalString DecimalNat DecimalFacts Sorted OrderedTypeEx.
From Verif Require Import Base Mesh Config SpecConfig.
Import ListNotations.
Set Implicit Arguments.
Open Scope Z_scope.
Open Scope list_scope.

(** ** The order of strings *)
Notation slt := String_as_OT.lt.
Lemma cmp_lt a b : (a ?= b)%string = Lt <-> slt a b. Proof. apply String_as_OT.cmp_lt. Qed.
Lemma cmp_eq a b : (a ?= b)%string = Eq <-> a = b. Proof. apply String_as_OT.cmp_eq. Qed.
Lemma slt_trans a b c : slt a b -> slt b c -> slt a c. Proof. apply String_as_OT.lt_trans. Qed.
Lemma slt_irr a : ~ slt a a. Proof. intros H. apply (String_as_OT.lt_not_eq _ _ H). reflexivity. Qed.
Lemma cmp_gt a b : (a ?= b)%string = Gt <-> slt b a.
Proof. rewrite <- cmp_lt. rewrite (String.compare_antisym a b). destruct (b ?= a)%string; simpl; split; congruence. Qed.

(** ** Maps *)
Definition smap {A} (m : list (string * A)) : Prop := StronglySorted (fun a b => slt (fst a) (fst b)) m.

Lemma smap_nil A : smap (@nil (string * A)). Proof. constructor. Qed.
Lemma smap_cons A k (v : A) m : smap m -> (forall k' v', In (k', v') m -> slt k k') -> smap ((k, v) :: m).
Proof. intros H H'. constructor; auto. apply Forall_forall. intros [k' v'] Hin. simpl. eauto. Qed.
Lemma smap_inv A k (v : A) m : smap ((k, v) :: m) -> smap m /\ forall k' v', In (k', v') m -> slt k k'.
Proof. intros H. inversion H as [|? ? S F]; subst. split; auto. rewrite Forall_forall in F. intros k' v' Hin. apply (F _ Hin). Qed.

Lemma lookup_In A (m : list (string * A)) k v : lookup m k = Some v -> In (k, v) m.
Proof.
  induction m as [|[k' v'] m IH]; simpl; [discriminate|]. destruct (String.eqb_spec k' k) as [->|]; [|auto].
  intros H. injection H as ->. auto.
Qed.
Lemma In_lookup A (m : list (string * A)) k v : NoDup (map fst m) -> In (k, v) m -> lookup m k = Some v.
Proof.
  induction m as [|[k' v'] m IH]; simpl; [intros _ []|]. intros N [E|H].
  - injection E as -> ->. rewrite String.eqb_refl. reflexivity.
  - inversion N; subst. destruct (String.eqb_spec k' k) as [->|]; [|auto]. exfalso.
    match goal with Hn : ~ In _ _ |- _ => apply Hn end. apply in_map_iff. exists (k, v). auto.
Qed.
Lemma smap_NoDup A (m : list (string * A)) : smap m -> NoDup (map fst m).
Proof.
  induction m as [|[k v] m IH]; intros H; simpl; [constructor|]. apply smap_inv in H. destruct H as [H F].
  constructor; auto. intros Hin. apply in_map_iff in Hin. destruct Hin as [[k' v'] [E Hin]]. simpl in E. subst k'.
  apply (slt_irr (F k v' Hin)).
Qed.
Lemma lookup_iff A (m : list (string * A)) k v : smap m -> (lookup m k = Some v <-> In (k, v) m).
Proof. intros H. split; [apply lookup_In|apply In_lookup, smap_NoDup, H]. Qed.
Lemma lookup_None A (m : list (string * A)) k : lookup m k = None <-> ~ In k (map fst m).
Proof.
  induction m as [|[k' v'] m IH]; simpl; [tauto|]. destruct (String.eqb_spec k' k) as [->|N]; [split; [discriminate|tauto]|].
  rewrite IH. tauto.
Qed.

Lemma insert_In A (m : list (string * A)) k v k' v' : In (k', v') (insert m k v) -> (k' = k /\ v' = v) \/ In (k', v') m.
Proof.
  induction m as [|[a b] m IH]; simpl.
  - intros [E|[]]. injection E as <- <-. auto.
  - destruct (k ?= a)%string; simpl; intros [E|H]; try (injection E as <- <-); auto.
    apply IH in H. tauto.
Qed.
Lemma insert_sorted A (m : list (string * A)) k v : smap m -> smap (insert m k v).
Proof.
  induction m as [|[a b] m IH]; intros H; simpl; [apply smap_cons; [constructor|intros ? ? []]|].
  pose proof (smap_inv H) as [H1 H2].
  destruct (k ?= a)%string eqn:E.
  - apply cmp_eq in E. subst a. apply smap_cons; auto.
  - apply cmp_lt in E. apply smap_cons; auto. intros k' v' [E'|Hin]; [injection E' as <- <-; auto|].
    apply (slt_trans E (H2 _ _ Hin)).
  - apply cmp_gt in E. apply smap_cons; auto. intros k' v' Hin. apply insert_In in Hin.
    destruct Hin as [[-> _]|Hin]; eauto.
Qed.
Lemma lookup_insert A (m : list (string * A)) k v k' : smap m ->
  lookup (insert m k v) k' = if (k =? k')%string then Some v else lookup m k'.
Proof.
  induction m as [|[a b] m IH]; intros H; simpl; [reflexivity|].
  pose proof (smap_inv H) as [H1 H2]. destruct (k ?= a)%string eqn:E; simpl.
  - apply cmp_eq in E. subst a. destruct (k =? k')%string; reflexivity.
  - destruct (k =? k')%string eqn:E'; reflexivity.
  - rewrite (IH H1). destruct (String.eqb_spec a k') as [->|]; [|reflexivity].
    destruct (String.eqb_spec k k') as [->|]; [|reflexivity]. exfalso. apply cmp_gt in E. apply (slt_irr E).
Qed.
Lemma smap_ext A (m n : list (string * A)) : smap m -> smap n -> (forall k, lookup m k = lookup n k) -> m = n.
Proof.
  revert n. induction m as [|[k v] m IH]; intros n Hm Hn E.
  - destruct n as [|[k v] n]; auto. specialize (E k). simpl in E. rewrite String.eqb_refl in E. discriminate.
  - destruct n as [|[k' v'] n]; [specialize (E k); simpl in E; rewrite String.eqb_refl in E; discriminate|].
    pose proof (smap_inv Hm) as [M1 M2]. pose proof (smap_inv Hn) as [N1 N2].
    assert (K : k = k').
    { assert (A1 : In (k, v) ((k', v') :: n)).
      { apply lookup_In. rewrite <- E. simpl. rewrite String.eqb_refl. reflexivity. }
      assert (A2 : In (k', v') ((k, v) :: m)).
      { apply lookup_In. rewrite E. simpl. rewrite String.eqb_refl. reflexivity. }
      destruct A1 as [A1|A1]; [congruence|]. destruct A2 as [A2|A2]; [congruence|].
      exfalso. apply (slt_irr (slt_trans (M2 _ _ A2) (N2 _ _ A1))). }
    subst k'. assert (v = v') by (specialize (E k); simpl in E; rewrite String.eqb_refl in E; congruence). subst v'.
    f_equal. apply IH; auto. intros x. destruct (String.eqb_spec k x) as [<-|Hx].
    + assert (L : forall (l : list (string * A)), (forall k' v', In (k', v') l -> slt k k') -> lookup l k = None).
      { intros l Hl. apply lookup_None. intros Hin. apply in_map_iff in Hin. destruct Hin as [[a b] [<- Hin]].
        apply (slt_irr (Hl _ _ Hin)). }
      rewrite !L; auto.
    + specialize (E x). simpl in E. apply String.eqb_neq in Hx. rewrite Hx in E. exact E.
Qed.

Lemma insert_all_sorted A (n m : list (string * A)) : smap m -> smap (insert_all m n).
Proof. unfold insert_all. revert m. induction n as [|e n IH]; intros m H; simpl; auto. apply IH, insert_sorted, H. Qed.
Lemma insert_all_lookup A (n m : list (string * A)) k : smap m -> NoDup (map fst n) ->
  lookup (insert_all m n) k = match lookup n k with Some v => Some v | None => lookup m k end.
Proof.
  unfold insert_all. revert m. induction n as [|[a b] n IH]; intros m H N; simpl; auto. inversion N; subst.
  rewrite IH by (auto using insert_sorted). rewrite lookup_insert by auto. simpl in *.
  destruct (String.eqb_spec a k) as [->|]; [|reflexivity].
  assert (L : lookup n k = None) by (apply lookup_None; auto). rewrite L. reflexivity.
Qed.

(** ** References *)
Fixpoint join (p : list string) : string :=
  match p with [] => "" | t :: r => ("/" ++ escape t ++ join r)%string end.
Lemma app_assoc_s a b c : ((a ++ b) ++ c = a ++ (b ++ c))%string.
Proof. induction a; simpl; congruence. Qed.
Lemma app_nil_s a : (a ++ "" = a)%string. Proof. induction a; simpl; congruence. Qed.

Lemma tokens_escape t s : match s with "" => True | String "/" _ => True | _ => False end%string ->
  forall u l, tokens s = Ok (u, l) -> tokens (escape t ++ s) = Ok ((t ++ u)%string, l).
Proof.
  intros _. induction t as [|c t IH]; intros u l H; [exact H|].
  specialize (IH u l H).
  destruct (ascii_dec c "~") as [->|N1]; [simpl; rewrite IH; reflexivity|].
  destruct (ascii_dec c "/") as [->|N2]; [simpl; rewrite IH; reflexivity|].
  assert (E : escape (String c t) = String c (escape t)).
  { destruct c as [[] [] [] [] [] [] [] []]; try reflexivity; congruence. }
  rewrite E. cbn [append].
  assert (E' : forall r, tokens (String c r) = do (t, l) <- tokens r; Ok (String c t, l)).
  { intros r. destruct c as [[] [] [] [] [] [] [] []]; try reflexivity; congruence. }
  rewrite E', IH. reflexivity.
Qed.
Lemma tokens_join t p : tokens (escape t ++ join p) = Ok (t, p).
Proof.
  revert t. induction p as [|u p IH]; intros t.
  - replace t with (t ++ "")%string at 2 by apply app_nil_s. apply tokens_escape; simpl; auto.
  - replace (Ok (t, u :: p)) with (Ok ((t ++ "")%string, u :: p)) by (rewrite app_nil_s; reflexivity).
    apply tokens_escape; [simpl; auto|]. cbn [join append tokens]. rewrite IH. reflexivity.
Qed.
Lemma pointer_join p : pointer (join p) = Ok p.
Proof. destruct p as [|t p]; [reflexivity|]. cbn [join append pointer]. rewrite tokens_join. reflexivity. Qed.
Lemma join_inj p q : join p = join q -> p = q.
Proof. intros E. assert (H : pointer (join p) = pointer (join q)) by congruence. rewrite !pointer_join in H. congruence. Qed.

Lemma slt_app a b c : slt (a ++ b) (a ++ c) <-> slt b c.
Proof.
  induction a as [|x a IH]; simpl; [tauto|]. rewrite <- IH. split.
  - intros H. inversion H; subst; auto. lia.
  - intros H. constructor. exact H.
Qed.
Lemma join_head t p q : slt (join (t :: p)) (join (t :: q)) <-> slt (join p) (join q).
Proof. cbn [join]. rewrite <- !app_assoc_s. apply slt_app. Qed.
Lemma join_nil p : p <> [] -> slt (join []) (join p).
Proof. destruct p as [|t p]; [congruence|]. intros _. constructor. Qed.

(** ** Decimal numbers *)
Lemma dec_inj i j : dec i = dec j -> i = j.
Proof.
  unfold dec. intros E. assert (H : NilEmpty.uint_of_string (NilEmpty.string_of_uint (Nat.to_uint i)) =
    NilEmpty.uint_of_string (NilEmpty.string_of_uint (Nat.to_uint j))) by congruence.
  rewrite !NilEmpty.usu in H. injection H as H. apply Unsigned.to_uint_inj. exact H.
Qed.
Lemma to_uint_nil n : Nat.to_uint n <> Decimal.Nil.
Proof. rewrite <- (Unsigned.of_to n), Unsigned.to_of. apply DecimalFacts.unorm_nonnil. Qed.
Lemma dec_empty i : dec i <> ""%string.
Proof. unfold dec. pose proof (to_uint_nil i). destruct (Nat.to_uint i); simpl; congruence. Qed.
Lemma index_dec i : array_index (dec i) = Ok i.
Proof.
  unfold array_index. assert (E : NilEmpty.uint_of_string (dec i) = Some (Nat.to_uint i)) by (unfold dec; apply NilEmpty.usu).
  rewrite E. destruct (String.eqb_spec (dec i) "") as [H|_]; [exfalso; apply (dec_empty i H)|].
  rewrite Unsigned.of_to. reflexivity.
Qed.
Lemma uint_head n : n <> O -> exists c r, dec n = String c r /\ (48 < nat_of_ascii c)%nat /\ c <> "/"%char /\ c <> "~"%char.
Proof.
  intros Hn. unfold dec. pose proof (to_uint_nil n) as Hnil.
  assert (HU : Decimal.unorm (Nat.to_uint n) = Nat.to_uint n) by (rewrite <- Unsigned.to_of, Unsigned.of_to; reflexivity).
  destruct (Nat.to_uint n) as [|u|u|u|u|u|u|u|u|u|u] eqn:E; try congruence;
    try (eexists; eexists; split; [reflexivity|]; split; [apply Nat.ltb_lt; reflexivity|split; discriminate]).
  exfalso. unfold Decimal.unorm in HU. cbn [Decimal.nzhead] in HU. destruct (Decimal.nzhead u) eqn:E'; try discriminate.
  - injection HU as <-. apply Hn. assert (H := Unsigned.of_to n). rewrite E in H. rewrite <- H. reflexivity.
  - exfalso. apply (DecimalFacts.nzhead_nonzero u u0). exact E'.
Qed.
Lemma escape_plain s : (forall c, In c (list_ascii_of_string s) -> c <> "/"%char /\ c <> "~"%char) -> escape s = s.
Proof.
  induction s as [|c s IH]; intros H; [reflexivity|].
  assert (E : escape (String c s) = String c (escape s)).
  { destruct (H c (or_introl eq_refl)). destruct c as [[] [] [] [] [] [] [] []]; try reflexivity; congruence. }
  rewrite E, IH; auto. intros; apply H; right; auto.
Qed.
Lemma escape_dec n : escape (dec n) = dec n.
Proof.
  apply escape_plain. unfold dec. induction (Nat.to_uint n) as [|u IH|u IH|u IH|u IH|u IH|u IH|u IH|u IH|u IH|u IH];
    simpl; intros c Hc; try (destruct Hc as [<-|Hc]; [split; discriminate|auto]). destruct Hc.
Qed.
Lemma zero_first i p q : i <> O -> slt (join (dec 0 :: p)) (join (dec i :: q)).
Proof.
  intros Hi. cbn [join]. rewrite !escape_dec. destruct (uint_head Hi) as [c [r [-> [Hc _]]]].
  change (dec 0) with "0"%string. cbn [append]. constructor. apply String_as_OT.lts_head. exact Hc.
Qed.

(** ** Leaves with tokens *)
Section Ind.
Variable P : json -> Prop.
Hypothesis HP : forall v, primitive v = true -> P v.
Hypothesis HA : forall l, (forall x, In x l -> P x) -> P (JArr l).
Hypothesis HO : forall m, (forall k x, In (k, x) m -> P x) -> P (JObj m).
Fixpoint json_induction (j : json) : P j :=
  match j return P j with
  | JNull => HP JNull eq_refl
  | JBool b => HP (JBool b) eq_refl
  | JInt z => HP (JInt z) eq_refl
  | JFloat d => HP (JFloat d) eq_refl
  | JStr s => HP (JStr s) eq_refl
  | JArr l => HA l
      ((fix go (l : list json) : forall x, In x l -> P x :=
         match l return forall x, In x l -> P x with
         | [] => fun x H => match H with end
         | y :: r => fun x H => match H with
                                | or_introl E => eq_ind y P (json_induction y) x E
                                | or_intror H' => go r x H' end
         end) l)
  | JObj m => HO m
      ((fix go (m : list (string * json)) : forall k x, In (k, x) m -> P x :=
         match m return forall k x, In (k, x) m -> P x with
         | [] => fun k x H => match H with end
         | y :: r => fun k x H => match H with
                                | or_introl E => eq_ind (snd y) P (json_induction (snd y)) x (f_equal snd E)
                                | or_intror H' => go r k x H' end
         end) m)
  end.
End Ind.

(** The entries of flatten: a path of tokens and a value; an empty container
    counts as null. *)
Inductive cell : json -> list string -> json -> Prop :=
| cell_value v : primitive v = true -> cell v [] v
| cell_noelem : cell (JArr []) [] JNull
| cell_nokey : cell (JObj []) [] JNull
| cell_elem l i x p v : nth_error l i = Some x -> cell x p v -> cell (JArr l) (dec i :: p) v
| cell_key m k x p v : In (k, x) m -> cell x p v -> cell (JObj m) (k :: p) v.
(** A path to a container that is not empty. *)
Inductive inside : json -> list string -> Prop :=
| inside_arr x l : inside (JArr (x :: l)) []
| inside_obj e m : inside (JObj (e :: m)) []
| inside_elem l i x p : nth_error l i = Some x -> inside x p -> inside (JArr l) (dec i :: p)
| inside_key m k x p : In (k, x) m -> inside x p -> inside (JObj m) (k :: p).

Definition arr_entries (ref : string) : nat -> list json -> list (string * json) :=
  fix go (i : nat) (l : list json) : list (string * json) :=
    match l with [] => [] | x :: r => entries (ref ++ "/" ++ dec i) x ++ go (S i) r end.
Definition obj_entries (ref : string) : list (string * json) -> list (string * json) :=
  fix go (m : list (string * json)) : list (string * json) :=
    match m with [] => [] | (k, x) :: r => entries (ref ++ "/" ++ escape k) x ++ go r end.
Lemma entries_arr ref x l : entries ref (JArr (x :: l)) = arr_entries ref O (x :: l). Proof. reflexivity. Qed.
Lemma entries_obj ref e m : entries ref (JObj (e :: m)) = obj_entries ref (e :: m). Proof. reflexivity. Qed.
Lemma arr_entries_In ref l n k v : In (k, v) (arr_entries ref n l) <->
  exists i x, nth_error l i = Some x /\ In (k, v) (entries (ref ++ "/" ++ dec (n + i)) x).
Proof.
  revert n. induction l as [|x l IH]; intros n; simpl.
  - split; [intros []|]. intros [[|i] [x [H _]]]; discriminate.
  - rewrite in_app_iff, IH. split.
    + intros [H|[i [y [H1 H2]]]]; [exists O, x; rewrite Nat.add_0_r; auto|]. exists (S i), y. rewrite Nat.add_succ_r. auto.
    + intros [[|i] [y [H1 H2]]]; simpl in H1.
      * injection H1 as <-. rewrite Nat.add_0_r in H2. auto.
      * right. exists i, y. rewrite Nat.add_succ_r in H2. auto.
Qed.
Lemma obj_entries_In ref m k v : In (k, v) (obj_entries ref m) <->
  exists t x, In (t, x) m /\ In (k, v) (entries (ref ++ "/" ++ escape t) x).
Proof.
  induction m as [|[t x] m IH]; simpl; [split; [intros []|intros [? [? [[] _]]]]|].
  rewrite in_app_iff, IH. split.
  - intros [H|[t' [y [H1 H2]]]]; [exists t, x; auto|exists t', y; auto].
  - intros [t' [y [[E|H1] H2]]]; [injection E as -> ->; auto|]. right. eauto.
Qed.

Lemma entries_cell j : forall ref k v, In (k, v) (entries ref j) <-> exists p, cell j p v /\ k = (ref ++ join p)%string.
Proof.
  induction j as [v Hp|l IH|m IH] using json_induction; intros ref k w.
  - assert (E : entries ref v = [(ref, v)]) by (destruct v; try reflexivity; discriminate). rewrite E. simpl. split.
    + intros [H|[]]. injection H as <- <-. exists []. rewrite app_nil_s. split; [constructor; auto|reflexivity].
    + intros [p [Hc ->]]. left. inversion Hc; subst; try discriminate; cbn [join]; rewrite app_nil_s; reflexivity.
  - destruct l as [|x l].
    + simpl. split.
      * intros [H|[]]. injection H as <- <-. exists []. rewrite app_nil_s. split; [constructor|reflexivity].
      * intros [p [Hc ->]]. left. inversion Hc; subst; try discriminate; [cbn [join]; rewrite app_nil_s; reflexivity|].
        destruct i; discriminate.
    + rewrite entries_arr, arr_entries_In. split.
      * intros [i [y [Hi H]]]. apply IH in H; [|eapply nth_error_In; eauto]. destruct H as [p [Hc ->]].
        exists (dec i :: p). split; [econstructor; eauto|]. cbn [join Nat.add]. rewrite escape_dec, !app_assoc_s. reflexivity.
      * intros [p [Hc ->]]. inversion Hc; subst; try discriminate.
        match goal with Hi : nth_error _ _ = Some ?y |- _ => exists i, y; split; [exact Hi|]; apply IH; [eapply nth_error_In; eauto|] end.
        eexists. split; [eassumption|]. cbn [join Nat.add]. rewrite escape_dec, !app_assoc_s. reflexivity.
  - destruct m as [|e m].
    + simpl. split.
      * intros [H|[]]. injection H as <- <-. exists []. rewrite app_nil_s. split; [constructor|reflexivity].
      * intros [p [Hc ->]]. left. inversion Hc; subst; try discriminate; [cbn [join]; rewrite app_nil_s; reflexivity|].
        match goal with H : In _ [] |- _ => destruct H end.
    + rewrite entries_obj, obj_entries_In. split.
      * intros [t [y [Hi H]]]. apply (IH t y Hi) in H. destruct H as [p [Hc ->]].
        exists (t :: p). split; [econstructor; eauto|]. cbn [join]. rewrite !app_assoc_s. reflexivity.
      * intros [p [Hc ->]]. inversion Hc; subst; try discriminate.
        match goal with Hi : In (?t, ?y) _ |- _ => exists t, y; split; [exact Hi|]; apply (IH t y Hi) end.
        eexists. split; [eassumption|]. cbn [join]. rewrite !app_assoc_s. reflexivity.
Qed.
