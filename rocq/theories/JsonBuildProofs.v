(** unflatten rebuilds a value from its sorted entries. *)
From Coq Require Import String Ascii ZArith QArith List Bool Lia Sorted OrderedTypeEx.
From Verif Require Import Base Mesh Config SpecConfig JsonProofs.
Import ListNotations.
Set Implicit Arguments.
Open Scope Z_scope.
Open Scope list_scope.

Definition build (L : list (list string * json)) (j : json) : outcome json :=
  fold_left (fun acc e => do j <- acc; put (fst e) (snd e) j) L (Ok j).
Lemma build_stuck L o : (forall j, o <> Ok j) -> fold_left (fun acc e => do j <- acc; put (fst e) (snd e) j) L o = (o : outcome json).
Proof. induction L as [|e L IH]; intros H; simpl; [reflexivity|]. destruct o; simpl; auto. exfalso. eapply H; reflexivity. Qed.
Lemma build_app L e j : build (L ++ [e]) j = do x <- build L j; put (fst e) (snd e) x.
Proof. unfold build. rewrite fold_left_app. reflexivity. Qed.
Lemma build_cons e L j : build (e :: L) j = do x <- put (fst e) (snd e) j; build L x.
Proof.
  unfold build. simpl. destruct (put (fst e) (snd e) j); simpl; auto; apply build_stuck; discriminate.
Qed.
Lemma build_prefix L e j c : build (L ++ [e]) j = Ok c -> exists c', build L j = Ok c'.
Proof. rewrite build_app. destruct (build L j); simpl; intros; try discriminate. eauto. Qed.

(** The entries below one token. *)
Definition below (t : string) (e : list string * json) : list (list string * json) :=
  match fst e with [] => [] | u :: r => if (u =? t)%string then [(r, snd e)] else [] end.
Definition sub (t : string) (L : list (list string * json)) := flat_map (below t) L.
Lemma sub_app t L M : sub t (L ++ M) = sub t L ++ sub t M.
Proof. unfold sub. apply flat_map_app. Qed.
Lemma sub_In t L p v : In (p, v) (sub t L) <-> In (t :: p, v) L.
Proof.
  unfold sub. rewrite in_flat_map. split.
  - intros [[q w] [H1 H2]]. unfold below in H2. simpl in H2. destruct q as [|u q]; [destruct H2|].
    destruct (String.eqb_spec u t) as [->|]; [|destruct H2]. destruct H2 as [H2|[]]. injection H2 as -> ->. exact H1.
  - intros H. exists (t :: p, v). split; auto. unfold below. simpl. rewrite String.eqb_refl. left. reflexivity.
Qed.
Definition psorted (L : list (list string * json)) := StronglySorted (fun a b => slt (join (fst a)) (join (fst b))) L.
Lemma sub_sorted t L : psorted L -> psorted (sub t L).
Proof.
  induction L as [|[p v] L IH]; intros H; [constructor|]. inversion H as [|? ? S F]; subst.
  unfold sub. simpl. unfold below at 1. simpl. destruct p as [|u p]; [apply IH; exact S|].
  destruct (String.eqb_spec u t) as [->|]; [|apply IH; exact S]. simpl. constructor; [apply IH; exact S|].
  apply Forall_forall. intros [q w] Hq. apply sub_In in Hq. rewrite Forall_forall in F. specialize (F _ Hq). simpl in *.
  apply join_head in F. exact F.
Qed.

Lemma put_nil_obj t r v c : t <> "0"%string -> put r v JNull = Ok c -> put (t :: r) v JNull = Ok (JObj [(t, c)]).
Proof. intros N E. cbn [put]. apply String.eqb_neq in N. rewrite N, E. reflexivity. Qed.

Lemma build_obj L : (forall e, In e L -> exists t r, fst e = t :: r /\ t <> "0"%string) ->
  (forall k, exists c, build (sub k L) JNull = Ok c) ->
  (L = [] /\ build L JNull = Ok JNull) \/
  (exists m, build L JNull = Ok (JObj m) /\ smap m /\
    forall k, (sub k L = [] -> lookup m k = None) /\
              (sub k L <> [] -> exists c, lookup m k = Some c /\ build (sub k L) JNull = Ok c)).
Proof.
  induction L as [|[p v] L IH] using rev_ind; intros Hh Hb; [left; split; reflexivity|]. right.
  destruct (Hh (p, v)) as [t [r [Hp Ht]]]; [apply in_or_app; right; left; reflexivity|]. simpl in Hp. subst p.
  assert (Hsub : forall k, sub k (L ++ [(t :: r, v)]) = sub k L ++ (if (t =? k)%string then [(r, v)] else [])).
  { intros k. rewrite sub_app. unfold sub at 2. simpl. unfold below. simpl. rewrite app_nil_r. reflexivity. }
  assert (Hnew : exists c', build (sub t L) JNull = Ok c' /\ exists c, put r v c' = Ok c).
  { destruct (Hb t) as [c Hc]. rewrite Hsub, String.eqb_refl, build_app in Hc.
    destruct (build (sub t L) JNull) as [c'| | |]; try discriminate. simpl in Hc. eauto. }
  destruct Hnew as [c' [Hc' [c Hc]]].
  destruct IH as [[-> HL]|[m [HL [Sm Hm]]]].
  - intros e He. apply Hh. apply in_or_app. auto.
  - intros k. destruct (Hb k) as [x Hx]. rewrite Hsub in Hx. destruct (t =? k)%string; [apply build_prefix in Hx; exact Hx|].
    rewrite app_nil_r in Hx. eauto.
  - simpl in Hc'. injection Hc' as <-. exists [(t, c)]. split.
    + rewrite build_app, HL. simpl bind. apply put_nil_obj; auto.
    + split; [apply smap_cons; [constructor|intros ? ? []]|]. intros k. rewrite Hsub. simpl.
      destruct (t =? k)%string; simpl; split; try congruence. intros _. exists c. split; [reflexivity|].
      unfold build. simpl. rewrite Hc. reflexivity.
  - exists (insert m t c). split.
    + rewrite build_app, HL. cbn [bind put fst snd].
      assert (E : match lookup m t with Some c => c | None => JNull end = c').
      { destruct (Hm t) as [M1 M2]. destruct (sub t L) as [|e l] eqn:E.
        - rewrite (M1 eq_refl). unfold build in Hc'. simpl in Hc'. congruence.
        - destruct M2 as [x [X1 X2]]; [discriminate|]. rewrite X1. congruence. }
      rewrite E, Hc. reflexivity.
    + split; [apply insert_sorted; exact Sm|]. intros k. rewrite Hsub, lookup_insert by exact Sm.
      destruct (String.eqb_spec t k) as [<-|N].
      * split; [intros E; apply app_eq_nil in E; destruct E; discriminate|]. intros _. exists c. split; [reflexivity|].
        rewrite build_app, Hc'. exact Hc.
      * rewrite app_nil_r. apply Hm.
Qed.

Lemma build_arr L : (forall e, In e L -> exists i r, fst e = dec i :: r) ->
  match L with [] => True | e :: _ => exists r, fst e = dec 0 :: r end ->
  (forall i, exists c, build (sub (dec i) L) JNull = Ok c) ->
  (L = [] /\ build L JNull = Ok JNull) \/
  (exists a, build L JNull = Ok (JArr a) /\
    (forall i, (i < length a)%nat -> build (sub (dec i) L) JNull = Ok (nth i a JNull)) /\
    (forall i, sub (dec i) L <> [] -> (i < length a)%nat) /\
    exists i, S i = length a /\ sub (dec i) L <> []).
Proof.
  induction L as [|[p v] L IH] using rev_ind; intros Hh H0 Hb; [left; split; reflexivity|]. right.
  destruct (Hh (p, v)) as [n [r Hp]]; [apply in_or_app; right; left; reflexivity|]. simpl in Hp. subst p.
  assert (Hsub : forall i, sub (dec i) (L ++ [(dec n :: r, v)]) = sub (dec i) L ++ (if Nat.eqb n i then [(r, v)] else [])).
  { intros k. rewrite sub_app. unfold sub at 2. simpl. unfold below. simpl. rewrite app_nil_r.
    destruct (Nat.eqb_spec n k) as [->|N]; [rewrite String.eqb_refl; reflexivity|].
    destruct (String.eqb_spec (dec n) (dec k)) as [E|]; [apply dec_inj in E; congruence|reflexivity]. }
  assert (Hnew : exists c', build (sub (dec n) L) JNull = Ok c' /\ exists c, put r v c' = Ok c).
  { destruct (Hb n) as [c Hc]. rewrite Hsub, Nat.eqb_refl, build_app in Hc.
    destruct (build (sub (dec n) L) JNull) as [c'| | |]; try discriminate. simpl in Hc. eauto. }
  destruct Hnew as [c' [Hc' [c Hc]]].
  destruct IH as [[-> HL]|[a [HL [H1 [H2 H3]]]]].
  - intros e He. apply Hh. apply in_or_app. auto.
  - destruct L as [|e L]; auto.
  - intros k. destruct (Hb k) as [x Hx]. rewrite Hsub in Hx. destruct (Nat.eqb n k); [apply build_prefix in Hx; exact Hx|].
    rewrite app_nil_r in Hx. eauto.
  - simpl in H0. destruct H0 as [r' E]. injection E as En Er. assert (n = O) by (apply dec_inj; exact En). subst n r'.
    simpl in Hc'. injection Hc' as <-. exists [c]. split.
    + rewrite build_app, HL. cbn [bind fst snd]. change (dec 0) with "0"%string. cbn [put]. cbn [String.eqb]. simpl. rewrite Hc. reflexivity.
    + split; [|split].
      * intros i Hi. assert (i = O) by (simpl in Hi; lia). subst i. rewrite Hsub. simpl. unfold build. simpl. exact Hc.
      * intros i. rewrite Hsub. simpl. destruct i; simpl; [lia|congruence].
      * exists O. split; [reflexivity|]. rewrite Hsub. simpl. discriminate.
  - assert (E : nth n a JNull = c').
    { destruct (Nat.lt_ge_cases n (length a)) as [Hl|Hl].
      - specialize (H1 n Hl). congruence.
      - rewrite nth_overflow by lia. destruct (sub (dec n) L) as [|x l] eqn:E.
        + unfold build in Hc'. simpl in Hc'. congruence.
        + exfalso. assert (n < length a)%nat; [|lia]. apply H2. rewrite E. discriminate. }
    set (b := (a ++ repeat JNull (n + 1 - length a))).
    assert (Lb : length b = Nat.max (length a) (S n)) by (unfold b; rewrite app_length, repeat_length; lia).
    assert (Nb : forall i, nth i b JNull = nth i a JNull).
    { intros i. unfold b. destruct (Nat.lt_ge_cases i (length a)) as [Hl|Hl]; [apply app_nth1; exact Hl|].
      rewrite app_nth2 by lia. rewrite (nth_overflow a) by lia.
      destruct (Nat.lt_ge_cases (i - length a) (n + 1 - length a)); [apply nth_repeat|apply nth_overflow; rewrite repeat_length; lia]. }
    exists (upd b n c). split.
    + rewrite build_app, HL. cbn [bind put fst snd]. rewrite index_dec. cbn [bind]. rewrite E, Hc. reflexivity.
    + split; [|split].
      * rewrite upd_length, Lb. intros i Hi. rewrite Hsub. destruct (Nat.eqb_spec n i) as [<-|N].
        -- rewrite build_app, Hc'. simpl. rewrite Hc. f_equal. symmetry. apply nth_error_nth. apply nth_error_upd_same. lia.
        -- rewrite app_nil_r.
           assert (En : nth i (upd b n c) JNull = nth i a JNull).
           { rewrite <- Nb. destruct (nth_error b i) as [x|] eqn:Ex.
             - rewrite (nth_error_nth b i JNull Ex). apply nth_error_nth. rewrite nth_error_upd_other by auto. exact Ex.
             - apply nth_error_None in Ex. rewrite !nth_overflow; auto. rewrite upd_length. exact Ex. }
           rewrite En. destruct (Nat.lt_ge_cases i (length a)) as [Hl|Hl]; [apply H1; exact Hl|].
           rewrite nth_overflow by lia. destruct (sub (dec i) L) as [|x l] eqn:Es; [reflexivity|].
           exfalso. assert (i < length a)%nat; [|lia]. apply H2. rewrite Es. discriminate.
      * intros i. rewrite Hsub, upd_length, Lb. destruct (Nat.eqb_spec n i) as [<-|N]; [lia|]. rewrite app_nil_r.
        intros Hs. specialize (H2 i Hs). lia.
      * rewrite upd_length, Lb. destruct (Nat.lt_ge_cases n (length a)) as [Hl|Hl].
        -- destruct H3 as [i [Hi Hs]]. exists i. split; [lia|]. rewrite Hsub. intros X. apply app_eq_nil in X. destruct X. congruence.
        -- exists n. split; [lia|]. rewrite Hsub, Nat.eqb_refl. intros X. apply app_eq_nil in X. destruct X. discriminate.
Qed.

(** Empty containers become null. *)
Fixpoint norm (j : json) : json :=
  match j with
  | JArr [] => JNull
  | JArr l => JArr (map norm l)
  | JObj [] => JNull
  | JObj m => JObj (map (fun e => (fst e, norm (snd e))) m)
  | v => v
  end.
Lemma norm_value v : primitive v = true -> norm v = v.
Proof. destruct v; simpl; auto; discriminate. Qed.

Inductive good : json -> Prop :=
| good_value v : primitive v = true -> good v
| good_arr l : (forall x, In x l -> good x) -> good (JArr l)
| good_obj m : smap m -> (forall k x, In (k, x) m -> k <> "0"%string /\ good x) -> good (JObj m).

Definition covers (T : json) (L : list (list string * json)) : Prop :=
  psorted L /\ (forall p v, cell T p v -> In (p, v) L) /\
  (forall p v, In (p, v) L -> cell T p v \/ (v = JNull /\ inside T p)).

Lemma cell_exists T : exists p v, cell T p v.
Proof.
  induction T as [v H|l IH|m IH] using json_induction.
  - exists [], v. constructor. exact H.
  - destruct l as [|x l]; [exists [], JNull; constructor|]. destruct (IH x (or_introl eq_refl)) as [p [v Hc]].
    exists (dec 0 :: p), v. apply cell_elem with (x := x); [reflexivity|exact Hc].
  - destruct m as [|[k x] m]; [exists [], JNull; constructor|]. destruct (IH k x (or_introl eq_refl)) as [p [v Hc]].
    exists (k :: p), v. apply cell_key with (x := x); [left; reflexivity|exact Hc].
Qed.

Lemma psorted_NoDup L : psorted L -> forall p v w, In (p, v) L -> In (p, w) L -> v = w.
Proof.
  induction L as [|[q x] L IH]; intros H p v w; [intros []|]. inversion H as [|? ? S F]; subst. rewrite Forall_forall in F.
  intros [E|H1] [E'|H2].
  - congruence.
  - injection E as -> ->. exfalso. specialize (F _ H2). simpl in F. apply (slt_irr F).
  - injection E' as -> ->. exfalso. specialize (F _ H1). simpl in F. apply (slt_irr F).
  - eapply IH; eauto.
Qed.

(** The entry of the value itself comes first. *)
Lemma strip L : psorted L -> (exists v, L = ([], v) :: filter (fun e => match fst e with [] => false | _ => true end) L) \/
  L = filter (fun e => match fst e with [] => false | _ => true end) L.
Proof.
  intros H. assert (HF : forall M, (forall e, In e M -> fst e <> []) -> filter (fun e : list string * json => match fst e with [] => false | _ => true end) M = M).
  { induction M as [|e M IH]; intros HM; [reflexivity|]. simpl. destruct (fst e) eqn:E.
    - exfalso. apply (HM e); simpl; auto.
    - f_equal. apply IH. intros; apply HM; simpl; auto. }
  assert (HT : forall p v M, psorted ((p, v) :: M) -> forall e, In e M -> fst e <> []).
  { intros p v M HS e He E. inversion HS as [|? ? S F]; subst. rewrite Forall_forall in F. specialize (F e He). simpl in F.
    rewrite E in F. simpl in F. inversion F. }
  destruct L as [|[[|t p] v] L]; [right; reflexivity| |].
  - left. exists v. simpl. rewrite (HF L); [reflexivity|]. apply (HT _ _ _ H).
  - right. simpl. rewrite (HF L); [reflexivity|]. apply (HT _ _ _ H).
Qed.
Lemma psorted_filter f L : psorted L -> psorted (filter f L).
Proof.
  induction L as [|e L IH]; intros H; simpl; [constructor|]. inversion H as [|? ? S F]; subst.
  destruct (f e); [|apply IH; exact S]. constructor; [apply IH; exact S|]. rewrite Forall_forall in *. intros x Hx.
  apply filter_In in Hx. apply F. apply Hx.
Qed.

Lemma map_norm_lookup (m : list (string * json)) k :
  lookup (map (fun e => (fst e, norm (snd e))) m) k = option_map norm (lookup m k).
Proof. induction m as [|[a b] m IH]; simpl; [reflexivity|]. destruct (a =? k)%string; auto. Qed.
Lemma map_norm_smap (m : list (string * json)) : smap m -> smap (map (fun e => (fst e, norm (snd e))) m).
Proof.
  induction m as [|[a b] m IH]; intros H; simpl; [constructor|]. apply smap_inv in H. destruct H as [H F].
  apply smap_cons; [apply IH; exact H|]. intros k' v' Hin. apply in_map_iff in Hin. destruct Hin as [[k x] [E Hin]].
  simpl in E. injection E as <- <-. eapply F; eauto.
Qed.

Theorem build_covers T : good T -> forall L, covers T L -> build L JNull = Ok (norm T).
Proof.
  induction T as [v Hp|l IH|m IH] using json_induction; intros G L C.
  - destruct C as [HS [C1 C2]]. assert (E : L = [([], v)]).
    { assert (HA : forall e, In e L -> e = ([], v)).
      { intros [p w] He. destruct (C2 p w He) as [Hc|[_ Hi]].
        - inversion Hc; subst; try reflexivity; discriminate.
        - inversion Hi; subst; discriminate. }
      assert (HI : In ([], v) L) by (apply C1; constructor; exact Hp).
      destruct L as [|e L]; [destruct HI|]. assert (e = ([], v)) by (apply HA; left; reflexivity). subst e.
      destruct L as [|e L]; [reflexivity|]. exfalso. assert (e = ([], v)) by (apply HA; right; left; reflexivity). subst e.
      inversion HS as [|? ? _ F]; subst. inversion F; subst. simpl in *. eapply slt_irr; eauto. }
    rewrite E, norm_value by exact Hp. reflexivity.
  - destruct l as [|x l].
    + destruct C as [HS [C1 C2]]. assert (E : L = [([], JNull)]).
      { assert (HA : forall e, In e L -> e = ([], JNull)).
        { intros [p w] He. destruct (C2 p w He) as [Hc|[_ Hi]].
          - inversion Hc; subst; try reflexivity; [discriminate|]. destruct i; discriminate.
          - inversion Hi; subst. destruct i; discriminate. }
        assert (HI : In ([], JNull) L) by (apply C1; constructor).
        destruct L as [|e L]; [destruct HI|]. assert (e = ([], JNull)) by (apply HA; left; reflexivity). subst e.
        destruct L as [|e L]; [reflexivity|]. exfalso. assert (e = ([], JNull)) by (apply HA; right; left; reflexivity). subst e.
        inversion HS as [|? ? _ F]; subst. inversion F; subst. simpl in *. eapply slt_irr; eauto. }
      rewrite E. reflexivity.
    + set (a := x :: l) in *. destruct C as [HS [C1 C2]].
      assert (Ga : forall y, In y a -> good y) by (inversion G; [discriminate|assumption]).
      set (M := filter (fun e => match fst e with [] => false | _ => true end) L).
      assert (HB : build L JNull = build M JNull).
      { destruct (strip HS) as [[v E]|E]; [|rewrite E at 1; reflexivity]. rewrite E at 1. fold M. rewrite build_cons.
        assert (v = JNull).
        { assert (Hin : In ([], v) L) by (rewrite E; left; reflexivity). destruct (C2 _ _ Hin) as [Hc|[-> _]]; auto.
          inversion Hc; subst; discriminate. }
        subst v. reflexivity. }
      assert (SM : psorted M) by (apply psorted_filter; exact HS).
      assert (HM : forall p v, In (p, v) M <-> In (p, v) L /\ p <> []).
      { intros p v. unfold M. rewrite filter_In. simpl. destruct p; split; intros [H1 H2]; split; auto; congruence. }
      assert (HI : forall p v, In (p, v) M -> exists i r y, p = dec i :: r /\ nth_error a i = Some y /\ (cell y r v \/ (v = JNull /\ inside y r))).
      { intros p v Hin. apply HM in Hin. destruct Hin as [Hin Hp]. destruct (C2 _ _ Hin) as [Hc|[Hv Hi]].
        - inversion Hc; subst; try congruence. eauto 8.
        - inversion Hi; subst; try congruence. eauto 8. }
      assert (Hsub : forall i y, nth_error a i = Some y -> covers y (sub (dec i) M)).
      { intros i y Hy. split; [apply sub_sorted; exact SM|]. split.
        - intros p v Hc. apply sub_In. apply HM. split; [|discriminate]. apply C1. econstructor; eauto.
        - intros p v Hin. apply sub_In in Hin. apply HI in Hin. destruct Hin as [i' [r [y' [E [Hy' Hr]]]]].
          injection E as Ei <-. apply dec_inj in Ei. subst i'. rewrite Hy in Hy'. injection Hy' as <-. exact Hr. }
      assert (Hout : forall i, nth_error a i = None -> sub (dec i) M = []).
      { intros i Hn. destruct (sub (dec i) M) as [|[p v] r] eqn:E; [reflexivity|]. exfalso.
        assert (Hin : In (p, v) (sub (dec i) M)) by (rewrite E; left; reflexivity). apply sub_In in Hin. apply HI in Hin.
        destruct Hin as [i' [r' [y' [E' [Hy' _]]]]]. injection E' as Ei _. apply dec_inj in Ei. congruence. }
      assert (Hok : forall i y, nth_error a i = Some y -> build (sub (dec i) M) JNull = Ok (norm y)).
      { intros i y Hy. apply IH; [eapply nth_error_In; eauto|apply Ga; eapply nth_error_In; eauto|]. apply Hsub. exact Hy. }
      assert (Hne : forall i y, nth_error a i = Some y -> sub (dec i) M <> []).
      { intros i y Hy E. destruct (cell_exists y) as [p [v Hc]]. destruct (Hsub i y Hy) as [_ [HC _]]. apply HC in Hc.
        rewrite E in Hc. destruct Hc. }
      rewrite HB. destruct (@build_arr M) as [[E _]|[b [HR [R1 [R2 R3]]]]].
      * intros [p v] Hin. apply HI in Hin. destruct Hin as [i [r [y [-> _]]]]. simpl. eauto.
      * destruct M as [|[p v] M'] eqn:EM; [exact I|]. simpl.
        destruct (HI p v (or_introl eq_refl)) as [i [r [y [-> [Hy _]]]]].
        destruct i as [|i]; [eauto|]. exfalso.
        specialize (Hne O x eq_refl). destruct (sub (dec 0) ((dec (S i) :: r, v) :: M')) as [|[p w] rest] eqn:Es; [congruence|].
        assert (Hin : In (p, w) (sub (dec 0) ((dec (S i) :: r, v) :: M'))) by (rewrite Es; left; reflexivity).
        apply sub_In in Hin. destruct Hin as [E|Hin]; [injection E as E1 _ _; apply dec_inj in E1; discriminate|].
        inversion SM as [|? ? _ F]; subst. rewrite Forall_forall in F. specialize (F _ Hin). simpl in F.
        assert (HZ : slt (join (dec 0 :: p)) (join (dec (S i) :: r))) by (apply zero_first; discriminate).
        apply (slt_irr (slt_trans F HZ)).
      * intros i. destruct (nth_error a i) as [y|] eqn:E; [rewrite (Hok i y E); eauto|]. rewrite (Hout i E). exists JNull. reflexivity.
      * exfalso. apply (Hne O x eq_refl). rewrite E. reflexivity.
      * rewrite HR. f_equal. assert (N : norm (JArr a) = JArr (map norm a)) by reflexivity. rewrite N. f_equal.
        assert (Lb : length b = length a).
        { apply Nat.le_antisymm.
          - destruct R3 as [i [Hi Hs]]. destruct (nth_error a i) as [y|] eqn:E; [|exfalso; apply Hs, Hout, E].
            assert (i < length a)%nat by (apply nth_error_Some; congruence). lia.
          - destruct (Nat.le_gt_cases (length a) (length b)) as [H|H]; auto. exfalso.
            destruct (nth_error a (length b)) as [y|] eqn:E; [|apply nth_error_None in E; lia].
            specialize (R2 (length b) (Hne _ _ E)). lia. }
        apply nth_ext with (d := JNull) (d' := norm JNull); [rewrite map_length; exact Lb|].
        intros i Hi. rewrite map_nth. destruct (nth_error a i) as [y|] eqn:E; [|apply nth_error_None in E; lia].
        specialize (R1 i Hi). rewrite (Hok i y E) in R1. injection R1 as R1. rewrite <- R1. f_equal. symmetry. apply nth_error_nth. exact E.
  - destruct m as [|e0 m0].
    + destruct C as [HS [C1 C2]]. assert (E : L = [([], JNull)]).
      { assert (HA : forall e, In e L -> e = ([], JNull)).
        { intros [p w] He. destruct (C2 p w He) as [Hc|[_ Hi]].
          - inversion Hc; subst; try reflexivity; [discriminate|]. match goal with H : In _ [] |- _ => destruct H end.
          - inversion Hi; subst. match goal with H : In _ [] |- _ => destruct H end. }
        assert (HI : In ([], JNull) L) by (apply C1; constructor).
        destruct L as [|e L]; [destruct HI|]. assert (e = ([], JNull)) by (apply HA; left; reflexivity). subst e.
        destruct L as [|e L]; [reflexivity|]. exfalso. assert (e = ([], JNull)) by (apply HA; right; left; reflexivity). subst e.
        inversion HS as [|? ? _ F]; subst. inversion F; subst. simpl in *. eapply slt_irr; eauto. }
      rewrite E. reflexivity.
    + set (a := e0 :: m0) in *. destruct C as [HS [C1 C2]].
      assert (Ga : smap a /\ forall k y, In (k, y) a -> k <> "0"%string /\ good y) by (inversion G; [discriminate|split; assumption]).
      destruct Ga as [Sa Ga].
      set (M := filter (fun e => match fst e with [] => false | _ => true end) L).
      assert (HB : build L JNull = build M JNull).
      { destruct (strip HS) as [[v E]|E]; [|rewrite E at 1; reflexivity]. rewrite E at 1. fold M. rewrite build_cons.
        assert (v = JNull).
        { assert (Hin : In ([], v) L) by (rewrite E; left; reflexivity). destruct (C2 _ _ Hin) as [Hc|[-> _]]; auto.
          inversion Hc; subst; discriminate. }
        subst v. reflexivity. }
      assert (SM : psorted M) by (apply psorted_filter; exact HS).
      assert (HM : forall p v, In (p, v) M <-> In (p, v) L /\ p <> []).
      { intros p v. unfold M. rewrite filter_In. simpl. destruct p; split; intros [H1 H2]; split; auto; congruence. }
      assert (HI : forall p v, In (p, v) M -> exists k r y, p = k :: r /\ In (k, y) a /\ (cell y r v \/ (v = JNull /\ inside y r))).
      { intros p v Hin. apply HM in Hin. destruct Hin as [Hin Hp]. destruct (C2 _ _ Hin) as [Hc|[Hv Hi]].
        - inversion Hc; subst; try congruence. eauto 8.
        - inversion Hi; subst; try congruence. eauto 8. }
      assert (Huniq : forall k y y', In (k, y) a -> In (k, y') a -> y = y').
      { intros k y y' H1 H2. apply (lookup_iff k y Sa) in H1. apply (lookup_iff k y' Sa) in H2. congruence. }
      assert (Hsub : forall k y, In (k, y) a -> covers y (sub k M)).
      { intros k y Hy. split; [apply sub_sorted; exact SM|]. split.
        - intros p v Hc. apply sub_In. apply HM. split; [|discriminate]. apply C1. econstructor; eauto.
        - intros p v Hin. apply sub_In in Hin. apply HI in Hin. destruct Hin as [k' [r [y' [E [Hy' Hr]]]]].
          injection E as <- <-. rewrite (Huniq k y y' Hy Hy'). exact Hr. }
      assert (Hok : forall k y, In (k, y) a -> build (sub k M) JNull = Ok (norm y)).
      { intros k y Hy. apply (IH k y Hy); [apply (Ga k y Hy)|]. apply Hsub. exact Hy. }
      assert (Hout : forall k, lookup a k = None -> sub k M = []).
      { intros k Hn. destruct (sub k M) as [|[p v] r] eqn:E; [reflexivity|]. exfalso.
        assert (Hin : In (p, v) (sub k M)) by (rewrite E; left; reflexivity). apply sub_In in Hin. apply HI in Hin.
        destruct Hin as [k' [r' [y' [E' [Hy' _]]]]]. injection E' as <- _. apply (lookup_iff k y' Sa) in Hy'. congruence. }
      rewrite HB. destruct (@build_obj M) as [[E _]|[b [HR [Sb Hb]]]].
      * intros [p v] Hin. apply HI in Hin. destruct Hin as [k [r [y [-> [Hy _]]]]]. exists k, r. split; [reflexivity|]. apply (Ga k y Hy).
      * intros k. destruct (lookup a k) as [y|] eqn:E; [rewrite (Hok k y (lookup_In _ _ E)); eauto|]. rewrite (Hout k E). exists JNull. reflexivity.
      * exfalso. destruct e0 as [k0 y0]. destruct (cell_exists y0) as [p [v Hc]].
        destruct (Hsub k0 y0 (or_introl eq_refl)) as [_ [HC _]]. apply HC in Hc. rewrite E in Hc. destruct Hc.
      * rewrite HR. f_equal. assert (N : norm (JObj a) = JObj (map (fun e => (fst e, norm (snd e))) a)) by reflexivity.
        rewrite N. f_equal. apply smap_ext; [exact Sb|apply map_norm_smap; exact Sa|]. intros k. rewrite map_norm_lookup.
        destruct (Hb k) as [B1 B2]. destruct (lookup a k) as [y|] eqn:E; simpl; [|apply B1, Hout, E].
        assert (Hy : In (k, y) a) by (apply lookup_In; exact E).
        destruct B2 as [c [X1 X2]].
        -- destruct (cell_exists y) as [p [v Hc]]. destruct (Hsub k y Hy) as [_ [HC _]]. apply HC in Hc. intros E'. rewrite E' in Hc. destruct Hc.
        -- rewrite X1. rewrite (Hok k y Hy) in X2. congruence.
Qed.
