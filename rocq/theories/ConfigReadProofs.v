(** Reading a configuration file into existing parameters. *)
From Coq Require Import String Ascii ZArith QArith List Bool Lia Sorted.
From Verif Require Import Base Mesh Config SpecConfig JsonProofs JsonBuildProofs ConfigTreeProofs ConfigProofs.
Import ListNotations.
Set Implicit Arguments.
Open Scope Z_scope.
Open Scope list_scope.

Definition overlaid (A B T : json) : Prop :=
  forall p v, leaf T p v <-> leaf B p v \/ (leaf A p v /\ forall w, ~ leaf B p w).
Definition stubs (F T : json) : Prop := forall p, empty_at F p -> exists s r v, leaf T (p ++ s :: r) v.

Section Trees.
Variables (A F T : json).
Hypothesis GA : good A.
Hypothesis GT : good T.
Hypothesis OF : ordered F.
Hypothesis NT : noempty T.
Hypothesis CA : cover_empty A T.
Hypothesis SF : stubs F T.
Hypothesis HL : overlaid A F T.

Lemma leaf_F_T p v : leaf F p v -> leaf T p v. Proof. intros H. apply HL. left. exact H. Qed.
Lemma good_F : good F.
Proof.
  apply ordered_good; [exact OF|]. intros t k v _ q _ [Hq|Hq] Hk.
  - apply leaf_F_T in Hq. eapply leaf_key_zero; eauto.
  - destruct (SF Hq) as [s [r [w Hw]]]. eapply leaf_key_zero; [exact GT|exact Hw|]. apply in_or_app. left. exact Hk.
Qed.
Lemma cell_T t v : cell T t v -> exists p, t = toks p /\ leaf T p v.
Proof. intros H. destruct (cell_leaf H) as [p [E [Hl|[_ He]]]]; [eauto|]. exfalso. apply (NT He). Qed.
Lemma cell_F t v : cell F t v -> (exists p, t = toks p /\ leaf F p v) \/ (v = JNull /\ inside T t).
Proof.
  intros H. destruct (cell_leaf H) as [p [E [Hl|[Hv He]]]]; [eauto|]. right. split; [exact Hv|].
  destruct (SF He) as [s [r [w Hw]]]. rewrite E. eapply leaf_inside; eauto.
Qed.
Lemma trees_updated : (do j <- update (flatten A) (flatten F); unflatten j) = Ok T.
Proof.
  rewrite <- (norm_noempty NT). apply update_trees; [exact GA|exact good_F|exact GT| | |].
  - intros t v Hc. destruct (cell_T Hc) as [p [-> Hl]]. destruct (proj1 (HL p v) Hl) as [H|[H Hn]]; [left; apply leaf_cell; exact H|].
    right. split; [apply leaf_cell; exact H|]. intros w Hw. destruct (cell_F Hw) as [[q [E Hq]]|[_ Hi]].
    + assert (p = q) by (eapply leaf_toks; [exact GT|exact Hl|apply leaf_F_T; exact Hq|exact E]). subst q. apply (Hn w Hq).
    + apply (@cell_not_inside T GT _ _ Hc Hi).
  - intros t v Hc. destruct (cell_F Hc) as [[p [-> Hl]]|[-> Hi]]; [|right; auto]. left. apply leaf_cell, leaf_F_T. exact Hl.
  - intros t v Hc Hn. destruct (cell_leaf Hc) as [p [-> [Hl|[-> He]]]]; [|right; split; [reflexivity|apply CA; exact He]].
    left. apply leaf_cell. apply HL. right. split; [exact Hl|]. intros w Hw. apply (Hn w). apply leaf_cell. exact Hw.
Qed.
End Trees.

Definition kept (access : bool) (p q : parameters) : Prop := access = false -> pdev q = pdev p.
Lemma from_written access p q : kept access p q -> ints_ok (to_json access q) -> from_json access (to_json access q) p = Ok q.
Proof.
  intros K I. rewrite param_back by exact I. destruct access, q; cbn in *; [reflexivity|]. rewrite <- K by reflexivity. reflexivity.
Qed.

Lemma representable_ints access q : representable access q -> ints_ok (to_json access q).
Proof.
  intros [H _] p z Hl. specialize (H p z Hl). unfold wrap32. rewrite Z.mod_small by lia. lia.
Qed.

Lemma fold_throw m : fold_left (fun acc e => put_entry e acc) m (Throw : outcome json) = Throw.
Proof. induction m as [|e m IH]; [reflexivity|]. cbn. exact IH. Qed.
Lemma first_try F : (forall k x m, F = JObj m -> In (k, x) m -> primitive x = false) ->
  flatten (match unflatten F with Ok j => j | _ => F end) = flatten F.
Proof.
  intros H. destruct F as [| | | | |l|m]; cbn [unflatten]; try reflexivity.
  destruct m as [|[k x] m]; [reflexivity|].
  assert (E : primitive x = false) by (apply (H k x ((k, x) :: m)); [reflexivity|left; reflexivity]).
  cbn [fold_left]. unfold put_entry at 2. cbn [bind fst snd]. rewrite E, fold_throw. reflexivity.
Qed.
Section Read.
Variables (access : bool) (F : json) (p q : parameters).
Hypothesis OF : ordered F.
Hypothesis LQ : lists_filled q.
Hypothesis RQ : ints_ok (to_json access q).
Hypothesis KQ : kept access p q.
Hypothesis SF : stubs F (to_json access q).
Hypothesis HL : overlaid (to_json access p) F (to_json access q).

Lemma updated : (do j <- update (flatten (to_json access p)) (flatten F); unflatten j) = Ok (to_json access q).
Proof. apply trees_updated; auto using good_param, ne_param, ce_param. Qed.
Lemma file_good : good F.
Proof. eapply good_F with (A := to_json access p); eauto using good_param. Qed.
Lemma flat_ok G : flatten G = flatten F -> (exists j, unflatten (flatten F) = Ok j) -> flatupdate (to_json access p) G false = Ok (to_json access q).
Proof.
  intros E [j Hj]. unfold flatupdate. rewrite E. assert (U := updated).
  destruct (update (flatten (to_json access p)) (flatten F)); try discriminate. cbn [bind] in *. rewrite Hj. exact U.
Qed.
Lemma unflat_ok : unflatten (flatten F) = Ok (norm F).
Proof. apply unflatten_flatten. exact file_good. Qed.

Lemma top_leaf j m path v : j = JObj m -> leaf j path v -> exists k x r, path = Key k :: r /\ In (k, x) m /\ leaf x r v.
Proof. intros -> H. inversion H; subst; [discriminate|]. eauto 6. Qed.
(** The values of a nested file are objects. *)
Lemma nested_values k x m : F = JObj m -> In (k, x) m -> primitive x = false.
Proof.
  intros -> Hin. destruct (primitive x) eqn:E; [|reflexivity]. exfalso.
  assert (Hl : leaf (JObj m) [Key k] x) by (econstructor; [exact Hin|constructor; exact E]).
  apply (leaf_F_T HL) in Hl. rewrite to_json_eq in Hl.
  destruct (top_leaf eq_refl Hl) as [k' [x' [r [Ep [Hin' Hl']]]]]. injection Ep as <- <-.
  apply in_app_or in Hin'. cbn [In] in Hin'.
  destruct Hin' as [Hin'|Hin'].
  - destruct access; [|destruct Hin']. destruct Hin' as [Ee|[]]. injection Ee as <- <-. rewrite dev_to_eq in Hl'. inversion Hl'; discriminate.
  - destruct Hin' as [Ee|[Ee|[Ee|[Ee|[]]]]]; injection Ee as <- <-.
    + rewrite files_to_eq in Hl'. inversion Hl'; discriminate.
    + rewrite grid_to_eq in Hl'. inversion Hl'; discriminate.
    + rewrite rsvs_to_eq in Hl'. inversion Hl'; discriminate.
    + rewrite snaking_to_eq in Hl'. inversion Hl'; discriminate.
Qed.
Theorem read_nested : read access F p = Ok q.
Proof.
  unfold read. rewrite flat_ok; [|apply first_try; intros k x m E; apply (@nested_values k x m E)|rewrite unflat_ok; eauto]. cbn [bind]. apply from_written; assumption.
Qed.
Theorem read_flat : read access (flatten F) p = Ok q.
Proof.
  unfold read. rewrite unflat_ok. rewrite flat_ok; [|apply flatten_norm|rewrite unflat_ok; eauto]. cbn [bind].
  apply from_written; assumption.
Qed.
Theorem readflat_flat : readflat access (flatten F) p = Ok q.
Proof.
  unfold readflat, flatupdate. assert (U := updated). destruct (update (flatten (to_json access p)) (flatten F)); try discriminate.
  cbn [bind] in *. rewrite unflat_ok. cbn [bind]. rewrite U. cbn [bind]. apply from_written; assumption.
Qed.
End Read.

(** ** Leaves over leaves *)
Lemma ov_value a b : primitive a = true -> primitive b = true -> overlaid a b b.
Proof.
  intros Ha Hb p v. split; [left; assumption|]. intros [H|[H Hn]]; [exact H|]. exfalso.
  inversion H; subst; try discriminate. apply (Hn b). constructor. exact Hb.
Qed.
Lemma ov_arr l1 l2 l3 : (forall i, match nth_error l1 i, nth_error l2 i, nth_error l3 i with
    | Some x, Some y, Some z => overlaid x y z | Some x, None, Some z => x = z | None, Some y, Some z => y = z
    | None, None, None => True | _, _, _ => False end) -> overlaid (JArr l1) (JArr l2) (JArr l3).
Proof.
  intros H p v. split.
  - intros Hl. inversion Hl as [|l i x r w Hi Hx|]; subst; [discriminate|]. specialize (H i). rewrite Hi in H.
    destruct (nth_error l1 i) as [a|] eqn:E1; destruct (nth_error l2 i) as [b|] eqn:E2; try contradiction.
    + apply H in Hx. destruct Hx as [Hx|[Hx Hn]]; [left; econstructor; eauto|]. right. split; [econstructor; eauto|].
      intros w Hw. inversion Hw; subst. assert (x0 = b) by congruence. subst x0. eapply Hn; eauto.
    + subst a. right. split; [econstructor; eauto|]. intros w Hw. inversion Hw; subst. congruence.
    + subst b. left. econstructor; eauto.
  - intros [Hl|[Hl Hn]].
    + inversion Hl as [|l i y r w Hi Hy|]; subst; [discriminate|]. specialize (H i). rewrite Hi in H.
      destruct (nth_error l1 i) as [a|] eqn:E1; destruct (nth_error l3 i) as [z|] eqn:E3; try contradiction.
      * econstructor; [exact E3|]. apply H. left. exact Hy.
      * subst z. econstructor; eauto.
    + inversion Hl as [|l i x r w Hi Hx|]; subst; [discriminate|]. specialize (H i). rewrite Hi in H.
      destruct (nth_error l2 i) as [b|] eqn:E2; destruct (nth_error l3 i) as [z|] eqn:E3; try contradiction.
      * econstructor; [exact E3|]. apply H. right. split; [exact Hx|]. intros w Hw. apply (Hn w). econstructor; eauto.
      * subst z. econstructor; eauto.
Qed.
Lemma ov_obj m1 m2 m3 : smap m1 -> smap m2 -> smap m3 ->
  (forall k, match lookup m1 k, lookup m2 k, lookup m3 k with
    | Some x, Some y, Some z => overlaid x y z | None, None, None => True | _, _, _ => False end) -> overlaid (JObj m1) (JObj m2) (JObj m3).
Proof.
  intros S1 S2 S3 H p v. split.
  - intros Hl. inversion Hl as [| |m k x r w Hi Hx]; subst; [discriminate|]. specialize (H k). apply (lookup_iff _ _ S3) in Hi. rewrite Hi in H.
    destruct (lookup m1 k) as [a|] eqn:E1; destruct (lookup m2 k) as [b|] eqn:E2; try contradiction.
    apply H in Hx. destruct Hx as [Hx|[Hx Hn]].
    + left. econstructor; [apply (lookup_iff _ _ S2); exact E2|exact Hx].
    + right. split; [econstructor; [apply (lookup_iff _ _ S1); exact E1|exact Hx]|].
      intros w Hw. inversion Hw; subst. match goal with E : In (k, ?y) m2 |- _ => apply (lookup_iff _ _ S2) in E; assert (y = b) by congruence; subst y end.
      eapply Hn; eauto.
  - intros [Hl|[Hl Hn]].
    + inversion Hl as [| |m k y r w Hi Hy]; subst; [discriminate|]. specialize (H k). apply (lookup_iff _ _ S2) in Hi. rewrite Hi in H.
      destruct (lookup m1 k) as [a|] eqn:E1; destruct (lookup m3 k) as [z|] eqn:E3; try contradiction.
      econstructor; [apply (lookup_iff _ _ S3); exact E3|]. apply H. left. exact Hy.
    + inversion Hl as [| |m k x r w Hi Hx]; subst; [discriminate|]. specialize (H k). apply (lookup_iff _ _ S1) in Hi. rewrite Hi in H.
      destruct (lookup m2 k) as [b|] eqn:E2; destruct (lookup m3 k) as [z|] eqn:E3; try contradiction.
      econstructor; [apply (lookup_iff _ _ S3); exact E3|]. apply H. right. split; [exact Hx|]. intros w Hw. apply (Hn w).
      econstructor; [apply (lookup_iff _ _ S2); exact E2|exact Hw].
Qed.
Lemma ov_str a b : overlaid (JStr a) (JStr b) (JStr b). Proof. apply ov_value; reflexivity. Qed.
Lemma ov_int a b : overlaid (JInt a) (JInt b) (JInt b). Proof. apply ov_value; reflexivity. Qed.
Lemma ov_float a b : overlaid (JFloat a) (JFloat b) (JFloat b). Proof. apply ov_value; reflexivity. Qed.
Lemma ov_bool a b : overlaid (JBool a) (JBool b) (JBool b). Proof. apply ov_value; reflexivity. Qed.
Lemma ov_two A B (f : A -> json) (g : B -> json) x y : (forall a b, overlaid (f a) (f b) (f b)) -> (forall a b, overlaid (g a) (g b) (g b)) ->
  overlaid (two f g x) (two f g y) (two f g y).
Proof. intros H1 H2. apply ov_arr. intros [|[|[|i]]]; cbn; auto. Qed.
Lemma ov_three A (f : A -> json) x y : (forall a b, overlaid (f a) (f b) (f b)) -> overlaid (three f x) (three f y) (three f y).
Proof. destruct x as [[a b] c]. destruct y as [[a' b'] c']. intros H1. apply ov_arr. intros [|[|[|[|i]]]]; cbn; auto. Qed.
Lemma ov_many A (f : A -> json) x y : (forall a b, overlaid (f a) (f b) (f b)) -> overlaid (many f x) (many f y) (many f (over y x)).
Proof.
  intros H. apply ov_arr. unfold over. intros i. rewrite !nth_error_map. 
  destruct (Nat.lt_ge_cases i (length y)) as [Hi|Hi].
  - rewrite nth_error_app1 by exact Hi. destruct (nth_error y i) as [b|] eqn:E; [|apply nth_error_None in E; lia].
    cbn. destruct (nth_error x i) as [a|]; cbn; auto.
  - rewrite nth_error_app2 by exact Hi. assert (E : nth_error y i = None) by (apply nth_error_None; lia). rewrite E. cbn.
    assert (ES : nth_error (skipn (length y) x) (i - length y) = nth_error x i).
    { clear E. generalize (length y) Hi. clear. intros n. revert n i. induction x as [|a x IH]; intros [|n] [|i] Hi; try lia; cbn; auto.
      - destruct (i - n)%nat; reflexivity.
      - apply IH. lia. }
    rewrite ES. destruct (nth_error x i); cbn; auto.
Qed.
#[local] Hint Resolve ov_str ov_int ov_float ov_bool ov_two ov_three ov_many : ov.
(** [q] written over [p]. *)
Lemma ov_fill T (f : T -> json) p q : (forall a b, overlaid (f a) (f b) (f b)) -> overlaid (fill_to f p) (fill_to f q) (fill_to f q).
Proof.
  intros H. rewrite !fill_to_eq. apply ov_obj.
  1-3: apply smap_cons; [apply smap_cons; [constructor|intros ? ? []]|intros ? ? [E|[]]; injection E as <- <-; apply cmp_lt; reflexivity].
  intros k. cbn [lookup]. repeat (match goal with |- context[(?a =? k)%string] => destruct (a =? k)%string; [solve [auto with ov]|] end). exact I.
Qed.
#[local] Hint Resolve ov_fill : ov.
Lemma ov_goods m1 m2 m3 : good (JObj m1) -> good (JObj m2) -> good (JObj m3) ->
  (forall k, match lookup m1 k, lookup m2 k, lookup m3 k with
    | Some x, Some y, Some z => overlaid x y z | None, None, None => True | _, _, _ => False end) -> overlaid (JObj m1) (JObj m2) (JObj m3).
Proof. intros G1 G2 G3. apply ov_obj; apply good_smap; assumption. Qed.
Ltac ovs eq g1 g2 g3 := let G1 := fresh in let G2 := fresh in let G3 := fresh in
  pose proof g1 as G1; pose proof g2 as G2; pose proof g3 as G3; rewrite eq in G1, G2, G3; rewrite !eq; apply (ov_goods G1 G2 G3);
  let k := fresh "k" in intros k; cbn [lookup app];
  repeat (match goal with |- context[(?a =? k)%string] => destruct (a =? k)%string; [solve [auto with ov|apply ov_many; auto with ov|apply ov_float|apply ov_int|apply ov_str|apply ov_bool|apply ov_three; auto with ov]|] end); exact I.
Lemma ov_voxel p q : overlaid (voxel_to p) (voxel_to q) (voxel_to q).
Proof. ovs voxel_to_eq (good_voxel p) (good_voxel q) (good_voxel q). Qed.
Lemma ov_snaking p q : overlaid (snaking_to p) (snaking_to q) (snaking_to q).
Proof. ovs snaking_to_eq (good_snaking p) (good_snaking q) (good_snaking q). Qed.
Lemma ov_rsvs p q : overlaid (rsvs_to p) (rsvs_to q) (rsvs_to q).
Proof. ovs rsvs_to_eq (good_rsvs p) (good_rsvs q) (good_rsvs q). Qed.
Lemma ov_ioin p q : overlaid (ioin_to p) (ioin_to q) (ioin_to q).
Proof. ovs ioin_to_eq (good_ioin p) (good_ioin q) (good_ioin q). Qed.
Lemma ov_eps p q : overlaid (eps_to p) (eps_to q) (eps_to q).
Proof. ovs eps_to_eq (good_eps p) (good_eps q) (good_eps q). Qed.
#[local] Hint Resolve ov_voxel ov_snaking ov_rsvs ov_ioin ov_eps : ov.
Lemma ov_dev p q : overlaid (dev_to p) (dev_to q) (dev_to q).
Proof. ovs dev_to_eq (good_dev p) (good_dev q) (good_dev q). Qed.
#[local] Hint Resolve ov_dev : ov.
Ltac ovs2 eq g1 g2 g3 := let G1 := fresh in let G2 := fresh in let G3 := fresh in
  pose proof g1 as G1; pose proof g2 as G2; pose proof g3 as G3; rewrite eq in G1, G2, G3; rewrite !eq; apply (ov_goods G1 G2 G3);
  let k := fresh "k" in intros k; cbn [lookup app];
  repeat (match goal with |- context[(?a =? k)%string] => destruct (a =? k)%string; [solve [auto with ov|apply ov_many; auto with ov|apply ov_float|apply ov_int|apply ov_str|apply ov_bool|apply ov_three; auto with ov|apply ov_voxel|apply ov_ioin]|] end); exact I.
Lemma ov_param access p q : overlaid (to_json access p) (to_json access q) (to_json access (written_over access q p)).
Proof.
  set (r := written_over access q p).
  assert (C1 : overlaid (voronoi_to (gvoronoi (pgrid p))) (voronoi_to (gvoronoi (pgrid q))) (voronoi_to (gvoronoi (pgrid r)))).
  { ovs2 voronoi_to_eq (good_voronoi (gvoronoi (pgrid p))) (good_voronoi (gvoronoi (pgrid q))) (good_voronoi (gvoronoi (pgrid r))). }
  assert (C2 : overlaid (template_to (tecplot (fioout (pfiles p)))) (template_to (tecplot (fioout (pfiles q)))) (template_to (tecplot (fioout (pfiles r))))).
  { ovs2 template_to_eq (good_template (tecplot (fioout (pfiles p)))) (good_template (tecplot (fioout (pfiles q)))) (good_template (tecplot (fioout (pfiles r)))). }
  assert (C3 : overlaid (ioout_to (fioout (pfiles p))) (ioout_to (fioout (pfiles q))) (ioout_to (fioout (pfiles r)))).
  { ovs2 ioout_to_eq (good_ioout (fioout (pfiles p))) (good_ioout (fioout (pfiles q))) (good_ioout (fioout (pfiles r))). }
  assert (C4 : overlaid (files_to (pfiles p)) (files_to (pfiles q)) (files_to (pfiles r))).
  { ovs2 files_to_eq (good_files (pfiles p)) (good_files (pfiles q)) (good_files (pfiles r)). }
  assert (C5 : overlaid (grid_to (pgrid p)) (grid_to (pgrid q)) (grid_to (pgrid r))).
  { ovs2 grid_to_eq (good_grid (pgrid p)) (good_grid (pgrid q)) (good_grid (pgrid r)). }
  assert (C6 : access = true -> overlaid (dev_to (pdev p)) (dev_to (pdev q)) (dev_to (pdev r))).
  { intros ->. apply ov_dev. }
  assert (C7 : overlaid (rsvs_to (prsvs p)) (rsvs_to (prsvs q)) (rsvs_to (prsvs r))) by apply ov_rsvs.
  assert (C8 : overlaid (snaking_to (psnak p)) (snaking_to (psnak q)) (snaking_to (psnak r))) by apply ov_snaking.
  clearbody r. destruct access; [specialize (C6 eq_refl)|clear C6]; [ovs2 to_json_eq (good_param true p) (good_param true q) (good_param true r)|].
  ovs2 to_json_eq (good_param false p) (good_param false q) (good_param false r).
Qed.
