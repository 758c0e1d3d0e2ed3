(** Files that name some of the values. *)
From Coq Require Import String Ascii ZArith QArith List Bool Lia Sorted.
From Verif Require Import Base Mesh Config SpecConfig JsonProofs JsonBuildProofs ConfigTreeProofs ConfigProofs ConfigReadProofs.
Import ListNotations.
Set Implicit Arguments.
Open Scope Z_scope.
Open Scope list_scope.

Fixpoint value_at (j : json) (p : list step) : option json :=
  match p with
  | [] => if primitive j then Some j else None
  | Elem i :: r => match j with JArr l => match nth_error l i with Some x => value_at x r | None => None end | _ => None end
  | Key k :: r => match j with JObj m => match lookup m k with Some x => value_at x r | None => None end | _ => None end
  end.
Lemma value_at_leaf j : good j -> forall p v, value_at j p = Some v <-> leaf j p v.
Proof.
  intros G p. revert j G. induction p as [|[k|i] p IH]; intros j G v; cbn [value_at]; split.
  - destruct (primitive j) eqn:E; [|discriminate]. intros H. injection H as <-. constructor. exact E.
  - intros H. inversion H; subst. match goal with H : primitive v = true |- _ => rewrite H end. reflexivity.
  - destruct j as [| | | | |l|m]; try discriminate. destruct (lookup m k) as [x|] eqn:E; [|discriminate]. intros H.
    apply lookup_In in E. econstructor; [exact E|]. apply IH; [|exact H]. apply (good_smap G) with (k := k). exact E.
  - intros H. inversion H; subst. destruct (good_smap G) as [S G'].
    match goal with E : In (k, ?x) m |- _ => pose proof (proj2 (lookup_iff k x S) E) as E'; rewrite E'; apply IH; [apply (G' k x E)|assumption] end.
  - destruct j as [| | | | |l|m]; try discriminate. destruct (nth_error l i) as [x|] eqn:E; [|discriminate]. intros H.
    econstructor; [exact E|]. apply IH; [|exact H]. apply (good_list G). eapply nth_error_In; eauto.
  - intros H. inversion H; subst. match goal with E : nth_error l i = Some ?x |- _ => rewrite E; apply IH; [|assumption] end.
    apply (good_list G). eapply nth_error_In; eauto.
Qed.

Section Overlay.
Fixpoint overlay (f : list step -> option json) (j : json) : json :=
  match j with
  | JArr l => JArr ((fix go (i : nat) (l : list json) : list json :=
                       match l with [] => [] | x :: r => overlay (fun p => f (Elem i :: p)) x :: go (S i) r end) O l)
  | JObj m => JObj (map (fun e => (fst e, overlay (fun p => f (Key (fst e) :: p)) (snd e))) m)
  | v => match f [] with Some w => w | None => v end
  end.
Definition over_list (f : list step -> option json) : nat -> list json -> list json :=
  fix go (i : nat) (l : list json) : list json :=
    match l with [] => [] | x :: r => overlay (fun p => f (Elem i :: p)) x :: go (S i) r end.
Lemma over_list_nth f l n i : nth_error (over_list f n l) i = option_map (fun x => overlay (fun p => f (Elem (n + i) :: p)) x) (nth_error l i).
Proof.
  revert n i. induction l as [|x l IH]; intros n [|i]; try reflexivity.
  - cbn. rewrite Nat.add_0_r. reflexivity.
  - cbn [over_list nth_error]. rewrite IH. destruct (nth_error l i); [|reflexivity]. cbn [option_map]. rewrite Nat.add_succ_r. reflexivity.
Qed.
Lemma overlay_value f v : primitive v = true -> overlay f v = match f [] with Some w => w | None => v end.
Proof. destruct v; try reflexivity; discriminate. Qed.

Inductive like : json -> json -> Prop :=
| like_val a b : primitive a = true -> same_kind a b \/ a = b -> like a b
| like_arr l l' : Forall2 like l l' -> like (JArr l) (JArr l')
| like_obj m m' : Forall2 (fun e e' => fst e = fst e' /\ like (snd e) (snd e')) m m' -> like (JObj m) (JObj m').

Lemma overlay_like A : forall f, (forall p v w, leaf A p v -> f p = Some w -> same_kind v w) -> like A (overlay f A).
Proof.
  induction A as [v Hp|l IH|m IH] using json_induction; intros f Hf.
  - rewrite overlay_value by exact Hp. apply like_val; [exact Hp|]. destruct (f []) as [w|] eqn:E; [left; apply (Hf [] v w); [constructor; exact Hp|exact E]|right; reflexivity].
  - change (overlay f (JArr l)) with (JArr (over_list f O l)). apply like_arr.
    assert (HA : forall r n, (forall x, In x r -> forall f, (forall p v w, leaf x p v -> f p = Some w -> same_kind v w) -> like x (overlay f x)) ->
       (forall i x p v w, nth_error r i = Some x -> leaf x p v -> f (Elem (n + i) :: p) = Some w -> same_kind v w) -> Forall2 like r (over_list f n r)).
    { induction r as [|x r IHr]; intros n H1 H2; [constructor|]. cbn [over_list]. constructor.
      - apply H1; [left; reflexivity|]. intros p v w Hl Hw. apply (H2 O x p v w); [reflexivity|exact Hl|]. rewrite Nat.add_0_r. exact Hw.
      - apply IHr; [intros; apply H1; [right|]; assumption|]. intros i y p v w Hy Hl Hw. apply (H2 (S i) y p v w); [exact Hy|exact Hl|].
        rewrite Nat.add_succ_r. exact Hw. }
    apply HA; [exact IH|]. intros i x p v w Hi Hl Hw. eapply Hf; [|exact Hw]. econstructor; eauto.
  - cbn [overlay]. apply like_obj.
    assert (HA : forall r, (forall k x, In (k, x) r -> In (k, x) m) -> Forall2 (fun e e' => fst e = fst e' /\ like (snd e) (snd e')) r
       (map (fun e => (fst e, overlay (fun p => f (Key (fst e) :: p)) (snd e))) r)).
    { induction r as [|[k x] r IHr]; intros H; [constructor|]. cbn [map]. constructor.
      - cbn [fst snd]. split; [reflexivity|]. apply (IH k x); [apply H; left; reflexivity|]. intros p v w Hl Hw. eapply Hf; [|exact Hw].
        econstructor; [apply H; left; reflexivity|exact Hl].
      - apply IHr. intros; apply H; right; assumption. }
    apply HA. auto.
Qed.
Lemma overlay_leaf A : forall f, (forall p w, f p = Some w -> primitive w = true) ->
  forall p v, leaf (overlay f A) p v <-> exists v0, leaf A p v0 /\ v = match f p with Some w => w | None => v0 end.
Proof.
  induction A as [a Hp|l IH|m IH] using json_induction; intros f Hf p v.
  - rewrite overlay_value by exact Hp.
    assert (Hr : primitive (match f [] with Some w => w | None => a end) = true) by (destruct (f []) eqn:E; [eapply Hf; eauto|exact Hp]).
    split.
    + intros H. assert (p = [] /\ v = match f [] with Some w => w | None => a end) as [-> ->].
      { revert Hr H. generalize (match f [] with Some w => w | None => a end). intros x Hx H. inversion H; subst; auto; discriminate. }
      exists a. split; [constructor; exact Hp|reflexivity].
    + intros [v0 [H ->]]. inversion H; subst; try discriminate. constructor. exact Hr.
  - change (overlay f (JArr l)) with (JArr (over_list f O l)). split.
    + intros H. inversion H as [|? i x r w Hi Hx|]; subst; [discriminate|]. rewrite over_list_nth in Hi. cbn [Nat.add] in Hi.
      destruct (nth_error l i) as [y|] eqn:E; [|discriminate]. injection Hi as <-.
      apply (IH y) in Hx; [|eapply nth_error_In; eauto|intros; eapply Hf; eauto]. destruct Hx as [v0 [Hl ->]]. exists v0. split; [econstructor; eauto|reflexivity].
    + intros [v0 [H ->]]. inversion H as [|? i x r w Hi Hx|]; subst; [discriminate|].
      apply leaf_elem with (x := overlay (fun p => f (Elem i :: p)) x); [rewrite over_list_nth, Hi; reflexivity|].
      apply (IH x); [eapply nth_error_In; eauto|intros; eapply Hf; eauto|]. eauto.
  - cbn [overlay]. split.
    + intros H. inversion H as [| |? k x r w Hi Hx]; subst; [discriminate|]. apply in_map_iff in Hi. destruct Hi as [[k' y] [E Hin]].
      cbn [fst snd] in E. injection E as -> <-.
      apply (IH k y Hin) in Hx; [|intros; eapply Hf; eauto]. destruct Hx as [v0 [Hl ->]]. exists v0. split; [econstructor; eauto|reflexivity].
    + intros [v0 [H ->]]. inversion H as [| |? k x r w Hi Hx]; subst; [discriminate|].
      apply leaf_key with (x := overlay (fun p => f (Key k :: p)) x).
      * apply in_map_iff. exists (k, x). split; [reflexivity|exact Hi].
      * apply (IH k x Hi); [intros; eapply Hf; eauto|]. eauto.
Qed.
End Overlay.

(** ** Values of the same shape are configurations *)
Definition image {A} (f : A -> json) : Prop := forall a T, like (f a) T -> exists b, T = f b.
Lemma im_str : image JStr.
Proof. intros a T H. inversion H as [? ? _ [K|<-]| |]; subst; eauto. inversion K; subst; eauto. Qed.
Lemma im_int : image JInt.
Proof. intros a T H. inversion H as [? ? _ [K|<-]| |]; subst; eauto. inversion K; subst; eauto. Qed.
Lemma im_bool : image JBool.
Proof. intros a T H. inversion H as [? ? _ [K|<-]| |]; subst; eauto. inversion K; subst; eauto. Qed.
Lemma im_float : image JFloat.
Proof. intros a T H. inversion H as [? ? _ [K|<-]| |]; subst; eauto. inversion K; subst; eauto. Qed.
Lemma like_arr_inv l T : like (JArr l) T -> exists l', T = JArr l' /\ Forall2 like l l'.
Proof. intros H. inversion H; subst; [discriminate|eauto]. Qed.
Lemma like_obj_inv m T : like (JObj m) T -> exists m', T = JObj m' /\ Forall2 (fun e e' => fst e = fst e' /\ like (snd e) (snd e')) m m'.
Proof. intros H. inversion H; subst; [discriminate|eauto]. Qed.
Lemma im_two A B (f : A -> json) (g : B -> json) : image f -> image g -> image (two f g).
Proof.
  intros Hf Hg [a b] T H. apply like_arr_inv in H. destruct H as [l' [-> H]]. inversion H as [|? x ? r Ha Hr]; subst.
  inversion Hr as [|? y ? r' Hb Hr']; subst. inversion Hr'; subst. apply Hf in Ha. apply Hg in Hb. destruct Ha as [a' ->]. destruct Hb as [b' ->].
  exists (a', b'). reflexivity.
Qed.
Lemma im_three A (f : A -> json) : image f -> image (three f).
Proof.
  intros Hf [[a b] c] T H. apply like_arr_inv in H. destruct H as [l' [-> H]]. inversion H as [|? x ? r Ha Hr]; subst.
  inversion Hr as [|? y ? r' Hb Hr']; subst. inversion Hr' as [|? z ? r'' Hc Hr'']; subst. inversion Hr''; subst.
  apply Hf in Ha. apply Hf in Hb. apply Hf in Hc. destruct Ha as [a' ->]. destruct Hb as [b' ->]. destruct Hc as [c' ->].
  exists (a', b', c'). reflexivity.
Qed.
Lemma im_many A (f : A -> json) : image f -> forall l T, like (many f l) T -> exists l', T = many f l' /\ length l' = length l.
Proof.
  intros Hf l T H. apply like_arr_inv in H. destruct H as [r [-> H]]. revert r H. induction l as [|a l IH]; intros r H.
  - inversion H; subst. exists []. split; reflexivity.
  - inversion H as [|? x ? r' Ha Hr]; subst. apply Hf in Ha. destruct Ha as [a' ->]. destruct (IH _ Hr) as [l' [E EL]].
    exists (a' :: l'). unfold many in *. injection E as ->. split; [reflexivity|cbn; congruence].
Qed.
#[local] Hint Resolve im_str im_int im_bool im_float im_two im_three : im.
Ltac fields H := apply like_obj_inv in H; destruct H as [? [-> H]];
  repeat (let H1 := fresh "L" in let e := fresh in inversion H as [|? e ? ? [? H1] ?]; subst; clear H; destruct e; cbn [fst snd] in *; subst;
    match goal with F : Forall2 _ _ _ |- _ => rename F into H end);
  inversion H; subst; clear H.
Ltac image_of := match goal with L : like (?f ?a) ?T |- _ =>
   let Hi := fresh in assert (Hi : image f) by auto with im; apply Hi in L; destruct L as [? ->]; clear Hi end.
Lemma im_fill T (f : T -> json) : image f -> image (fill_to f).
Proof.
  intros Hf p J H. rewrite fill_to_eq in H. fields H. repeat image_of. exists (mkFill x0 x). reflexivity.
Qed.
#[local] Hint Resolve im_fill : im.
Ltac many_of := match goal with L : like (many ?f ?a) ?T |- _ =>
   let Hi := fresh in assert (Hi : image f) by auto with im; apply (im_many Hi) in L; destruct L as [? [-> ?]]; clear Hi end.
Lemma im_voxel : image voxel_to.
Proof. intros p J H. rewrite voxel_to_eq in H. fields H. repeat image_of. eexists (mkVoxel _ _). rewrite voxel_to_eq. reflexivity. Qed.
Lemma im_snaking : image snaking_to.
Proof. intros p J H. rewrite snaking_to_eq in H. fields H. repeat image_of. eexists (mkSnaking _ _ _ _ _ _ _ _). rewrite snaking_to_eq. reflexivity. Qed.
Lemma im_rsvs : image rsvs_to.
Proof. intros p J H. rewrite rsvs_to_eq in H. fields H. repeat image_of. eexists (mkRsvs _ _ _ _). rewrite rsvs_to_eq. reflexivity. Qed.
Lemma im_ioin : image ioin_to.
Proof. intros p J H. rewrite ioin_to_eq in H. fields H. repeat image_of. eexists (mkIoin _ _ _ _). rewrite ioin_to_eq. reflexivity. Qed.
Lemma im_eps : image eps_to.
Proof. intros p J H. rewrite eps_to_eq in H. fields H. repeat image_of. eexists (mkEps _ _ _ _ _). rewrite eps_to_eq. reflexivity. Qed.
#[local] Hint Resolve im_voxel im_snaking im_rsvs im_ioin im_eps : im.
Lemma im_dev : image dev_to.
Proof. intros p J H. rewrite dev_to_eq in H. fields H. repeat image_of. eexists (mkDev _ _ _ _ _ _ _). rewrite dev_to_eq. reflexivity. Qed.
#[local] Hint Resolve im_dev : im.
Lemma im_voronoi p T : like (voronoi_to p) T -> exists q, T = voronoi_to q /\ length (inputpoints q) = length (inputpoints p).
Proof.
  intros H. rewrite voronoi_to_eq in H. fields H. many_of. repeat image_of. eexists (mkVoronoi _ _ _ _ _). rewrite voronoi_to_eq.
  split; [reflexivity|assumption].
Qed.
Lemma im_template p T : like (template_to p) T -> exists q, T = template_to q /\ length (loglvlspecialisation q) = length (loglvlspecialisation p).
Proof.
  intros H. rewrite template_to_eq in H. fields H. many_of. repeat image_of. eexists (mkTemplate _ _ _ _). rewrite template_to_eq.
  split; [reflexivity|assumption].
Qed.
Lemma im_grid p T : like (grid_to p) T -> exists q, T = grid_to q /\ length (inputpoints (gvoronoi q)) = length (inputpoints (gvoronoi p)).
Proof.
  intros H. rewrite grid_to_eq in H. fields H. match goal with L : like (voronoi_to _) _ |- _ => apply im_voronoi in L; destruct L as [? [-> ?]] end.
  repeat image_of. eexists (mkGrid _ _ _ _ _). rewrite grid_to_eq. split; [reflexivity|assumption].
Qed.
Lemma im_ioout p T : like (ioout_to p) T -> exists q, T = ioout_to q /\ length (loglvlspecialisation (tecplot q)) = length (loglvlspecialisation (tecplot p)).
Proof.
  intros H. rewrite ioout_to_eq in H. fields H. match goal with L : like (template_to _) _ |- _ => apply im_template in L; destruct L as [? [-> ?]] end.
  repeat image_of. eexists (mkIoout _ _ _ _ _ _ _ _ _ _ _). rewrite ioout_to_eq. split; [reflexivity|assumption].
Qed.
Lemma im_files p T : like (files_to p) T -> exists q, T = files_to q /\
  length (loglvlspecialisation (tecplot (fioout q))) = length (loglvlspecialisation (tecplot (fioout p))) /\
  length (exportconfig q) = length (exportconfig p).
Proof.
  intros H. rewrite files_to_eq in H. fields H. match goal with L : like (ioout_to _) _ |- _ => apply im_ioout in L; destruct L as [? [-> ?]] end.
  many_of. repeat image_of. eexists (mkFiles _ _ _ _). rewrite files_to_eq. split; [reflexivity|split; assumption].
Qed.
Lemma filled_length A (l l' : list A) : length l' = length l -> l <> [] -> l' <> [].
Proof. destruct l, l'; try discriminate; congruence. Qed.
Lemma im_param access p T : like (to_json access p) T -> lists_filled p ->
  exists q, T = to_json access q /\ kept access p q /\ lists_filled q.
Proof.
  intros H [F1 [F2 F3]]. rewrite to_json_eq in H. destruct access; cbn [app] in H; fields H;
  repeat (match goal with L : like (files_to _) _ |- _ => apply im_files in L; destruct L as [? [-> [? ?]]]
    | L : like (grid_to _) _ |- _ => apply im_grid in L; destruct L as [? [-> ?]] end); repeat image_of.
  - eexists (mkParam _ _ _ _ _). rewrite to_json_eq. split; [reflexivity|]. split; [intros E; discriminate|].
    split; [|split]; cbn; eapply filled_length; eauto.
  - eexists (mkParam _ _ _ _ (pdev p)). rewrite to_json_eq. split; [reflexivity|]. split; [intros E; reflexivity|].
    split; [|split]; cbn; eapply filled_length; eauto.
Qed.

(** ** Replacing values *)
Section Partial.
Variables (access : bool) (p : parameters) (f : list step -> option json).
Hypothesis LP : lists_filled p.
Hypothesis IP : ints_ok (to_json access p).
Hypothesis Hf : forall path v w, leaf (to_json access p) path v -> f path = Some w -> same_kind v w.
Hypothesis Hp : forall path w, f path = Some w -> primitive w = true.
Lemma replaced : exists q, kept access p q /\ lists_filled q /\ ints_ok (to_json access q) /\
  forall path v, leaf (to_json access q) path v <-> exists v0, leaf (to_json access p) path v0 /\ v = match f path with Some w => w | None => v0 end.
Proof.
  destruct (@im_param access p _ (@overlay_like _ f Hf) LP) as [q [E [K L]]].
  assert (HLf : forall path v, leaf (to_json access q) path v <-> exists v0, leaf (to_json access p) path v0 /\ v = match f path with Some w => w | None => v0 end).
  { intros path v. rewrite <- E. apply overlay_leaf. exact Hp. }
  exists q. split; [exact K|]. split; [exact L|]. split; [|exact HLf].
  intros path z Hl. apply HLf in Hl. destruct Hl as [v0 [Hl Ev]]. destruct (f path) as [w|] eqn:Ef.
  - subst w. specialize (Hf Hl Ef). inversion Hf; subst. unfold wrap32. rewrite Z.mod_small by lia. lia.
  - subst v0. apply (IP Hl).
Qed.
End Partial.

Lemma same_kind_primitive v w : same_kind v w -> primitive w = true.
Proof. inversion 1; reflexivity. Qed.

Theorem partial_file access F p : ordered F -> lists_filled p -> ints_ok (to_json access p) ->
  (forall path w, leaf F path w -> exists v, leaf (to_json access p) path v /\ same_kind v w) ->
  (forall path, empty_at F path -> exists s r v, leaf (to_json access p) (path ++ s :: r) v) ->
  good F /\ exists q, kept access p q /\ lists_filled q /\ ints_ok (to_json access q) /\ stubs F (to_json access q) /\
    overlaid (to_json access p) F (to_json access q).
Proof.
  intros OF LP IP HF HE.
  assert (GF : good F).
  { apply ordered_good; [exact OF|]. intros t k v _ path _ [Hq|Hq] Hk.
    - destruct (HF _ _ Hq) as [v' [Hl _]]. eapply leaf_key_zero; [apply good_param|exact Hl|exact Hk].
    - destruct (HE _ Hq) as [s [r [w Hl]]]. eapply leaf_key_zero; [apply good_param|exact Hl|]. apply in_or_app. left. exact Hk. }
  split; [exact GF|].
  destruct (@replaced access p (value_at F) LP IP) as [q [K [L [I HL]]]].
  - intros path v w Hl Hw. apply (value_at_leaf GF) in Hw. destruct (HF _ _ Hw) as [v' [Hl' Hk]].
    rewrite (leaf_fun (good_param access p) Hl Hl'). exact Hk.
  - intros path w Hw. apply (value_at_leaf GF) in Hw. eapply leaf_primitive; eauto.
  - exists q. split; [exact K|]. split; [exact L|]. split; [exact I|]. split.
    + intros path He. destruct (HE _ He) as [s [r [v Hl]]].
      exists s, r, (match value_at F (path ++ s :: r) with Some w => w | None => v end). apply HL. eauto.
    + intros path v. rewrite HL. split.
      * intros [v0 [Hl ->]]. destruct (value_at F path) as [w|] eqn:E.
        -- left. apply (value_at_leaf GF). exact E.
        -- right. split; [exact Hl|]. intros w Hw. apply (value_at_leaf GF) in Hw. congruence.
      * intros [Hl|[Hl Hn]].
        -- destruct (HF _ _ Hl) as [v0 [Hl0 _]]. exists v0. split; [exact Hl0|]. apply (value_at_leaf GF) in Hl. rewrite Hl. reflexivity.
        -- exists v. split; [exact Hl|]. destruct (value_at F path) as [w|] eqn:E; [|reflexivity].
           exfalso. apply (value_at_leaf GF) in E. apply (Hn w E).
Qed.
