(** Settings given as strings. *)
From Coq Require Import String Ascii ZArith QArith List Bool Lia Sorted.
From Verif Require Import Base Mesh Config SpecConfig JsonProofs JsonBuildProofs ConfigTreeProofs ConfigProofs ConfigReadProofs ConfigPartialProofs.
Import ListNotations.
Set Implicit Arguments.
Open Scope Z_scope.
Open Scope list_scope.

Lemma reference_join p : reference p = join (toks p).
Proof. induction p as [|[k|i] p IH]; cbn; [reflexivity| |]; rewrite ?escape_dec, IH; reflexivity. Qed.
Lemma reference_inj j : good j -> forall p q v w, leaf j p v -> leaf j q w -> reference p = reference q -> p = q.
Proof. intros G p q v w H1 H2 E. rewrite !reference_join in E. apply join_inj in E. eapply leaf_toks; eauto. Qed.

(** ** Splitting at the separator *)
Lemma prefix_one c s : String.prefix (String c "") s = match s with EmptyString => false | String d _ => if ascii_dec c d then true else false end.
Proof. destruct s as [|d s]; [reflexivity|]. cbn. destruct (ascii_dec c d); [|reflexivity]. destruct s; reflexivity. Qed.
Lemma index_found c k t : ~ occurs c k -> String.index 0 (String c "") (k ++ String c t)%string = Some (String.length k).
Proof.
  induction k as [|d k IH]; intros H.
  - cbn [append String.length]. unfold String.index. rewrite prefix_one. destruct (ascii_dec c c); congruence.
  - cbn [append String.length]. cbn [occurs] in H.
    assert (E : String.index 0 (String c "") (String d (k ++ String c t)) =
      if String.prefix (String c "") (String d (k ++ String c t)) then Some O else
      match String.index 0 (String c "") (k ++ String c t)%string with Some n => Some (S n) | None => None end) by reflexivity.
    rewrite E, prefix_one. destruct (ascii_dec c d) as [->|_]; [exfalso; auto|]. rewrite IH by auto. reflexivity.
Qed.
Lemma index_absent c s : ~ occurs c s -> String.index 0 (String c "") s = None.
Proof.
  induction s as [|d s IH]; intros H; [reflexivity|]. cbn [occurs] in H.
  assert (E : String.index 0 (String c "") (String d s) =
      if String.prefix (String c "") (String d s) then Some O else
      match String.index 0 (String c "") s with Some n => Some (S n) | None => None end) by reflexivity.
  rewrite E, prefix_one. destruct (ascii_dec c d) as [->|_]; [exfalso; auto|]. rewrite IH by auto. reflexivity.
Qed.
Lemma substring_whole s : String.substring 0 (String.length s) s = s.
Proof. induction s as [|c s IH]; [reflexivity|]. cbn. rewrite IH. reflexivity. Qed.
Lemma substring_first k s : String.substring 0 (String.length k) (k ++ s)%string = k.
Proof. induction k as [|c k IH]; [destruct s; reflexivity|]. cbn. rewrite IH. reflexivity. Qed.
Lemma substring_rest k c t : String.substring (String.length k + 1) (String.length (k ++ String c t) - (String.length k + 1)) (k ++ String c t)%string = t.
Proof.
  induction k as [|d k IH].
  - cbn. rewrite Nat.sub_0_r. apply substring_whole.
  - cbn [append String.length Nat.add]. cbn [String.substring Nat.sub]. exact IH.
Qed.
Lemma length_app k c t : (String.length (k ++ String c t) = String.length k + 1 + String.length t)%nat.
Proof. induction k as [|d k IH]; cbn in *; lia. Qed.

Section Strings.
Variables (stoi : string -> outcome Z) (stod : string -> outcome dbl) (parse : string -> outcome json).
Variables (access : bool) (p : parameters) (c : ascii).
Let A := to_json access p.
Hypothesis LP : lists_filled p.
Hypothesis IP : ints_ok A.

Definition pick (f : list step -> option json) (path : list step) (v : json) : json := match f path with Some w => w | None => v end.
Definition holds (m : list (string * json)) (f : list step -> option json) : Prop :=
  smap m /\ (forall k v, lookup m k = Some v <-> exists path v0, leaf A path v0 /\ k = reference path /\ v = pick f path v0).
Definition kinds (f : list step -> option json) : Prop :=
  forall path v w, leaf A path v -> f path = Some w -> same_kind v w.

Lemma reads_kind v t w : reads stoi stod parse v t w -> same_kind v w.
Proof.
  destruct v; cbn; try contradiction.
  - intros [b' [_ ->]]. constructor.
  - intros [z' [_ [H ->]]]. constructor. exact H.
  - intros [x [_ ->]]. constructor.
  - intros ->. constructor.
Qed.
Lemma reads_write v u t w : same_kind v u \/ u = v -> reads stoi stod parse v t w ->
  match u with JStr _ => Ok (JStr t) | JInt _ => do z <- stoi t; Ok (JInt z) | JFloat _ => do d <- stod t; Ok (JFloat d)
  | JBool _ => parse t | _ => Throw end = Ok w /\ u <> JNull.
Proof.
  intros K H. destruct v; cbn in H; try contradiction; destruct K as [K| ->]; try (inversion K; subst).
  - destruct H as [b' [-> ->]]. split; [reflexivity|discriminate].
  - destruct H as [b' [-> ->]]. split; [reflexivity|discriminate].
  - destruct H as [z' [-> [_ ->]]]. split; [reflexivity|discriminate].
  - destruct H as [z' [-> [_ ->]]]. split; [reflexivity|discriminate].
  - destruct H as [x [-> ->]]. split; [reflexivity|discriminate].
  - destruct H as [x [-> ->]]. split; [reflexivity|discriminate].
  - subst. split; [reflexivity|discriminate].
  - subst. split; [reflexivity|discriminate].
Qed.
Definition accepted (r : request) : Prop :=
  match r with
  | Named path text w => ~ occurs c (reference path) /\ exists v, leaf A path v /\ reads stoi stod parse v text w
  | Stray s => ~ occurs c s
  end.
Definition set_path (f : list step -> option json) (path : list step) (w : json) (q : list step) : option json :=
  if list_eq_dec step_eq path q then Some w else f q.

Lemma one_named path text w m f n : accepted (Named path text w) -> holds m f -> kinds f ->
  exists m', update_one stoi stod parse (String c "") (spelled (String c "") (Named path text w)) (m, n) = Ok (m', n) /\
    holds m' (set_path f path w) /\ kinds (set_path f path w).
Proof.
  intros [Hc [v [Hl Hr]]] [S H] K. cbn [spelled append].
  assert (El : lookup m (reference path) = Some (pick f path v)) by (apply H; eauto 6).
  assert (Ku : same_kind v (pick f path v) \/ pick f path v = v).
  { unfold pick. destruct (f path) as [x|] eqn:E; [left; eapply K; eauto|right; reflexivity]. }
  destruct (@reads_write _ _ text _ Ku Hr) as [Hw Hnull].
  exists (insert m (reference path) w). split.
  - unfold update_one. rewrite index_found by exact Hc.
    rewrite length_app. destruct (Nat.ltb_spec (String.length (reference path) + 1 + String.length text) (String.length (reference path) + 1)) as [Hx|Hx]; [lia|].
    rewrite substring_first, El. rewrite <- length_app with (c := c). rewrite substring_rest.
    destruct (pick f path v); try discriminate; try congruence.
    + rewrite Hw. reflexivity.
    + destruct (stoi text); try discriminate. cbn [bind] in *. congruence.
    + destruct (stod text); try discriminate. cbn [bind] in *. congruence.
  - split.
    + split; [apply insert_sorted; exact S|]. intros k u. rewrite lookup_insert by exact S.
      destruct (String.eqb_spec (reference path) k) as [<-|N].
      * split.
        -- intros E. injection E as <-. exists path, v. split; [exact Hl|]. split; [reflexivity|]. unfold pick, set_path.
           destruct (list_eq_dec step_eq path path); congruence.
        -- intros [q [v0 [Hq [E ->]]]]. assert (path = q) by (eapply reference_inj; [apply (good_param access p)|exact Hl|exact Hq|exact E]). subst q.
           unfold pick, set_path. destruct (list_eq_dec step_eq path path); congruence.
      * rewrite H. split; intros [q [v0 [Hq [E ->]]]]; exists q, v0; split; auto; split; auto; unfold pick, set_path;
          (destruct (list_eq_dec step_eq path q) as [<-|]; [congruence|reflexivity]).
    + intros q v0 u Hq. unfold set_path. destruct (list_eq_dec step_eq path q) as [<-|]; [|apply K; exact Hq].
      intros E. injection E as <-. rewrite (leaf_fun (good_param access p) Hq Hl). eapply reads_kind; eauto.
Qed.

Lemma all_requests rs : forall m f n, (forall r, In r rs -> accepted r) -> holds m f -> kinds f ->
  exists m' f', update_strings stoi stod parse (String c "") (map (spelled (String c "")) rs) (m, n) = Ok (m', n + strays rs) /\
    holds m' f' /\ kinds f' /\ forall q, f' q = match assigned rs q with Some w => Some w | None => f q end.
Proof.
  induction rs as [|r rs IH]; intros m f n Ha Hm Hk.
  - exists m, f. split; [cbn; f_equal; f_equal; unfold strays; cbn; lia|]. split; [exact Hm|]. split; [exact Hk|]. reflexivity.
  - assert (Hr := Ha r (or_introl eq_refl)). destruct r as [path text w|s].
    + destruct (@one_named path text w m f n Hr Hm Hk) as [m1 [E1 [Hm1 Hk1]]].
      destruct (IH m1 _ n (fun r H => Ha r (or_intror H)) Hm1 Hk1) as [m2 [f2 [E2 [Hm2 [Hk2 Hf2]]]]].
      exists m2, f2. cbn [map update_strings]. rewrite E1. cbn [bind]. split; [exact E2|]. split; [exact Hm2|]. split; [exact Hk2|].
      intros q. rewrite Hf2. cbn [assigned]. destruct (assigned rs q); [reflexivity|]. unfold set_path.
      destruct (list_eq_dec step_eq path q); reflexivity.
    + destruct (IH m f (n + 1) (fun r H => Ha r (or_intror H)) Hm Hk) as [m2 [f2 [E2 [Hm2 [Hk2 Hf2]]]]].
      exists m2, f2. cbn [map update_strings spelled]. unfold update_one. rewrite index_absent by exact Hr. cbn [bind].
      split; [rewrite E2; f_equal; f_equal; unfold strays; cbn [List.filter length]; lia|]. split; [exact Hm2|]. split; [exact Hk2|].
      intros q. rewrite Hf2. cbn [assigned]. destruct (assigned rs q); reflexivity.
Qed.

Theorem strings_update rs : (forall r, In r rs -> accepted r) ->
  exists q, updatefromstring stoi stod parse access (String c "") (map (spelled (String c "")) rs) p = Ok (q, strays rs) /\
    kept access p q /\
    forall path v, leaf (to_json access q) path v <-> exists v0, leaf A path v0 /\ v = match assigned rs path with Some w => w | None => v0 end.
Proof.
  intros Ha. unfold updatefromstring. rewrite flatten_flat.
  assert (G := good_param access p). assert (N := @ne_param access p LP). fold A in G, N.
  assert (H0 : holds (flat A) (fun _ => None)).
  { split; [apply flat_sorted|]. intros k v. rewrite flat_cell by exact G. split.
    - intros [t [-> Hc]]. destruct (cell_leaf Hc) as [path [-> [Hl|[_ He]]]]; [|exfalso; apply (N _ He)].
      exists path, v. rewrite reference_join. auto.
    - intros [path [v0 [Hl [-> ->]]]]. exists (toks path). rewrite reference_join. split; [reflexivity|]. apply leaf_cell. exact Hl. }
  destruct (@all_requests rs (flat A) (fun _ => None) 0 Ha H0) as [m [f [E [[S H] [K Hf]]]]]; [intros path v w _ X; discriminate|].
  fold A. rewrite E. cbn [bind].
  destruct (@replaced access p f LP IP) as [q [Kq [Lq [Iq HL]]]].
  - exact K.
  - intros path w Hw. destruct (assigned rs path) as [w'|] eqn:Ea; rewrite Hf, Ea in Hw; [|discriminate]. injection Hw as <-.
    clear - Ea Ha. induction rs as [|r rs IH]; [discriminate|]. cbn [assigned] in Ea. destruct (assigned rs path) as [w|] eqn:Er.
    + injection Ea as ->. apply IH; [|reflexivity]. intros; apply Ha; right; assumption.
    + destruct r as [qp text w|s]; [|discriminate]. destruct (list_eq_dec step_eq qp path); [|discriminate]. injection Ea as ->.
      destruct (Ha _ (or_introl eq_refl)) as [_ [v [_ Hr]]]. apply reads_kind in Hr. eapply same_kind_primitive; eauto.
  - assert (U : unflatten (JObj m) = Ok (to_json access q)).
    { rewrite <- (norm_noempty (@ne_param access q Lq)). apply unflatten_covers; [exact S|apply good_param| |].
      - intros t v Hc. apply H. destruct (cell_leaf Hc) as [path [-> [Hl|[_ He]]]]; [|exfalso; apply (@ne_param access q Lq _ He)].
        apply HL in Hl. destruct Hl as [v0 [Hl ->]]. exists path, v0. rewrite reference_join. auto.
      - intros k v Hlk. apply H in Hlk. destruct Hlk as [path [v0 [Hl [-> ->]]]]. exists (toks path). split; [apply reference_join|].
        left. apply leaf_cell. apply HL. eauto. }
    rewrite U. cbn [bind]. rewrite from_written by assumption. cbn [bind]. exists q. split; [reflexivity|]. split; [exact Kq|].
    intros path v. rewrite HL. split; intros [v0 [Hl ->]]; exists v0; split; auto; rewrite Hf; destruct (assigned rs path); reflexivity.
Qed.
End Strings.
