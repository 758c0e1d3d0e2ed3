(** C52: configuration files; C70: settings given as strings. *)
From Coq Require Import String Ascii ZArith QArith List Bool Lia.
From Verif Require Import Base Mesh Config SpecConfig JsonProofs JsonBuildProofs ConfigTreeProofs ConfigProofs ConfigReadProofs
  ConfigPartialProofs ConfigStringProofs.
Import ListNotations.
Set Implicit Arguments.
Open Scope Z_scope.
Open Scope list_scope.

(** The parameters as constructed, parameters.cpp:40-46, 90-94, 120-128, 173-183,
    216-228, 257-268, 302-308, 335-349, 411-415, 483-490, 511-519. *)
Definition default : parameters :=
  let f q := Fin q in
  let unit3 := ((f 0%Q, f 1%Q), (f 0%Q, f 1%Q), (f 0%Q, f 1%Q)) in
  mkParam
    (mkRsvs 0 (mkFill false (f (1#2)%Q)) (mkFill false ""%string) (mkFill false ""%string))
    (mkSnaking (f (1#10000000)%Q) (f (1#100)%Q) (f (9#10)%Q) (f (9#10)%Q) 1 50 (f (1#100000)%Q) "rsvs"%string)
    (mkGrid unit3 (mkVoxel (1, 1, 1) (6, 6, 6)) (mkVoronoi [f 0%Q] (f (51#100)%Q) ""%string (f 0%Q) 2) unit3 "voxel"%string)
    (mkFiles (mkIoin "" "" "" "")
       (mkIoout "../out" "Archive_%Y_%m/Day_%y-%m-%d" "%y%m%dT%H%M%S_" "rsvs3d_" "" "" false false 2 2
          (mkTemplate "../TESTOUT/layouts" "RSVS_" "VarSet |LFDSFN1| =" [(0, ""%string)]))
       true [(""%string, ""%string)])
    (mkDev (f (inject_Z (10 ^ 308))) 200 true false false "none"%string
       (mkEps (f 0%Q) (f (1#10000000000)%Q) (f 0%Q) (f (1#10000000000)%Q) (f (1#10000000000)%Q))).
(** [default] with other points and another casename. *)
Definition with_points (l : list dbl) (name : string) : parameters :=
  let g := pgrid default in let v := gvoronoi g in let f := pfiles default in
  mkParam (prsvs default) (psnak default)
    (mkGrid (domain g) (gvoxel g) (mkVoronoi l (distancebox v) (pointfile v) (snakecoarseness v) (vorosnakelayers v)) (physdomain g) (activegrid g))
    (mkFiles (mkIoin "" "" "" name) (fioout f) (appcasename2outdir f) (exportconfig f)) (pdev default).

(** All leaves of a value, to check examples. *)
Fixpoint leaves (j : json) : list json :=
  match j with
  | JArr l => flat_map leaves l
  | JObj m => flat_map (fun e => leaves (snd e)) m
  | v => [v]
  end.
Lemma leaf_leaves j p v : leaf j p v -> In v (leaves j).
Proof.
  induction 1 as [v H|l i x p v Hi _ IH|m k x p v Hi _ IH].
  - destruct v; try discriminate; left; reflexivity.
  - apply in_flat_map. exists x. split; [eapply nth_error_In; eauto|exact IH].
  - apply in_flat_map. exists (k, x). split; [exact Hi|exact IH].
Qed.
Definition fine (v : json) : bool :=
  match v with JInt z => (-2147483648 <=? z) && (z <? 2147483648) | JFloat Nonfin => false | _ => true end.
Lemma fine_representable access p : forallb fine (leaves (to_json access p)) = true -> representable access p.
Proof.
  intros H. rewrite forallb_forall in H. split.
  - intros path z Hl. apply leaf_leaves in Hl. specialize (H _ Hl). cbn in H. lia.
  - intros path Hl. apply leaf_leaves in Hl. specialize (H _ Hl). discriminate.
Qed.

(** Printing changes nothing when all numbers are finite. *)
Lemma printed_same j : (forall p, ~ leaf j p (JFloat Nonfin)) -> printed j = j.
Proof.
  induction j as [v Hp|l IH|m IH] using json_induction; intros H.
  - destruct v as [| | |[q|]| | |]; try reflexivity; try discriminate. exfalso. apply (H []). constructor. reflexivity.
  - cbn [printed]. f_equal. rewrite <- (map_id l) at 2. apply map_ext_in. intros x Hx. apply (IH x Hx). intros p Hl.
    apply In_nth_error in Hx. destruct Hx as [i Hi]. apply (H (Elem i :: p)). econstructor; eauto.
  - cbn [printed]. f_equal. rewrite <- (map_id m) at 2. apply map_ext_in. intros [k x] Hx. cbn [fst snd]. f_equal.
    apply (IH k x Hx). intros p Hl. apply (H (Key k :: p)). econstructor; eauto.
Qed.
Lemma printed_flat j : good j -> noempty j -> (forall p, ~ leaf j p (JFloat Nonfin)) -> printed (flatten j) = flatten j.
Proof.
  intros G N H. apply printed_same. intros p Hl. rewrite flatten_flat in Hl. inversion Hl as [| |? k x r w Hin Hx]; subst.
  apply flat_member in Hin; [|exact G]. destruct Hin as [t [-> Hc]]. destruct (cell_leaf Hc) as [path [_ [Hp|[-> _]]]].
  - assert (x = JFloat Nonfin) by (apply leaf_primitive in Hp; inversion Hx; subst; auto; discriminate). subst x. apply (H _ Hp).
  - inversion Hx.
Qed.

Lemma good_ordered j : good j -> ordered j.
Proof.
  induction j as [v Hp|l IH|m IH] using json_induction; intros G.
  - constructor. exact Hp.
  - apply ordered_arr. intros x Hx. apply (IH x Hx). apply (good_list G x Hx).
  - destruct (good_smap G) as [S G']. apply ordered_obj; [intros k x Hx; apply (IH k x Hx); apply (G' k x Hx)|].
    clear - S. revert S. induction m as [|[k x] m IHm]; intros S i j a b Hij Ha Hb; [destruct i; discriminate|].
    apply smap_inv in S. destruct S as [S F]. destruct j as [|j]; [lia|]. destruct i as [|i]; cbn in Ha, Hb.
    + injection Ha as <-. apply nth_error_In in Hb. apply in_map_iff in Hb. destruct Hb as [[k' x'] [<- Hin]]. apply cmp_lt. eapply F; eauto.
    + apply (IHm S i j); auto. lia.
Qed.
Lemma over_filled A (new old : list A) : new <> [] -> over new old <> [].
Proof. destruct new; [congruence|discriminate]. Qed.
Lemma written_ints access q p : representable access q -> representable access p -> ints_ok (to_json access (written_over access q p)).
Proof.
  intros Rq Rp path z Hl. apply ov_param in Hl. destruct Hl as [Hl|[Hl _]]; [exact (representable_ints Rq Hl)|exact (representable_ints Rp Hl)].
Qed.

(** C52: a configuration that was written and is read again replaces every value;
    only the elements of a longer list of the old parameters stay, and the
    development parameters when they are not accessible. *)
Theorem C52_round_trip access p q :
  representable access p -> representable access q -> lists_filled q ->
  read access (write access q) p = Ok (written_over access q p) /\
  readflat access (writeflat access q) p = Ok (written_over access q p) /\
  read access (writeflat access q) p = Ok (written_over access q p).
Proof.
  intros Rp Rq Lq. unfold write, writeflat.
  rewrite printed_same by apply Rq. rewrite printed_flat; [|apply good_param|apply ne_param; exact Lq|apply Rq].
  assert (LW : lists_filled (written_over access q p)).
  { destruct Lq as [H1 [H2 H3]]. split; [|split]; apply over_filled; assumption. }
  assert (KW : kept access p (written_over access q p)) by (intros ->; reflexivity).
  assert (SW : stubs (to_json access q) (to_json access (written_over access q p))) by (intros path He; exfalso; apply (@ne_param access q Lq _ He)).
  assert (OW := good_ordered (good_param access q)). assert (IW := written_ints Rq Rp). assert (HW := @ov_param access p q).
  split; [|split]; [apply read_nested|apply readflat_flat|apply read_flat]; assumption.
Qed.
Print Assumptions C52_round_trip.
Example C52_round_trip_example :
  representable true default /\ representable true (with_points [Fin (1#2)%Q; Fin (1#3)%Q] "case") /\
  lists_filled (with_points [Fin (1#2)%Q; Fin (1#3)%Q] "case") /\
  read true (write true (with_points [Fin (1#2)%Q; Fin (1#3)%Q] "case")) default = Ok (with_points [Fin (1#2)%Q; Fin (1#3)%Q] "case").
Proof.
  split; [apply fine_representable; reflexivity|]. split; [apply fine_representable; reflexivity|].
  split; [split; [|split]; discriminate|]. vm_compute. reflexivity.
Qed.

(** Hence reading reproduces the written configuration when its lists are at least
    as long as the present ones. *)
Theorem C52_reproduces p q :
  representable true p -> representable true q -> lists_filled q ->
  (length (inputpoints (gvoronoi (pgrid p))) <= length (inputpoints (gvoronoi (pgrid q))))%nat ->
  (length (loglvlspecialisation (tecplot (fioout (pfiles p)))) <= length (loglvlspecialisation (tecplot (fioout (pfiles q)))))%nat ->
  (length (exportconfig (pfiles p)) <= length (exportconfig (pfiles q)))%nat ->
  read true (write true q) p = Ok q /\ readflat true (writeflat true q) p = Ok q.
Proof.
  intros Rp Rq Lq L1 L2 L3. destruct (@C52_round_trip true p q Rp Rq Lq) as [H1 [H2 _]]. rewrite H1, H2.
  assert (E : written_over true q p = q).
  { unfold written_over, over. rewrite !skipn_all2, !app_nil_r by assumption.
    destruct q as [a b [? ? [] ? ?] [? [? ? ? ? ? ? ? ? ? ? []] ? ?] e]. reflexivity. }
  rewrite E. auto.
Qed.
Print Assumptions C52_reproduces.
Example C52_reproduces_example : read true (write true default) default = Ok default.
Proof. vm_compute. reflexivity. Qed.

(** A shorter list does not replace a longer one: the end of the old list stays. *)
Theorem C52_shorter_list_refuted : exists p q, representable true p /\ representable true q /\ lists_filled q /\
  exists r, read true (write true q) p = Ok r /\ r <> q /\ inputpoints (gvoronoi (pgrid r)) = [Fin 0%Q; Fin (1#3)%Q].
Proof.
  exists (with_points [Fin (1#2)%Q; Fin (1#3)%Q] "case"), default.
  split; [apply fine_representable; reflexivity|]. split; [apply fine_representable; reflexivity|].
  split; [split; [|split]; discriminate|].
  exists (with_points [Fin 0%Q; Fin (1#3)%Q] ""). split; [vm_compute; reflexivity|]. split; [discriminate|reflexivity].
Qed.
Print Assumptions C52_shorter_list_refuted.

(** A configuration with an empty list cannot be read back, even into itself. *)
Theorem C52_empty_list_refuted : exists p, representable true p /\ read true (write true p) p = Throw /\ readflat true (writeflat true p) p = Throw.
Proof. exists (with_points [] "case"). split; [apply fine_representable; reflexivity|]. split; vm_compute; reflexivity. Qed.
Print Assumptions C52_empty_list_refuted.

(** Nor one with a number that is not finite. *)
Theorem C52_not_finite_refuted : exists p, lists_filled p /\ read true (write true p) p = Throw.
Proof. exists (with_points [Nonfin] "case"). split; [split; [|split]; discriminate|]. vm_compute. reflexivity. Qed.
Print Assumptions C52_not_finite_refuted.

(** C52: a file that names values of the parameters, each with its type, changes
    exactly these; written flat it does the same. *)
Theorem C52_partial_file access file p :
  representable access p -> lists_filled p -> ordered file ->
  (forall path w, leaf file path w -> exists v, leaf (to_json access p) path v /\ same_kind v w) ->
  (forall path, empty_at file path -> exists s rest v, leaf (to_json access p) (path ++ s :: rest) v) ->
  exists q, read access file p = Ok q /\ read access (flatten file) p = Ok q /\ readflat access (flatten file) p = Ok q /\
    (access = false -> pdev q = pdev p) /\
    forall path v, leaf (to_json access q) path v <->
      leaf file path v \/ (leaf (to_json access p) path v /\ forall w, ~ leaf file path w).
Proof.
  intros Rp Lp OF HF HE. destruct (partial_file OF Lp (representable_ints Rp) HF HE) as [GF [q [K [L [I [St HO]]]]]].
  exists q. split; [apply read_nested; assumption|]. split; [apply read_flat; assumption|]. split; [apply readflat_flat; assumption|].
  split; [exact K|exact HO].
Qed.
Print Assumptions C52_partial_file.
Definition small_file : json :=
  obj [("grid"%string, obj [("voxel"%string, obj [("gridsizesnake"%string, JArr [JInt 4; JInt 5])])]);
       ("files"%string, obj [("ioin"%string, obj [("casename"%string, JStr "wing")]); ("ioout"%string, JObj [])])].
(** Leaves and empty parts with their paths, to check examples. *)
Fixpoint paths (j : json) : list (list step * json) :=
  match j with
  | JArr l => (fix go (i : nat) (l : list json) := match l with [] => [] | x :: r => map (fun e => (Elem i :: fst e, snd e)) (paths x) ++ go (S i) r end) O l
  | JObj m => flat_map (fun e => map (fun x => (Key (fst e) :: fst x, snd x)) (paths (snd e))) m
  | v => [([], v)]
  end.
Lemma leaf_paths j p v : leaf j p v -> In (p, v) (paths j).
Proof.
  induction 1 as [v H|l i x p v Hi _ IH|m k x p v Hi _ IH].
  - destruct v; try discriminate; left; reflexivity.
  - assert (HA : forall l n, nth_error l i = Some x -> In (Elem (n + i) :: p, v) ((fix go (i : nat) (l : list json) :=
      match l with [] => [] | x :: r => map (fun e => (Elem i :: fst e, snd e)) (paths x) ++ go (S i) r end) n l)).
    { clear - IH. revert IH. induction i as [|i IHi]; intros IH l n Hn; (destruct l as [|y l]; [discriminate|]); apply in_or_app.
      - cbn in Hn. injection Hn as ->. left. apply in_map_iff. exists (p, v). rewrite Nat.add_0_r. split; [reflexivity|exact IH].
      - right. cbn in Hn. rewrite Nat.add_succ_r. apply (IHi IH l (S n) Hn). }
    apply (HA l O Hi).
  - cbn [paths]. apply in_flat_map. exists (k, x). split; [exact Hi|]. apply in_map_iff. exists (p, v). split; [reflexivity|exact IH].
Qed.
Fixpoint holes (j : json) : list (list step) :=
  match j with
  | JArr [] => [[]]
  | JArr l => (fix go (i : nat) (l : list json) := match l with [] => [] | x :: r => map (cons (Elem i)) (holes x) ++ go (S i) r end) O l
  | JObj [] => [[]]
  | JObj m => flat_map (fun e => map (cons (Key (fst e))) (holes (snd e))) m
  | _ => []
  end.
Lemma empty_holes j p : empty_at j p -> In p (holes j).
Proof.
  induction 1 as [| |l i x p Hi _ IH|m k x p Hi _ IH].
  - left. reflexivity.
  - left. reflexivity.
  - assert (HA : forall l n, nth_error l i = Some x -> In (Elem (n + i) :: p) ((fix go (i : nat) (l : list json) :=
      match l with [] => [] | x :: r => map (cons (Elem i)) (holes x) ++ go (S i) r end) n l)).
    { clear - IH. revert IH. induction i as [|i IHi]; intros IH l n Hn; (destruct l as [|y l]; [discriminate|]); apply in_or_app.
      - cbn in Hn. injection Hn as ->. left. rewrite Nat.add_0_r. apply in_map. exact IH.
      - right. cbn in Hn. rewrite Nat.add_succ_r. apply (IHi IH l (S n) Hn). }
    destruct l as [|y l]; [destruct i; discriminate|]. apply (HA (y :: l) O Hi).
  - destruct m as [|e m]; [destruct Hi|]. cbn [holes]. apply in_flat_map. exists (k, x). split; [exact Hi|]. apply in_map. exact IH.
Qed.
Definition kindb (v w : json) : bool :=
  match v, w with
  | JBool _, JBool _ | JStr _, JStr _ | JFloat _, JFloat (Fin _) => true
  | JInt _, JInt z => (-2147483648 <=? z) && (z <? 2147483648)
  | _, _ => false
  end.
Lemma kindb_kind v w : kindb v w = true -> same_kind v w.
Proof. destruct v; destruct w as [| | |[]| | |]; try discriminate; intros H; constructor. cbn in H. lia. Qed.
Definition namesb (j file : json) : bool :=
  forallb (fun e => match value_at j (fst e) with Some v => kindb v (snd e) | None => false end) (paths file).
Lemma names_ok access p file : namesb (to_json access p) file = true ->
  forall path w, leaf file path w -> exists v, leaf (to_json access p) path v /\ same_kind v w.
Proof.
  intros H path w Hl. apply leaf_paths in Hl. unfold namesb in H. rewrite forallb_forall in H. specialize (H _ Hl). cbn [fst snd] in H.
  destruct (value_at (to_json access p) path) as [v|] eqn:E; [|discriminate]. exists v. split; [|apply kindb_kind; exact H].
  apply value_at_leaf; [apply good_param|exact E].
Qed.
Example C52_partial_file_example :
  representable true default /\ lists_filled default /\ ordered small_file /\
  (forall path w, leaf small_file path w -> exists v, leaf (to_json true default) path v /\ same_kind v w) /\
  (forall path, empty_at small_file path -> exists s rest v, leaf (to_json true default) (path ++ s :: rest) v) /\
  exists q, read true small_file default = Ok q /\ gridsizesnake (gvoxel (pgrid q)) = (4, 5, 6) /\ casename (fioin (pfiles q)) = "wing"%string.
Proof.
  split; [apply fine_representable; reflexivity|]. split; [split; [|split]; discriminate|].
  split.
  { apply good_ordered. repeat first [apply good_objs; intros ? ? [E|E]; [injection E as <- <-; split; [discriminate|]|]
      | apply good_value; reflexivity | apply good_obj; [constructor|intros ? ? []]
      | apply good_arr; intros ? [<-|[<-|[]]] | destruct E as [E|E]; [injection E as <- <-; split; [discriminate|]|] | destruct E]. }
  split; [apply names_ok; vm_compute; reflexivity|]. split.
  { intros path He. apply empty_holes in He. vm_compute in He. destruct He as [<-|[]].
    exists (Key "outdir"), [], (JStr ""). apply value_at_leaf; [apply good_param|]. vm_compute. reflexivity. }
  eexists. split; [vm_compute; reflexivity|]. split; reflexivity.
Qed.

(** C70: each string that gives a reference, the one-character separator and a
    text of the right type sets that value, the last one for a reference counting;
    nothing else changes, and the strings without a separator are counted. *)
Theorem C70_assigned stoi stod parse access p (c : ascii) rs :
  representable access p -> lists_filled p ->
  (forall path text w, In (Named path text w) rs -> ~ occurs c (reference path) /\
     exists v, leaf (to_json access p) path v /\ reads stoi stod parse v text w) ->
  (forall s, In (Stray s) rs -> ~ occurs c s) ->
  exists q, updatefromstring stoi stod parse access (String c "") (map (spelled (String c "")) rs) p = Ok (q, strays rs) /\
    (access = false -> pdev q = pdev p) /\
    forall path v, leaf (to_json access q) path v <->
      exists v0, leaf (to_json access p) path v0 /\ v = match assigned rs path with Some w => w | None => v0 end.
Proof.
  intros Rp Lp H1 H2. apply strings_update; [exact Lp|apply representable_ints; exact Rp|].
  intros [path text w|s] Hr; [apply H1; exact Hr|apply H2; exact Hr].
Qed.
Print Assumptions C70_assigned.
Definition no_number (s : string) : outcome Z := if (s =? "7")%string then Ok 7 else Throw.
Definition no_double (s : string) : outcome dbl := Throw.
Definition no_json (s : string) : outcome json := Throw.
Example C70_assigned_example :
  let rs := [Named [Key "snak"; Key "maxsteps"] "7" (JInt 7); Stray "nothing";
             Named [Key "files"; Key "ioin"; Key "casename"] "a:b" (JStr "a:b")] in
  (forall path text w, In (Named path text w) rs -> ~ occurs ":" (reference path) /\
     exists v, leaf (to_json true default) path v /\ reads no_number no_double no_json v text w) /\
  (forall s, In (Stray s) rs -> ~ occurs ":" s) /\
  exists q, updatefromstring no_number no_double no_json true ":" ["/snak/maxsteps:7"; "nothing"; "/files/ioin/casename:a:b"]%string default = Ok (q, 1) /\
    maxsteps (psnak q) = 7 /\ casename (fioin (pfiles q)) = "a:b"%string.
Proof.
  cbn zeta. split; [|split].
  - intros path text w [E|[E|[E|[]]]]; try discriminate; injection E as <- <- <-; (split; [cbn; intuition discriminate|]).
    + exists (JInt 50). split; [apply value_at_leaf; [apply good_param|vm_compute; reflexivity]|]. exists 7. split; [reflexivity|]. split; [lia|reflexivity].
    + exists (JStr ""). split; [apply value_at_leaf; [apply good_param|vm_compute; reflexivity]|]. reflexivity.
  - intros s [E|[E|[E|[]]]]; try discriminate. injection E as <-. cbn. intuition discriminate.
  - eexists. split; [vm_compute; reflexivity|]. split; reflexivity.
Qed.

(** An unknown key is only counted when it happens to be a reference that fits the
    tree: without a slash in front, or below a value or a list, the update throws. *)
Theorem C70_unknown_key_refuted : exists p, representable true p /\ lists_filled p /\ forall stoi stod parse,
  updatefromstring stoi stod parse true ":" ["unknown:1"]%string p = Throw /\
  updatefromstring stoi stod parse true ":" ["/snak/maxsteps/more:1"]%string p = Throw /\
  updatefromstring stoi stod parse true ":" ["/grid/domain/first:1"]%string p = Throw /\
  updatefromstring stoi stod parse true ":" ["/snak/unknown:1"]%string p = Ok (p, 1).
Proof.
  exists default. split; [apply fine_representable; reflexivity|]. split; [split; [|split]; discriminate|].
  intros stoi stod parse. split; [|split; [|split]]; vm_compute; reflexivity.
Qed.
Print Assumptions C70_unknown_key_refuted.

(** With a separator of two characters the second one becomes part of the value. *)
Theorem C70_long_separator_refuted : exists p, representable true p /\ lists_filled p /\ forall stoi stod parse,
  exists q, updatefromstring stoi stod parse true "::" ["/files/ioin/casename::wing"]%string p = Ok (q, 0) /\
    casename (fioin (pfiles q)) = ":wing"%string.
Proof.
  exists default. split; [apply fine_representable; reflexivity|]. split; [split; [|split]; discriminate|].
  intros stoi stod parse. eexists. split; vm_compute; reflexivity.
Qed.
Print Assumptions C70_long_separator_refuted.

Lemma split_at (c : ascii) s : ~ occurs c s \/ exists k t, s = (k ++ String c t)%string /\ ~ occurs c k.
Proof.
  induction s as [|d s IH]; [left; cbn; tauto|]. destruct (ascii_dec c d) as [<-|N]; [right; exists EmptyString, s; cbn; tauto|].
  destruct IH as [IH|(k & t & -> & H)]; [left; cbn; tauto|right; exists (String d k), t; cbn; tauto].
Qed.
Lemma split_unique (c : ascii) k t k' t' : ~ occurs c k -> ~ occurs c k' -> (k ++ String c t)%string = (k' ++ String c t')%string -> k = k' /\ t = t'.
Proof.
  revert k'. induction k as [|d k IH]; intros [|d' k'] H H' E; cbn in *.
  - injection E as ->. auto.
  - injection E as -> _. tauto.
  - injection E as -> _. tauto.
  - injection E as -> E. destruct (IH k') as [-> ->]; auto.
Qed.
Definition settable (v : json) : bool := match v with JStr _ | JInt _ | JFloat _ | JBool _ => true | _ => false end.
Lemma one_counted stoi stod parse c (known : string -> Prop) s m n m' n' : (forall t b, parse t = Ok b -> exists x, b = JBool x) ->
  smap m -> (forall k, known k <-> exists v, lookup m k = Some v /\ settable v = true) ->
  update_one stoi stod parse (String c "") s (m, n) = Ok (m', n') ->
  smap m' /\ (forall k, known k <-> exists v, lookup m' k = Some v /\ settable v = true) /\
  ((n' = n /\ exists k t, s = (k ++ String c t)%string /\ ~ occurs c k /\ known k) \/ (n' = n + 1 /\ ~ exists k t, s = (k ++ String c t)%string /\ ~ occurs c k /\ known k)).
Proof.
  intros P S K E. destruct (split_at c s) as [H|(k & t & -> & H)].
  - unfold update_one in E. rewrite index_absent in E by auto. injection E as <- <-. split; auto. split; auto. right. split; auto.
    intros (k & t & -> & _). apply H. clear. induction k; cbn; auto.
  - unfold update_one in E. rewrite index_found in E by exact H. rewrite length_app in E.
    destruct (Nat.ltb_spec (String.length k + 1 + String.length t) (String.length k + 1)) as [Hx|Hx]; [lia|].
    rewrite substring_first in E. rewrite <- length_app with (c := c) in E. rewrite substring_rest in E.
    assert (No : ~ known k -> ~ exists k0 t0, (k ++ String c t)%string = (k0 ++ String c t0)%string /\ ~ occurs c k0 /\ known k0).
    { intros N (k0 & t0 & E0 & H0 & K0). destruct (@split_unique _ _ _ _ _ H H0 E0) as [<- <-]. auto. }
    assert (Ins : forall w, settable w = true -> known k -> forall x, known x <-> exists v, lookup (insert m k w) x = Some v /\ settable v = true).
    { intros w W Kk x. rewrite lookup_insert by exact S. destruct (String.eqb_spec k x) as [<-|]; [|apply K]. split; eauto. }
    assert (Nk : forall u, lookup m k = u -> match u with Some v => settable v = false | None => True end -> ~ known k).
    { intros u L U Kk. apply K in Kk as (v & L' & W). rewrite L in L'. subst u. rewrite L' in U. congruence. }
    destruct (lookup m k) as [[| | | | | | ]|] eqn:L; try (injection E as <- <-);
      try (destruct (stoi t) as [?| | |]; try discriminate; cbn [bind] in E; injection E as <- <-);
      try (destruct (stod t) as [?| | |]; try discriminate; cbn [bind] in E; injection E as <- <-);
      try (destruct (parse t) as [?| | |] eqn:Pt; try discriminate; cbn [bind] in E; injection E as <- <-; apply P in Pt as [? ->]).
    all: try (split; [apply insert_sorted; exact S|split; [apply Ins; [reflexivity|apply K; eexists; split; [exact L|reflexivity]]|left; split; auto; exists k, t; split; auto; split; auto; apply K; eexists; split; [exact L|reflexivity]]]).
    all: try (split; [exact S|split; [exact K|right; split; auto; apply No; eapply Nk; [reflexivity|reflexivity]]]).
    split; [apply insert_sorted; exact S|]. assert (N : ~ known k) by (eapply Nk; [reflexivity|exact I]). split; [|right; split; auto].
    intros x. rewrite lookup_insert by exact S. destruct (String.eqb_spec k x) as [<-|]; [|apply K]. split; [tauto|]. intros (v & V & W). injection V as <-. discriminate.
Qed.
(** C70: each string is counted as a failure exactly when it does not start with the
    reference of a value and the separator, also when it is given more than once. *)
Theorem C70_failures stoi stod parse access p (c : ascii) l q n : lists_filled p -> (forall t b, parse t = Ok b -> exists x, b = JBool x) ->
  updatefromstring stoi stod parse access (String c "") l p = Ok (q, n) ->
  exists marks : list bool, length marks = length l /\ n = Z.of_nat (length (List.filter (fun b => b) marks)) /\
    forall i s, nth_error l i = Some s -> (nth_error marks i = Some false <->
      exists path v text, leaf (to_json access p) path v /\ v <> JNull /\ ~ occurs c (reference path) /\ s = (reference path ++ String c text)%string).
Proof.
  intros LP P E. unfold updatefromstring in E. rewrite flatten_flat in E.
  destruct (update_strings stoi stod parse (String c "") l (flat (to_json access p), 0)) as [[m1 n1]| | |] eqn:U; try discriminate. cbn [bind] in E.
  destruct (unflatten (JObj m1)) as [j| | |]; try discriminate. cbn [bind] in E. destruct (from_json access j p) as [p1| | |]; try discriminate. cbn [bind] in E. injection E as _ ->.
  set (known := fun k => exists path v, leaf (to_json access p) path v /\ v <> JNull /\ k = reference path).
  assert (Pr : forall j path v, leaf j path v -> primitive v = true) by (induction 1; auto).
  assert (K : forall k, known k <-> exists v, lookup (flat (to_json access p)) k = Some v /\ settable v = true).
  { intros k. split.
    - intros (path & v & L & N & ->). exists v. split; [apply flat_cell; [apply good_param|]; exists (toks path); rewrite reference_join; split; auto; now apply leaf_cell|].
      apply Pr in L. destruct v; try discriminate; try reflexivity. congruence.
    - intros (v & L & W). apply flat_cell in L; [|apply good_param]. destruct L as (t & -> & C). destruct (cell_leaf C) as [path [-> [Hl|[_ He]]]]; [|exfalso; apply (@ne_param access p LP _ He)].
      exists path, v. rewrite reference_join. split; auto. split; auto. intros ->. discriminate. }
  assert (G : forall l m n m1 n1, smap m -> (forall k, known k <-> exists v, lookup m k = Some v /\ settable v = true) -> update_strings stoi stod parse (String c "") l (m, n) = Ok (m1, n1) ->
    exists marks : list bool, length marks = length l /\ n1 = n + Z.of_nat (length (List.filter (fun b => b) marks)) /\
      forall i s, nth_error l i = Some s -> (nth_error marks i = Some false <-> exists k t, s = (k ++ String c t)%string /\ ~ occurs c k /\ known k)).
  { clear U. clear l m1 n. intros l. induction l as [|s l IH]; intros m n m1 n2 S Km U; cbn [update_strings] in U.
    - injection U as <- <-. exists []. split; auto. split; [cbn; lia|]. intros [|i]; discriminate.
    - destruct (update_one stoi stod parse (String c "") s (m, n)) as [[m2 n3]| | |] eqn:U1; try discriminate. cbn [bind] in U.
      destruct (@one_counted _ _ _ _ _ _ _ _ _ _ P S Km U1) as (S2 & K2 & D). destruct (IH m2 n3 m1 n2 S2 K2 U) as (marks & L & -> & H).
      destruct D as [[-> D]|[-> D]]; [exists (false :: marks)|exists (true :: marks)]; (split; [cbn; lia|]); (split; [cbn [List.filter length]; lia|]);
        (intros [|i] s' Hs; [injection Hs as <-|apply (H i s' Hs)]); cbn [nth_error]; split; auto; try discriminate; tauto. }
  destruct (G l _ 0 m1 n (flat_sorted _) K U) as (marks & L & -> & H). exists marks. split; auto. split; auto.
  intros i s Hs. rewrite (H i s Hs). split.
  - intros (k & t & -> & O & path & v & Lf & N & ->). exists path, v, t. auto.
  - intros (path & v & t & Lf & N & O & ->). exists (reference path), t. split; auto. split; auto. exists path, v. auto.
Qed.
Print Assumptions C70_failures.
Example C70_failures_used : lists_filled default /\
  exists q, updatefromstring no_number no_double no_json true ":" ["/snak/unknown:1"; "/snak/maxsteps:7"; "nothing"; "/snak/unknown:2"]%string default = Ok (q, 3) /\ maxsteps (psnak q) = 7.
Proof. split; [split; [|split]; discriminate|]. eexists. split; [vm_compute; reflexivity|reflexivity]. Qed.
