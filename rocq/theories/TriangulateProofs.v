(** Lemmas about the triangles of surfaces. *)
From Coq Require Import Reals List Lia ZArith Bool.
From Verif Require Import Base Containers Mesh Order Edit SpecMesh SpecOrder OrderMeshProofs PropsOrder Calc Triangulate SpecTriangulate.
Set Implicit Arguments.
Open Scope Z_scope.

Lemma nth_error_ext A (l l' : list A) : (forall i, nth_error l i = nth_error l' i) -> l = l'.
Proof.
  revert l'. induction l as [|a l IH]; intros [|b l'] H; auto; try (specialize (H 0%nat); discriminate).
  pose proof (H 0%nat) as H0. injection H0 as ->. f_equal. apply IH. intros i. apply (H (S i)).
Qed.

Section Push.
Variable A : Type.
Variable index : A -> Z.

Lemma push_all_items (l : list A) : forall r, items (push_all index r l) = items r ++ l.
Proof.
  induction l as [|a l IH]; intros r; cbn [push_all fold_left]; [rewrite app_nil_r; auto|].
  change (items (push_all index (push index r a) l) = items r ++ a :: l). rewrite IH. cbn. rewrite <- app_assoc. auto.
Qed.
Lemma push_all_top (l : list A) : forall r, numbered (top r) (map index l) -> top (push_all index r l) = top r + Z.of_nat (length l).
Proof.
  induction l as [|a l IH]; intros r H; cbn [push_all fold_left length]; [lia|].
  change (top (push_all index (push index r a) l) = top r + Z.of_nat (S (length l))).
  pose proof (H 0%nat (index a) eq_refl) as H0.
  assert (T : top (push index r a) = top r + 1) by (cbn; destruct (Z.ltb_spec (top r) (index a)); lia).
  rewrite IH; [rewrite T; lia|]. intros i x Hx. rewrite T. rewrite (H (S i) x Hx). lia.
Qed.
Lemma push_top_ge r a : top r <= top (push index r a) /\ index a <= top (push index r a).
Proof. cbn. destruct (Z.ltb_spec (top r) (index a)); lia. Qed.
End Push.

Lemma numbered_app a l l' : numbered a (l ++ l') <-> numbered a l /\ numbered (a + Z.of_nat (length l)) l'.
Proof.
  split.
  - intros H. split.
    + intros i x Hx. apply H. rewrite nth_error_app1; auto. apply nth_error_Some. congruence.
    + intros i x Hx. rewrite (H (length l + i)%nat x); [lia|]. rewrite nth_error_app2 by lia. replace (length l + i - length l)%nat with i by lia. auto.
  - intros [H1 H2] i x Hx. destruct (Nat.lt_ge_cases i (length l)) as [L|L].
    + rewrite nth_error_app1 in Hx by auto. auto.
    + rewrite nth_error_app2 in Hx by auto. apply H2 in Hx. lia.
Qed.
Lemma numbered_nil a : numbered a [].
Proof. intros [|i] x; discriminate. Qed.
Lemma numbered_In a l x : numbered a l -> In x l -> a < x.
Proof. intros H I. apply In_nth_error in I as [i Hi]. apply H in Hi. lia. Qed.
Lemma numbered_NoDup a l : numbered a l -> NoDup l.
Proof.
  intros H. apply NoDup_nth_error. intros i j Li E. destruct (nth_error l i) as [x|] eqn:Ei; [|apply nth_error_None in Ei; lia].
  symmetry in E. apply H in Ei, E. lia.
Qed.

Lemma omap_list_ok A B (f : A -> outcome B) (g : A -> B) l : (forall a, In a l -> f a = Ok (g a)) -> omap_list f l = Ok (map g l).
Proof. induction l as [|a l IH]; intros H; cbn; auto. rewrite H by (left; auto). cbn. rewrite IH by (intros; apply H; right; auto). auto. Qed.
Lemma omap_list_inv A B (f : A -> outcome B) l r : omap_list f l = Ok r -> Forall2 (fun a b => f a = Ok b) l r.
Proof.
  revert r. induction l as [|a l IH]; intros r; cbn; [intros [= <-]; constructor|].
  destruct (f a) as [b| | |] eqn:E; cbn; try discriminate. destruct (omap_list f l) as [bs| | |]; cbn; try discriminate. intros [= <-]. constructor; auto.
Qed.

(** The sides of a polygon of [n] corners. *)
Lemma sides_ok A (d : A) (l : list A) : l <> [] -> sides l (length l) = Ok (map (fun i => (nth i l d, nth ((i + 1) mod length l) l d)) (seq 0 (length l))).
Proof.
  intros NE. assert (P : (0 < length l)%nat) by (destruct l; [congruence|cbn; lia]). unfold sides. apply omap_list_ok. intros i Hi. apply in_seq in Hi.
  assert (G : forall j, (j < length l)%nat -> at_ l (Z.of_nat j) = Ok (nth j l d)).
  { intros j Lj. apply at_Ok. split; [lia|]. rewrite Nat2Z.id. apply nth_error_nth'. auto. }
  rewrite G by lia. cbn [bind]. rewrite G by (apply Nat.mod_upper_bound; lia). auto.
Qed.

Section Fan.
Variables (next : Z) (third : Z * Z) (parent : Z) (cells : list Z) (infl : list R).
Lemma fan_length l : length (fan next third parent cells infl l) = length l.
Proof. unfold fan. rewrite map_length, combine_length, seq_length. lia. Qed.
Lemma fan_nth l i f : nth_error (fan next third parent cells infl l) i = Some f ->
  exists p, nth_error l i = Some p /\ f = mkFace (mkTri (next + Z.of_nat i + 1) [fst p; snd p; third] cells infl) parent.
Proof.
  unfold fan. rewrite nth_error_map. destruct (nth_error (combine (seq 0 (length l)) l) i) as [[j p]|] eqn:E; cbn; [|discriminate]. intros [= <-].
  assert (Li : (i < length l)%nat). { assert (i < length (combine (seq 0 (length l)) l))%nat by (apply nth_error_Some; congruence). rewrite combine_length, seq_length in H. lia. }
  assert (K : nth_error (combine (seq 0 (length l)) l) i = Some ((i + 0)%nat, nth i l p)).
  { clear - Li. generalize 0%nat as s. revert i Li. induction l as [|a l IH]; intros i Li s; cbn in *; [lia|].
    destruct i as [|i]; cbn; auto. rewrite IH by lia. f_equal. f_equal. lia. }
  rewrite E in K. injection K as -> E2. rewrite Nat.add_0_r. exists p. split; auto. rewrite (nth_error_nth' l p Li). congruence.
Qed.
Lemma fan_numbered l : numbered next (map fc_index (fan next third parent cells infl l)).
Proof.
  intros i x. rewrite nth_error_map. destruct (nth_error (fan next third parent cells infl l) i) as [f|] eqn:E; cbn; [|discriminate]. intros [= <-].
  destruct (fan_nth _ _ E) as (p & _ & ->). reflexivity.
Qed.
Lemma fan_In l f : In f (fan next third parent cells infl l) -> fc_parent f = parent /\ celltarg (fc_tri f) = cells /\ influence (fc_tri f) = infl.
Proof. intros I. apply In_nth_error in I as [i Hi]. destruct (fan_nth _ _ Hi) as (p & _ & ->). cbn. auto. Qed.
End Fan.

(** ** One surface *)
(** What one call adds: [ts] to the triangles and [cs] to the points. *)
Definition adds (next v : Z) (l : list (Z * Z)) (parent typ : Z) (cells : list Z) (infl : list R) (ts : list face) (cs : list centre) : Prop :=
  fan_of l parent typ ts cs /\ signed cells infl ts /\ numbered next (map fc_index ts) /\ (forall c, In c cs -> cn_index c = v + 1) /\ (length cs <= 1)%nat.

Lemma fan_adds next v l parent typ cells infl inf : (3 < length l)%nat -> exists ps, sides l (length l) = Ok ps /\
  adds next v l parent typ cells infl (fan next (t_tri, v + 1) parent cells infl ps) [mkCentre (v + 1) parent typ inf].
Proof.
  intros L. assert (NE : l <> []) by (destruct l; cbn in L; [lia|congruence]). exists (map (fun i => (nth i l (0, 0), nth ((i + 1) mod length l) l (0, 0))) (seq 0 (length l))).
  split; [apply sides_ok; auto|].
  set (ps := map _ _). assert (Lp : length ps = length l) by (unfold ps; rewrite map_length, seq_length; auto).
  split; [|split; [|split; [apply fan_numbered|split; [intros c [<-|[]]; auto|cbn; auto]]]].
  - split; [intros f I; apply (fan_In _ _ _ _ _ _ _ I)|]. right. split; auto. split; [rewrite fan_length; auto|].
    eexists. split; [reflexivity|]. split; [reflexivity|]. split; [reflexivity|]. intros i f Hf. cbn [cn_index].
    destruct (fan_nth _ _ _ _ _ _ _ Hf) as (p & Hp & ->). unfold ps in Hp.
    assert (Li : (i < length l)%nat) by (rewrite <- Lp; apply nth_error_Some; unfold ps; congruence).
    rewrite nth_error_map in Hp. replace (nth_error (seq 0 (length l)) i) with (Some i) in Hp.
    2:{ symmetry. rewrite (nth_error_nth' (seq 0 (length l)) 0%nat) by (rewrite seq_length; auto). rewrite seq_nth by auto. auto. }
    injection Hp as <-. exists (nth i l (0, 0)), (nth ((i + 1) mod length l) l (0, 0)).
    split; [apply nth_error_nth'; auto|]. split; [apply nth_error_nth'; apply Nat.mod_upper_bound; lia|]. reflexivity.
  - intros f I. apply (fan_In _ _ _ _ _ _ _ I).
Qed.
Lemma one_adds next v l parent typ cells infl : length l = 3%nat ->
  adds next v l parent typ cells infl [mkFace (mkTri (next + 1) l cells infl) parent] [].
Proof.
  intros L. split; [|split; [|split; [|split; [intros c []|cbn; auto]]]].
  - split; [intros f [<-|[]]; auto|]. left. auto.
  - intros f [<-|[]]; auto.
  - intros [|[|i]] x; cbn; try discriminate. intros [= <-]. lia.
Qed.

(** The cells and signs given to the triangles of a surface of each type. *)
Definition cells_for (typ : Z) (s : surf) : list Z := if typ =? t_snake then [] else su_voluind s.
Definition signs_for (typ : Z) : list R := if typ =? t_snake then [] else [(-1)%R; 1%R].

Lemma push_is A (index : A -> Z) r a : push index r a = push_all index r [a].
Proof. reflexivity. Qed.

Lemma surface_adds m s vs typ v tri tv : NoDup (map ed_index (edges m)) -> outlined m s vs ->
  exists ts cs, triangulate_surface m s typ v (tri, tv) = Ok (push_all fc_index tri ts, push_all cn_index tv cs) /\
  adds (top tri) v (map (pair typ) vs) (su_index s) typ (cells_for typ s) (signs_for typ) ts cs.
Proof.
  intros U (L & N & P). assert (Ln : length (su_edgeind s) = length vs) by (destruct P; auto).
  unfold triangulate_surface. rewrite (@C22_ordered_verts m (su_edgeind s) vs) by (auto; lia). cbn [bind].
  rewrite Ln. destruct (Nat.ltb_spec (length vs) 3) as [K|_]; [lia|].
  replace (if negb (typ =? t_snake) then su_voluind s else []) with (cells_for typ s) by (unfold cells_for; destruct (typ =? t_snake); auto).
  replace (if negb (typ =? t_snake) then [(-1)%R; 1%R] else []) with (signs_for typ) by (unfold signs_for; destruct (typ =? t_snake); auto).
  destruct (Nat.ltb_spec 3 (length vs)) as [K|K].
  - assert (Lm : length (map (pair typ) vs) = length vs) by apply map_length.
    destruct (@fan_adds (top tri) v (map (pair typ) vs) (su_index s) typ (cells_for typ s) (signs_for typ) (if typ =? t_snake then Z.of_nat (length vs) else 0)) as (ps & E & Ad); [lia|].
    rewrite Lm in E. rewrite E. cbn [bind]. eexists _, _. split; [|exact Ad]. reflexivity.
  - exists [mkFace (mkTri (top tri + 1) (map (pair typ) vs) (cells_for typ s) (signs_for typ)) (su_index s)], []. split; [reflexivity|]. apply one_adds. rewrite map_length. lia.
Qed.
Lemma trisurf_adds s typ v tri tv : (3 <= length (ts_corners s))%nat ->
  exists ts cs, triangulate_trisurf s typ v (tri, tv) = Ok (push_all fc_index tri ts, push_all cn_index tv cs) /\
  adds (top tri) v (ts_corners s) (ts_index s) typ (ts_volu s) [(-1)%R; 1%R] ts cs.
Proof.
  intros L. unfold triangulate_trisurf. destruct (Nat.ltb_spec (length (ts_corners s)) 3) as [K|_]; [lia|].
  destruct (Nat.ltb_spec 3 (length (ts_corners s))) as [K|K].
  - destruct (@fan_adds (top tri) v (ts_corners s) (ts_index s) typ (ts_volu s) [(-1)%R; 1%R]
      (if typ =? t_snake then Z.of_nat (length (filter (fun q => fst q =? t_snake) (ts_corners s))) else 0)) as (ps & E & Ad); [lia|].
    rewrite E. cbn [bind]. eexists _, _. split; [|exact Ad]. reflexivity.
  - exists [mkFace (mkTri (top tri + 1) (ts_corners s) (ts_volu s) [(-1)%R; 1%R]) (ts_index s)], []. split; [reflexivity|]. apply one_adds. lia.
Qed.

(** ** Several surfaces *)
(** The corners, index, type, cells and signs of a surface. *)
Definition task : Type := list (Z * Z) * Z * list Z * list R.
Definition done_for (typ : Z) (x : task) (p : list face * list centre) : Prop :=
  let '(l, parent, cells, infl) := x in fan_of l parent typ (fst p) (snd p) /\ signed cells infl (fst p).
Section Each.
Variables (A : Type) (f : A -> Z -> arr face * arr centre -> outcome (arr face * arr centre)) (typ : Z) (look : A -> task -> Prop).
Hypothesis Hf : forall a x v tri tv, look a x -> exists ts cs, f a v (tri, tv) = Ok (push_all fc_index tri ts, push_all cn_index tv cs) /\
  let '(l, parent, cells, infl) := x in adds (top tri) v l parent typ cells infl ts cs.

Lemma each_adds l xs : Forall2 look l xs -> forall v tri tv, exists parts,
  each_surface f l v (tri, tv) = Ok (push_all fc_index tri (concat (map fst parts)), push_all cn_index tv (concat (map snd parts))) /\
  Forall2 (done_for typ) xs parts /\ numbered (top tri) (map fc_index (concat (map fst parts))) /\
  NoDup (map cn_index (concat (map snd parts))) /\ (forall c, In c (concat (map snd parts)) -> v + 1 < cn_index c).
Proof.
  induction 1 as [|a x l xs Ha Hl IH]; intros v tri tv.
  - exists []. cbn. repeat split; auto; try constructor. intros [|i] x; discriminate. intros c [].
  - destruct (Hf (v + 1) tri tv Ha) as (ts & cs & E & Ad). destruct x as [[[lx px] cx] ix]. destruct Ad as (Fa & Sg & Nu & Ce & Le).
    destruct (IH (v + 1) (push_all fc_index tri ts) (push_all cn_index tv cs)) as (parts & E' & F2 & N2 & D2 & G2).
    exists ((ts, cs) :: parts). cbn [each_surface map concat fst snd]. rewrite E. cbn [bind]. rewrite E'.
    unfold push_all. rewrite <- !fold_left_app. split; [reflexivity|]. split; [constructor; auto; cbn; auto|].
    rewrite push_all_top in N2 by auto.
    split; [rewrite map_app; apply numbered_app; rewrite map_length; auto|].
    split.
    + rewrite map_app. assert (Q : NoDup (map cn_index cs)) by (destruct cs as [|c [|]]; cbn in *; try lia; repeat constructor; auto).
      clear - Q D2 G2 Ce. set (ys := concat (map snd parts)) in *.
      induction cs as [|c cs IH]; cbn; auto. inversion Q; subst. constructor.
      * rewrite in_app_iff. intros [I|I]; [contradiction|]. apply in_map_iff in I as (y & Ey & Iy). apply G2 in Iy. rewrite (Ce c) in Ey by (left; auto). lia.
      * apply IH; auto. intros; apply Ce; right; auto.
    + intros c I. apply in_app_iff in I as [I|I]; [apply Ce in I; lia|apply G2 in I; lia].
Qed.
End Each.

(** Numbering again changes nothing. *)
Lemma renumber_same (r : arr face) (l : list face) : numbered (top r) (map fc_index l) ->
  renumber (length (items r)) (top r) (push_all fc_index r l) = push_all fc_index r l.
Proof.
  intros H. unfold renumber. assert (I := push_all_items fc_index l r). assert (T := push_all_top fc_index l r H).
  destruct (push_all fc_index r l) as [it tp]. cbn [items top] in *. subst it. f_equal.
  rewrite firstn_app, Nat.sub_diag, firstn_O, app_nil_r, firstn_all. rewrite skipn_app, Nat.sub_diag, skipn_O, skipn_all. cbn [app]. f_equal.
  rewrite app_length. replace (length (items r) + length l - length (items r))%nat with (length l) by lia.
  apply nth_error_ext. intros i. rewrite nth_error_map.
  destruct (nth_error l i) as [f|] eqn:E.
  - assert (Li : (i < length l)%nat) by (apply nth_error_Some; congruence).
    assert (K : nth_error (combine (seq 0 (length l)) l) i = Some (i, f)).
    { transitivity (Some ((i + 0)%nat, f)); [|rewrite Nat.add_0_r; auto]. clear - E. generalize 0%nat as s. revert i E. induction l as [|a l IH]; intros i E s; [destruct i; discriminate|].
      destruct i as [|i]; cbn in *; [injection E as ->; auto|]. rewrite (IH i E). f_equal. f_equal. lia. }
    rewrite K. cbn. f_equal. specialize (H i (fc_index f)). rewrite nth_error_map, E in H. specialize (H eq_refl).
    destruct f as [[ix pts ce inf] pa]. unfold set_index, fc_index in *. cbn in *. f_equal. f_equal. lia.
  - apply nth_error_None in E. replace (nth_error (combine (seq 0 (length l)) l) i) with (@None (nat * face)); auto.
    symmetry. apply nth_error_None. rewrite combine_length, seq_length. lia.
Qed.

Lemma tidy_push_all A (index : A -> Z) r l : tidy index r -> NoDup (map index l) -> (forall a, In a l -> top r < index a) ->
  tidy index (push_all index r l).
Proof.
  intros [N T] D G. split.
  - rewrite push_all_items, map_app. clear - N T D G. induction (items r) as [|a s IH]; cbn; auto. inversion N; subst. constructor.
    + rewrite in_app_iff. intros [I|I]; [contradiction|]. apply in_map_iff in I as (y & E & I). apply G in I. specialize (T a (or_introl eq_refl)). lia.
    + apply IH; auto. intros; apply T; right; auto.
  - intros a I. rewrite push_all_items in I. clear - T I. revert r T a I. induction l as [|b l IH]; intros r T a I; cbn [push_all fold_left].
    + rewrite app_nil_r in I. auto.
    + change (index a <= top (push_all index (push index r b) l)). apply IH.
      * intros x Hx. destruct (push_top_ge index r b) as [P Q]. cbn [items push] in Hx. apply in_app_iff in Hx as [Hx|[<-|[]]]; [apply T in Hx; lia|lia].
      * cbn [items push]. rewrite <- app_assoc. auto.
Qed.
