(** Walking along the parts of a surface: single moves. *)
From Coq Require Import List ZArith Lia Arith Permutation.
From Verif Require Import Base Containers ContainersProofs Mesh SpecMesh MeshProofs FloodProofs Order SpecOrder OrderProofs OrderMeshProofs Edit SpecEdit EditProofs Calc Triangulate SpecTriangulate TriangulateProofs SpecWalk.
Import Mesh.
Set Implicit Arguments.
Open Scope Z_scope.

(** ** Along an edge *)
Lemma on_edge_In k e x : In x (on_edge k e) <-> snaxel_on k e x.
Proof. unfold on_edge, snaxel_on. rewrite filter_In, Z.eqb_eq. tauto. Qed.
Lemma nearest_spec (before : Z -> Z -> bool) cur : (forall a b, before a b = true -> before b a = false) ->
  (forall a b c, before a b = true -> before b c = true -> before a c = true) ->
  (forall a b, before a b = false -> a = b \/ before b a = true) ->
  forall l acc, (match acc with None => True | Some y => before (sx_order y) cur = true end) ->
  match fold_left (fun acc x => if before (sx_order x) cur && match acc with None => true | Some y => before (sx_order y) (sx_order x) end
                                then Some x else acc) l acc with
  | None => acc = None /\ forall z, In z l -> before (sx_order z) cur = false
  | Some y => before (sx_order y) cur = true /\ (In y l \/ acc = Some y) /\
              (forall z, In z l \/ acc = Some z -> before (sx_order z) cur = true -> sx_order z = sx_order y \/ before (sx_order z) (sx_order y) = true)
  end.
Proof.
  intros Asym Trans Tot. induction l as [|x l IH]; intros acc A; cbn [fold_left].
  - destruct acc as [y|]; [|split; [easy|intros z []]]. split; [exact A|]. split; [now right|]. intros z [[]|E] _. injection E as ->. now left.
  - destruct (before (sx_order x) cur) eqn:Bx; cbn [andb].
    + assert (St : forall acc', (acc' = Some x /\ match acc with None => True | Some y => before (sx_order y) (sx_order x) = true end) \/ (acc' = acc /\ exists y, acc = Some y /\ before (sx_order y) (sx_order x) = false) ->
        match fold_left (fun acc x => if before (sx_order x) cur && match acc with None => true | Some y => before (sx_order y) (sx_order x) end then Some x else acc) l acc' with
        | None => acc = None /\ forall z, In z (x :: l) -> before (sx_order z) cur = false
        | Some y => before (sx_order y) cur = true /\ (In y (x :: l) \/ acc = Some y) /\
              (forall z, In z (x :: l) \/ acc = Some z -> before (sx_order z) cur = true -> sx_order z = sx_order y \/ before (sx_order z) (sx_order y) = true) end).
      { intros acc' H. specialize (IH acc'). destruct H as [[-> H]|[-> (y0 & E0 & H)]].
        - specialize (IH Bx). destruct (fold_left _ l (Some x)) as [y|]; [|now destruct IH].
          destruct IH as (B & I & N). split; [exact B|]. split; [destruct I as [I|I]; [left; now right|injection I as ->; left; now left]|].
          assert (Nx := N x (or_intror eq_refl) Bx). intros z [[->|Iz]|Ez] Bz; auto.
          destruct acc as [w|]; [|easy]. injection Ez as ->. destruct Nx as [<-|Nx]; eauto.
        - rewrite E0 in *. specialize (IH A). destruct (fold_left _ l (Some y0)) as [y|]; [|now destruct IH].
          destruct IH as (B & I & N). split; [exact B|]. split; [destruct I as [I|I]; [left; now right|now right]|].
          intros z [[->|Iz]|Ez] Bz; auto. assert (N0 := N y0 (or_intror eq_refl) A).
          destruct (Tot _ _ H) as [E|E]; [rewrite <- E; exact N0|]. right. destruct N0 as [<-|N0]; eauto. }
      destruct acc as [y|].
      * destruct (before (sx_order y) (sx_order x)) eqn:By; apply St; [left; split; auto|right; split; eauto].
      * apply St. left. split; auto.
    + specialize (IH acc A). destruct (fold_left _ l acc) as [y|].
      * destruct IH as (B & I & N). split; [exact B|]. split; [destruct I; [left; now right|now right]|]. intros z [[->|Iz]|Ez] Bz; auto; congruence.
      * destruct IH as [E N]. split; [exact E|]. intros z [->|Iz]; auto.
Qed.
Lemma isearch_in {A} (index : A -> Z) (l : list A) a : NoDup (map index l) -> In a l -> isearch index l (index a) = Ok a.
Proof.
  intros N I. unfold isearch. destruct (@find_at _ index l (index a)) as (y & Hy & Iy & Ey); [exists a; auto|].
  rewrite Hy. f_equal. eapply NoDup_idx_inj; eauto.
Qed.
Lemma follow_snaxel_spec k x : NoDup (map sx_index (sk_snaxs k)) -> In x (sk_snaxs k) ->
  (exists y, met_first k x y /\ follow_snaxel k (sx_index x) = Ok (t_snake, sx_index y, sx_edge x)) \/
  ((forall z, snaxel_on k (sx_edge x) z -> ~ behind x z) /\ follow_snaxel k (sx_index x) = Ok (t_mesh, sx_from x, sx_edge x)).
Proof.
  intros N I. unfold follow_snaxel. rewrite (isearch_in sx_index _ x N I). cbn [bind]. set (sib := on_edge k (sx_edge x)).
  destruct (Nat.eqb_spec (length sib) 1) as [L|L].
  - right. split; [|reflexivity]. intros z Hz Bz. assert (Sx : In x sib) by (apply on_edge_In; split; auto).
    assert (Sz : In z sib) by (apply on_edge_In; auto). destruct sib as [|a [|b r]]; cbn in L; try lia.
    destruct Sx as [->|[]], Sz as [->|[]]. unfold behind in Bz. lia.
  - unfold nearest. destruct (Z.ltb_spec (sx_from x) (sx_to x)) as [D|D].
    + assert (H := @nearest_spec Z.ltb (sx_order x) ltac:(intros; rewrite Z.ltb_lt, Z.ltb_ge in *; lia) ltac:(intros; rewrite Z.ltb_lt in *; lia)
        ltac:(intros; rewrite Z.ltb_lt, Z.ltb_ge in *; lia) sib None Logic.I).
      destruct (fold_left _ sib None) as [y|].
      * destruct H as (B & [Y|Y] & M); [|easy]. left. exists y. split; [|reflexivity]. split; [now apply on_edge_In|]. rewrite Z.ltb_lt in B.
        split; [left; lia|]. intros z Hz Bz. split; [|lia]. intros _. assert (Bz' : (sx_order z <? sx_order x) = true) by (rewrite Z.ltb_lt; unfold behind in Bz; lia).
        destruct (M z (or_introl (proj2 (on_edge_In k _ z) Hz)) Bz') as [E|E]; [lia|rewrite Z.ltb_lt in E; lia].
      * destruct H as [_ M]. right. split; [|reflexivity]. intros z Hz Bz. assert (E := M z (proj2 (on_edge_In k _ z) Hz)). rewrite Z.ltb_ge in E. unfold behind in Bz. lia.
    + assert (H := @nearest_spec Z.gtb (sx_order x) ltac:(intros; rewrite Z.gtb_ltb in *; rewrite Z.ltb_lt, Z.ltb_ge in *; lia) ltac:(intros; rewrite Z.gtb_ltb in *; rewrite Z.ltb_lt in *; lia)
        ltac:(intros; rewrite Z.gtb_ltb in *; rewrite Z.ltb_lt, Z.ltb_ge in *; lia) sib None Logic.I).
      destruct (fold_left _ sib None) as [y|].
      * destruct H as (B & [Y|Y] & M); [|easy]. left. exists y. split; [|reflexivity]. split; [now apply on_edge_In|]. rewrite Z.gtb_ltb, Z.ltb_lt in B.
        split; [right; lia|]. intros z Hz Bz. split; [lia|]. intros _. assert (Bz' : (sx_order z >? sx_order x) = true) by (rewrite Z.gtb_ltb, Z.ltb_lt; unfold behind in Bz; lia).
        destruct (M z (or_introl (proj2 (on_edge_In k _ z) Hz)) Bz') as [E|E]; [lia|rewrite Z.gtb_ltb, Z.ltb_lt in E; lia].
      * destruct H as [_ M]. right. split; [|reflexivity]. intros z Hz Bz. assert (E := M z (proj2 (on_edge_In k _ z) Hz)). rewrite Z.gtb_ltb, Z.ltb_ge in E. unfold behind in Bz. lia.
Qed.

(** ** From a vertex *)
Lemma edge_pairs_ok m l : NoDup (map ed_index (edges m)) -> simple_loops m l ->
  exists es, edge_pairs m l = Ok (flat_map ed_vertind es) /\ Forall2 (entry m) l es.
Proof.
  intros Hu [S1 _]. assert (Hes : exists es, omap_list (fun e => at_ (edges m) (find ed_index (edges m) e)) l = Ok es /\ Forall2 (entry m) l es).
  { apply FloodProofs.omap_list_ok. intros e He. destruct (S1 e He) as (a & b & (x & Hx & Ex & Vx) & _).
    destruct (@find_at _ ed_index (edges m) e) as (y & Hy & Hi & Ei); [exists x; auto|].
    exists y. split; auto. split; auto. split; auto.
    assert (x = y) by (eapply (@NoDup_idx_inj _ ed_index); eauto; congruence). subst y. eauto. }
  destruct Hes as (es & Hr & Hes). exists es. split; auto. unfold edge_pairs. now rewrite Hr.
Qed.
Lemma joins_fun m e v w w' : NoDup (map ed_index (edges m)) -> edge_joins m e v w -> edge_joins m e v w' -> w = w'.
Proof.
  intros Hu [A|A] [B|B]; destruct (edge_is_fun Hu A B) as [E1 E2]; congruence.
Qed.
Lemma joins_sym m e v w : edge_joins m e v w -> edge_joins m e w v.
Proof. unfold edge_joins. tauto. Qed.
Lemma follow_vertex_at k m l vp v e f : NoDup (map ed_index (edges m)) -> NoDup l -> simple_loops m l -> edge_pairs m l = Ok vp ->
  In e l -> In f l -> e <> f -> edge_touches m e v -> edge_touches m f v ->
  exists w, edge_joins m f v w /\
    follow_vertex k m l vp v e = match on_edge k f with [] => Ok (t_mesh, w, f) | x :: _ => Ok (t_snake, sx_index x, f) end.
Proof.
  intros Hu Nl SL EP Ie If Nef Te Tf. destruct (edge_pairs_ok Hu SL) as (es & EP' & Hes). rewrite EP in EP'. injection EP' as ->.
  set (vp := flat_map ed_vertind es) in *.
  assert (Reg := loops_regular Hu Hes Nl SL). fold vp in Reg. destruct Reg as [R2 _].
  assert (Pos : forall g, In g l -> edge_touches m g v -> exists x w, nth_error vp x = Some v /\ nth_error l (x / 2) = Some g /\ edge_joins m g v w /\
            nth_error vp (Z.to_nat (Z.of_nat x + 1 - Z.of_nat (x mod 2) * 2)) = Some w /\ 0 <= Z.of_nat x + 1 - Z.of_nat (x mod 2) * 2).
  { intros g Ig [w Jw]. apply In_nth_error in Ig as [p Hp]. destruct (pairs_pos Hes p Hp) as (a & b & Eab & Ha & Hb). fold vp in Ha, Hb.
    assert (C : (v = a /\ w = b) \/ (v = b /\ w = a)) by (destruct Jw as [J|J]; destruct (edge_is_fun Hu J Eab); auto).
    destruct C as [[-> ->]|[-> ->]].
    - exists (2 * p)%nat, b. split; [exact Ha|]. rewrite (Nat.mul_comm 2 p), Nat.div_mul, Nat.mod_mul by lia. rewrite Nat.mul_comm. split; [exact Hp|]. split; [left; auto|].
      split; [|lia]. replace (Z.to_nat _) with (2 * p + 1)%nat by lia. exact Hb.
    - exists (2 * p + 1)%nat, a. split; [exact Hb|].
      assert (D : ((2 * p + 1) / 2 = p)%nat) by (symmetry; apply (Nat.div_unique _ 2 p 1); lia).
      assert (M : ((2 * p + 1) mod 2 = 1)%nat) by (symmetry; apply (Nat.mod_unique _ 2 p 1); lia).
      rewrite D, M. split; [exact Hp|]. split; [right; auto|]. split; [|lia]. replace (Z.to_nat _) with (2 * p)%nat by lia. exact Ha. }
  destruct (Pos e Ie Te) as (xe & _ & Ve & Le & _). destruct (Pos f If Tf) as (xf & w & Vf & Lf & Jw & Wf & Wp). clear Pos.
  exists w. split; [exact Jw|]. unfold follow_vertex.
  assert (Len := R2 v (nth_error_In _ _ Vf)).
  assert (Ine : In xe (positions (Z.eqb v) vp)) by (unfold positions; apply positions_from_spec; split; [lia|]; exists v; rewrite Nat.sub_0_r, Z.eqb_refl; auto).
  assert (Inf : In xf (positions (Z.eqb v) vp)) by (unfold positions; apply positions_from_spec; split; [lia|]; exists v; rewrite Nat.sub_0_r, Z.eqb_refl; auto).
  assert (Ned : xe <> xf) by (intros ->; congruence).
  destruct (positions (Z.eqb v) vp) as [|p0 [|p1 [|? ?]]]; cbn in Len; try lia.
  assert (A : forall p g, nth_error l (p / 2) = Some g -> at_ l (Z.of_nat (p / 2)) = Ok g) by (intros p g G; apply at_Ok; split; [lia|now rewrite Nat2Z.id]).
  assert (F : at_ l (Z.of_nat (xf / 2)) = Ok f) by now apply A.
  assert (K : forall q, q = xf -> (do e2 <- at_ l (Z.of_nat (q / 2)) ;
     match on_edge k e2 with
     | [] => do u <- at_ vp (Z.of_nat q + 1 - Z.of_nat (q mod 2) * 2) ; Ok (t_mesh, u, e2)
     | [x] => Ok (t_snake, sx_index x, e2)
     | x :: _ :: _ => do ed <- isearch ed_index (edges m) e2 ; do _ <- at_ (ed_vertind ed) (Z.of_nat (q mod 2)) ; Ok (t_snake, sx_index x, e2)
     end) = match on_edge k f with [] => Ok (t_mesh, w, f) | x :: _ => Ok (t_snake, sx_index x, f) end).
  { intros q ->. rewrite F. cbn [bind]. destruct (on_edge k f) as [|x [|y r]].
    - assert (at_ vp (Z.of_nat xf + 1 - Z.of_nat (xf mod 2) * 2) = Ok w) as -> by (apply at_Ok; split; auto). reflexivity.
    - reflexivity.
    - destruct Jw as [(ed & Ied & Eed & Ved)|(ed & Ied & Eed & Ved)]; rewrite <- Eed, (isearch_in ed_index (edges m) ed Hu Ied); cbn [bind]; rewrite Ved;
        (assert (B := Nat.mod_upper_bound xf 2 ltac:(lia)); destruct (xf mod 2)%nat as [|[|?]]; try lia; reflexivity). }
  destruct Inf as [<-|[<-|[]]], Ine as [<-|[<-|[]]]; try congruence.
  - rewrite (A _ _ Le). cbn [bind]. rewrite Z.eqb_refl. cbn [negb]. now apply K.
  - rewrite (A _ _ Lf). cbn [bind]. destruct (Z.eqb_spec f e); [congruence|]. cbn [negb]. now apply K.
Qed.

(** ** Outlines *)
Section Outline.
Variables (m : mesh) (su : surf) (vs : list Z).
Hypothesis Hu : NoDup (map ed_index (edges m)).
Hypothesis O : outlined m su vs.
Let l := su_edgeind su.
Let n := length vs.
Definition succ_mod (n i : nat) : nat := if (i + 1 =? n)%nat then 0%nat else (i + 1)%nat.
Lemma outline_len : length l = n /\ (3 <= n)%nat.
Proof using O. destruct O as (L & _ & P & _). unfold l, n. lia. Qed.
Lemma succ_lt i : (i < n)%nat -> (succ_mod n i < n)%nat.
Proof using O. destruct outline_len. unfold succ_mod. destruct (Nat.eqb_spec (i + 1) n); lia. Qed.
Lemma outline_at i e : nth_error l i = Some e ->
  exists a b, nth_error vs i = Some a /\ nth_error vs (succ_mod n i) = Some b /\ edge_joins m e a b.
Proof using O.
  intros E. assert (Li : (i < n)%nat) by (rewrite <- (proj1 outline_len); apply nth_error_Some; congruence).
  destruct (nth_error vs i) as [a|] eqn:A; [|apply nth_error_None in A; unfold n in Li; lia].
  assert (Ls := succ_lt Li). destruct (nth_error vs (succ_mod n i)) as [b|] eqn:B; [|apply nth_error_None in B; unfold n in Ls at 2; lia].
  exists a, b. split; auto. split; auto. destruct O as (L3 & _ & _ & P). apply (P i); auto.
  unfold succ_mod in B. destruct vs as [|v0 r]; [destruct i; discriminate|]. cbn [tl firstn]. unfold n in B. cbn [length] in B.
  destruct (Nat.eqb_spec (i + 1) (S (length r))) as [E1|E1].
  - rewrite nth_error_app2 by lia. replace (i - length r)%nat with 0%nat by lia. exact B.
  - rewrite Nat.add_1_r in B. cbn in B. rewrite nth_error_app1; auto. apply nth_error_Some. congruence.
Qed.
Lemma vs_inj i j v : nth_error vs i = Some v -> nth_error vs j = Some v -> i = j.
Proof using O.
  intros A B. destruct O as (_ & N & _). apply (proj1 (NoDup_nth_error vs) N); [|congruence]. apply nth_error_Some. congruence.
Qed.
Lemma outline_touch i e v : nth_error l i = Some e -> edge_touches m e v -> nth_error vs i = Some v \/ nth_error vs (succ_mod n i) = Some v.
Proof using O Hu.
  intros E [w J]. destruct (outline_at i E) as (a & b & A & B & J').
  destruct J as [J|J], J' as [J'|J']; destruct (edge_is_fun Hu J J') as [E1 E2]; subst; auto.
Qed.
Lemma outline_NoDup : NoDup l.
Proof using O Hu.
  apply NoDup_nth_error. intros i j Li E. destruct (nth_error l i) as [e|] eqn:Ei; [|apply nth_error_None in Ei; lia]. symmetry in E.
  destruct (outline_at i Ei) as (a & b & A & B & J). destruct (outline_at j E) as (c & d & C & D & J').
  assert (H : (a = c /\ b = d) \/ (a = d /\ b = c)) by (destruct J as [J|J], J' as [J'|J']; destruct (edge_is_fun Hu J J'); auto).
  destruct H as [[<- <-]|[<- <-]]; [eapply vs_inj; eauto|].
  assert (X := vs_inj _ _ A D). assert (Y := vs_inj _ _ B C). destruct outline_len. unfold succ_mod in *.
  destruct (Nat.eqb_spec (i + 1) n), (Nat.eqb_spec (j + 1) n); lia.
Qed.
Lemma outline_ends e : In e l -> exists a b, edge_is m e a b /\ a <> b.
Proof using O Hu.
  intros I. apply In_nth_error in I as [i Ei]. destruct (outline_at i Ei) as (a & b & A & B & J).
  assert (a <> b). { intros <-. assert (X := vs_inj _ _ A B). destruct outline_len. unfold succ_mod in X. destruct (Nat.eqb_spec (i + 1) n); lia. }
  destruct J as [J|J]; [exists a, b|exists b, a]; auto.
Qed.
Lemma touch_at v j g t : nth_error vs j = Some v -> nth_error l t = Some g -> edge_touches m g v -> t = j \/ succ_mod n t = j.
Proof using O Hu.
  intros V G T. destruct (outline_touch t G T) as [H|H]; [left|right]; eapply vs_inj; eauto.
Qed.
Definition pred_mod (n i : nat) : nat := if (i =? 0)%nat then (n - 1)%nat else (i - 1)%nat.
Lemma outline_pair v : In v vs -> exists j e f, nth_error vs j = Some v /\ nth_error l (pred_mod n j) = Some e /\ nth_error l j = Some f /\ e <> f /\
  edge_touches m e v /\ edge_touches m f v /\ forall g, In g l -> edge_touches m g v -> g = e \/ g = f.
Proof using O Hu.
  intros I. apply In_nth_error in I as [j V]. destruct outline_len as [Ll Ln]. assert (Lj : (j < n)%nat) by (unfold n; apply nth_error_Some; congruence).
  assert (Lp : (pred_mod n j < n)%nat) by (unfold pred_mod; destruct (Nat.eqb_spec j 0); lia).
  destruct (nth_error l (pred_mod n j)) as [e|] eqn:Ee; [|apply nth_error_None in Ee; lia].
  destruct (nth_error l j) as [f|] eqn:Ef; [|apply nth_error_None in Ef; lia].
  exists j, e, f. split; auto. split; auto. split; auto.
  assert (Sp : succ_mod n (pred_mod n j) = j) by (unfold succ_mod, pred_mod; destruct (Nat.eqb_spec j 0); [destruct (Nat.eqb_spec (n - 1 + 1) n); lia|destruct (Nat.eqb_spec (j - 1 + 1) n); lia]).
  split.
  { intros ->. assert (X : pred_mod n j = j) by (apply (proj1 (NoDup_nth_error l) outline_NoDup); [lia|congruence]). unfold pred_mod in X. destruct (Nat.eqb_spec j 0); lia. }
  split; [|split].
  - destruct (outline_at _ Ee) as (a & b & _ & B & J). rewrite Sp, V in B. injection B as <-. exists a. now apply joins_sym.
  - destruct (outline_at _ Ef) as (a & b & A & _ & J). rewrite V in A. injection A as <-. now exists b.
  - intros g Ig Tg. apply In_nth_error in Ig as [t Et]. destruct (touch_at j t V Et Tg) as [->|H]; [right; congruence|left].
    assert (t = pred_mod n j) as ->; [|congruence]. assert (t < n)%nat by (rewrite <- Ll; apply nth_error_Some; congruence).
    unfold succ_mod, pred_mod in *. destruct (Nat.eqb_spec (t + 1) n), (Nat.eqb_spec j 0); lia.
Qed.
Lemma outline_vertex e v : In e l -> edge_touches m e v -> In v vs.
Proof using O Hu.
  intros I T. apply In_nth_error in I as [i Ei]. destruct (outline_touch i Ei T) as [H|H]; eapply nth_error_In; eauto.
Qed.
Lemma outline_loops : simple_loops m l.
Proof using O Hu.
  split; [apply outline_ends|]. intros e v I T. destruct (outline_pair v (outline_vertex I T)) as (j & a & b & V & A & B & N & Ta & Tb & Only).
  destruct (Only e I T) as [->| ->]; [exists b|exists a]; (split; [eapply nth_error_In; eauto|]; split; [congruence|]; split; auto).
  intros g Ig Tg. destruct (Only g Ig Tg); auto.
Qed.
Lemma outline_once e f v w : In e l -> In f l -> edge_joins m e v w -> edge_joins m f v w -> e = f.
Proof using O Hu.
  intros Ie If Je Jf. apply In_nth_error in Ie as [i Ei]. apply In_nth_error in If as [j Ej].
  destruct (outline_at i Ei) as (a & b & A & B & J). destruct (outline_at j Ej) as (c & d & C & D & J').
  assert (H : (v = a /\ w = b) \/ (v = b /\ w = a)) by (destruct J as [J|J], Je as [K|K]; destruct (edge_is_fun Hu J K); auto).
  assert (H' : (v = c /\ w = d) \/ (v = d /\ w = c)) by (destruct J' as [J'|J'], Jf as [K|K]; destruct (edge_is_fun Hu J' K); auto).
  assert (X : (a = c /\ b = d) \/ (a = d /\ b = c)) by (destruct H as [[-> ->]|[-> ->]], H' as [[-> ->]|[-> ->]]; auto).
  destruct X as [[<- <-]|[<- <-]].
  - assert (i = j) by (eapply vs_inj; eauto). congruence.
  - assert (X := vs_inj _ _ A D). assert (Y := vs_inj _ _ B C). destruct outline_len. unfold succ_mod in *.
    destruct (Nat.eqb_spec (i + 1) n), (Nat.eqb_spec (j + 1) n); lia.
Qed.
(** Edges that meet follow each other. *)
Lemma outline_follows e f v : In e l -> In f l -> e <> f -> edge_touches m e v -> edge_touches m f v -> follows l e f \/ follows l f e.
Proof using O Hu.
  intros Ie If N Te Tf. destruct (outline_pair v (outline_vertex Ie Te)) as (j & a & b & V & A & B & Nab & Ta & Tb & Only).
  assert (F : follows l a b).
  { exists (pred_mod n j). split; [exact A|]. destruct outline_len as [Ll Ln].
    assert (Lj : (j < n)%nat) by (unfold n; apply nth_error_Some; congruence).
    assert (Lp : (pred_mod n j < length l)%nat) by (apply nth_error_Some; congruence). rewrite (nth_cycle l Lp), Ll.
    unfold pred_mod in *. destruct (Nat.eqb_spec j 0) as [->|Nj]; [destruct (Nat.eqb_spec (S (n - 1)) n); [exact B|lia]|].
    destruct (Nat.eqb_spec (S (j - 1)) n); [lia|]. replace (S (j - 1)) with j by lia. exact B. }
  destruct (Only e Ie Te) as [->| ->], (Only f If Tf) as [->| ->]; auto; congruence.
Qed.
End Outline.
