(** Walking around the parts of a surface that are inside the snake (C92, C93, C94). *)
From Coq Require Import List ZArith Lia Arith Permutation.
From Verif Require Import Base Containers ContainersProofs Mesh SpecMesh MeshProofs FloodProofs Order SpecOrder OrderProofs OrderMeshProofs Edit SpecEdit EditProofs Family SpecFamily FamilyMapProofs Calc Triangulate SpecTriangulate TriangulateProofs SpecWalk WalkProofs WalkLoopProofs WalkBuildProofs.
Import Mesh.
Set Implicit Arguments.
Open Scope Z_scope.

(** ** C92: from a snaxel back along its edge *)
Theorem C92_back k x : NoDup (map sx_index (sk_snaxs k)) -> In x (sk_snaxs k) ->
  (exists y, met_first k x y /\ follow_snaxel k (sx_index x) = Ok (t_snake, sx_index y, sx_edge x)) \/
  ((forall z, snaxel_on k (sx_edge x) z -> ~ behind x z) /\ follow_snaxel k (sx_index x) = Ok (t_mesh, sx_from x, sx_edge x)).
Proof. apply follow_snaxel_spec. Qed.
Print Assumptions C92_back.

(** Three snaxels on one edge. *)
Definition rail : snk := mkSnk (mkMesh [] [] [] [] 3) []
  [mkSx 1 5 6 9 1; mkSx 2 6 5 9 2; mkSx 3 5 6 9 3] [] [] [].
Example C92_used : NoDup (map sx_index (sk_snaxs rail)) /\ In (mkSx 3 5 6 9 3) (sk_snaxs rail) /\
  met_first rail (mkSx 3 5 6 9 3) (mkSx 2 6 5 9 2) /\ follow_snaxel rail 3 = Ok (t_snake, 2, 9) /\
  follow_snaxel rail 2 = Ok (t_snake, 3, 9) /\ follow_snaxel rail 1 = Ok (t_mesh, 5, 9).
Proof.
  split; [repeat constructor; cbn; intuition lia|]. split; [cbn; tauto|]. split; [|repeat split; reflexivity].
  split; [split; cbn; auto|]. split; [left; cbn; lia|].
  intros z [[<-|[<-|[<-|[]]]] _] [[A B]|[A B]]; cbn in *; lia.
Qed.

(** ** C93: from a vertex along the other edge of the surface *)
Theorem C93_next_partial k m l vp v e f : NoDup (map ed_index (edges m)) -> NoDup l -> simple_loops m l -> edge_pairs m l = Ok vp ->
  In e l -> In f l -> e <> f -> edge_touches m e v -> edge_touches m f v ->
  (forall x y, snaxel_on k f x -> snaxel_on k f y -> x = y) ->
  exists w t i, edge_joins m f v w /\ follow_vertex k m l vp v e = Ok (t, i, f) /\ first_from k f v w (t, i).
Proof.
  intros Hu Nl SL EP Ie If Nef Te Tf One. destruct (@follow_vertex_at k m l vp v e f Hu Nl SL EP Ie If Nef Te Tf) as (w & J & E). exists w.
  destruct (on_edge k f) as [|x r] eqn:O.
  - exists t_mesh, w. split; auto. split; auto. left. split; auto. intros x X. apply on_edge_In in X. now rewrite O in X.
  - exists t_snake, (sx_index x). split; auto. split; auto. right. exists x.
    assert (Sx : snaxel_on k f x) by (apply on_edge_In; rewrite O; now left). split; auto. split; auto. intros y Y. rewrite (One x y Sx Y). lia.
Qed.
Print Assumptions C93_next_partial.
(** With two snaxels of different ranks on the edge, the same snaxel is given from both
    ends, so from one of them it is not the first one met. *)
Theorem C93_both_ends k m l vp v w e g f x y : NoDup (map ed_index (edges m)) -> NoDup l -> simple_loops m l -> edge_pairs m l = Ok vp ->
  In e l -> In g l -> In f l -> e <> f -> g <> f -> edge_touches m e v -> edge_touches m g w -> edge_joins m f v w ->
  snaxel_on k f x -> snaxel_on k f y -> sx_order x <> sx_order y -> NoDup (map sx_index (sk_snaxs k)) ->
  exists i, follow_vertex k m l vp v e = Ok (t_snake, i, f) /\ follow_vertex k m l vp w g = Ok (t_snake, i, f) /\
    ~ (first_from k f v w (t_snake, i) /\ first_from k f w v (t_snake, i)).
Proof.
  intros Hu Nl SL EP Ie Ig If Ne Ng Te Tg J Sx Sy Nxy Nk.
  assert (Tv : edge_touches m f v) by (exists w; auto).
  assert (Tw : edge_touches m f w) by (exists v; destruct J; [now right|now left]).
  destruct (@follow_vertex_at k m l vp v e f Hu Nl SL EP Ie If Ne Te Tv) as (w' & _ & E).
  destruct (@follow_vertex_at k m l vp w g f Hu Nl SL EP Ig If Ng Tg Tw) as (v' & _ & E').
  destruct (on_edge k f) as [|z r] eqn:O; [apply on_edge_In in Sx; now rewrite O in Sx|]. exists (sx_index z). split; auto. split; auto.
  assert (Nvw : v <> w).
  { intros X. destruct SL as [S1 _]. destruct (S1 f If) as (a & b & Ab & Nab). destruct J as [J|J]; destruct (edge_is_fun Hu J Ab); congruence. }
  intros [[[N _]|(a & Sa & Ea & A)] [[N' _]|(b & Sb & Eb & B)]]; try now contradiction (N x). { now contradiction (N' x). }
  injection Ea as Ea. injection Eb as Eb. assert (a = b) as -> by (eapply (@NoDup_idx_inj _ sx_index); eauto; try apply Sa; try apply Sb; congruence).
  assert (A1 := A x Sx). assert (A2 := A y Sy). assert (B1 := B x Sx). assert (B2 := B y Sy). lia.
Qed.
Print Assumptions C93_both_ends.

(** A square and a triangle on two of its edges, between the volumes 7, 8 and 9; the
    parent mesh has volumes 7 and 9 in one cell. *)
Definition wm : mesh := mkMesh [mkVolu 7 false []; mkVolu 8 false []; mkVolu 9 false []]
  [mkSurf 1 false true [7; 8] [1; 2; 3; 4]; mkSurf 2 false true [7; 9] [1; 2; 5]]
  [mkEdge 1 false [] [1; 2]; mkEdge 2 false [] [2; 3]; mkEdge 3 false [] [3; 4]; mkEdge 4 false [] [4; 1]; mkEdge 5 false [] [3; 1]] [] 3.
Definition wt : tree := mkTree 1 [] [] [] [[1; 2; 1]].
(** The snake around vertices 1 and 3. *)
Definition wk : snk := mkSnk (mkMesh [] []
    [mkEdge 11 false [] [1; 2]; mkEdge 13 false [] [1; 3]; mkEdge 12 false [] [3; 4]]
    [mkVert 1 false [11; 13]; mkVert 2 false [11]; mkVert 3 false [12; 13]; mkVert 4 false [12]] 3) []
  [mkSx 1 1 2 1 1; mkSx 2 1 4 4 1; mkSx 3 3 2 2 1; mkSx 4 3 4 3 1] [(11, 1); (13, 2); (12, 1)] [] [].
(** A snake with two snaxels on the edge 2. *)
Definition twice : snk := mkSnk (mkMesh [] [] [] [] 3) [] [mkSx 1 2 3 2 1; mkSx 2 3 2 2 2] [] [] [].
Ltac mem H := cbn in H; repeat match type of H with _ \/ _ => destruct H as [H|H] | False => contradiction end.
Ltac is_edge H := let x := fresh "x" in let I := fresh "I" in let E := fresh "E" in let V := fresh "V" in
  destruct H as (x & I & E & V); mem I; subst x; cbn in E, V; try discriminate E; try discriminate V; injection V; clear V; intros; subst.
Ltac joined H := destruct H as [H|H]; is_edge H.
Ltac here := first [reflexivity | cbn; tauto].
Ltac pick := (left; reflexivity) + (right; pick).
Ltac edge_in := solve [unfold edge_is; cbn [edges wm wk sk_conn]; eexists; split; [pick | split; reflexivity]].
Ltac join := first [left; edge_in | right; edge_in].
Lemma wm_edges : NoDup (map ed_index (edges wm)).
Proof. repeat constructor; cbn; intuition lia. Qed.
Lemma wm_loops : simple_loops wm [1; 2; 3; 4].
Proof.
  split.
  - intros e I. mem I; subst e; do 2 eexists; (split; [edge_in|lia]).
  - intros e v I T.
    assert (G : forall g, In g [1; 2; 3; 4] -> edge_touches wm g v -> (v = 1 -> g = 1 \/ g = 4) /\ (v = 2 -> g = 1 \/ g = 2) /\ (v = 3 -> g = 2 \/ g = 3) /\ (v = 4 -> g = 3 \/ g = 4)).
    { intros g Ig [w J]. mem Ig; subst g; joined J; lia. }
    destruct T as [w J]. mem I; subst e; joined J;
      match goal with
      | |- context [edge_touches wm _ 1 /\ _] => first [exists 1; split; [here|]; split; [lia|] | exists 4; split; [here|]; split; [lia|]]
      | |- context [edge_touches wm _ 2 /\ _] => first [exists 1; split; [here|]; split; [lia|] | exists 2; split; [here|]; split; [lia|]]
      | |- context [edge_touches wm _ 3 /\ _] => first [exists 2; split; [here|]; split; [lia|] | exists 3; split; [here|]; split; [lia|]]
      | |- context [edge_touches wm _ 4 /\ _] => first [exists 3; split; [here|]; split; [lia|] | exists 4; split; [here|]; split; [lia|]]
      end; (split; [eexists; join|]; intros g Ig Tg; specialize (G g Ig Tg); lia).
Qed.
Example C93_used : NoDup (map ed_index (edges wm)) /\ NoDup [1; 2; 3; 4] /\ simple_loops wm [1; 2; 3; 4] /\
  edge_pairs wm [1; 2; 3; 4] = Ok [1; 2; 2; 3; 3; 4; 4; 1] /\ edge_touches wm 4 1 /\ edge_touches wm 1 1 /\
  (forall x y, snaxel_on wk 1 x -> snaxel_on wk 1 y -> x = y) /\ follow_vertex wk wm [1; 2; 3; 4] [1; 2; 2; 3; 3; 4; 4; 1] 1 4 = Ok (t_snake, 1, 1).
Proof.
  split; [exact wm_edges|]. split; [repeat constructor; cbn; intuition lia|]. split; [exact wm_loops|]. split; [reflexivity|].
  split; [exists 4; join|]. split; [exists 2; join|]. split; [|reflexivity].
  intros x y [I E] [I' E']. mem I; subst x; try discriminate E; mem I'; subst y; try discriminate E'; reflexivity.
Qed.
(** From vertex 3 the snaxel near vertex 2 is given. *)
Theorem C93_refuted : exists k m l vp v e f w, NoDup (map ed_index (edges m)) /\ NoDup l /\ simple_loops m l /\ edge_pairs m l = Ok vp /\
  In e l /\ In f l /\ e <> f /\ edge_touches m e v /\ edge_joins m f v w /\ NoDup (map sx_index (sk_snaxs k)) /\
  exists t i, follow_vertex k m l vp v e = Ok (t, i, f) /\ ~ first_from k f v w (t, i).
Proof.
  exists twice, wm, [1; 2; 3; 4], [1; 2; 2; 3; 3; 4; 4; 1], 3, 3, 2, 2. split; [exact wm_edges|]. split; [repeat constructor; cbn; intuition lia|]. split; [exact wm_loops|].
  split; [reflexivity|]. split; [here|]. split; [here|]. split; [lia|]. split; [exists 4; join|]. split; [join|]. split; [repeat constructor; cbn; intuition lia|].
  exists t_snake, 1. split; [reflexivity|].
  intros [[N _]|(x & [I E] & X & A)]; [apply (N (mkSx 1 2 3 2 1)); split; here|].
  mem I; subst x; try discriminate. assert (B := A (mkSx 2 3 2 2 2) ltac:(split; here)). cbn in B. lia.
Qed.
Print Assumptions C93_refuted.

(** ** C94: the parts of all surfaces *)
(** Every part is a closed outline inside its surface, parts of the same surface have
    nothing in common, and every edge of the snake in a surface between two cells of a
    parent is on a part. *)
Theorem C94_parts n k m tr inside : family_ready m tr -> NoDup (map ed_index (edges m)) -> sound_snake k ->
  (forall su e, In su (surfs m) -> between m tr su -> In (e, su_index su) (sk_edges k) -> cut k m su inside /\ ~ In 0 (su_edgeind su)) ->
  (forall su, In su (surfs m) -> (2 * length (su_edgeind su) + 1 <= n)%nat) ->
  exists parts, build_trisurf n k m tr = Ok parts /\ numbered 0 (map ts_index parts) /\ separate parts /\
    (forall x, In x parts -> exists su, In su (surfs m) /\ between m tr su /\ outlines k m inside su x) /\
    (forall su e x y, In su (surfs m) -> between m tr su -> joins_in k (su_index su) e x y ->
       exists q, In q parts /\ ts_parent q = su_index su /\ In (t_snake, x) (ts_corners q) /\ In (t_snake, y) (ts_corners q)).
Proof.
  intros R Hu K Hc F. destruct (@build_ok n k m tr inside R Hu K Hc F) as (parts & done & E & B). exists parts. split; auto.
  split; [apply (b_num B)|]. split; [apply (b_sep B)|]. split.
  - intros x I. destruct (b_parts B x I) as (su & A1 & A2 & _ & A3 & _). exists su. auto.
  - intros su e x y I Bt J. assert (J' := J). destruct J' as [Ie Je]. apply In_nth_error in Ie as [p P].
    assert (M : marked k su done x).
    { exists p, e, y. split; auto. split; auto. assert (p < length (sk_edges k))%nat by (apply nth_error_Some; congruence). apply (b_done B); auto. }
    apply (b_marks B I Bt) in M as [_ (q & Iq & Pq & Cq)]. exists q. split; auto. split; auto. split; auto.
    destruct (b_parts B q Iq) as (su' & I' & _ & _ & (Pq' & Cw & _) & Gd). assert (su' = su) as -> by (apply (same_surf R); congruence).
    destruct (Hc su e I Bt (nth_error_In _ _ P)) as [C _]. apply (cycle_closed Hu K C Cw Gd Cq). eapply by_snake; eauto.
Qed.
Print Assumptions C94_parts.

(** The walk ends on every input. *)
Definition left_over (l : list Z) (w : stroll) : nat := (length l + 2 - wk_n w) + length (filter negb (wk_done w)).
Lemma upd_left (d : list bool) p : nth_error d p = Some false -> (length (filter negb (upd d p true)) < length (filter negb d))%nat.
Proof.
  revert p. induction d as [|x d IH]; intros [|p] H; cbn in H; try discriminate.
  - injection H as ->. cbn. lia.
  - specialize (IH p H). cbn. destruct x; cbn; lia.
Qed.
Local Notation fine o := (o <> OutOfFuel).
Lemma fine_bind {A B} (o : outcome A) (f : A -> outcome B) : fine o -> (forall a, o = Ok a -> fine (f a)) -> fine (bind o f).
Proof. destruct o; cbn; intros H K; try discriminate; auto. Qed.
Lemma fine_at {A} (l : list A) i : fine (at_ l i).
Proof. unfold at_. repeat match goal with |- context [match ?x with _ => _ end] => destruct x end; discriminate. Qed.
Lemma fine_isearch {A} (ix : A -> Z) l i : fine (isearch ix l i).
Proof. apply fine_at. Qed.
Ltac fin := first [apply fine_at | apply fine_isearch | discriminate].
Lemma fine_vertex k m l vp v e : fine (follow_vertex k m l vp v e) /\ forall t i f, follow_vertex k m l vp v e = Ok (t, i, f) -> t = t_mesh \/ t = t_snake.
Proof.
  unfold follow_vertex. destruct (positions (Z.eqb v) vp) as [|p0 [|p1 [|]]]; try (split; [discriminate|intros; discriminate]).
  split.
  - apply fine_bind; [fin|]. intros e1 _. apply fine_bind; [fin|]. intros f _. destruct (on_edge k f) as [|x [|y r]].
    + apply fine_bind; [fin|]. intros; discriminate.
    + discriminate.
    + apply fine_bind; [fin|]. intros; apply fine_bind; [fin|]. intros; discriminate.
  - intros t i f H. destruct (at_ l (Z.of_nat (p1 / 2))) as [e1| | |]; try discriminate. cbn [bind] in H.
    destruct (at_ l _) as [g| | |]; try discriminate. cbn [bind] in H. destruct (on_edge k g) as [|x [|y r]].
    + destruct (at_ vp _) as [w| | |]; try discriminate. cbn in H. injection H as <- _ _. auto.
    + injection H as <- _ _. auto.
    + destruct (isearch ed_index (edges m) g) as [d| | |]; try discriminate. cbn [bind] in H. destruct (at_ (ed_vertind d) _) as [u| | |]; try discriminate. cbn in H. injection H as <- _ _. auto.
Qed.
Lemma fine_snaxel k i : fine (follow_snaxel k i) /\ forall t j f, follow_snaxel k i = Ok (t, j, f) -> t = t_mesh \/ t = t_snake.
Proof.
  unfold follow_snaxel. split.
  - apply fine_bind; [fin|]. intros x _. destruct (Nat.eqb _ 1); [discriminate|]. destruct (nearest _ _ _); discriminate.
  - intros t j f H. destruct (isearch sx_index (sk_snaxs k) i) as [x| | |]; try discriminate. cbn [bind] in H. destruct (Nat.eqb _ 1); [injection H as <- _ _; auto|].
    destruct (nearest _ _ _); injection H as <- _ _; auto.
Qed.
Lemma fine_lookup k e : fine (lookup e (sk_edges k)).
Proof. induction (sk_edges k) as [|[a b] r IH]; cbn; [discriminate|]. destruct (_ =? _); [discriminate|auto]. Qed.
Lemma fine_snaxedge k i s f d : fine (follow_snaxedge k i s f d) /\ forall b j d', follow_snaxedge k i s f d = Ok (b, j, d') ->
  b = false -> (length (filter negb d') < length (filter negb d))%nat.
Proof.
  unfold follow_snaxedge. split.
  - apply fine_bind; [fin|]. intros v _. apply fine_bind.
    { destruct (f =? 0); [|discriminate]. induction (ve_edgeind v) as [|e r IH]; cbn; [discriminate|]. apply fine_bind; [apply fine_lookup|]. intros z _. destruct (z =? s); [discriminate|auto]. }
    intros e _. apply fine_bind; [fin|]. intros b _. apply fine_bind; [fin|]. intros ed _. apply fine_bind; [fin|]. intros v1 _. apply fine_bind; [destruct (negb _); fin|]. intros; discriminate.
  - intros b j d' H ->. destruct (isearch ve_index _ i) as [v| | |]; try discriminate. cbn [bind] in H.
    destruct (if f =? 0 then _ else _) as [e| | |]; try discriminate. cbn [bind] in H.
    destruct (at_ d _) as [b| | |] eqn:D; try discriminate. cbn [bind] in H. destruct (at_ (edges (sk_conn k)) _) as [ed| | |]; try discriminate. cbn [bind] in H.
    destruct (at_ (ed_vertind ed) 1) as [v1| | |]; try discriminate. cbn [bind] in H. destruct (if negb _ then _ else _) as [w| | |]; try discriminate. cbn [bind] in H.
    injection H as -> _ <-. apply at_Ok in D as [_ D]. now apply upd_left.
Qed.
Lemma loop_fine n k m s l vp : forall w, wk_type w = t_mesh \/ wk_type w = t_snake -> (left_over l w < n)%nat -> fine (stroll_loop n k m s l vp w).
Proof.
  induction n as [|n IH]; intros w T L; [lia|]. cbn [stroll_loop]. destruct (Nat.ltb_spec (wk_n w) (length l + 2)) as [Ln|Ln]; [|discriminate].
  unfold left_over in L. apply fine_bind.
  - unfold stroll_step. destruct (Z.eqb_spec (wk_type w) t_mesh).
    + apply fine_bind; [apply fine_vertex|]. intros [[ty ix] ed] _. discriminate.
    + destruct (Z.eqb_spec (wk_type w) t_snake); [|discriminate]. apply fine_bind; [apply fine_snaxedge|]. intros [[b ix] d] _. destruct (negb b).
      * apply fine_bind; [apply fine_snaxel|]. intros [[ty nx] ed] _. discriminate.
      * destruct (Nat.eqb _ 0); [|discriminate]. apply fine_bind; [fin|]. intros x _. apply fine_bind; [apply fine_vertex|]. discriminate.
  - intros [w' b] E. cbn [fst snd]. destruct b; [discriminate|]. unfold stroll_step in E. destruct (Z.eqb_spec (wk_type w) t_mesh).
    + destruct (follow_vertex k m l vp (wk_index w) (wk_edge w)) as [[[ty ix] ed]| | |] eqn:F; try discriminate. cbn [bind] in E. injection E as <-.
      apply IH; [apply fine_vertex in F; exact F|]. unfold left_over. cbn [wk_n wk_done]. lia.
    + destruct (Z.eqb_spec (wk_type w) t_snake); [|lia]. destruct (follow_snaxedge k (wk_index w) s (wk_edge w) (wk_done w)) as [[[b ix] d]| | |] eqn:F; try discriminate. cbn [bind] in E.
      destruct b; cbn [negb] in E.
      * exfalso. destruct (Nat.eqb _ 0); [|discriminate]. destruct (isearch sx_index (sk_snaxs k) (wk_index w)) as [x| | |]; try discriminate. cbn [bind] in E.
        destruct (follow_vertex _ _ _ _ _ _) as [r| | |]; discriminate.
      * apply fine_snaxedge in F; [|reflexivity]. destruct (follow_snaxel k ix) as [[[ty nx] ed]| | |] eqn:G; try discriminate. cbn [bind] in E. injection E as <-.
        apply IH; [apply fine_snaxel in G; exact G|]. unfold left_over. cbn [wk_n wk_done]. lia.
Qed.
Lemma fine_pairs m l : fine (edge_pairs m l).
Proof.
  unfold edge_pairs. apply fine_bind; [|discriminate]. induction l as [|e l IH]; cbn; [discriminate|].
  apply fine_bind; [fin|]. intros x _. apply fine_bind; [exact IH|]. discriminate.
Qed.
Lemma fine_in_parent t p q c j : fine (in_parent_loop t p q c j).
Proof.
  revert j. induction c as [|c IH]; intros j; cbn; [discriminate|]. apply fine_bind.
  - destruct (xorb _ _); [discriminate|]. destruct (negb _); [|discriminate]. unfold conn_at. repeat (apply fine_bind; [|intros]); try fin; apply fine_bind; intros; fin.
  - intros [|] _; [discriminate|apply IH].
Qed.
Lemma fine_parent m tr s : fine (surf_in_parent m tr s).
Proof.
  unfold surf_in_parent. destruct (0 <=? _); [|discriminate]. repeat (apply fine_bind; [fin|intros]). apply fine_in_parent.
Qed.
Lemma fine_match a b p q : fine (order_match_lists a b p q).
Proof.
  unfold order_match_lists. destruct (order_match a p q) as [? x]. destruct (negb (x =? 2)); [discriminate|]. destruct (order_match b p q) as [? y]. destruct (negb (y =? 2)); discriminate.
Qed.
Lemma left_le d : (length (filter negb d) <= length d)%nat.
Proof. induction d as [|x d IH]; cbn; [lia|]. destruct x; cbn; lia. Qed.
Lemma loop_length n k m s l vp : forall w w', stroll_loop n k m s l vp w = Ok w' -> length (wk_done w') = length (wk_done w).
Proof.
  induction n as [|n IH]; intros w w' E; cbn [stroll_loop] in E; destruct (_ <? _)%nat; try discriminate; try (injection E as <-; reflexivity).
  destruct (stroll_step k m s l vp w) as [[w1 b]| | |] eqn:S; try discriminate. cbn [bind fst snd] in E.
  assert (L : length (wk_done w1) = length (wk_done w)).
  { unfold stroll_step in S. destruct (wk_type w =? t_mesh).
    - destruct (follow_vertex _ _ _ _ _ _) as [[[? ?] ?]| | |]; try discriminate. injection S as <- _. reflexivity.
    - destruct (wk_type w =? t_snake); [|now injection S as <- _].
      destruct (follow_snaxedge k (wk_index w) s (wk_edge w) (wk_done w)) as [[[c ix] d]| | |] eqn:F; try discriminate. cbn [bind] in S.
      assert (Ld : length d = length (wk_done w)).
      { unfold follow_snaxedge in F. destruct (isearch ve_index _ _) as [v| | |]; try discriminate. cbn [bind] in F.
        destruct (if wk_edge w =? 0 then _ else _) as [e| | |]; try discriminate. cbn [bind] in F. destruct (at_ (wk_done w) _) as [x| | |]; try discriminate. cbn [bind] in F.
        destruct (at_ (edges (sk_conn k)) _) as [ed| | |]; try discriminate. cbn [bind] in F. destruct (at_ (ed_vertind ed) 1) as [v1| | |]; try discriminate. cbn [bind] in F.
        destruct (if negb _ then _ else _) as [u| | |]; try discriminate. injection F as _ _ <-. apply upd_length. }
      destruct (negb c).
      + destruct (follow_snaxel k ix) as [[[? ?] ?]| | |]; try discriminate. injection S as <- _. exact Ld.
      + destruct (Nat.eqb _ 0).
        * destruct (isearch sx_index _ _) as [x| | |]; try discriminate. cbn [bind] in S. destruct (follow_vertex _ _ _ _ _ _) as [r| | |]; try discriminate. injection S as <- _. exact Ld.
        * injection S as <- _. exact Ld. }
  destruct b; [now injection E as <-|]. rewrite <- L. eapply IH; eauto.
Qed.
(** BuildTriSurfGridSnakeIntersect ends on every mesh and every snake, whatever their
    state: the number of turns of the inner loop is bounded by the edges of the surface
    and the edges of the snake. *)
Theorem C94_ends n k m tr : (forall su, In su (surfs m) -> (length (su_edgeind su) + 2 + length (sk_edges k) < n)%nat) ->
  build_trisurf n k m tr <> OutOfFuel.
Proof.
  intros F. unfold build_trisurf.
  assert (Go : forall is st, length (fst (fst st)) = length (sk_edges k) -> fine (for_each is (build_turn n k m tr) st)).
  { induction is as [|i is IH]; intros st L; cbn [for_each]; [discriminate|]. destruct st as [[done [p1 p2]] parts]. cbn [fst] in L. unfold build_turn.
    destruct (at_ done (Z.of_nat i)) as [d| | |] eqn:D; try discriminate; [|now contradiction (fine_at done (Z.of_nat i))]. cbn [bind]. destruct d; [apply IH; exact L|].
    apply fine_bind.
    - apply fine_bind; [fin|]. intros [e s] _. apply fine_bind; [apply fine_parent|]. intros j _. destruct (0 <=? j); [|discriminate].
      apply fine_bind; [fin|]. intros su Es. apply fine_bind; [apply fine_pairs|]. intros vp _. apply fine_bind; [fin|]. intros ed _. apply fine_bind; [fin|]. intros a _.
      apply fine_bind.
      + apply loop_fine; [right; reflexivity|]. unfold left_over. cbn [wk_n wk_done]. assert (H := left_le done).
        assert (Is : In su (surfs m)) by (apply at_Ok in Es as [_ Es]; eapply nth_error_In; eauto). specialize (F su Is). lia.
      + intros w _. apply fine_bind; [|discriminate]. unfold close_part. apply fine_bind; [apply fine_match|]. intros f _. apply fine_bind; [|discriminate].
        destruct (f =? -1); [|discriminate]. repeat (apply fine_bind; [fin|intros]). discriminate.
    - intros st' E. apply IH. destruct (at_ (sk_edges k) (Z.of_nat i)) as [[e s]| | |]; try discriminate. cbn [bind] in E.
      destruct (surf_in_parent m tr s) as [j| | |]; try discriminate. cbn [bind] in E. destruct (0 <=? j).
      + destruct (isearch su_index (surfs m) s) as [su| | |]; try discriminate. cbn [bind] in E. destruct (edge_pairs m (su_edgeind su)) as [vp| | |]; try discriminate. cbn [bind] in E.
        destruct (at_ (edges (sk_conn k)) _) as [ed| | |]; try discriminate. cbn [bind] in E. destruct (at_ (ed_vertind ed) 0) as [a| | |]; try discriminate. cbn [bind] in E.
        destruct (stroll_loop _ _ _ _ _ _ _) as [w| | |] eqn:W; try discriminate. cbn [bind] in E. destruct (close_part _ _ _) as [pt| | |]; try discriminate. injection E as <-.
        cbn [fst]. rewrite upd_length. apply loop_length in W. rewrite W. exact L.
      + injection E as <-. cbn [fst]. now rewrite upd_length. }
  apply fine_bind; [|discriminate]. apply Go. cbn [fst]. apply repeat_length.
Qed.
Print Assumptions C94_ends.

(** The snake around vertices 1 and 3 has two parts in the square, and none in the
    triangle, which is inside one cell of the parent. *)
Definition in13 (v : Z) : Prop := v = 1 \/ v = 3.
Ltac snaxel H := destruct H as [H ?]; mem H; subst; cbn in *; try discriminate; try lia.
Lemma wk_sound : sound_snake wk.
Proof.
  constructor.
  - repeat constructor; cbn; intuition lia.
  - repeat constructor; cbn; intuition lia.
  - repeat constructor; cbn; intuition lia.
  - reflexivity.
  - intros x I. mem I; subst x; do 2 eexists; reflexivity.
  - intros v e I. mem I; subst v; cbn [ve_edgeind ve_index]; (split; [intros J; mem J; subst e; eexists; join|]); intros [w J]; joined J; cbn; tauto.
Qed.
Lemma wk_cut : cut wk wm (mkSurf 1 false true [7; 8] [1; 2; 3; 4]) in13.
Proof.
  constructor; cbn [su_edgeind su_index].
  - exists [1; 2; 3; 4]. split; [cbn; lia|]. split; [repeat constructor; cbn; intuition lia|].
    split; [reflexivity|]. intros [|[|[|[|i]]]] e a b E A B; cbn in E, A, B; try discriminate; try (injection E as <-; injection A as <-; injection B as <-; join); try (destruct i; discriminate).
  - intros e x y I X Y. mem I; subst e; destruct X as [X Ex]; mem X; subst x; try discriminate Ex; destruct Y as [Y Ey]; mem Y; subst y; try discriminate Ey; reflexivity.
  - intros e x I X. mem I; subst e; destruct X as [X Ex]; mem X; subst x; try discriminate Ex; cbn [sx_from sx_to]; (split; [join|]; unfold in13; lia).
  - intros e v w I N. exfalso. mem I; subst e; [apply (N (mkSx 1 1 2 1 1))|apply (N (mkSx 3 3 2 2 1))|apply (N (mkSx 4 3 4 3 1))|apply (N (mkSx 2 1 4 4 1))]; split; here.
  - intros e x y [I J]. mem I; try discriminate I; injection I as <-; joined J; (split; [lia|]).
    1: exists 1, (mkSx 1 1 2 1 1). 2: exists 4, (mkSx 2 1 4 4 1). 4: exists 3, (mkSx 4 3 4 3 1). 3: exists 2, (mkSx 3 3 2 2 1).
    all: split; [here|]; split; [split; here|reflexivity].
  - intros e x I X. mem I; subst e; destruct X as [X Ex]; mem X; subst x; try discriminate Ex; cbn [sx_index wk sk_conn verts]; eexists; (split; [pick|reflexivity]).
  - intros e x I X. assert (O : forall g z, joins_in wk 1 g (sx_index x) z -> (sx_index x <= 2 -> g = 11) /\ (3 <= sx_index x -> g = 12)).
    { intros g z [Ig J]. mem Ig; try discriminate Ig; injection Ig as <-; joined J; lia. }
    mem I; subst e; destruct X as [X Ex]; mem X; subst x; try discriminate Ex; cbn [sx_index] in *.
    1: exists 11, 2. 2: exists 12, 4. 3: exists 12, 3. 4: exists 11, 1.
    all: split; [split; [here|join]|]; intros g z J; apply (O g z J); lia.
Qed.
Example C94_used : family_ready wm wt /\ NoDup (map ed_index (edges wm)) /\ sound_snake wk /\
  (forall su e, In su (surfs wm) -> between wm wt su -> In (e, su_index su) (sk_edges wk) -> cut wk wm su in13 /\ ~ In 0 (su_edgeind su)) /\
  (forall su, In su (surfs wm) -> (2 * length (su_edgeind su) + 1 <= 9)%nat) /\
  between wm wt (mkSurf 1 false true [7; 8] [1; 2; 3; 4]) /\
  build_trisurf 9 wk wm wt = Ok [mkTrisf 1 [(t_snake, 1); (t_snake, 2); (t_mesh, 1)] [7; 8] 1; mkTrisf 2 [(t_snake, 3); (t_snake, 4); (t_mesh, 3)] [8; 7] 1].
Proof.
  split; [|split; [exact wm_edges|split; [exact wk_sound|]]].
  { split; [repeat constructor; cbn; intuition lia|]. split; [repeat constructor; cbn; intuition lia|]. split; [|split; [cbn; lia|]].
    - intros s I. mem I; subst s; do 2 eexists; eexists; reflexivity.
    - intros r I. mem I; subst r; reflexivity. }
  assert (L7 : forall c, lies_in wm wt 0 7 c -> c = 1).
  { intros c (i & vo & row & A & B & C & D). cbn in C. injection C as <-. destruct i as [|[|[|i]]]; cbn in A; try (injection A as <-); try discriminate B; try (destruct i; discriminate). now injection D as <-. }
  assert (L9 : forall c, lies_in wm wt 0 9 c -> c = 1).
  { intros c (i & vo & row & A & B & C & D). cbn in C. injection C as <-. destruct i as [|[|[|i]]]; cbn in A; try (injection A as <-); try discriminate B; try (destruct i; discriminate). now injection D as <-. }
  split; [|split; [intros su I; mem I; subst su; cbn; lia|split; [|vm_compute; reflexivity]]].
  - intros su e I Bt _. mem I; subst su.
    + split; [exact wk_cut|]. cbn. intuition lia.
    + exfalso. destruct Bt as (v0 & v1 & i & [r S] & Li & Ap). injection S as <- <- _. cbn in Li. replace i with 0%nat in Ap by lia.
      destruct Ap as [[_ N]|[[N _]|(c0 & c1 & A & B & N)]]; [apply N; cbn; tauto|apply N; cbn; tauto|]. now rewrite (L7 _ A), (L9 _ B) in N.
  - exists 7, 8, 0%nat. split; [now exists []|]. split; [cbn; lia|]. right. right. exists 1, 2. split; [|split; [|lia]].
    + now exists 0%nat, (mkVolu 7 false []), [1; 2; 1].
    + now exists 1%nat, (mkVolu 8 false []), [1; 2; 1].
Qed.
