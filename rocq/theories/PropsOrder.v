(** C21 and C22: ordering the edges of a surface and reading its vertices. *)
From Verif Require Import Base Containers ContainersProofs Mesh SpecMesh MeshProofs Order SpecOrder OrderProofs OrderMeshProofs.
Set Implicit Arguments.
Open Scope Z_scope.

(** Some lists of pairs. A square with its edges out of order, and two
    triangles. *)
Definition square_ids := [1; 2; 3; 4].
Definition square_e2v := [10; 11; 12; 13; 11; 12; 13; 10].
Definition two_triangles := [10; 11; 20; 21; 11; 12; 21; 22; 12; 10; 22; 20].
Definition chain_e2v := [11; 12; 10; 11; 12; 13].

Lemma table_of_is_table e2v : is_table e2v (table_of e2v).
Proof. intros v. apply Permutation_refl. Qed.

(** An ordered result is a permutation of the input, all of it connected; when
    open chains are errors, neighbours share a vertex. *)
Theorem C21_ordered : forall e2v orig rng errout e0 r l,
  orig = e0 :: r -> NoDup orig -> length e2v = (2 * length orig)%nat -> is_table e2v rng ->
  order_list e2v orig rng errout orig = Ok (ordered, l) ->
  Permutation l orig /\ (errout = true -> chained (share orig e2v) l) /\
  (forall e, In e orig -> reach (share orig e2v) e0 e).
Proof.
  intros e2v orig rng errout e0 r l E Hnd Hlen Hrng Hrun.
  destruct (order_sound errout Hlen Hnd Hrng Hrun) as [[_ [C _]]|H]; [congruence|].
  assert (E0 : o orig 0 = e0) by (rewrite E; auto). unfold order_ok in H. rewrite E0 in H.
  destruct H as [[_ [H1 [H2 H3]]]|[[C _]|[_ [k [C [Hk _]]]]]].
  - split; auto. split; auto. intros e He. apply H3. apply (Permutation_in e (Permutation_sym H1)); auto.
  - discriminate.
  - unfold ordered in C. lia.
Qed.
Print Assumptions C21_ordered.
Example C21_ordered_used : order_list square_e2v square_ids (table_of square_e2v) true square_ids = Ok (ordered, [1; 4; 2; 3]).
Proof. reflexivity. Qed.

(** A truncated result is a chain of distinct elements of the input, shorter than
    the input. *)
Theorem C21_truncated : forall e2v orig rng errout l,
  orig <> [] -> NoDup orig -> length e2v = (2 * length orig)%nat -> is_table e2v rng ->
  order_list e2v orig rng errout orig = Ok (truncated, l) ->
  (0 < length l < length orig)%nat /\ NoDup l /\ incl l orig /\ chained (share orig e2v) l.
Proof.
  intros e2v orig rng errout l E Hnd Hlen Hrng Hrun.
  destruct (order_sound errout Hlen Hnd Hrng Hrun) as [[_ [C _]]|H]; [congruence|].
  destruct H as [[C _]|[[_ H]|[_ [k [C [Hk _]]]]]].
  - discriminate.
  - exact H.
  - unfold truncated in C. lia.
Qed.
Print Assumptions C21_truncated.
Example C21_truncated_used :
  order_list two_triangles [1; 2; 3; 4; 5; 6] (table_of two_triangles) true [1; 2; 3; 4; 5; 6] = Ok (truncated, [1; 5; 3]).
Proof. reflexivity. Qed.

(** The other results are reported only where open chains are allowed: [-k], the
    first [k] entries being distinct connected elements of the input. *)
Theorem C21_open : forall e2v orig rng errout c e0 r l,
  orig = e0 :: r -> NoDup orig -> length e2v = (2 * length orig)%nat -> is_table e2v rng ->
  order_list e2v orig rng errout orig = Ok (c, l) -> c <> ordered -> c <> truncated ->
  errout = false /\ exists k, c = - Z.of_nat k /\ (0 < k < length orig)%nat /\ length l = length orig /\
    NoDup (firstn k l) /\ incl (firstn k l) orig /\ (forall e, In e (firstn k l) -> reach (share orig e2v) e0 e).
Proof.
  intros e2v orig rng errout c e0 r l E Hnd Hlen Hrng Hrun C1 C2.
  destruct (order_sound errout Hlen Hnd Hrng Hrun) as [[_ [C _]]|H]; [congruence|].
  assert (E0 : o orig 0 = e0) by (rewrite E; auto). unfold order_ok in H. rewrite E0 in H.
  destruct H as [[C _]|[[C _]|H]]; [congruence|congruence|exact H].
Qed.
Print Assumptions C21_open.
Example C21_open_used :
  order_list [10; 11; 11; 12; 20; 21] [1; 2; 3] (table_of [10; 11; 11; 12; 20; 21]) false [1; 2; 3] = Ok (-2, [1; 2; 3]).
Proof. reflexivity. Qed.

(** Where every value is used exactly twice, ordering never fails: the result is
    a closed polygon with distinct corners made of exactly the elements connected
    to the first one; it is reported ordered exactly when that is all of them. *)
Theorem C21_polygon : forall e2v orig rng errout e0 r,
  orig = e0 :: r -> NoDup orig -> length e2v = (2 * length orig)%nat -> is_table e2v rng -> two_regular e2v ->
  exists c l vs, order_list e2v orig rng errout orig = Ok (c, l) /\
    polygon (joins orig e2v) l vs /\ NoDup l /\ NoDup vs /\
    (forall e, In e l <-> In e orig /\ reach (share orig e2v) e0 e) /\
    (c = ordered \/ c = truncated) /\
    (c = ordered <-> forall e, In e orig -> reach (share orig e2v) e0 e).
Proof.
  intros e2v orig rng errout e0 r E Hnd Hlen Hrng Hreg.
  destruct (order_regular errout Hlen Hnd Hrng Hreg) as [c [l [Hrun [H1 [H2 [[vs [H3 H4]] [H5 H6]]]]]]]; [congruence|].
  assert (E0 : o orig 0 = e0) by (rewrite E; auto). rewrite E0 in H5.
  exists c, l, vs. split; auto. split; auto. split; auto. split; auto. split; auto.
  split; [tauto|]. destruct H6 as [[-> HP]|[-> HL]].
  - split; auto. intros _ e He. apply H5. apply (Permutation_in e (Permutation_sym HP)); auto.
  - split; [discriminate|]. intros Hall. exfalso.
    assert (L : (length orig <= length l)%nat) by (apply NoDup_incl_length; auto; intros e He; apply H5; auto). lia.
Qed.
Print Assumptions C21_polygon.
Lemma square_regular : two_regular square_e2v.
Proof.
  split.
  - intros v Hv. simpl in Hv. repeat destruct Hv as [<-|Hv]; auto. destruct Hv.
  - intros p a b. do 4 (destruct p as [|p]; [simpl; intros E1 E2; injection E1 as <-; injection E2 as <-; discriminate|]).
    replace (2 * S (S (S (S p))))%nat with (8 + 2 * p)%nat by lia. simpl.
    intros H. destruct (p + (p + 0))%nat; discriminate.
Qed.
Example C21_polygon_used : exists c l vs, order_list square_e2v square_ids (table_of square_e2v) true square_ids = Ok (c, l) /\
  polygon (joins square_ids square_e2v) l vs.
Proof.
  destruct (@C21_polygon square_e2v square_ids (table_of square_e2v) true 1 [2; 3; 4]) as [c [l [vs [H1 [H2 _]]]]]; auto.
  - repeat constructor; simpl; intuition discriminate.
  - apply table_of_is_table.
  - apply square_regular.
  - exists c, l, vs. auto.
Qed.

(** Findings. Where open chains are allowed, a chain met from the middle is
    reported ordered although neighbours share nothing. *)
Theorem C21_open_chain_refuted : exists e2v orig l e f,
  NoDup orig /\ length e2v = (2 * length orig)%nat /\
  order_list e2v orig (table_of e2v) false orig = Ok (ordered, l) /\
  nth_error l 1 = Some e /\ nth_error l 2 = Some f /\ ~ share orig e2v e f.
Proof.
  exists chain_e2v, [1; 2; 3], [1; 2; 3], 2, 3. split; [repeat constructor; simpl; intuition discriminate|].
  split; [reflexivity|]. split; [reflexivity|]. split; [reflexivity|]. split; [reflexivity|].
  intros [v [[a [b [[p [H1 [H2 H3]]] Hv]]] [a' [b' [[q [H4 [H5 H6]]] Hv']]]]].
  destruct p as [|[|[|p]]]; simpl in H1; try discriminate; [|destruct p; discriminate].
  destruct q as [|[|[|q]]]; simpl in H4; try discriminate; [|destruct q; discriminate].
  simpl in *. injection H2 as <-. injection H3 as <-. injection H5 as <-. injection H6 as <-.
  intuition congruence.
Qed.
Print Assumptions C21_open_chain_refuted.

(** Where open chains are errors, an open chain met from one end is still
    reported ordered: the closing pair is never checked. *)
Theorem C21_closure_refuted : exists e2v orig l e f,
  NoDup orig /\ length e2v = (2 * length orig)%nat /\
  order_list e2v orig (table_of e2v) true orig = Ok (ordered, l) /\
  nth_error l 0 = Some e /\ nth_error l 2 = Some f /\ length l = 3%nat /\ ~ share orig e2v e f.
Proof.
  exists [11; 10; 11; 12; 12; 13], [1; 2; 3], [1; 2; 3], 1, 3. split; [repeat constructor; simpl; intuition discriminate|].
  split; [reflexivity|]. split; [reflexivity|]. split; [reflexivity|]. split; [reflexivity|]. split; [reflexivity|].
  intros [v [[a [b [[p [H1 [H2 H3]]] Hv]]] [a' [b' [[q [H4 [H5 H6]]] Hv']]]]].
  destruct p as [|[|[|p]]]; simpl in H1; try discriminate; [|destruct p; discriminate].
  destruct q as [|[|[|q]]]; simpl in H4; try discriminate; [|destruct q; discriminate].
  simpl in *. injection H2 as <-. injection H3 as <-. injection H5 as <-. injection H6 as <-.
  intuition congruence.
Qed.
Print Assumptions C21_closure_refuted.

(** Without the original list the elements are sorted but not their pairs: the
    result is reported ordered although two neighbours share nothing. *)
Theorem C21_sorting_refuted : exists e2v ids l e f,
  NoDup ids /\ length e2v = (2 * length ids)%nat /\ two_regular e2v /\
  order_list_sorting e2v (table_of e2v) true ids = Ok (ordered, l) /\
  nth_error l 1 = Some e /\ nth_error l 2 = Some f /\ ~ share ids e2v e f.
Proof.
  exists square_e2v, [3; 1; 2; 4], [1; 4; 2; 3], 4, 2.
  split; [repeat constructor; simpl; intuition discriminate|]. split; [reflexivity|].
  split; [apply square_regular|]. split; [reflexivity|]. split; [reflexivity|]. split; [reflexivity|].
  intros [v [[a [b [[p [H1 [H2 H3]]] Hv]]] [a' [b' [[q [H4 [H5 H6]]] Hv']]]]].
  destruct p as [|[|[|[|p]]]]; simpl in H1; try discriminate; [|destruct p; discriminate].
  destruct q as [|[|[|[|q]]]]; simpl in H4; try discriminate; [|destruct q; discriminate].
  simpl in *. injection H2 as <-. injection H3 as <-. injection H5 as <-. injection H6 as <-.
  intuition congruence.
Qed.
Print Assumptions C21_sorting_refuted.

(** The edges of a surface: simple closed polygons in any mesh are walked from
    the edge of least index. *)
Theorem C21_surface : forall m table edgeind,
  NoDup (map ed_index (edges m)) -> (forall l, is_table l (table l)) ->
  edgeind <> [] -> simple_loops m edgeind ->
  exists c l vs e0, surf_order m table edgeind = Ok (c, l) /\
    In e0 edgeind /\ (forall e, In e edgeind -> e0 <= e) /\
    polygon (edge_joins m) l vs /\ NoDup l /\ NoDup vs /\
    (forall e, In e l <-> In e edgeind /\ reach (edges_meet m edgeind) e0 e) /\
    (c = ordered \/ c = truncated) /\
    (c = ordered <-> forall e, In e edgeind -> reach (edges_meet m edgeind) e0 e).
Proof. exact surface_order. Qed.
Print Assumptions C21_surface.

(** C22: an ordered polygon of three edges or more gives back its corners. *)
Theorem C22_ordered_verts : forall m l vs,
  NoDup (map ed_index (edges m)) -> (3 <= length l)%nat -> NoDup vs -> polygon (edge_joins m) l vs ->
  ordered_verts m l = Ok vs.
Proof. exact verts_of_polygon. Qed.
Print Assumptions C22_ordered_verts.

(** From the unordered edges of a surface to its vertices. *)
Theorem C22_from_edges : forall m table edgeind c l,
  NoDup (map ed_index (edges m)) -> (forall l, is_table l (table l)) ->
  edgeind <> [] -> simple_loops m edgeind -> surf_order m table edgeind = Ok (c, l) -> (3 <= length l)%nat ->
  exists vs, ordered_verts m l = Ok vs /\ length vs = length l /\ NoDup vs /\ polygon (edge_joins m) l vs.
Proof.
  intros m table edgeind c l Hu Ht Hne HS Hrun H3.
  destruct (@surface_order m table edgeind Hu Ht Hne HS) as [c' [l' [vs [e0 [Hrun' [_ [_ [HP [_ [HN _]]]]]]]]]].
  assert (l' = l) by congruence. subst l'. exists vs. split; [apply verts_of_polygon; auto|].
  split; [apply HP|auto].
Qed.
Print Assumptions C22_from_edges.

(** A square given by edges 3, 5, 7, 9 of a mesh. *)
Definition loop_mesh : mesh :=
  mkMesh [] [] [mkEdge 7 false [] [10; 11]; mkEdge 3 false [] [12; 13];
                mkEdge 5 false [] [11; 12]; mkEdge 9 false [] [10; 13]] [] 2.
Lemma loop_edges e a b : edge_is loop_mesh e a b <->
  In (e, a, b) [(7, 10, 11); (3, 12, 13); (5, 11, 12); (9, 10, 13)].
Proof.
  unfold edge_is. simpl. split.
  - intros [x [Hx [<- E]]]. repeat destruct Hx as [<-|Hx]; simpl in *; try injection E as <- <-; tauto.
  - intros H. repeat destruct H as [H|H]; try contradiction; injection H as <- <- <-.
    + eexists. split; [left; reflexivity|]. split; reflexivity.
    + eexists. split; [right; left; reflexivity|]. split; reflexivity.
    + eexists. split; [right; right; left; reflexivity|]. split; reflexivity.
    + eexists. split; [right; right; right; left; reflexivity|]. split; reflexivity.
Qed.
Lemma loop_simple : simple_loops loop_mesh [9; 7; 3; 5].
Proof.
  assert (T : forall e v, edge_touches loop_mesh e v <->
    In (e, v) [(7, 10); (7, 11); (3, 12); (3, 13); (5, 11); (5, 12); (9, 10); (9, 13)]).
  { intros e v. unfold edge_touches, edge_joins. split.
    - intros [w [H|H]]; apply loop_edges in H; simpl in H; repeat destruct H as [H|H];
        try injection H as <- <- <-; simpl; tauto.
    - intros H. simpl in H. repeat destruct H as [H|H]; try injection H as <- <-; try contradiction.
      all: first [exists 11; left; apply loop_edges; simpl; tauto | exists 10; right; apply loop_edges; simpl; tauto
                 |exists 13; left; apply loop_edges; simpl; tauto | exists 12; right; apply loop_edges; simpl; tauto
                 |exists 12; left; apply loop_edges; simpl; tauto | exists 11; right; apply loop_edges; simpl; tauto]. }
  split.
  - intros e He. simpl in He. repeat destruct He as [<-|He]; try contradiction.
    + exists 10, 13. split; [apply loop_edges; simpl; tauto|discriminate].
    + exists 10, 11. split; [apply loop_edges; simpl; tauto|discriminate].
    + exists 12, 13. split; [apply loop_edges; simpl; tauto|discriminate].
    + exists 11, 12. split; [apply loop_edges; simpl; tauto|discriminate].
  - intros e v He Hv. apply T in Hv. simpl in Hv. clear He.
    assert (G : forall e f v, In f [9; 7; 3; 5] -> f <> e -> edge_touches loop_mesh f v ->
      (forall g, In (g, v) [(7, 10); (7, 11); (3, 12); (3, 13); (5, 11); (5, 12); (9, 10); (9, 13)] -> g = e \/ g = f) ->
      exists f, In f [9; 7; 3; 5] /\ f <> e /\ edge_touches loop_mesh f v /\
        (forall g, In g [9; 7; 3; 5] -> edge_touches loop_mesh g v -> g = e \/ g = f)).
    { intros e' f v' H1 H2 H3 H4. exists f. split; auto. split; auto. split; auto. intros g _ Hg. apply H4, T, Hg. }
    repeat destruct Hv as [Hv|Hv]; try contradiction; injection Hv as <- <-.
    all: first [apply (G _ 9); [simpl; tauto|discriminate|apply T; simpl; tauto|]
               |apply (G _ 7); [simpl; tauto|discriminate|apply T; simpl; tauto|]
               |apply (G _ 3); [simpl; tauto|discriminate|apply T; simpl; tauto|]
               |apply (G _ 5); [simpl; tauto|discriminate|apply T; simpl; tauto|]].
    all: intros g Hg; simpl in Hg; repeat destruct Hg as [Hg|Hg]; try contradiction; try discriminate; injection Hg as <-; auto.
Qed.
Lemma loop_unique : NoDup (map ed_index (edges loop_mesh)).
Proof. repeat constructor; simpl; intuition discriminate. Qed.
Example C21_surface_used : surf_order loop_mesh table_of [9; 7; 3; 5] = Ok (ordered, [3; 5; 7; 9]) /\
  simple_loops loop_mesh [9; 7; 3; 5].
Proof. split; [reflexivity|apply loop_simple]. Qed.
Example C22_used : exists vs, ordered_verts loop_mesh [3; 5; 7; 9] = Ok vs /\ vs = [13; 12; 11; 10] /\
  polygon (edge_joins loop_mesh) [3; 5; 7; 9] vs.
Proof.
  destruct (@C22_from_edges loop_mesh table_of [9; 7; 3; 5] ordered [3; 5; 7; 9]) as [vs [H1 [_ [_ H2]]]].
  - apply loop_unique.
  - intros l. apply table_of_is_table.
  - discriminate.
  - apply loop_simple.
  - reflexivity.
  - simpl. lia.
  - exists vs. split; auto. split; auto. vm_compute in H1. injection H1 as <-. reflexivity.
Qed.

(** Finding. With two edges between the same two vertices the same vertex can be
    returned twice. *)
Theorem C22_two_edges_refuted : exists m l v,
  NoDup (map ed_index (edges m)) /\ surf_order m table_of l = Ok (ordered, l) /\
  (exists w, v <> w /\ polygon (edge_joins m) l [v; w]) /\ ordered_verts m l = Ok [v; v].
Proof.
  exists (mkMesh [] [] [mkEdge 1 false [] [10; 11]; mkEdge 2 false [] [10; 11]] [] 2), [1; 2], 10.
  split; [repeat constructor; simpl; intuition discriminate|]. split; [reflexivity|]. split; [|reflexivity].
  exists 11. split; [discriminate|]. split; [reflexivity|].
  intros i e a b He Ha Hb. destruct i as [|[|i]]; simpl in *; [| |destruct i; discriminate];
    injection He as <-; injection Ha as <-; injection Hb as <-.
  - left. eexists. split; [left; reflexivity|]. split; reflexivity.
  - right. eexists. split; [right; left; reflexivity|]. split; reflexivity.
Qed.
Print Assumptions C22_two_edges_refuted.

(** Ordering the edges around a vertex never loses or repeats one, whatever the
    code returned. *)
Theorem C21_vertex : forall m table edgeind c l,
  (forall l, is_table l (table l)) -> vert_order m table edgeind = Ok (c, l) ->
  NoDup l /\ (forall e, In e l <-> In e edgeind).
Proof. exact vertex_order. Qed.
Print Assumptions C21_vertex.
Example C21_vertex_used :
  vert_order (mkMesh [] [] [mkEdge 1 false [5; 6] []; mkEdge 2 false [7; 8] []; mkEdge 3 false [8; 5] []; mkEdge 4 false [6; 7] []] [] 3)
    table_of [4; 3; 2; 1] = Ok (ordered, [1; 3; 2; 4]).
Proof. reflexivity. Qed.
