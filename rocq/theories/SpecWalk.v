(** Vocabulary for the statements about the walk around the parts of a surface that are
    inside the snake. *)
From Coq Require Import List ZArith.
From Verif Require Import Base Mesh SpecMesh SpecOrder SpecEdit Family SpecFamily Calc Triangulate SpecTriangulate.
Set Implicit Arguments.
Open Scope Z_scope.

(** Snaxel [x] is on the edge [e] of the mesh. *)
Definition snaxel_on (k : snk) (e : Z) (x : sx) : Prop := In x (sk_snaxs k) /\ sx_edge x = e.
(** Along their edge, [y] is on the side of [x] that [x] comes from. *)
Definition behind (x y : sx) : Prop :=
  (sx_from x < sx_to x /\ sx_order y < sx_order x) \/ (sx_to x <= sx_from x /\ sx_order x < sx_order y).
(** [y] is the first snaxel that [x] meets on the way back: no other one is strictly
    between them. *)
Definition met_first (k : snk) (x y : sx) : Prop :=
  snaxel_on k (sx_edge x) y /\ behind x y /\
  forall z, snaxel_on k (sx_edge x) z -> behind x z ->
    (sx_from x < sx_to x -> sx_order z <= sx_order y) /\ (sx_to x <= sx_from x -> sx_order y <= sx_order z).
(** The edge [e] of the snake is in the surface [s] of the mesh and joins [x] and [y]. *)
Definition joins_in (k : snk) (s e x y : Z) : Prop := In (e, s) (sk_edges k) /\ edge_joins (sk_conn k) e x y.
(** Two neighbours on the outline of the part of the surface [s] with edges [l] that is
    inside the snake: two snaxels joined in the surface, two vertices of the mesh joined
    by an edge that the snake does not cross, or a snaxel and the vertex it comes from. *)
Inductive linked (k : snk) (m : mesh) (l : list Z) (s : Z) : Z * Z -> Z * Z -> Prop :=
| by_snake e x y : joins_in k s e x y -> linked k m l s (t_snake, x) (t_snake, y)
| by_edge e v w : In e l -> edge_joins m e v w -> (forall x, ~ snaxel_on k e x) -> linked k m l s (t_mesh, v) (t_mesh, w)
| to_snaxel e x : In e l -> snaxel_on k e x -> linked k m l s (t_mesh, sx_from x) (t_snake, sx_index x)
| to_vertex e x : In e l -> snaxel_on k e x -> linked k m l s (t_snake, sx_index x) (t_mesh, sx_from x).
(** A closed walk without repetition. *)
Definition closed_walk {A} (rel : A -> A -> Prop) (l : list A) : Prop :=
  (3 <= length l)%nat /\ NoDup l /\
  forall i a b, nth_error l i = Some a -> nth_error l ((i + 1) mod length l) = Some b -> rel a b.

(** The snake's own connectivity: every snaxel is a vertex of it, the snaxedges are its
    edges in the same order, and the edges listed by a vertex are those that end there. *)
Record sound_snake (k : snk) : Prop := {
  snake_snaxels : NoDup (map sx_index (sk_snaxs k));
  snake_verts : NoDup (map ve_index (verts (sk_conn k)));
  snake_edges : NoDup (map ed_index (edges (sk_conn k)));
  snake_aligned : map fst (sk_edges k) = map ed_index (edges (sk_conn k));
  snake_ends : forall x, In x (edges (sk_conn k)) -> exists a b, ed_vertind x = [a; b];
  snake_lists : forall v e, In v (verts (sk_conn k)) -> (In e (ve_edgeind v) <-> edge_touches (sk_conn k) e (ve_index v)) }.
(** The snake cuts surface [su] cleanly: no edge of the surface is crossed twice, a
    snaxel is on its way from a vertex inside to one outside, an edge that is not crossed
    has both ends on the same side, and exactly one edge of the snake leaves each snaxel
    in the surface, to another snaxel of the surface. *)
Record cut (k : snk) (m : mesh) (su : surf) (inside : Z -> Prop) : Prop := {
  cut_outline : exists vs, outlined m su vs;
  cut_single : forall e x y, In e (su_edgeind su) -> snaxel_on k e x -> snaxel_on k e y -> x = y;
  cut_ends : forall e x, In e (su_edgeind su) -> snaxel_on k e x ->
    edge_joins m e (sx_from x) (sx_to x) /\ inside (sx_from x) /\ ~ inside (sx_to x);
  cut_free : forall e v w, In e (su_edgeind su) -> (forall x, ~ snaxel_on k e x) -> edge_joins m e v w -> inside v -> inside w;
  cut_snake : forall e x y, joins_in k (su_index su) e x y -> x <> y /\ exists f a, In f (su_edgeind su) /\ snaxel_on k f a /\ sx_index a = x;
  cut_vertex : forall e x, In e (su_edgeind su) -> snaxel_on k e x -> exists v, In v (verts (sk_conn k)) /\ ve_index v = sx_index x;
  cut_one : forall e x, In e (su_edgeind su) -> snaxel_on k e x ->
    exists f y, joins_in k (su_index su) f (sx_index x) y /\ forall g z, joins_in k (su_index su) g (sx_index x) z -> g = f }.
(** Corner [a] is next to vertex [v] on the edge [e]. *)
Definition beside (k : snk) (m : mesh) (e v : Z) (a : Z * Z) : Prop :=
  edge_touches m e v /\ ((exists w, a = (t_mesh, w) /\ edge_joins m e v w) \/ (exists x, a = (t_snake, sx_index x) /\ snaxel_on k e x)).
(** The cells of a part are those of its surface in the same order when the part runs
    along the edges of the surface, and exchanged when it runs against them: at some
    corner [v] of the part that is a vertex of the mesh, the part comes along the edge
    [p] and leaves along the edge [q]. *)
Definition directed (k : snk) (m : mesh) (su : surf) (part : trisf) : Prop :=
  exists i a v b p q, nth_error (ts_corners part) i = Some a /\ nth_error (ts_corners part) (i + 1) = Some (t_mesh, v) /\
    nth_error (ts_corners part) ((i + 2) mod length (ts_corners part)) = Some b /\ beside k m p v a /\ beside k m q v b /\
    ((follows (su_edgeind su) p q /\ ts_volu part = su_voluind su) \/
     (follows (su_edgeind su) q p /\ exists c d r, su_voluind su = c :: d :: r /\ ts_volu part = d :: c :: r)).
(** [part] outlines a region of surface [su] inside the snake. *)
Definition outlines (k : snk) (m : mesh) (inside : Z -> Prop) (su : surf) (part : trisf) : Prop :=
  ts_parent part = su_index su /\ closed_walk (linked k m (su_edgeind su) (su_index su)) (ts_corners part) /\
  (forall v, In (t_mesh, v) (ts_corners part) -> inside v) /\ directed k m su part.
(** Two parts of the same surface have no corner in common. *)
Definition separate (parts : list trisf) : Prop :=
  forall i j x y a, nth_error parts i = Some x -> nth_error parts j = Some y -> ts_parent x = ts_parent y ->
    In a (ts_corners x) -> In a (ts_corners y) -> i = j.
(** [c] is the first thing met when leaving vertex [v] for [w] along the edge [f]: the
    snaxel of least rank from the end of smaller index, of greatest rank from the other,
    or [w] itself when there is no snaxel. *)
Definition first_from (k : snk) (f v w : Z) (c : Z * Z) : Prop :=
  ((forall x, ~ snaxel_on k f x) /\ c = (t_mesh, w)) \/
  (exists x, snaxel_on k f x /\ c = (t_snake, sx_index x) /\
     forall y, snaxel_on k f y -> (v < w -> sx_order x <= sx_order y) /\ (w < v -> sx_order y <= sx_order x)).
