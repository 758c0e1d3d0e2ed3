(** Specifications for the theorems on spawning: the surroundings of a vertex, and what a
    snake grown around it is. *)
From Verif Require Import Base Mesh Num Snake SpecMesh Spawn.
Set Implicit Arguments.
Open Scope Z_scope.

(** Surface [s], or cell [c], has the vertex as a corner. *)
Definition touches (m : mesh) (v s : Z) : Prop := exists e, VE m v e /\ ES m e s.
Definition in_cell (m : mesh) (v c : Z) : Prop := exists s, touches m v s /\ SV m s c.
(** The far end of an edge at [v]. *)
Definition far_end (m : mesh) (v e w : Z) : Prop := EV m e w /\ w <> v.

(** A vertex inside a mesh of cells: its edges are listed once and lead elsewhere, two of
    the edges of each surface that touches it meet there, and each such surface separates
    two cells. *)
Definition interior (m : mesh) (v : Z) : Prop :=
  has_vert m v /\
  (forall x, In x (verts m) -> ve_index x = v -> NoDup (ve_edgeind x)) /\
  (forall e, In e (edges m) -> VE m v (ed_index e) -> exists w, w <> v /\ (ed_vertind e = [v; w] \/ ed_vertind e = [w; v])) /\
  (forall s, In s (surfs m) -> touches m v (su_index s) ->
     NoDup (su_edgeind s) /\
     (exists a b, a <> b /\ forall e, (In e (su_edgeind s) /\ VE m v e) <-> (e = a \/ e = b)) /\
     exists c d, c <> d /\ c <> 0 /\ d <> 0 /\ su_voluind s = [c; d]).

(** [s] is a closed surface around [v]: a vertex for each edge, an edge for each surface
    and a surface for each cell that touches [v], joined as these are, and one cell
    inside. *)
Record grown {N : num} (m : mesh) (v : Z) (fe fs fc : Z -> Z) (cell : Z) (s : snake N) : Prop := mkGrown {
  g_snax : forall x, In x (k_snaxs s) <-> exists e w, VE m v e /\ far_end m v e w /\ x = @mkSnax N (fe e) n0 nhalf v w e 0 (-1);
  g_edges : forall p, In p (k_edges s) <-> exists f, touches m v f /\ p = (fs f, f);
  g_surfs : forall p, In p (k_surfs s) <-> exists c, in_cell m v c /\ p = (fc c, c);
  g_vert : forall i, has_vert (k_conn s) i <-> exists e, VE m v e /\ i = fe e;
  g_edge : forall i, has_edge (k_conn s) i <-> exists f, touches m v f /\ i = fs f;
  g_surf : forall i, has_surf (k_conn s) i <-> exists c, in_cell m v c /\ i = fc c;
  g_volu : forall i, has_volu (k_conn s) i <-> i = cell;
  g_ve : forall i j, VE (k_conn s) i j <-> exists e f, VE m v e /\ ES m e f /\ i = fe e /\ j = fs f;
  g_ev : forall i j, EV (k_conn s) j i <-> exists e f, VE m v e /\ ES m e f /\ i = fe e /\ j = fs f;
  g_es : forall i j, ES (k_conn s) i j <-> exists f c, touches m v f /\ SV m f c /\ i = fs f /\ j = fc c;
  g_se : forall i j, SE (k_conn s) j i <-> exists f c, touches m v f /\ SV m f c /\ i = fs f /\ j = fc c;
  g_sv : forall i j, SV (k_conn s) i j <-> (exists c, in_cell m v c /\ i = fc c) /\ (j = cell \/ j = 0);
  g_vs : forall i j, VS (k_conn s) i j <-> i = cell /\ exists c, in_cell m v c /\ j = fc c;
  g_fe : forall e e', VE m v e -> VE m v e' -> fe e = fe e' -> e = e';
  g_fs : forall f f', touches m v f -> touches m v f' -> fs f = fs f' -> f = f';
  g_fc : forall c c', in_cell m v c -> in_cell m v c' -> fc c = fc c' -> c = c' }.

(** The arrays of a snake belong together: snaxels and vertices, snaxedges and edges,
    snaxsurfs and surfaces have the same indices in the same order. *)
Definition in_step {N : num} (s : snake N) : Prop :=
  map (@sx_index N) (k_snaxs s) = map ve_index (verts (k_conn s)) /\
  map fst (k_edges s) = map ed_index (edges (k_conn s)) /\
  map fst (k_surfs s) = map su_index (surfs (k_conn s)).
(** No gap and no branch: each edge has two different ends and two different surfaces. *)
Definition closed (m : mesh) : Prop :=
  forall e, In e (edges m) -> (exists a b, a <> b /\ a <> 0 /\ b <> 0 /\ ed_vertind e = [a; b]) /\
                              (exists a b, a <> b /\ a <> 0 /\ b <> 0 /\ ed_surfind e = [a; b]).
(** Every snaxel is on an edge of the mesh, going from one end to the other. *)
Definition on_edges {N : num} (m : mesh) (s : snake N) : Prop :=
  forall x, In x (k_snaxs s) -> has_edge m (sx_edge x) /\ EV m (sx_edge x) (sx_from x) /\ EV m (sx_edge x) (sx_to x) /\ sx_from x <> sx_to x.
(** [a] followed by [b]. *)
Definition appended {N : num} (a b k : snake N) : Prop :=
  k_snaxs k = k_snaxs a ++ k_snaxs b /\ k_edges k = k_edges a ++ k_edges b /\ k_surfs k = k_surfs a ++ k_surfs b /\
  verts (k_conn k) = verts (k_conn a) ++ verts (k_conn b) /\ edges (k_conn k) = edges (k_conn a) ++ edges (k_conn b) /\
  surfs (k_conn k) = surfs (k_conn a) ++ surfs (k_conn b) /\ volus (k_conn k) = volus (k_conn a) ++ volus (k_conn b).
(** The objects of [b] have larger numbers than those of [a]. *)
Definition above (a b : mesh) : Prop :=
  (forall i j, has_vert a i -> has_vert b j -> i < j) /\ (forall i j, has_edge a i -> has_edge b j -> i < j) /\
  (forall i j, has_surf a i -> has_surf b j -> i < j) /\ (forall i j, has_volu a i -> has_volu b j -> i < j).
(** The vertex with index [w] is inside: isMeshVertIn, read with isFlipped. *)
Definition vert_inside {N : num} (m : mesh) (s : snake N) (w : Z) : Prop :=
  exists i x b, nth_error (verts m) i = Some x /\ ve_index x = w /\ nth_error (k_in s) i = Some b /\ xorb b (k_flipped s) = true.

(** ** Snaxels that have arrived *)
(** A snaxel of [k] is reported to have arrived at [v]: -1 is its starting vertex, -2 its
    target. *)
Definition hit {N : num} (impacts : list (Z * Z)) (k : snake N) (t v : Z) : Prop :=
  exists x, In x (k_snaxs k) /\ In (sx_index x, t) impacts /\ v = (if t =? -1 then sx_from x else sx_to x).
Definition on_border (m : mesh) (v : Z) : Prop := exists x, In x (verts m) /\ ve_index x = v /\ ve_border x = true.
(** The snaxel [y] is [x], stopped if it is reported to have arrived at the border. *)
Definition halted {N : num} (m : mesh) (impacts : list (Z * Z)) (x y : snax N) : Prop :=
  let there := (In (sx_index x, -1) impacts /\ on_border m (sx_from x)) \/ (In (sx_index x, -2) impacts /\ on_border m (sx_to x)) in
  (there /\ y = @mkSnax N (sx_index x) (sx_d x) (sx_v x) (sx_from x) (sx_to x) (sx_edge x) 1 (sx_order x)) \/ (~ there /\ y = x).
