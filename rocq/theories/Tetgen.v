(** Model of the exchange of meshes with tetgen, src/interfaces/tetgenrsvs.cpp.

    tetgen itself is not modelled: what it returns is an input ([tetout]), what it is
    given is a result ([tetin]).  Arrays of tetgenio are lists; reading or writing outside
    an array is undefined behaviour.  Numbers of type REAL are of any type: they are only
    copied.  Printing, and the random fill of cells (1152-1157), are left out. *)
From Verif Require Import Base Containers Mesh Flood Edit Order.
Import Mesh.
Set Implicit Arguments.
Open Scope Z_scope.

(** ** From tetgen: TET2MESH *)
(** The fields of tetgenio that TET2MESH and SU2 read.  [tet2facelist] is [None] when the
    pointer is NULL. *)
Record tetout (REAL : Type) := mkTetout {
  firstnumber : Z; numberofpoints : nat; numberofedges : nat; numberoftrifaces : nat; numberoftetrahedra : nat;
  numberofcorners : Z; pointlist : list REAL; edgelist : list Z; trifacelist : list Z; trifacemarkerlist : list Z;
  face2edgelist : list Z; tetrahedronlist : list Z; tet2facelist : option (list Z) }.

(** 1060: INCR. *)
Definition incr (first : Z) : Z := if first =? 0 then 1 else 0.
(** 1061, and 422 in SU2: DEINCR. *)
Definition deincr (first : Z) : Z := if first =? 0 then 0 else -1.
(** vertind.push_back and the like, as in 1110. *)
Definition push {A} (get : A -> list Z) (set : list Z -> A -> A) (x : Z) (a : A) : A := set (get a ++ [x]) a.
(** The pairs i, j of two nested loops, as in 1119-1126. *)
Definition pairs (count n : nat) : list (Z * Z) := list_prod (upto count 0) (upto n 0).
(** The body of 1123-1124 and 1144-1145: element i gets the entry as an index, and the
    element at the position of the entry gets i + 1. *)
Definition connect {A B} (getA : A -> list Z) (setA : list Z -> A -> A) (getB : B -> list Z) (setB : list Z -> B -> B)
    (first : Z) (entries : list Z) (n : Z) (ij : Z * Z) (s : list A * list B) : outcome (list A * list B) :=
  do x <- at_ entries (fst ij * n + snd ij) ;
  do la <- modify (fst s) (fst ij) (push getA setA (x + incr first)) ;
  do lb <- modify (snd s) (x + deincr first) (push getB setB (fst ij + 1)) ;
  Ok (la, lb).
(** 1105-1112: the edges.  The vertices of edge i are assigned before the edge is pushed on
    the lists of the vertices; the edges were cleared in 1083-1086, so pushing them one by
    one gives the same lists. *)
Definition link_edges {REAL} (t : tetout REAL) := connect ed_vertind ed_set_vertind ve_edgeind ve_set_edgeind (firstnumber t) (edgelist t) 2.
(** 1127-1133: a surface with one side gets the exterior as other side. *)
Definition close_side (s : surf) : surf :=
  if (length (su_voluind s) =? 1)%nat then push su_voluind su_set_voluind 0 s else s.
(** 1092-1098: the coordinates of the vertices. *)
Definition coords_of {REAL} (t : tetout REAL) : outcome (list (list REAL)) :=
  omap_list (fun i => omap_list (fun j => at_ (pointlist t) (i * 3 + j)) (upto 3 0)) (upto (numberofpoints t) 0).
(** 1043-1158: TET2MESH up to PrepareForUse, with the coordinates of the vertices.  The
    surfaces were cleared in 1079-1082. *)
Definition tet2mesh {REAL} (t : tetout REAL) : outcome (mesh * list (list REAL)) :=
  match tet2facelist t with
  | None => Throw
  | Some t2f =>
    let vs := map (fun i => mkVert (i + 1) false []) (upto (numberofpoints t) 0) in
    let es := map (fun i => mkEdge (i + 1) false [] []) (upto (numberofedges t) 0) in
    let ss := map (fun i => mkSurf (i + 1) false false [] []) (upto (numberoftrifaces t) 0) in
    let ws := map (fun i => mkVolu (i + 1) false []) (upto (numberoftetrahedra t) 0) in
    do cs <- coords_of t ;
    do ev <- for_each (pairs (numberofedges t) 2) (link_edges t) (es, vs) ;
    do ws_ <- for_each (pairs (numberoftetrahedra t) 4)
      (connect vo_surfind vo_set_surfind su_voluind su_set_voluind (firstnumber t) t2f 4) (ws, ss) ;
    let ss1 := map close_side (snd ws_) in
    do se <- for_each (pairs (numberoftrifaces t) 3)
      (connect su_edgeind su_set_edgeind ed_surfind ed_set_surfind (firstnumber t) (face2edgelist t) 3) (ss1, fst ev) ;
    do m <- mesh_tighten (mkMesh (fst ws_) (fst se) (snd se) (snd ev) 0) ;
    Ok (m, cs)
  end.

(** ** From tetgen to SU2 *)
(** The lines of the file.  How numbers are printed (16 digits) is left out. *)
Inductive line (REAL : Type) :=
| Ndime (n : Z) | Npoin (n : nat) | Point (l : list REAL) | Nelem (n : nat) | Tetra (l : list Z)
| Nmark (n : Z) | Tag (z : Z) | Elems (n : Z) | Tri (l : list Z).
Arguments Ndime {REAL}. Arguments Npoin {REAL}. Arguments Point {REAL}. Arguments Nelem {REAL}. Arguments Tetra {REAL}.
Arguments Nmark {REAL}. Arguments Tag {REAL}. Arguments Elems {REAL}. Arguments Tri {REAL}.
(** 470-474: the first position of a marker; the length when there is none. *)
Fixpoint first_same (l : list Z) (x : Z) : nat :=
  match l with [] => 0 | y :: r => if y =? x then 0%nat else S (first_same r x) end.
(** 468-482: the body; diffBounds and numBounds. *)
Definition count_marker (x : Z) (s : list Z * list Z) : outcome (list Z * list Z) :=
  let '(diff, num) := s in
  let j := first_same diff x in
  let '(diff, num) := if (j <? length diff)%nat then (diff, num) else (diff ++ [x], num ++ [0]) in
  do num <- modify num (Z.of_nat j) (fun n => n + 1) ;
  Ok (diff, num).
(** 451-454 and 497-500: the points of an element, from 0. *)
Definition points_of (first : Z) (l : list Z) (start : Z) (n : nat) : outcome (list Z) :=
  omap_list (fun j => do x <- at_ l (start + j) ; Ok (x + deincr first)) (upto n 0).
(** 490-503: one boundary. *)
Definition boundary {REAL} (t : tetout REAL) (diff num : list Z) (k : Z) : outcome (list (line REAL)) :=
  do d <- at_ diff k ; do n <- at_ num k ;
  do tris <- omap_list (fun i => do x <- at_ (trifacemarkerlist t) i ;
      if x =? d then do l <- points_of (firstnumber t) (trifacelist t) (i * 3) 3 ; Ok [Tri l] else Ok [])
    (upto (numberoftrifaces t) 0) ;
  Ok (Tag d :: Elems n :: concat tris).
(** 413-512: SU2. *)
Definition su2 {REAL} (t : tetout REAL) : outcome (list (line REAL)) :=
  do cs <- coords_of t ;
  do tets <- omap_list (fun i => points_of (firstnumber t) (tetrahedronlist t) (i * numberofcorners t) 4) (upto (numberoftetrahedra t) 0) ;
  do dn <- for_each (upto (numberoftrifaces t) 0) (fun i s => do x <- at_ (trifacemarkerlist t) i ; count_marker x s) ([0], [0]) ;
  do bs <- omap_list (boundary t (fst dn) (snd dn)) (upto (length (fst dn) - 1) 1) ;
  Ok ([Ndime 3; Npoin (numberofpoints t)] ++ map Point cs ++ [Nelem (numberoftetrahedra t)] ++ map Tetra tets
    ++ [Nmark (Z.of_nat (length (fst dn)) - 1)] ++ concat bs).

(** ** To tetgen *)
(** The fields of tetgenio that Mesh2Tetgenio writes: [None] is a value not yet written, and
    a facet is the vertex list of its only polygon.  [in_npoints] and [in_nfacets] are
    numberofpoints and numberoffacets. *)
Record tetin (REAL : Type) := mkTetin {
  in_npoints : Z; in_nfacets : Z; in_nmtrs : Z;
  in_points : list (option REAL); in_mtrs : list (option REAL); in_pmarkers : list (option Z);
  in_facets : list (option (list Z)); in_fmarkers : list (option Z); in_constraints : list (option (Z + REAL)) }.
(** A write to an array: outside it is undefined. *)
Definition put {A} (l : list (option A)) (p : Z) (x : A) : outcome (list (option A)) := modify l p (fun _ => Some x).
(** 38-52: the points of one mesh; the body for one vertex. *)
Definition put_point {REAL} (offset marker : Z) (mtr : list REAL) (countJ : nat) (ic : Z * list REAL) (s : tetin REAL) : outcome (tetin REAL) :=
  do ps <- for_each (upto 3 0) (fun j l => do x <- at_ (snd ic) j ; put l ((fst ic + offset) * 3 + j) x) (in_points s) ;
  do ms <- for_each (upto countJ 0) (fun j l => do x <- at_ mtr j ; put l ((fst ic + offset) * Z.of_nat countJ + j) x) (in_mtrs s) ;
  do ks <- put (in_pmarkers s) (fst ic + offset) marker ;
  Ok (mkTetin (in_npoints s) (in_nfacets s) (in_nmtrs s) ps ms ks (in_facets s) (in_fmarkers s) (in_constraints s)).
(** 57-62: the constraints on facets; the body for one value. *)
Definition put_constraint {REAL} (offset : Z) (ix : Z * REAL) (s : tetin REAL) : outcome (tetin REAL) :=
  do cs <- put (in_constraints s) ((offset + fst ix) * 2) (inl (offset + fst ix + 1)) ;
  do cs <- put cs ((offset + fst ix) * 2 + 1) (inr (snd ix)) ;
  Ok (mkTetin (in_npoints s) (in_nfacets s) (in_nmtrs s) (in_points s) (in_mtrs s) (in_pmarkers s) (in_facets s) (in_fmarkers s) cs).
(** 74-89: the facets; the body for one surface.  find gives -1 for a vertex that is not in
    the mesh (84).  allocatefacet and allocatefacetpolygon (1496-1534) with a number out
    of range only print; the write that follows is then undefined. *)
Definition put_facet {REAL} (m : mesh) (facetOffset pointOffset nConstr constrOffset : Z) (is_ : Z * surf) (s : tetin REAL) : outcome (tetin REAL) :=
  do vs <- ordered_verts m (su_edgeind (snd is_)) ;
  do fs <- put (in_facets s) (fst is_ + facetOffset) (map (fun v => find ve_index (verts m) v + pointOffset) vs) ;
  do ks <- put (in_fmarkers s) (fst is_ + facetOffset) (constrOffset + fst is_ mod nConstr + 1) ;
  Ok (mkTetin (in_npoints s) (in_nfacets s) (in_nmtrs s) (in_points s) (in_mtrs s) (in_pmarkers s) fs ks (in_constraints s)).
(** 25-90: MeshData2Tetgenio, for a mesh and the coordinates of its vertices. *)
Definition mesh_data {REAL} (m : mesh) (coords : list (list REAL)) (facetOffset pointOffset marker : Z) (mtr constr : list REAL) (constrOffset : Z)
    (s : tetin REAL) : outcome (tetin REAL) :=
  let countJ := Z.to_nat (Z.min (Z.of_nat (length mtr)) (in_nmtrs s)) in
  do s <- for_each (combine (upto (length coords) 0) coords) (put_point pointOffset marker mtr countJ) s ;
  do s <- for_each (combine (upto (length constr) 0) constr) (put_constraint constrOffset) s ;
  let nConstr := Z.max (Z.of_nat (length constr)) 1 in
  for_each (combine (upto (length (surfs m)) 0) (surfs m)) (put_facet m facetOffset pointOffset nConstr constrOffset) s.
(** 1358-1393: io_safe::allocate, for the arrays used here. *)
Definition allocated {REAL} (npoints nfacets nmtrs nconstr : nat) : tetin REAL :=
  mkTetin (Z.of_nat npoints) (Z.of_nat nfacets) (Z.of_nat nmtrs) (repeat None (npoints * 3)) (repeat None (npoints * nmtrs)) (repeat None npoints)
    (repeat None nfacets) (repeat None nfacets) (repeat None (nconstr * 2)).
(** 92-117: Mesh2Tetgenio, on a new tetgenio; [zero] and [minus1] are 0.0 and -1.0. *)
Definition mesh2tetgen {REAL} (zero minus1 : REAL) (geom domain : mesh) (cg cd : list (list REAL)) : outcome (tetin REAL) :=
  let nf := length (surfs geom) in let np := length (verts geom) in
  do s <- mesh_data geom cg 0 0 1 [zero] [zero] 0 (allocated (np + length (verts domain)) (nf + length (surfs domain)) 1 2) ;
  mesh_data domain cd (Z.of_nat nf) (Z.of_nat np) (-1) [minus1] [zero] 1 s.

(** 1536-1560: SpecifyTetPointMetric. *)
Definition point_metric {REAL} (start num : Z) (mtrs : list REAL) (s : tetin REAL) : outcome (tetin REAL) :=
  let count := Z.to_nat (Z.min (Z.of_nat (length mtrs)) (in_nmtrs s)) in
  if in_npoints s <? start + num then Throw else if start <? 0 then Throw else
  do ms <- for_each (list_prod (upto (Z.to_nat num) start) (upto count 0))
    (fun ij l => do x <- at_ mtrs (snd ij) ; put l (fst ij * in_nmtrs s + snd ij) x) (in_mtrs s) ;
  Ok (mkTetin (in_npoints s) (in_nfacets s) (in_nmtrs s) (in_points s) ms (in_pmarkers s) (in_facets s) (in_fmarkers s) (in_constraints s)).
(** 1587-1606: SpecifyTetFacetMetric. *)
Definition facet_metric {REAL} (start num marker : Z) (s : tetin REAL) : outcome (tetin REAL) :=
  if in_nfacets s <? start + num then Throw else if start <? 0 then Throw else
  do ks <- for_each (upto (Z.to_nat num) start) (fun i l => put l i marker) (in_fmarkers s) ;
  Ok (mkTetin (in_npoints s) (in_nfacets s) (in_nmtrs s) (in_points s) (in_mtrs s) (in_pmarkers s) (in_facets s) ks (in_constraints s)).
(** 249-288: RSVSGRIDS.  [lb] and [ld] are the lengths wanted at the points of the two
    meshes, as computed in 273-278 and 281-286: one number for each vertex. *)
Definition rsvs_grids {REAL} (zero minus1 : REAL) (domain bound : mesh) (cd cb : list (list REAL)) (ld lb : list REAL) : outcome (tetin REAL) :=
  do s <- mesh2tetgen zero minus1 bound domain cb cd ;
  let start := Z.of_nat (length (verts bound)) in
  do s <- point_metric 0 start lb s ;
  point_metric start (start + Z.of_nat (length ld)) ld s.

(** ** Faces of a boundary *)
(** 1344-1352: are all the vertices marked?  The loop stops at the first that is not. *)
Fixpoint all_marked (m : mesh) (log : list bool) (vs : list Z) : outcome bool :=
  match vs with
  | [] => Ok true
  | v :: r => do b <- at_ log (find ve_index (verts m) v) ; if b then all_marked m log r else Ok false
  end.
(** 1320-1355: BoundaryFacesFromPoints. *)
Definition boundary_faces (m : mesh) (pts : list Z) : outcome (list bool) :=
  do log <- for_each pts (fun v l => modify l (find ve_index (verts m) v) (fun _ => true)) (repeat false (length (verts m))) ;
  omap_list (fun s => do vs <- ordered_verts m (su_edgeind s) ; all_marked m log vs) (surfs m).
