(** Model of the triangulation of the mesh and of the snake: src/snake/triangulate.cpp
    and the mesh part of src/rsvs/RSVScalc.cpp.

    Arrays are lists together with the largest index seen (ArrayStruct::maxIndex).
    Searches by index and by parent are on prepared arrays (C01, C02): the state of the
    hash tables is left out, and elements with equal parents come in the order of the
    array, where the order in the hash table is not specified.  Coordinates are real
    numbers. *)
From Coq Require Export Reals List Lia ZArith Bool.
From Verif Require Export Base RsvsMath Calc.
From Verif Require Import Containers Mesh Order Edit Family.
Export ListNotations.
Set Implicit Arguments.
Open Scope Z_scope.

(** ** Arrays *)
(** ArrayStruct: elems and maxIndex, arraystructures.hpp 140-146. *)
Record arr (A : Type) := mkArr { items : list A; top : Z }.
Arguments mkArr {A} _ _.
(** ArrayStruct::push_back, arraystructures_incl.cpp 679-685. *)
Definition push {A} (index : A -> Z) (r : arr A) (a : A) : arr A := mkArr (items r ++ [a]) (if top r <? index a then index a else top r).
(** A loop of push_back. *)
Definition push_all {A} (index : A -> Z) (r : arr A) (l : list A) : arr A := fold_left (push index) l r.
(** ArrayStruct::SetMaxIndex, arraystructures_incl.cpp 555-568. *)
Definition max_of {A} (index : A -> Z) (l : list A) : Z := fold_right (fun a m => if m <? index a then index a else m) 0 l.
(** ArrayStruct::remove, arraystructures_incl.cpp, followed by PrepareForUse, which
    sets maxIndex. *)
Definition remove_all {A} (index : A -> Z) (del : list Z) (r : arr A) : arr A :=
  let l := filter (fun a => negb (mem_z (index a) del)) (items r) in mkArr l (max_of index l).
(** ArrayStruct::clear, arraystructures_incl.cpp 690-697. *)
Definition cleared {A} : arr A := mkArr [] 0.

(** ** Elements *)
(** triangle, triangulate.hpp 133-188: the part used by the calculations (Calc.v) and
    parentsurf. *)
Record face := mkFace { fc_tri : triangle; fc_parent : Z }.
(** index of a triangle. *)
Definition fc_index (f : face) : Z := tri_index (fc_tri f).
(** trianglepoint, triangulate.hpp 190-226, without coordinates: they are set by
    CalcTriVertPos, below. *)
Record centre := mkCentre { cn_index : Z; cn_parent : Z; cn_ptype : Z; cn_influences : Z }.
(** trianglesurf, triangulate.hpp 228-264: the corners with their types, the two cells
    and the surface of the mesh it is a part of. *)
Record trisf := mkTrisf { ts_index : Z; ts_corners : list (Z * Z); ts_volu : list Z; ts_parent : Z }.
(** class triangulation, triangulate.hpp 85-123, without the pointers. *)
Record tris := mkTris { t_stat : arr face; t_dyna : arr face; t_inter : arr face; t_vert : arr centre; t_surf : list trisf; t_act : list Z }.

(** ** The triangles of one surface *)
(** The pairs orderVert[ii], orderVert[(ii + 1) % n], triangulate.cpp 304-318 and
    370-380. *)
Definition sides {A} (l : list A) (n : nat) : outcome (list (A * A)) :=
  omap_list (fun ii => do a <- at_ l (Z.of_nat ii) ; do b <- at_ l (Z.of_nat ((ii + 1) mod n)) ; Ok (a, b)) (seq 0 n).
(** triangleEdge.index = ++nextInd in the loop, 314 and 374: the triangles. *)
Definition fan (next : Z) (third : Z * Z) (parent : Z) (cells : list Z) (infl : list R) (l : list ((Z * Z) * (Z * Z))) : list face :=
  map (fun p : nat * ((Z * Z) * (Z * Z)) =>
      mkFace (mkTri (next + Z.of_nat (fst p) + 1) [fst (snd p); snd (snd p); third] cells infl) parent)
    (combine (seq 0 (length l)) l).
(** TriangulateSurface, 262-338. *)
Definition triangulate_surface (m : mesh) (s : surf) (typ vmax : Z) (st : arr face * arr centre) : outcome (arr face * arr centre) :=
  let (tri, tv) := st in
  let next := top tri in
  let n := length (su_edgeind s) in
  do l <- ordered_verts m (su_edgeind s) ;
  let cells := if negb (typ =? t_snake) then su_voluind s else [] in
  let infl := if negb (typ =? t_snake) then [(-1)%R; 1%R] else [] in
  if (n <? 3)%nat then Throw
  else if (3 <? n)%nat then
    do ps <- sides (map (pair typ) l) n ;
    Ok (push_all fc_index tri (fan next (t_tri, vmax + 1) (su_index s) cells infl ps),
        push cn_index tv (mkCentre (vmax + 1) (su_index s) typ (if typ =? t_snake then Z.of_nat n else 0)))
  else Ok (push fc_index tri (mkFace (mkTri (next + 1) (map (pair typ) l) cells infl) (su_index s)), tv).
(** TriangulateTriSurface, 340-400. *)
Definition triangulate_trisurf (s : trisf) (typ vmax : Z) (st : arr face * arr centre) : outcome (arr face * arr centre) :=
  let (tri, tv) := st in
  let next := top tri in
  let n := length (ts_corners s) in
  if (n <? 3)%nat then Throw
  else if (3 <? n)%nat then
    do ps <- sides (ts_corners s) n ;
    Ok (push_all fc_index tri (fan next (t_tri, vmax + 1) (ts_index s) (ts_volu s) [(-1)%R; 1%R] ps),
        push cn_index tv (mkCentre (vmax + 1) (ts_index s) typ
          (if typ =? t_snake then Z.of_nat (length (filter (fun q => fst q =? t_snake) (ts_corners s))) else 0)))
  else Ok (push fc_index tri (mkFace (mkTri (next + 1) (ts_corners s) (ts_volu s) [(-1)%R; 1%R]) (ts_index s)), tv).

(** ** Several surfaces *)
(** The loops of TriangulateContainer, 213-254: surface ii gets maxIndVert + ii + 1. *)
Fixpoint each_surface {A} (f : A -> Z -> arr face * arr centre -> outcome (arr face * arr centre)) (l : list A) (v : Z)
    (st : arr face * arr centre) : outcome (arr face * arr centre) :=
  match l with [] => Ok st | s :: r => do st' <- f s (v + 1) st ; each_surface f r (v + 1) st' end.
(** 258: the index of one triangle. *)
Definition set_index (i : Z) (f : face) : face :=
  mkFace (mkTri i (tri_pts (fc_tri f)) (celltarg (fc_tri f)) (influence (fc_tri f))) (fc_parent f).
(** 255-259: the new triangles are numbered again; maxIndex is not touched. *)
Definition renumber (nS : nat) (maxI : Z) (r : arr face) : arr face :=
  mkArr (firstn nS (items r) ++ map (fun p : nat * face => set_index (Z.of_nat (fst p) + maxI + 1) (snd p))
           (combine (seq 0 (length (items r) - nS)) (skipn nS (items r)))) (top r).
(** meshin.surfs(subList[ii]) for each ii, or every surface when the list is empty,
    213-254. *)
Definition selected {A} (all : list A) (sub : list Z) : outcome (list A) :=
  match sub with [] => Ok all | _ => omap_list (at_ all) sub end.
(** TriangulateContainer, 186-260. *)
Definition triangulate_container (m : mesh) (typ : Z) (sub : list Z) (t : tris) : outcome tris :=
  let go (r : arr face) : outcome (arr face * arr centre) :=
    do st <- (if negb (typ =? t_tri)
              then do l <- selected (surfs m) sub ; each_surface (fun s v => triangulate_surface m s typ v) l (top (t_vert t)) (r, t_vert t)
              else do l <- selected (t_surf t) sub ; each_surface (fun s v => triangulate_trisurf s typ v) l (top (t_vert t)) (r, t_vert t)) ;
    Ok (renumber (length (items r)) (top r) (fst st), snd st) in
  if typ =? t_mesh then do st <- go (t_stat t) ; Ok (mkTris (fst st) (t_dyna t) (t_inter t) (snd st) (t_surf t) (t_act t))
  else if typ =? t_snake then do st <- go (t_dyna t) ; Ok (mkTris (t_stat t) (fst st) (t_inter t) (snd st) (t_surf t) (t_act t))
  else if typ =? t_tri then do st <- go (t_inter t) ; Ok (mkTris (t_stat t) (t_dyna t) (fst st) (snd st) (t_surf t) (t_act t))
  else Throw.
(** TriangulateMesh, 126-139; [tr] is the family of the mesh. *)
Definition triangulate_mesh (m : mesh) (tr : tree) (t : tris) : outcome tris :=
  do sub <- surfs_in_parent m tr ; triangulate_container m t_mesh sub t.
(** TriangulateSnake, 141-145. *)
Definition triangulate_snake (m : mesh) (t : tris) : outcome tris := triangulate_container m t_snake [] t.
(** A new triangulation, triangulate.hpp 113-117. *)
Definition no_tris : tris := mkTris cleared cleared cleared cleared [] [].

(** ** The snake as it is read here *)
(** snax, snake.hpp 160-220: the edge of the mesh it is on, its two ends, and its rank
    on the edge. *)
Record sx := mkSx { sx_index : Z; sx_from : Z; sx_to : Z; sx_edge : Z; sx_order : Z }.
(** class snake, snake.hpp: snakeconn and its surfaces marked as modified, snaxs,
    surfind of the snaxedges, voluind of the snaxsurfs, and isMeshVertIn. *)
Record snk := mkSnk { sk_conn : mesh; sk_modif : list Z; sk_snaxs : list sx; sk_edges : list (Z * Z); sk_surfs : list (Z * Z); sk_in : list bool }.

(** ** Maintenance *)
(** CleanDynaTri, 1136-1146: triangles of surfaces that are gone or modified. *)
Definition stale (s : snk) (f : face) : bool :=
  (find su_index (surfs (sk_conn s)) (fc_parent f) =? -1) || mem_z (fc_parent f) (sk_modif s).
(** The centres in these triangles, 1147-1159, when no two triangles have the same index. *)
Definition centres_in (l : list face) : list Z :=
  flat_map (fun f => map snd (filter (fun p => fst p =? t_tri) (tri_pts (fc_tri f)))) l.
(** CleanDynaTri, 1129-1177. *)
Definition clean_dyna (s : snk) (t : tris) : tris :=
  let old := filter (stale s) (items (t_dyna t)) in
  let pdel := centres_in old ++ map cn_index (filter (fun c => cn_ptype c =? t_tri) (items (t_vert t))) in
  mkTris (t_stat t) (remove_all fc_index (map fc_index old) (t_dyna t)) cleared (remove_all cn_index pdel (t_vert t)) [] (t_act t).

(** The assignments to connec, 1306-1307, 1313-1314 and 1332-1336. *)
Definition connect (cells : list Z) (infl : list R) (f : face) : face :=
  mkFace (mkTri (fc_index f) (tri_pts (fc_tri f)) cells infl) (fc_parent f).
(** SetConnectivityStat, 1310-1316, in the loop 1277-1284. *)
Definition connect_stat (m : mesh) (f : face) : outcome face :=
  match celltarg (fc_tri f) with
  | [] => do s <- isearch su_index (surfs m) (fc_parent f) ; Ok (connect (su_voluind s) [(-1)%R; 1%R] f)
  | _ => Ok f
  end.
(** SetConnectivityInter, 1303-1309, in the loop 1286-1292. *)
Definition connect_inter (ts : list trisf) (f : face) : outcome face :=
  do s <- isearch ts_index ts (fc_parent f) ; Ok (connect (ts_volu s) [(-1)%R; 1%R] f).
(** SetConnectivityDyna, 1317-1338, in the loop 1293-1300. *)
Definition connect_dyna (k : snk) (f : face) : outcome face :=
  match celltarg (fc_tri f) with
  | [] => do z <- lookup (fc_parent f) (sk_surfs k) ;
          do s <- isearch su_index (surfs (sk_conn k)) (fc_parent f) ;
          do v <- at_ (su_voluind s) 0 ;
          Ok (connect [z] [if v =? 0 then 1%R else (-1)%R] f)
  | _ => Ok f
  end.
(** SetConnectivity, 1274-1301. *)
Definition set_connectivity (m : mesh) (k : snk) (t : tris) : outcome tris :=
  do a <- omap_list (connect_stat m) (items (t_stat t)) ;
  do b <- omap_list (connect_inter (t_surf t)) (items (t_inter t)) ;
  do c <- omap_list (connect_dyna k) (items (t_dyna t)) ;
  Ok (mkTris (mkArr a (top (t_stat t))) (mkArr c (top (t_dyna t))) (mkArr b (top (t_inter t))) (t_vert t) (t_surf t) (t_act t)).

(** SetActiveStaticTri, 1241-1256: what is decided for the surface of one triangle.
    vector<bool>::operator[] out of range is undefined. *)
Definition surface_in (m : mesh) (inside : list bool) (ts : list trisf) (f : face) : outcome bool :=
  if mem_z (fc_parent f) (map ts_parent ts) then Ok false
  else match List.find (fun p => fst p =? t_mesh) (tri_pts (fc_tri f)) with
       | None => Throw
       | Some p => at_ inside (find ve_index (verts m) (snd p))
       end.
(** 1236-1271: [todo] are the triangles not marked as done. *)
Fixpoint active_loop (n : nat) (m : mesh) (inside : list bool) (ts : list trisf) (todo : list face) : outcome (list Z) :=
  match n, todo with
  | _, [] => Ok []
  | O, _ => OutOfFuel
  | S n', f :: _ =>
      do b <- surface_in m inside ts f ;
      do r <- active_loop n' m inside ts (filter (fun g => negb (fc_parent g =? fc_parent f)) todo) ;
      Ok ((if b then map fc_index (filter (fun g => fc_parent g =? fc_parent f) todo) else []) ++ r)
  end.
(** SetActiveStaticTri, 1226-1272. *)
Definition set_active (m : mesh) (inside : list bool) (t : tris) : outcome tris :=
  do l <- active_loop (length (items (t_stat t))) m inside (t_surf t) (items (t_stat t)) ;
  Ok (mkTris (t_stat t) (t_dyna t) (t_inter t) (t_vert t) (t_surf t) l).

(** ** Walking along the part of a surface that is inside the snake *)
(** snaxs.findsiblings(edge), snakstruct_incl.cpp 153-163.  The order of the answer comes
    from an unordered_multimap and is not specified; the order of the array is taken. *)
Definition on_edge (k : snk) (e : Z) : list sx := filter (fun x => sx_edge x =? e) (sk_snaxs k).
(** FollowSnaxelDirection, 859-888: the next snaxel, with [before] the comparison of the
    branch. *)
Definition nearest (before : Z -> Z -> bool) (cur : Z) (l : list sx) : option sx :=
  fold_left (fun acc x => if before (sx_order x) cur &&
                             match acc with None => true | Some y => before (sx_order y) (sx_order x) end
                          then Some x else acc) l None.
(** FollowSnaxelDirection, 829-901: type and index of the next corner, and the edge. *)
Definition follow_snaxel (k : snk) (i : Z) : outcome (Z * Z * Z) :=
  do x <- isearch sx_index (sk_snaxs k) i ;
  let sib := on_edge k (sx_edge x) in
  if Nat.eqb (length sib) 1 then Ok (t_mesh, sx_from x, sx_edge x)
  else match nearest (if sx_from x <? sx_to x then Z.ltb else Z.gtb) (sx_order x) sib with
       | None => Ok (t_mesh, sx_from x, sx_edge x)
       | Some y => Ok (t_snake, sx_index y, sx_edge x)
       end.
(** FollowVertexConnection, 903-974.  In the loops 948-955 and 959-966 currSnax receives
    the snaxel at position 0, the value it has already, so the loops change nothing but
    currOrd, which is not used afterwards; the read of the edge at 943 remains. *)
Definition follow_vertex (k : snk) (m : mesh) (edgeind vertind : list Z) (v prev : Z) : outcome (Z * Z * Z) :=
  match positions (Z.eqb v) vertind with
  | [p0; p1] =>
      do e1 <- at_ edgeind (Z.of_nat (p1 / 2)) ;
      let p := if negb (e1 =? prev) then p1 else p0 in
      do e <- at_ edgeind (Z.of_nat (p / 2)) ;
      match on_edge k e with
      | [] => do w <- at_ vertind (Z.of_nat p + 1 - Z.of_nat (p mod 2) * 2) ; Ok (t_mesh, w, e)
      | [x] => Ok (t_snake, sx_index x, e)
      | x :: _ => do ed <- isearch ed_index (edges m) e ; do _ <- at_ (ed_vertind ed) (Z.of_nat (p mod 2)) ; Ok (t_snake, sx_index x, e)
      end
  | _ => Throw
  end.
(** FollowSnaxEdgeConnection, 799-814: the loop, which takes the first edge of
    the snaxel in the surface. *)
Fixpoint edge_in_surface (k : snk) (s : Z) (l : list Z) : outcome Z :=
  match l with [] => Throw | e :: r => do z <- lookup e (sk_edges k) ; if z =? s then Ok e else edge_in_surface k s r end.
(** FollowSnaxEdgeConnection, 770-827: whether the edge had been followed already, the
    other end of the edge, and the new marks. *)
Definition follow_snaxedge (k : snk) (i s follow : Z) (done : list bool) : outcome (bool * Z * list bool) :=
  do v <- isearch ve_index (verts (sk_conn k)) i ;
  do e <- (if follow =? 0 then edge_in_surface k s (ve_edgeind v) else Ok follow) ;
  let p := find fst (sk_edges k) e in
  do b <- at_ done p ;
  do ed <- at_ (edges (sk_conn k)) p ;
  do v1 <- at_ (ed_vertind ed) 1 ;
  do w <- (if negb (v1 =? i) then Ok v1 else at_ (ed_vertind ed) 0) ;
  Ok (b, w, upd done (Z.to_nat p) true).

(** BuildTriSurfGridSnakeIntersect, 976-1098: the walk around one part of a surface.
    The next corner, the edge passed on, the corners so far (the last one first), nVert,
    the edges done, and pseudoEdgeInd[1] and [2]. *)
Record stroll := mkStroll { wk_type : Z; wk_index : Z; wk_edge : Z; wk_corners : list (Z * Z); wk_n : nat; wk_done : list bool; wk_p1 : Z; wk_p2 : Z }.
(** One turn of the loop 1027-1082; [true] when flagDone is set. *)
Definition stroll_step (k : snk) (m : mesh) (s : Z) (edgeind vertind : list Z) (w : stroll) : outcome (stroll * bool) :=
  if wk_type w =? t_mesh then
    do r <- follow_vertex k m edgeind vertind (wk_index w) (wk_edge w) ;
    let '(ty, ix, ed) := r in
    Ok (mkStroll ty ix (if ty =? t_snake then 0 else ed) ((wk_type w, wk_index w) :: wk_corners w) (S (wk_n w)) (wk_done w) (wk_edge w) ed, false)
  else if wk_type w =? t_snake then
    do r <- follow_snaxedge k (wk_index w) s (wk_edge w) (wk_done w) ;
    let '(b, ix, done) := r in
    if negb b then
      do r <- follow_snaxel k ix ;
      let '(ty, nx, ed) := r in
      Ok (mkStroll ty nx (if ty =? t_snake then 0 else ed) ((t_snake, ix) :: (t_snake, wk_index w) :: wk_corners w) (wk_n w) done (wk_p1 w) (wk_p2 w), false)
    else if Nat.eqb (wk_n w) 0 then
      do x <- isearch sx_index (sk_snaxs k) (wk_index w) ;
      do r <- follow_vertex k m edgeind vertind (sx_to x) (sx_edge x) ;
      Ok (mkStroll (wk_type w) (wk_index w) 0 (wk_corners w) (wk_n w) done (sx_edge x) (snd r), true)
    else Ok (mkStroll (wk_type w) (wk_index w) 0 (wk_corners w) (wk_n w) done (wk_p1 w) (wk_p2 w), true)
  else Ok (w, false).
(** The loop 1027-1082; [n] bounds the number of turns. *)
Fixpoint stroll_loop (n : nat) (k : snk) (m : mesh) (s : Z) (edgeind vertind : list Z) (w : stroll) : outcome stroll :=
  if (wk_n w <? length edgeind + 2)%nat then
    match n with
    | O => OutOfFuel
    | S n' => do r <- stroll_step k m s edgeind vertind w ; if snd r then Ok (fst r) else stroll_loop n' k m s edgeind vertind (fst r)
    end
  else Ok w.
(** 1084-1093: the part of the surface, its cells exchanged when it runs against the
    edges of the surface.  A surface with fewer than two cells is undefined. *)
Definition close_part (su : surf) (index : Z) (w : stroll) : outcome trisf :=
  do f <- order_match_lists [0; wk_p1 w; wk_p2 w; 0] (su_edgeind su) (wk_p1 w) (wk_p2 w) ;
  do v <- (if f =? -1 then do a <- at_ (su_voluind su) 0 ; do b <- at_ (su_voluind su) 1 ; Ok (b :: a :: skipn 2 (su_voluind su)) else Ok (su_voluind su)) ;
  Ok (mkTrisf index (rev (wk_corners w)) v (su_index su)).
(** One turn of the loop 995-1097, for the snaxedge at position [ii]; the state is the
    edges done, pseudoEdgeInd[1] and [2], and the parts so far.  The parent of the part is
    actSurf, the index of the surface. *)
Definition build_turn (n : nat) (k : snk) (m : mesh) (tr : tree) (ii : nat) (st : list bool * (Z * Z) * list trisf) : outcome (list bool * (Z * Z) * list trisf) :=
  let '(done, (p1, p2), parts) := st in
  do d <- at_ done (Z.of_nat ii) ;
  if d then Ok st else
  do se <- at_ (sk_edges k) (Z.of_nat ii) ;
  let (e, s) := se in
  do j <- surf_in_parent m tr s ;
  if 0 <=? j then
    do su <- isearch su_index (surfs m) s ;
    do vertind <- edge_pairs m (su_edgeind su) ;
    do ed <- at_ (edges (sk_conn k)) (Z.of_nat ii) ;
    do a <- at_ (ed_vertind ed) 0 ;
    do w <- stroll_loop n k m s (su_edgeind su) vertind (mkStroll t_snake a e [] 0 done p1 p2) ;
    do part <- close_part su (Z.of_nat (length parts) + 1) w ;
    Ok (upd (wk_done w) ii true, (wk_p1 w, wk_p2 w), parts ++ [part])
  else Ok (upd done ii true, (p1, p2), parts).
(** BuildTriSurfGridSnakeIntersect, 976-1098. *)
Definition build_trisurf (n : nat) (k : snk) (m : mesh) (tr : tree) : outcome (list trisf) :=
  do st <- for_each (seq 0 (length (sk_edges k))) (build_turn n k m tr) (repeat false (length (sk_edges k)), (0, 0), []) ;
  Ok (snd st).

(** MaintainTriangulateSnake, 147-184, with a snake attached.  The positions of the
    centres are left out. *)
Definition maintain (n : nat) (k : snk) (m : mesh) (tr : tree) (t : tris) : outcome (tris * snk) :=
  let modif := filter (fun s => mem_z (su_index s) (sk_modif k)) (surfs (sk_conn k)) in
  let sub := find_list su_index (surfs (sk_conn k)) (map su_index modif) in
  let t := clean_dyna k t in
  do t <- (match sub with [] => Ok t | _ => triangulate_container (sk_conn k) t_snake sub t end) ;
  do parts <- build_trisurf n k m tr ;
  let t := mkTris (t_stat t) (t_dyna t) (t_inter t) (t_vert t) parts (t_act t) in
  do t <- triangulate_container (sk_conn k) t_tri [] t ;
  do t <- set_connectivity m k t ;
  do t <- set_active m (sk_in k) t ;
  Ok (t, mkSnk (sk_conn k) [] (sk_snaxs k) (sk_edges k) (sk_surfs k) (sk_in k)).

(** ** Volumes of the cells of a mesh *)
(** BuildConstrMap(mesh), RSVScalc.cpp 505-520: the cell at each position. *)
Definition cell_map (m : mesh) : list (Z * Z) := combine (map vo_index (volus m)) (map Z.of_nat (seq 0 (length (volus m)))).
(** SurfaceCentroid_SnakeSurf and SnakeSurfaceCentroid_fun, triangulate.cpp 420-459, as
    called by CalcTriVertPos(int), 1187-1193, for a surface of the mesh. *)
Definition centre_position (st : statics) (m : mesh) (coord : list (Z * RsvsMath.vec)) (s : Z) : outcome RsvsMath.vec :=
  do su <- isearch su_index (surfs m) s ;
  do l <- conn_vert m (su_edgeind su) ;
  do ps <- omap_list (fun v => lookup v coord) (firstn (length (su_edgeind su)) l) ;
  if Nat.eqb (length (su_edgeind su)) 3 then Throw else
  do c <- centroid_calc st (centroid_new ps) ; Ok (c_fun c).
(** One turn of the loop of CalculateMesh, RSVScalc.cpp 318-328. *)
Definition mesh_surface (st : statics) (m : mesh) (coord : list (Z * RsvsMath.vec)) (s : surf) (c : calc) : outcome calc :=
  do tv <- triangulate_surface m s t_mesh 1 (cleared, cleared) ;
  do ps <- omap_list (fun q => do x <- centre_position st m coord (cn_parent q) ; Ok (cn_index q, mkTp x (cn_parent q) (cn_ptype q))) (items (snd tv)) ;
  let tri := map fc_tri (items (fst tv)) in
  calc_triangles (calc_triangle st (mkEnv [] [] tri [] ps [] coord [] [] []) false true true false) tri c.
(** The loop of CalculateMesh, RSVScalc.cpp 315-329. *)
Fixpoint mesh_surfaces (st : statics) (m : mesh) (coord : list (Z * RsvsMath.vec)) (l : list surf) (c : calc) : outcome calc :=
  match l with [] => Ok c | s :: r => do c' <- mesh_surface st m coord s c ; mesh_surfaces st m coord r c' end.
(** CalculateMesh, RSVScalc.cpp 294-332; constrTarg keeps its value. *)
Definition calculate_mesh (st : statics) (m : mesh) (coord : list (Z * RsvsMath.vec)) (c : calc) : outcome calc :=
  mesh_surfaces st m coord (surfs m) (build_constr_map (cell_map m) (constrTarg c) (build_arrays 0 (length (volus m)) c)).
