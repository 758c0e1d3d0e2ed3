(** Model of MeshTriangulation, src/snake/triangulate.cpp 606-768: a mesh whose surfaces are
    split into triangles around a centre.

    [m] is meshin, prepared, so that the copy meshout starts equal to it and PrepareForUse at
    the start changes nothing; PrepareForUse at the end (766) is left out.  A triangle is
    given by its parent surface and its three points with their types (see Calc.v).  The
    coordinates of a new vertex are those of a point of trivert, of which the index is
    recorded.  nNewVert, nNewEdge and nNewSurf are the sizes of the arrays of tempMesh. *)
From Verif Require Import Base Containers Mesh Flood Edit.
Import Mesh.
Set Implicit Arguments.
Open Scope Z_scope.

(** meshtypes::triangulation, as t_tri in Calc.v. *)
Definition centre_type : Z := 3.
(** triangulate.hpp 133-188: parentsurf, pointtype and pointind. *)
Record tri := mkTriangle { tr_parent : Z; tr_points : list (Z * Z) }.
(** meshout, tempMesh and the points of trivert used. *)
Record work := mkWork { w_out : mesh; w_new : mesh; w_from : list Z }.

Section Split.
Variable m : mesh.
(** 631-636: maxIndEdge + nNewEdge and the like. *)
Definition last_vert (w : work) : Z := max_index ve_index (verts m) + Z.of_nat (length (verts (w_new w))).
Definition last_edge (w : work) : Z := max_index ed_index (edges m) + Z.of_nat (length (edges (w_new w))).
Definition last_surf (w : work) : Z := max_index su_index (surfs m) + Z.of_nat (length (surfs (w_new w))).
(** 647-650: more than one type among the points. *)
Definition mixed (t : tri) : bool := (1 <? length (tighten (map fst (tr_points t))))%nat.
(** 672-687: the first point that is a centre. *)
Fixpoint centre_point (l : list (Z * Z)) : option Z :=
  match l with [] => None | p :: r => if fst p =? centre_type then Some (snd p) else centre_point r end.
(** 691-692, 753-754: is [v] one of the two vertices of [e]? *)
Definition end_of (v : Z) (e : edge) : outcome bool :=
  do a <- at_ (ed_vertind e) 0 ; do b <- at_ (ed_vertind e) 1 ; Ok ((v =? a) || (v =? b))%bool.
(** 689-696: ll. *)
Definition first_end (es : list Z) : outcome Z :=
  do p <- at_ es 0 ; do e <- at_ (edges m) p ; do q <- at_ es 1 ; do f <- at_ (edges m) q ;
  do v <- at_ (ed_vertind e) 0 ; do b <- end_of v f ; Ok (if b then 0 else 1).
(** 751-756 *)
Definition next_end (es : list Z) (n k ll : Z) : outcome Z :=
  if k <? n - 1 then
    do p <- at_ es k ; do e <- at_ (edges m) p ; do q <- at_ es (k + 1) ; do f <- at_ (edges m) q ;
    do v <- at_ (ed_vertind f) ll ; do b <- end_of v e ; Ok (if b then (ll + 1) mod 2 else ll)
  else Ok ll.
(** push_back on a list of indices. *)
Definition add_to {A} (get : A -> list Z) (set : list Z -> A -> A) (x : Z) (a : A) : A := set (get a ++ [x]) a.
(** 740-748: the cells beside the surface get the new surface. *)
Definition add_cells (cells : list Z) (i : Z) (l : list volu) : outcome (list volu) :=
  for_each cells (fun c l => if c =? 0 then Ok l else modify l (find vo_index (volus m) c) (add_to vo_surfind vo_set_surfind i)) l.
(** 699-750: the body for edge k of the surface at position [sub]; [V] is the new vertex,
    [ne] and [ns] are maxIndEdge + nNewEdge and maxIndSurf + nNewSurf. *)
Definition split_edge (sub : Z) (s : surf) (es : list Z) (V ne ns k : Z) (st : mesh * mesh * Z) : outcome (mesh * mesh * Z) :=
  let '(out, new, ll) := st in
  let n := Z.of_nat (length es) in
  do p <- at_ es k ; do e <- at_ (edges m) p ; do v <- at_ (ed_vertind e) ll ;
  do vs <- modify (verts out) (find ve_index (verts m) v) (add_to ve_edgeind ve_set_edgeind (ne + 1 + k)) ;
  let edge' := mkEdge (ne + 1 + k) false
    [if k =? 0 then su_index s else ns + k; if k =? n - 1 then su_index s else ns + k + 1] [V; v] in
  do r <- (if k =? 0 then
      do ss <- modify (surfs out) sub (su_set_edgeind [ne + 1; ne + n; ed_index e]) ;
      Ok (mkMesh (volus out) ss (edges out) vs (meshDim out), surfs new)
    else
      do eds <- modify (edges out) p (fun x => ed_set_surfind (replace_all (su_index s) (ns + k) (ed_surfind x)) x) ;
      do ws <- add_cells (su_voluind s) (ns + k) (volus out) ;
      Ok (mkMesh ws (surfs out) eds vs (meshDim out),
          surfs new ++ [mkSurf (ns + k) (su_border s) (su_ordered s) (su_voluind s) [ne + k; ne + k + 1; ed_index e]])) ;
  do ll' <- next_end es n k ll ;
  Ok (fst r, mkMesh (volus new) (snd r) (edges new ++ [edge']) (verts new) (meshDim new), ll').
(** 652-760: one surface.  A triangle of mixed types without a centre leaves buildVert from
    the surface before and is not modelled ([UB]). *)
Definition split (t : tri) (w : work) : outcome work :=
  let sub := find su_index (surfs m) (tr_parent t) in
  do s <- at_ (surfs m) sub ;
  let es := find_list ed_index (edges m) (su_edgeind s) in
  do edges_ <- omap_list (at_ (edges m)) es ;
  let corners := tighten (flat_map ed_vertind edges_) in
  match centre_point (tr_points t) with
  | None => UB
  | Some c =>
    let V := last_vert w + 1 in
    let vert' := mkVert V false (map (fun k => last_edge w + 1 + k) (upto (length corners) 0)) in
    let new := mkMesh (volus (w_new w)) (surfs (w_new w)) (edges (w_new w)) (verts (w_new w) ++ [vert']) (meshDim (w_new w)) in
    do ll <- first_end es ;
    do r <- for_each (upto (length es) 0) (split_edge sub s es V (last_edge w) (last_surf w)) (w_out w, new, ll) ;
    Ok (mkWork (fst (fst r)) (snd (fst r)) (w_from w ++ [c]))
  end.
(** 643-763: the triangles; [done] has the parents already split: isTriDone is set for all
    triangles of the parent (652-658). *)
Fixpoint split_all (ts : list tri) (done : list Z) (w : work) : outcome work :=
  match ts with
  | [] => Ok w
  | t :: r => if (mixed t && negb (mem_z (tr_parent t) done))%bool
              then do w' <- split t w ; split_all r (tr_parent t :: done) w'
              else split_all r done w
  end.
(** 606-768, with the points of trivert of the new vertices. *)
Definition mesh_triangulation (ts : list tri) : outcome (mesh * list Z) :=
  do w <- split_all ts [] (mkWork m (mkMesh [] [] [] [] 0) []) ;
  Ok (concatenate (w_out w) (w_new w), w_from w).
End Split.
