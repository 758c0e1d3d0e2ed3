(** CoarsenMesh and CartesianMapping, SRCC/src/grid/meshrefinement.cpp:11-324.

    Left out: PrepareForUse at the end of CoarsenMesh (line 199: hashing,
    borders, ordering of the edges, see C16 and C21) and the update of
    meshtree.elemind made by SwitchIndex when the mesh has relatives. *)
From Coq Require Import Reals.
From Flocq Require Import Core.Raux.
From Verif Require Import Base Containers Mesh Edit Geom.
Set Implicit Arguments.
Open Scope Z_scope.

(** The test of elmMapping, 31-44 and 47-60: as many entries as cells, each the
    index of a cell. *)
Definition mapping_matches {A} (idx : A -> Z) (cells : list A) (elm : list Z) : bool :=
  (length cells =? length elm)%nat && forallb (fun x => negb (find idx cells x =? -1)) elm.

(** The switching loop, 88-99: the index of the cell is read in the mesh being
    edited. *)
Definition merge_cells {A} (cells : mesh -> list A) (idx : A -> Z) (t : Z) (elm : list Z) (m : mesh) : outcome mesh :=
  for_each (upto_pos (cells m))
    (fun i m => do c <- at_ (cells m) i; do y <- at_ elm i; switch_index t (idx c) y [] m) m.

(** The two sides compared at line 111.  [past x] is what reading element 1 of
    the one-element vector {x} gives: undefined for the language; with the usual
    std::vector, where TightenConnectivity has just erased the end of a longer
    vector in place, the stale value. *)
Definition same_sides (past : Z -> outcome Z) (s : surf) : outcome bool :=
  do a <- at_ (su_voluind s) 0;
  do b <- match su_voluind s with [x] => past x | l => at_ l 1 end;
  Ok (a =? b).

(** 109-116. *)
Definition remove_inner_surf (past : Z -> outcome Z) (i : Z) (st : mesh * list Z) : outcome (mesh * list Z) :=
  let '(m, del) := st in
  do s <- at_ (surfs m) i;
  do b <- same_sides past s;
  if b then do m1 <- remove_index 3 (su_index s) m; Ok (m1, del ++ [su_index s]) else Ok (m, del).

(** 122-129 with [n = 1] and 133-140 with [n = 0]. *)
Definition remove_inner_edge (n : nat) (i : Z) (st : mesh * list Z) : outcome (mesh * list Z) :=
  let '(m, del) := st in
  do e <- at_ (edges m) i;
  if (length (ed_surfind e) =? n)%nat
  then do m1 <- remove_index 2 (ed_index e) m; Ok (m1, del ++ [ed_index e]) else Ok (m, del).

(** 145-151. *)
Definition lone_verts (m : mesh) : list Z :=
  map ve_index (filter (fun v => is_nil (ve_edgeind v)) (verts m)).

(** 159-183: the cells that no entry of the mapping names. *)
Definition unused_cells {A} (idx : A -> Z) (cells : list A) (elm : list Z) : list Z :=
  map idx (filter (fun c => negb (mem_z (idx c) elm)) cells).

(** 11-197 for a mesh of dimension 2. *)
Definition coarsen2 (elm : list Z) (m : mesh) : outcome mesh :=
  if mapping_matches su_index (surfs m) elm then
    do m1 <- merge_cells surfs su_index 3 elm m;
    do m2 <- mesh_tighten m1;
    do (m3, delE) <- for_each (upto_pos (edges m2)) (remove_inner_edge 1) (m2, []);
    Ok (mkMesh (volus m3) (drop su_index (unused_cells su_index (surfs m3) elm) (surfs m3))
               (drop ed_index delE (edges m3)) (drop ve_index (lone_verts m3) (verts m3)) (meshDim m3))
  else Throw.
(** 11-197 for a mesh of dimension 3. *)
Definition coarsen3 (past : Z -> outcome Z) (elm : list Z) (m : mesh) : outcome mesh :=
  if mapping_matches vo_index (volus m) elm then
    do m1 <- merge_cells volus vo_index 4 elm m;
    do m2 <- mesh_tighten m1;
    do (m3, delS) <- for_each (upto_pos (surfs m2)) (remove_inner_surf past) (m2, []);
    do (m4, delE) <- for_each (upto_pos (edges m3)) (remove_inner_edge 0) (m3, []);
    Ok (mkMesh (drop vo_index (unused_cells vo_index (volus m4) elm) (volus m4))
               (drop su_index delS (surfs m4))
               (drop ed_index delE (edges m4)) (drop ve_index (lone_verts m4) (verts m4)) (meshDim m4))
  else Throw.
(** 22-72: the dimension chooses; 0, 1 and more than 3 throw. *)
Definition coarsen_mesh (past : Z -> outcome Z) (elm : list Z) (m : mesh) : outcome mesh :=
  if meshDim m =? 2 then coarsen2 elm m
  else if meshDim m =? 3 then coarsen3 past elm m
  else Throw.

(** ** CartesianMapping, 202-324.  Coordinates are reals. *)
Open Scope R_scope.
(** Lines 210-216 for one direction: the least and greatest coordinate; no
    vertex at all is a read outside the container. *)
Definition bounds_dir (j : Z) (g : gmesh) : outcome (R * R) :=
  do xs <- omap_list (fun c => at_ c j) (gcoord g);
  match xs with
  | [] => UB
  | x :: r => Ok (fold_left rmin r x, fold_left rmax r x)
  end.
(** 241-251 and 288-297 for one direction: positions of the vertices, sorted and
    without repetition, and the mean of their coordinates.  Without a vertex the
    mean is 0/0 and its conversion to an integer (260, 306) is undefined, which
    is what the model answers. *)
Definition mean_dir (j : Z) (g : gmesh) (ps : list Z) : outcome R :=
  do xs <- omap_list (fun p => do c <- at_ (gcoord g) p; at_ c j) ps;
  match xs with
  | [] => UB
  | _ => Ok (fold_left Rplus xs 0 * (1 / INR (length xs)))
  end.
(** 252-259 and the conversion of 260 for one direction, [d >= 1].  A zero
    extent divides by zero; the quotient is infinite or not a number and its
    conversion to int is undefined. *)
Definition box_coord (d : Z) (b : R * R) (c : R) : outcome Z :=
  let '(lo, hi) := b in
  if Req_EM_T (hi - lo) 0 then UB
  else let k := Zfloor ((c - lo) / (hi - lo) * IZR d) in
       Ok (if (d <=? k)%Z then (d - 1)%Z else k).
Open Scope Z_scope.
(** 238-243 and 285-289: the vertices of a cell, as positions. *)
Definition surf_vert_pos (m : mesh) (s : surf) : outcome (list Z) :=
  do vs <- gather ed_index ed_vertind (edges m) (su_edgeind s);
  Ok (tighten (find_list ve_index (verts m) vs)).
Definition volu_vert_pos (m : mesh) (v : volu) : outcome (list Z) :=
  do es <- gather su_index su_edgeind (surfs m) (vo_surfind v);
  do vs <- gather ed_index ed_vertind (edges m) es;
  Ok (tighten (find_list ve_index (verts m) vs)).
(** 244-260 and 290-306: the number of the box a cell falls in. *)
Definition box_of (dims : Z * Z * Z) (bs : (R * R) * (R * R) * (R * R)) (g : gmesh) (ps : list Z) : outcome Z :=
  let '(d0, d1, d2) := dims in
  let '(b0, b1, b2) := bs in
  do c0 <- mean_dir 0 g ps; do c1 <- mean_dir 1 g ps; do c2 <- mean_dir 2 g ps;
  do k0 <- box_coord d0 b0 c0; do k1 <- box_coord d1 b1 c1; do k2 <- box_coord d2 b2 c2;
  Ok (k0 + d0 * k1 + d0 * d1 * k2).
(** 261-275 and 307-321: look the box up, enter the cell if it is free.  boxMap
    is a vector of nBox zeros. *)
Definition enter_box (nBox idx sub : Z) (st : list Z * list Z) : outcome (list Z * list Z) :=
  let '(boxMap, elm) := st in
  if nBox <=? sub then Throw
  else do b <- at_ boxMap sub;
       if b =? 0 then Ok (upd boxMap (Z.to_nat sub) idx, elm ++ [idx])
       else Ok (boxMap, elm ++ [b]).
Definition map_cells {A} (idx : A -> Z) (pos : A -> outcome (list Z)) (dims : Z * Z * Z) bs (g : gmesh)
    (cells : list A) : outcome (list Z) :=
  let '(d0, d1, d2) := dims in
  do st <- for_each cells (fun c st => do ps <- pos c; do sub <- box_of dims bs g ps;
                                       enter_box (d0 * d1 * d2) (idx c) sub st)
             (repeat 0 (Z.to_nat (d0 * d1 * d2)), []);
  Ok (snd st).
(** 202-324; [dims] is the caller's vector, lines 221-228 raise its entries to at
    least 1 (so the second branches of 224-226 are never taken).  With another
    dimension the mapping is cleared. *)
Definition cartesian_mapping (dims : Z * Z * Z) (g : gmesh) : outcome (list Z) :=
  let '(d0, d1, d2) := dims in
  let dims := (Z.max 1 d0, Z.max 1 d1, Z.max 1 d2) in
  let m := gtopo g in
  do b0 <- bounds_dir 0 g; do b1 <- bounds_dir 1 g; do b2 <- bounds_dir 2 g;
  if meshDim m =? 3 then map_cells vo_index (volu_vert_pos m) dims (b0, b1, b2) g (volus m)
  else if meshDim m =? 2 then map_cells su_index (surf_vert_pos m) dims (b0, b1, b2) g (surfs m)
  else Ok [].
