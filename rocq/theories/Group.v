(** Model of the grouping and merging of close vertices.
    Sources: SRCC/src/grid/meshprocessing.cpp and SRCC/src/grid/mesh.cpp, lines
    cited below.  Coordinates are real numbers, as in Geom.v. *)
From Coq Require Import Reals.
From Verif Require Import Base Containers Mesh Edit Geom.
Set Implicit Arguments.
Open Scope Z_scope.

(** The squared length of an edge, meshprocessing.cpp:296-302; pow(x, 2.0) is
    x * x *)
Definition squared_length (g : gmesh) (e : edge) : outcome R :=
  do i0 <- at_ (ed_vertind e) 0; do p0 <- coord_of g i0;
  do i1 <- at_ (ed_vertind e) 1; do p1 <- coord_of g i1;
  for_each [0; 1; 2] (fun i d => do a <- at_ p0 i; do b <- at_ p1 i; Ok (d + (a - b) * (a - b))%R) 0%R.
(** TestVertClose, 284-314: [p] is a position in verts, the state is isSnaxDone
    and sameEdges.  [fuel] bounds the depth of the recursion. *)
Fixpoint test_vert_close (fuel : nat) (g : gmesh) (tol2 : R) (p : Z) (st : list bool * list Z)
    : outcome (list bool * list Z) :=
  match fuel with
  | O => OutOfFuel
  | S f =>
      do d <- at_ (fst st) p;
      if d : bool then Ok st else
      do v <- at_ (verts (gtopo g)) p;
      for_each (ve_edgeind v) (fun ei s =>
        do e <- isearch ed_index (edges (gtopo g)) ei;
        do q <- squared_length g e;
        if Rlt_dec q tol2 then
          for_each [0; 1] (fun i s1 =>
            do x <- at_ (ed_vertind e) i;
            test_vert_close f g tol2 (find ve_index (verts (gtopo g)) x) s1) (fst s, snd s ++ [ei])
        else Ok s) (upd (fst st) (Z.to_nat p) true, snd st)
  end.
(** closeVert.vec[verts.find(i)] = n, 347-351 *)
Definition label_vert (m : mesh) (i n : Z) (lab : list Z) : outcome (list Z) :=
  let p := find ve_index (verts m) i in
  do _ <- at_ lab p; Ok (upd lab (Z.to_nat p) n).
Definition label_edge (m : mesh) (n ei : Z) (lab : list Z) : outcome (list Z) :=
  do e <- isearch ed_index (edges m) ei;
  do a <- at_ (ed_vertind e) 0; do lab1 <- label_vert m a n lab;
  do b <- at_ (ed_vertind e) 1; label_vert m b n lab1.
(** GroupCloseVertices, 316-365: closeVert.vec.  The loop state is isSnaxDone,
    closeVert.vec and nGroup. *)
Definition group_close_vertices (g : gmesh) (tol : R) : outcome (list Z) :=
  let n := length (verts (gtopo g)) in
  do s <- for_each (map Z.of_nat (seq 0 n)) (fun i s =>
      let '(done, lab, grp) := s in
      do (done1, same) <- test_vert_close (2 + n) g (tol * tol)%R i (done, []);
      match same with
      | [] => Ok (done1, lab, grp)
      | _ => do lab1 <- for_each same (label_edge (gtopo g) grp) lab; Ok (done1, lab1, grp + 1)
      end) (repeat false n, repeat (-1) n, 1);
  let '(_, lab, _) := s in Ok lab.

(** MergeGroupedVertices, mesh.cpp:4420-4471.  [findall k] is the result of
    closeVert.findall(k): the positions of [k] in closeVert.vec, in the order of
    the hash table.  The count countRep, never read, is left out. *)
Section Merge.
Variable findall : Z -> list Z.
(** 4448-4454: the members after the first are switched to the first. *)
Definition merge_member (first j : Z) (s : mesh * list Z * list bool) : outcome (mesh * list Z * list bool) :=
  let '(m, rmv, done) := s in
  do vj <- at_ (verts m) j; do v0 <- at_ (verts m) first;
  do m1 <- switch_index 1 (ve_index vj) (ve_index v0) [] m;
  do vj1 <- at_ (verts m1) j;
  do _ <- at_ done j;
  Ok (m1, rmv ++ [ve_index vj1], upd done (Z.to_nat j) true).
Definition merge_position (lab : list Z) (i : Z) (s : mesh * list Z * list bool) : outcome (mesh * list Z * list bool) :=
  let '(m, rmv, done) := s in
  do d <- at_ done i; do k <- at_ lab i;
  if negb d && negb (k =? -1) then
    match findall k with
    | [] => UB
    | first :: others =>
        do s1 <- for_each others (merge_member first) (m, rmv, done);
        let '(m1, rmv1, done1) := s1 in
        do _ <- at_ done1 first; Ok (m1, rmv1, upd done1 (Z.to_nat first) true)
    end
  else Ok (m, rmv, upd done (Z.to_nat i) true).
(** The mesh afterwards and the value returned; vectors of booleans start
    false. *)
Definition merge_grouped (lab : list Z) (delVerts : bool) (m : mesh) : outcome (mesh * list Z) :=
  do s <- for_each (map Z.of_nat (seq 0 (length lab))) (merge_position lab) (m, [], repeat false (length lab));
  let '(m1, rmv, _) := s in
  match rmv with
  | [] => Ok (m1, rmv)
  | _ => if delVerts then Ok (set_verts (drop ve_index (tighten rmv) (verts m1)) m1, tighten rmv)
         else Ok (m1, rmv)
  end.
End Merge.
