(** Model of the choice of the points from which tetgen empties the bodies: FindHolesInSnake,
    GroupCloseSnaxels and FindVertexHole, src/grid/meshprocessing.cpp 115-180, 256-282 and
    367-430, and the lines 238-249 of PrepareSnakeForCFD.

    A HashedVector is represented by its content [unc]: find returns -1 exactly when the key
    is not in it.  No index of a vertex is -1.  reserve() and the output to std::cout are
    left out. *)
From Verif Require Import Base Containers Mesh Num Snake Spawn Edit.
Set Implicit Arguments.
Open Scope Z_scope.

Section Vertex.
Variables (m : mesh) (vin : list bool) (unc : list Z).
(** The body of the loop 390-417.  The state is vertExplored, nextEdgeList and returnInd;
    [Some] stands for the break of 404. *)
Definition visit_hole (x : Z) (st : list bool * list Z * option Z) : outcome (list bool * list Z * option Z) :=
  let '(ex, nxt, ret) := st in
  match ret with
  | Some _ => Ok st
  | None =>
      let p := find ve_index (verts m) x in
      do e <- at_ ex p;
      if e : bool then Ok st else
      do i <- at_ vin p;
      if i : bool then
        let ex1 := upd ex (Z.to_nat p) true in
        if mem_z x unc then do v <- at_ (verts m) p; Ok (ex1, nxt ++ ve_edgeind v, None)
        else Ok (ex1, nxt, Some x)
      else Ok st
  end.
(** ConcatenateVectorField(meshin.edges, &edge::vertind, nextEdgeList), 424 and
    incl/arraystructures_incl.cpp 60-75: the list holds indices of edges, which are read as
    positions. *)
Definition ends_at (ps : list Z) : outcome (list Z) :=
  do vs <- omap_list (fun p => do e <- at_ (edges m) p; Ok (ed_vertind e)) ps; Ok (concat vs).
(** The loop 386-427. *)
Fixpoint hole_rounds (fuel : nat) (cur : list Z) (ex : list bool) : outcome (list bool * Z) :=
  match fuel with
  | O => OutOfFuel
  | S f =>
      match cur with
      | [] => Ok (ex, -1)
      | _ =>
          do st <- for_each cur visit_hole (ex, [], None);
          let '(ex1, nxt, ret) := st in
          match ret with
          | Some x => Ok (ex1, x)
          | None => do vs <- ends_at nxt; hole_rounds f vs ex1
          end
      end
  end.
(** FindVertexHole 367-430: vertExplored afterwards and the value returned. *)
Definition find_vertex_hole (x : Z) (ex : list bool) : outcome (list bool * Z) :=
  hole_rounds (2 + length (verts m)) [x] ex.
End Vertex.

Section Snake.
Variable N : num.
(** GroupCloseSnaxels 256-282: closeVert.vec. *)
Definition group_close_snaxels (snaxs : list (snax N)) (tol : N) : list Z :=
  map (fun s => if nlt (sx_d s) tol then sx_from s
                else if nlt (nsub n1 (sx_d s)) tol then sx_to s else -1) snaxs.

Variables (k : snake N) (m : mesh) (unc : list Z).
(** 153-161.  The state is vertExplored, holeInd and whether the loops have been left. *)
Definition hole_corner (x : Z) (st : list bool * Z * bool) : outcome (list bool * Z * bool) :=
  let '(ex, h, stop) := st in
  if stop : bool then Ok st else
  do s <- isearch (@sx_index N) (k_snaxs k) x;
  do r <- find_vertex_hole m (k_in k) unc (sx_from s) ex;
  Ok (fst r, snd r, negb (snd r =? -1)).
(** 148-171. *)
Definition hole_surf (si : Z) (st : list bool * Z * bool) : outcome (list bool * Z * bool) :=
  let '(ex, h, stop) := st in
  if stop : bool then Ok st else
  do s <- isearch su_index (surfs (k_conn k)) si;
  do st1 <- for_each (su_edgeind s) (fun ei st => 
      let '(_, _, stop) := st in
      if stop : bool then Ok st else
      do e <- isearch ed_index (edges (k_conn k)) ei;
      do a <- at_ (ed_vertind e) 0; do st1 <- hole_corner a st;
      let '(_, _, stop1) := st1 in
      if stop1 : bool then Ok st1 else
      do b <- at_ (ed_vertind e) 1; hole_corner b st1) st;
  let '(ex1, h1, _) := st1 in Ok (ex1, h1, negb (h1 =? -1)).
(** 143-178: [h] is the value left in holeInd by the volumes before. *)
Definition hole_volu (v : volu) (st : list bool * Z * list Z) : outcome (list bool * Z * list Z) :=
  let '(ex, h, hs) := st in
  do st1 <- for_each (vo_surfind v) hole_surf (ex, h, false);
  let '(ex1, h1, _) := st1 in
  Ok (ex1, h1, if h1 =? -1 then hs else hs ++ [h1]).
(** FindHolesInSnake 115-180; [m] is the mesh of the snake. *)
Definition find_holes : outcome (list Z) :=
  do st <- for_each (volus (k_conn k)) hole_volu (repeat false (length (k_in k)), -1, []);
  Ok (snd st).
End Snake.
(** PrepareSnakeForCFD 238-249: the coordinates of the holes.  [coord] gives those of the
    vertices, in array order; the third loop writes three of them. *)
Definition hole_coords (A : Type) (m : mesh) (coord : list (list A)) (hs : list Z) : outcome (list A) :=
  do ps <- omap_list (fun h =>
      do p <- at_ coord (find ve_index (verts m) h);
      do x <- at_ p 0; do y <- at_ p 1; do z <- at_ p 2; Ok [x; y; z]) hs;
  Ok (concat ps).
