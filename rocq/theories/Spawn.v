(** Model of the growth of a snake around vertices of its mesh:
    src/snake/snakeengine.cpp 22-405 and the parts of src/snake/snake.cpp it calls.

    Coordinates, reserve() and PrepareForUse (called at 316, after the last line modelled)
    are left out.  [Mesh.find] stands for the look-up in a prepared array. *)
From Verif Require Import Base Containers Mesh Num Snake.
Set Implicit Arguments.
Open Scope Z_scope.

Section Spawn.
Variable N : num.

(** class snake, snake.hpp 82-126: snaxs, snaxedges with surfind, snaxsurfs with voluind,
    snakeconn, isMeshVertIn and isFlipped. *)
Record snake := mkSnake { k_snaxs : list (snax N); k_edges : list (Z * Z); k_surfs : list (Z * Z); k_conn : mesh; k_in : list bool; k_flipped : bool }.
(** snake::Init with empty arrays and SetSnakeMesh, snake.cpp 417-442, for a mesh of [n]
    vertices; mesh::Init sets meshDim to 0, mesh.cpp 3194. *)
Definition new_snake (n : nat) : snake := mkSnake [] [] [] (mkMesh [] [] [] [] 0) (repeat false n) false.

(** FindSubList, arraystructures_incl.cpp 768-795, for an empty table or one made from the
    same list: the position of each key, -1 if it is absent.  When a key is in the list
    several times the code may answer with any of them; the first is taken here. *)
Definition sub_list (keys l : list Z) : list Z := find_list (fun x => x) l keys.
(** The loops 137-145 and 176-182: the positions that were found. *)
Definition found (l : list Z) : list Z := filter (fun p => 0 <=? p) l.
(** The numbers 1, ..., n given by PopulateIndices, arraystructures_incl.cpp 599-612, with
    the elements they go to. *)
Definition numbered {A} (l : list A) : list (Z * A) := combine (map (fun i => Z.of_nat i + 1) (seq 0 (length l))) l.

(** SpawnAtVertex, 36-49: the edges at the vertex, their surfaces and the cells of these. *)
Definition around (m : mesh) (v : Z) : outcome (list edge * list surf * list Z * list Z * list Z) :=
  do ve <- at_ (verts m) (find ve_index (verts m) v) ;
  do es <- omap_list (at_ (edges m)) (find_list ed_index (edges m) (ve_edgeind ve)) ;
  let surfInds := tighten (concat (map ed_surfind es)) in
  do ss <- omap_list (at_ (surfs m)) (find_list su_index (surfs m) surfInds) ;
  Ok (es, ss, ve_edgeind ve, surfInds, tighten (concat (map su_voluind ss))).
(** SpawnAtVertexVert, 89-110: one snaxel for each edge. *)
Definition spawn_snax (v : Z) (p : Z * (edge * Z)) : outcome (snax N) :=
  let '(i, (e, k)) := p in
  do a <- at_ (ed_vertind e) 0 ;
  do w <- at_ (ed_vertind e) (if a =? v then 1 else 0) ;
  Ok (@mkSnax N i n0 nhalf v w k 0 (-1)).
(** 105-110: the vertex of the snake; ChangeIndices(0, 1, 0, 0) adds 1 to the positions. *)
Definition spawn_vert (surfInds : list Z) (p : Z * edge) : vert :=
  mkVert (fst p) false (map (fun x => x + 1) (sub_list (ed_surfind (snd p)) surfInds)).
(** SpawnAtVertexEdge, 112-158: one edge for each surface.  vertind has two entries, 0
    until they are set; a third one is written out of range (142).  ChangeIndices(1, 0, 0, 0)
    adds 1 to both. *)
Definition spawn_edge (is3D : bool) (edgeInds voluInds : list Z) (p : Z * surf) : outcome edge :=
  let f := found (sub_list (su_edgeind (snd p)) edgeInds) in
  if (2 <? length f)%nat then UB
  else Ok (mkEdge (fst p) false
             (if is3D then map (fun x => x + 1) (sub_list (su_voluind (snd p)) voluInds) else [1; 0])
             (map (fun x => x + 1) (f ++ repeat 0 (2 - length f)))).
(** SpawnAtVertexSurf3D, 159-185: one surface for each cell, which has to exist. *)
Definition spawn_surf (m : mesh) (surfInds : list Z) (p : Z * Z) : outcome surf :=
  do c <- at_ (volus m) (find vo_index (volus m) (snd p)) ;
  Ok (mkSurf (fst p) false false [1; 0] (map (fun x => x + 1) (found (sub_list (vo_surfind c) surfInds)))).
(** SpawnAtVertexSurf2D, 187-204: only the first surface is filled in. *)
Definition spawn_surf2 (nEdge : nat) (p : Z * Z) : surf :=
  mkSurf (fst p) false false [0; 0] (if fst p =? 1 then map fst (numbered (repeat tt nEdge)) else []).
(** VertIsIn, snake.cpp 602-612. *)
Definition vert_is_in (m : mesh) (v : Z) (b : bool) (l : list bool) : outcome (list bool) :=
  let i := find ve_index (verts m) v in
  if i =? -1 then Ok l else modify l i (fun _ => b).
(** SpawnAtVertex, 23-79: the new snake. *)
Definition spawn (m : mesh) (v : Z) : outcome snake :=
  let is3D := (0 <? length (volus m))%nat in
  do r <- around m v ;
  let '(es, ss, edgeInds, surfInds, voluInds) := r in
  do ins <- vert_is_in m v true (repeat false (length (verts m))) ;
  do xs <- omap_list (spawn_snax v) (numbered (combine es edgeInds)) ;
  do kes <- omap_list (spawn_edge is3D edgeInds voluInds) (numbered ss) ;
  let kvs := map (spawn_vert surfInds) (numbered es) in
  let sedges := numbered surfInds in
  if is3D then
    do kss <- omap_list (spawn_surf m surfInds) (numbered voluInds) ;
    Ok (mkSnake xs sedges (numbered voluInds)
          (mkMesh [mkVolu 1 false (map fst (numbered voluInds))] kss kes kvs 0) ins false)
  else match voluInds with
       | [] => UB
       | _ => Ok (mkSnake xs sedges (map (fun p => (fst p, if fst p =? 1 then snd p else 0)) (numbered voluInds))
                    (mkMesh [] (map (spawn_surf2 (length surfInds)) (numbered voluInds)) kes kvs 0) ins false)
       end.

(** snax::ChangeIndices, snake.cpp 171-174, and orderedge in MakeCompatible_inplace,
    591-594. *)
Definition snax_shift (d : Z) (x : snax N) : snax N :=
  @mkSnax N (sx_index x + d) (sx_d x) (sx_v x) (sx_from x) (sx_to x) (sx_edge x) (sx_freeze x) (-1).
(** snaxedge and snaxsurf ChangeIndices, snake.cpp 175-182. *)
Definition pair_shift (d : Z) (p : Z * Z) : Z * Z := (fst p + d, snd p).
(** SetMaxIndexNM and MakeCompatible_inplace, snake.cpp 395-404 and 581-595: the shifts
    are the largest indices of snakeconn. *)
Definition snake_compatible (this other : snake) : snake :=
  let c := k_conn this in
  mkSnake (map (snax_shift (max_index ve_index (verts c))) (k_snaxs other))
          (map (pair_shift (max_index ed_index (edges c))) (k_edges other))
          (map (pair_shift (max_index su_index (surfs c))) (k_surfs other))
          (make_compatible c (k_conn other)) (k_in other) (k_flipped other).
(** snake::Concatenate, snake.cpp 512-575, for snakes on the same mesh and isInternal 0. *)
Definition snake_concat (this other : snake) : outcome snake :=
  do ins <- concat_inside (k_in this) (k_flipped this) (k_in other) (k_flipped other) 0 ;
  Ok (mkSnake (k_snaxs this ++ k_snaxs other) (k_edges this ++ k_edges other) (k_surfs this ++ k_surfs other)
        (concatenate (k_conn this) (k_conn other)) ins (k_flipped this)).
(** SpawnAtVertex, 23-86. *)
Definition spawn_at_vertex (m : mesh) (v : Z) (k : snake) : outcome snake :=
  do s <- spawn m v ; snake_concat k (snake_compatible k s).

(** ** Snaxels that have arrived *)
(** snake::Flip, snake.cpp 2329-2343. *)
Definition snake_flip (k : snake) : snake :=
  mkSnake (map (@flip_snax N) (k_snaxs k)) (k_edges k) (k_surfs k) (k_conn k) (k_in k) (negb (k_flipped k)).
(** isfreeze = 1, 371. *)
Definition freeze (x : snax N) : snax N :=
  @mkSnax N (sx_index x) (sx_d x) (sx_v x) (sx_from x) (sx_to x) (sx_edge x) 1 (sx_order x).
(** The loop 349-378 of SpawnArrivedSnaxelsDir: the vertices to spawn at, and the snaxels,
    frozen at the border of the mesh.  [bwd] is dir == -1. *)
Fixpoint arrivals (m : mesh) (bwd : bool) (impacts : list (Z * Z)) (xs : list (snax N)) : outcome (list Z * list (snax N)) :=
  match impacts with
  | [] => Ok ([], xs)
  | (i, t) :: r =>
      if t =? (if bwd then -1 else -2) then
        let p := find (@sx_index N) xs i in
        do x <- at_ xs p ;
        let v := if bwd then sx_from x else sx_to x in
        do ve <- at_ (verts m) (find ve_index (verts m) v) ;
        if ve_border ve then
          do rest <- arrivals m bwd r (upd xs (Z.to_nat p) (freeze x)) ; Ok rest
        else
          do _ <- omap_list (at_ (edges m)) (find_list ed_index (edges m) (ve_edgeind ve)) ;
          do rest <- arrivals m bwd r xs ; Ok (v :: fst rest, snd rest)
      else arrivals m bwd r xs
  end.
(** SpawnArrivedSnaxelsDir, 319-405: the whole snake with frozen snaxels, the new part and
    vertNoSpawn. *)
Definition spawn_dir (m : mesh) (bwd : bool) (impacts : list (Z * Z)) (k part : snake) (done : list Z) : outcome (snake * snake * list Z) :=
  do r <- arrivals m bwd impacts (k_snaxs k) ;
  let vs := tighten (fst r) in
  do part' <- for_each (filter (fun v => negb (mem_z v done)) vs) (spawn_at_vertex m) part ;
  Ok (mkSnake (snd r) (k_edges k) (k_surfs k) (k_conn k) (k_in k) (k_flipped k), part', done ++ vs).
(** SpawnArrivedSnaxels, 278-317.  isImpact is a list of pairs. *)
Definition spawn_arrived (m : mesh) (impacts : list (Z * Z)) (k : snake) : outcome snake :=
  let e := new_snake (length (verts m)) in
  do r <- spawn_dir m true impacts k e [0] ;
  let '(k1, bwd, done) := r in
  do r <- spawn_dir m false impacts k1 e done ;
  let '(k2, fwd, _) := r in
  let bwd := snake_flip bwd in
  do k3 <- snake_concat k2 (snake_compatible k2 bwd) ;
  snake_concat k3 (snake_compatible k3 fwd).
End Spawn.
