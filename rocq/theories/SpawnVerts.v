(** Model of the choice of the vertices around which a snake is started:
    src/rsvs/RSVSalgorithm.cpp 13-84 and the first part of SpawnRSVS, 124-159. *)
From Coq Require Import QArith Qabs.
From Verif Require Import Base Containers Mesh Num Snake Flood Edit Family Spawn.
Set Implicit Arguments.
Open Scope Z_scope.

(** The tests on one parent value, src/grid/mesh.cpp 4031 and 4042 in three dimensions,
    4109 and 4120 in two.  The values are rationals, see Family.v. *)
Definition off_test (dim o : Z) (q : Q) : bool :=
  if dim =? 3 then
    if o =? 0 then near 1 q else if Qlt_le_dec (1 # 4503599627370496) (Qabs q) then true else false
  else if o =? 0 then Qeq_bool q 1 else if Qlt_le_dec 0 q then true else false.
(** The elements on the border (4019-4022, 4097-4100) with the targets of the cells of the
    parents that hold them (VoluValuesofParents and SurfValuesofParents, 1188-1246). *)
Definition border_values (m : mesh) (t : tree) (h : cells) : outcome (list (Z * list Q)) :=
  let n := Z.to_nat (nParents t) in
  if meshDim m =? 3 then
    omap_list (fun v => do q <- parent_values h t Target (find vo_index (volus m) (vo_index v)) n 0 ; Ok (vo_index v, q))
              (filter vo_border (volus m))
  else if meshDim m =? 2 then
    omap_list (fun s => do q <- parent_values h t Target (find su_index (surfs m) (su_index s)) n 0 ; Ok (su_index s, q))
              (filter su_border (surfs m))
  else Ok [].
(** 4024-4046: whether one of the values of element [i] passes. *)
Definition passes (dim o : Z) (vals : list (Z * list Q)) (i : Z) : bool :=
  existsb (fun p => (fst p =? i) && existsb (off_test dim o) (snd p)) vals.
(** RSVSalgorithm.cpp 55-68: the ends of an edge of a surface that are not on the border. *)
Definition free_end (m : mesh) (ed : edge) (k : Z) : outcome (list Z) :=
  do v <- at_ (ed_vertind ed) k ;
  do ve <- isearch ve_index (verts m) v ;
  Ok (if ve_border ve then [] else [ve_index ve]).
Definition free_ends (m : mesh) (e : Z) : outcome (list Z) :=
  do ed <- isearch ed_index (edges m) e ;
  do a <- free_end m ed 0 ; do b <- free_end m ed 1 ; Ok (a ++ b).
(** FindSpawnVerts, 13-84: vertList, voluOutList and the result.  The values of the border
    elements are read before the first is tested, not one by one. *)
Definition find_spawn_verts (m : mesh) (t : tree) (h : cells) (outerBorder : Z) : outcome (list Z * list Z * list Z) :=
  if (outerBorder =? 1) || (outerBorder =? 0) then
    do vals <- border_values m t h ;
    do b <- off_border (passes (meshDim m) outerBorder vals) outerBorder m ;
    do i <- elm_on_bound m t h false (outerBorder =? 1) ;
    do vs <- omap_list (fun s => do su <- at_ (surfs m) (find su_index (surfs m) s) ;
                                 do l <- omap_list (free_ends m) (su_edgeind su) ; Ok (concat l)) (fst i) ;
    let offBorderVert := tighten (fst b) in
    Ok (tighten (concat vs ++ offBorderVert), tighten (snd b ++ snd i), offBorderVert)
  else Throw.

(** SpawnRSVS, 142-159, for a snake without snaxels on the mesh [m0]: the mesh with its
    border flags, the vertices and the snake grown around each of them, with all velocities
    set to 1.  The rest of SpawnRSVS is left out. *)
Definition spawn_rsvs (N : num) (m0 : mesh) (t : tree) (h : cells) (outerBorder : Z) : outcome (mesh * list Z * snake N) :=
  do m <- set_borders m0 ;
  do r <- find_spawn_verts m t h outerBorder ;
  let '(vertSpawn, _, _) := r in
  do k <- for_each vertSpawn (@spawn_at_vertex N m) (new_snake N (length (verts m))) ;
  Ok (m, vertSpawn,
      mkSnake (map (fun x => @mkSnax N (sx_index x) (sx_d x) n1 (sx_from x) (sx_to x) (sx_edge x) (sx_freeze x) (sx_order x)) (k_snaxs k))
              (k_edges k) (k_surfs k) (k_conn k) (k_in k) (k_flipped k)).
