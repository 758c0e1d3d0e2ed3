(** Model of the removal of parts of a snake: RemoveSnakeInVolu,
    src/rsvs/RSVSalgorithm.cpp 194-296.

    Left out: reserve(), HashArray, PrepareForUse (ordering of the edges of surfaces) and
    TestConnectivityBiDir, which prints. *)
From Verif Require Import Base Containers Mesh Flood Edit Num Snake Spawn.
Set Implicit Arguments.
Open Scope Z_scope.

Section Remove.
Variable N : num.
Notation snax := (snax N).
Notation snake := (snake N).
(** hashParent.equal_range of snaxs, see Snake.v, for the snaxels that are left. *)
Variable rng : list snax -> Z -> list Z.

(** findsiblings, incl/snakstruct_incl.cpp 153-164: the positions of the snaxsurfs in a
    cell, here in increasing order. *)
Definition siblings (c : Z) (l : list (Z * Z)) : list Z :=
  map snd (filter (fun q => snd (fst q) =? c) (combine l (upto_pos l))).
(** 206-219: the snaxels around the surfaces in the cells. *)
Definition snax_in_cells (k : snake) (cells : list Z) : outcome (list Z) :=
  let c := k_conn k in
  do ls <- omap_list (fun v =>
    do ss <- omap_list (at_ (surfs c)) (siblings v (k_surfs k)) ;
    do es <- omap_list (at_ (edges c)) (find_list ed_index (edges c) (concat (map su_edgeind ss))) ;
    Ok (concat (map ed_vertind es))) cells ;
  Ok (concat ls).
(** 224-230: isBlockDel. *)
Definition mark_blocks (c : mesh) (n : Z) (blocks : list Z) (dv : bool) (vs : list Z) : outcome (list bool) :=
  for_each vs (fun v fl => do b <- at_ blocks (find ve_index (verts c) v) ; modify fl (b - 1) (fun _ => dv))
           (repeat (negb dv) (Z.to_nat n)).
(** 237-257: the body of the loop over vertBlocks. *)
Definition collect (k : snake) (flags : list bool) (q : Z * Z) : outcome (list Z * list Z * list Z) :=
  let c := k_conn k in
  do d <- at_ flags (snd q - 1) ;
  if d : bool then
    do x <- at_ (k_snaxs k) (fst q) ;
    do v <- at_ (verts c) (fst q) ;
    do es <- omap_list (at_ (edges c)) (find_list ed_index (edges c) (ve_edgeind v)) ;
    Ok ([sx_index x], ve_edgeind v, concat (map ed_surfind es))
  else Ok ([], [], []).
(** 194-286: the snake without the marked blocks, its containers closed again. *)
Definition remove_parts (k : snake) (cells : list Z) (outerBorder : Z) : outcome snake :=
  let c := k_conn k in
  do vs <- snax_in_cells k cells ;
  do (n, blocks) <- connected_vertex c [] ;
  do flags <- mark_blocks c n blocks (0 <? outerBorder) vs ;
  do ls <- omap_list (collect k flags) (combine (upto_pos blocks) blocks) ;
  let delSnax := tighten (concat (map (fun t => fst (fst t)) ls)) in
  let delEdge := tighten (concat (map (fun t => snd (fst t)) ls)) in
  let delSurf := concat (map snd ls) in
  do c1 <- for_each delSurf (fun s m => remove_index 3 s m) c ;
  let delSurf := tighten delSurf in
  do c2 <- mesh_tighten (mkMesh (volus c1) (drop su_index delSurf (surfs c1)) (drop ed_index delEdge (edges c1))
                                (drop ve_index delSnax (verts c1)) (meshDim c1)) ;
  do c3 <- force_close c2 ;
  Ok (mkSnake (drop (@sx_index N) delSnax (k_snaxs k)) (drop fst delEdge (k_edges k)) (drop fst delSurf (k_surfs k))
              c3 (k_in k) (k_flipped k)).
(** 289-295: with Flip and AssignInternalVerts.  The fuel is that of the search for
    blocks. *)
Definition remove_in_volu (fuel : nat) (m : mesh) (k : snake) (cells : list Z) (outerBorder : Z) : outcome snake :=
  do k1 <- remove_parts k cells outerBorder ;
  let k2 := if 0 <? outerBorder then snake_flip k1 else k1 in
  do r <- assign_internal (rng (k_snaxs k2)) fuel m (k_snaxs k2) ;
  Ok (mkSnake (k_snaxs k2) (k_edges k2) (k_surfs k2) (k_conn k2) (fst r) (snd r)).
End Remove.
