(** Model of the orientation of surfaces: mesh::OrientSurfaceVolume and
    mesh::OrientRelativeSurfaceVolume, src/grid/mesh.cpp 4969-5156, and
    snake::OrientSurfaceVolume, src/snake/snake.cpp 2546-2608, which differs in the test of
    the direction only.

    surfStatus is left out: a surface is explored when its entry of surfOrient is not 0, as
    blocks are counted from 1 and OrderMatchLists returns 1 or -1.  nSurfExplored is the
    number of these entries. *)
From Verif Require Import Base Mesh Edit Order.
Import Mesh.
Set Implicit Arguments.
Open Scope Z_scope.

(** surf::FlipVolus, mesh.cpp 3862-3868: the first two entries change places.
    Shorter lists are left as they are; the callers read both entries first. *)
Definition flip_volus (s : surf) : surf :=
  match su_voluind s with
  | a :: b :: r => mkSurf (su_index s) (su_border s) (su_ordered s) (b :: a :: r) (su_edgeind s)
  | _ => s
  end.
(** The surfaces, surfOrient and nextQueue. *)
Definition state := (list surf * list Z * list Z)%type.

Section Orient.
Variable m : mesh.
(** 5114-5147: surface [x] of edge [e], seen from the surface at position [cur]; [ords] is
    orderVert. *)
Definition visit (ords : list (list Z)) (e : edge) (cur x : Z) (st : state) : outcome state :=
  let '(ss, ori, nxt) := st in
  let t := find su_index (surfs m) x in
  do sc <- at_ ss cur ; do sx <- at_ ss t ;
  do a0 <- at_ (su_voluind sc) 0 ; do a1 <- at_ (su_voluind sc) 1 ;
  do b0 <- at_ (su_voluind sx) 0 ; do b1 <- at_ (su_voluind sx) 1 ;
  let t0 := (((b0 =? a0) || (b1 =? a0)) && negb (a0 =? 0))%bool in
  let t1 := (((b0 =? a1) || (b1 =? a1)) && negb (a1 =? 0))%bool in
  do o <- at_ ori t ;
  if (negb (x =? su_index sc) && (t0 || t1) && (o =? 0))%bool then
    do l1 <- at_ ords cur ; do l2 <- at_ ords t ;
    do p1 <- at_ (ed_vertind e) 0 ; do p2 <- at_ (ed_vertind e) 1 ;
    do r <- order_match_lists l1 l2 p1 p2 ;
    do oc <- at_ ori cur ;
    let t3 := b0 =? a0 in
    let t4 := b1 =? a1 in
    let flip := (((r =? -1) && ((t0 && negb t3) || (t1 && negb t4))) || ((r =? 1) && ((t0 && t3) || (t1 && t4))))%bool in
    do ss' <- (if flip then modify ss t flip_volus else Ok ss) ;
    do ori' <- modify ori t (fun _ => -1 * r * oc) ;
    Ok (ss', ori', nxt ++ [t])
  else Ok st.
(** 5107-5149: the surface at position [cur]. *)
Definition explore (ords : list (list Z)) (cur : Z) (st : state) : outcome state :=
  do s <- at_ (surfs m) cur ;
  for_each (su_edgeind s) (fun ei st =>
    do e <- at_ (edges m) (find ed_index (edges m) ei) ;
    for_each (ed_surfind e) (fun x st => visit ords e cur x st) st) st.
(** 5080-5089: the first surface that is not explored. *)
Fixpoint first_zero (p : Z) (l : list Z) : option Z :=
  match l with [] => None | x :: r => if x =? 0 then Some p else first_zero (p + 1) r end.
(** 5074-5154: the queue, the surfaces, surfOrient and nBlocks. *)
Fixpoint flood (fuel : nat) (ords : list (list Z)) (queue : list Z) (ss : list surf) (ori : list Z) (nb : Z)
  : outcome (list surf * list Z * Z) :=
  match first_zero 0 ori with
  | None => Ok (ss, ori, nb)
  | Some p =>
    match fuel with
    | O => OutOfFuel
    | S fuel' =>
      do r <- (match queue with
               | [] => do ori' <- modify ori p (fun _ => nb + 1) ; Ok ([p], ori', nb + 1)
               | _ => Ok (queue, ori, nb)
               end) ;
      let '(q, ori1, nb1) := r in
      do st <- for_each q (explore ords) (ss, ori1, []) ;
      let '(ss', ori', nxt) := st in
      flood fuel' ords nxt ss' ori' nb1
    end
  end.
(** 5031-5156; 5053-5057 collects the corners, 5069-5072 is the return below 3 dimensions. *)
Definition orient_relative : outcome (list surf * list Z * Z) :=
  do ords <- omap_list (fun s => ordered_verts m (su_edgeind s)) (surfs m) ;
  if meshDim m <? 3 then Ok (surfs m, map (fun _ => 0) (surfs m), 0)
  else flood (S (length (surfs m))) ords [] (surfs m) (map (fun _ => 0) (surfs m)) 0.

(** 5010-5016: the sign of dotProd for a surface and a cell beside it, 0 when it is not
    finite or smaller than epsilon. *)
Variable facing : Z -> Z -> Z.
(** 4989-5019: is block [ii] flipped?  The first surface of the block with a direction
    decides; without one (5000-5009) the block stays. *)
Fixpoint block_flip (ii : Z) (ss : list surf) (ori : list Z) : outcome bool :=
  match ss, ori with
  | s :: ss', o :: ori' =>
    if ii =? Z.abs o then
      do a <- at_ (su_voluind s) 0 ;
      let kk := a =? 0 in
      do c <- at_ (su_voluind s) (if kk then 1 else 0) ;
      let d := facing (su_index s) c in
      if d =? 0 then block_flip ii ss' ori'
      else Ok (((d <? 0) && negb kk) || ((0 <? d) && kk))%bool
    else block_flip ii ss' ori'
  | _, _ => Ok false
  end.
(** 4983-5027: the surfaces. *)
Definition orient_surfaces : outcome (list surf) :=
  do r <- orient_relative ;
  let '(ss, ori, nb) := r in
  do flips <- omap_list (fun k => block_flip (Z.of_nat k) ss ori) (seq 1 (Z.to_nat nb)) ;
  omap_list (fun p : surf * Z => do b <- at_ flips (Z.abs (snd p) - 1) ; Ok (if b : bool then flip_volus (fst p) else fst p)) (combine ss ori).
(** mesh::OrientFaces in three dimensions, 4948-4953: the mesh with these surfaces.
    facesAreOriented (5028) is not part of the mesh modelled. *)
Definition orient_faces : outcome mesh :=
  do ss <- orient_surfaces ; Ok (mkMesh (volus m) ss (edges m) (verts m) (meshDim m)).
End Orient.
