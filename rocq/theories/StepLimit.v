(** Model of the limits on the steps of snaxels: snake::SetEdgeStepLimits and
    snax::TakeSpawnStep, src/snake/snake.cpp 895-962 and 2089-2192.

    The lengths of the mesh edges are given by [len], in the order of the edges: the
    member length read by edge::GetLength (mesh.hpp 395-403), or the value of
    edge::Length.  Numbers are exact; theorems require lengths above 0.  Printing is left
    out. *)
From Verif Require Import Base Containers Mesh Flood Edit Num Snake.
Set Implicit Arguments.
Open Scope Z_scope.

(** std::min with INFINITY as [None] (919, 931). *)
Definition min_inf (m : option Q) (x : Q) : option Q :=
  Some (match m with None => x | Some y => if qlt x y then x else y end).
Section Limits.
(** HashedVector::findall, arraystructures_incl.cpp 710-713: the positions of a value in
    parentconn, in an order that the standard leaves open. *)
Variable findall : list Z -> Z -> list Z.
Variable m : mesh.
Variable len : list Q.

(** edges.isearch(e)->GetLength() *)
Definition edge_len (e : Z) : outcome Q := at_ len (find ed_index (edges m) e).
(** 929-933: [edgeInds] and [minEdgeLength]. *)
Definition see_edge (e : Z) (st : list Z * option Q) : outcome (list Z * option Q) :=
  if mem_z e (fst st) then Ok st
  else do x <- edge_len e ; Ok (fst st ++ [e], min_inf (snd st) x).
(** 921-937: the edges of the cells at positions [ps]. *)
Definition see_cells (ps : list Z) : outcome (list Z * option Q) :=
  for_each ps (fun p st =>
    do v <- at_ (volus m) p ;
    for_each (vo_surfind v) (fun s st =>
      do sf <- isearch su_index (surfs m) s ;
      for_each (su_edgeind sf) see_edge st) st) ([], None).
(** 939-944: the body for one edge.  [x] is minEdgeLength, finite because there is an
    edge. *)
Definition add_limit (x : Q) (e : Z) (st : list Z * list Q) : outcome (list Z * list Q) :=
  let p := find ed_index (edges m) e in
  do acc <- modify (fst st) p (fun n => n + 1) ;
  do l <- at_ len p ;
  do lim <- modify (snd st) p (fun y => y + x / l)%Q ;
  Ok (acc, lim).
(** 917-945: one cell of a parent mesh. *)
Definition parent_cell (conn : list Z) (c : Z) (st : list Z * list Q) : outcome (list Z * list Q) :=
  do r <- see_cells (findall conn c) ;
  match snd r with
  | None => Ok st
  | Some x => for_each (fst r) (add_limit x) st
  end.
(** 947-957 *)
Definition average (a : Z) (x : Q) : Q :=
  if 1 <? a then (x / inject_Z a)%Q else if a <? 1 then 1%Q else x.
(** 902-957.  [parents] has, for each parent mesh, the indices of its volumes and the list
    parentconn. *)
Definition set_limits (parents : list (list Z * list Z)) : outcome (list Q) :=
  do st <- for_each parents (fun p st => for_each (fst p) (parent_cell (snd p)) st)
             (repeat 0 (length (edges m)), repeat 0%Q (length (edges m))) ;
  Ok (map (fun p => average (fst p) (snd p)) (combine (fst st) (snd st))).
End Limits.

(** ** TakeSpawnStep *)
Section SpawnStep.
Notation snax := (snax Qn).
Variable rng : Z -> list Z.
Variable m : mesh.
Variable len : list Q.
Notation edge_len := (edge_len m len).

(** 2145-2150 *)
Definition min_around (v : Z) : outcome (option Q) :=
  do ve <- isearch ve_index (verts m) v ;
  for_each (ve_edgeind ve) (fun e x => do l <- edge_len e ;
    Ok (Some (match x with None => l | Some y => if qlt l y then l else y end))) None.
(** 2169-2181: one other snaxel [t] of the edge. *)
Definition held_back (i : Z) (t : snax) (d : Q) : Q :=
  if i =? sx_index t then d
  else if negb (xorb (qlt (sx_d t) (1 # 2)) (qlt d (1 # 2))) then
    if qlt (Qabs d) (Qabs (sx_d t - (1 # 2))) then sx_d t else d
  else d.
(** snax::TakeSpawnStep, 2128-2192, for the snaxel at position [p].  A vertex without
    edges leaves minEdgeLength at INFINITY and is not modelled ([UB]); [this] is an element
    of the array, so 2167 reads the distance just written. *)
Definition take_spawn_step (step : Q) (p : Z) (l : list snax) : outcome (list snax) :=
  do s <- at_ l p ;
  if qlt (Qabs (step - 0)) (@neps Qn) then Ok l
  else if (qlt step (- @neps Qn) || Qle_bool (1 # 2) step)%bool then Throw
  else
    let back := qlt (1 # 2) (sx_d s) in
    do mn <- min_around (if back then sx_to s else sx_from s) ;
    match mn with
    | None => UB
    | Some x =>
      do le <- edge_len (sx_edge s) ;
      let d := (sx_d s + (if back then - step else step) * x / le)%Q in
      if (qlt d 0 || qlt 1 d)%bool then Throw
      else
        let l1 := upd l (Z.to_nat p) (sx_set_d (N := Qn) d s) in
        match rng (sx_edge s) with
        | [] => Throw
        | [_] => Ok l1
        | subs => do ts <- omap_list (at_ l1) subs ;
                  Ok (upd l (Z.to_nat p) (sx_set_d (N := Qn) (fold_left (fun d t => held_back (sx_index s) t d) ts d) s))
        end
    end.
(** snake::TakeSpawnStep, 2089-2101. *)
Definition take_spawn_steps (minIndex : Z) (step : Q) (l : list snax) : outcome (list snax) :=
  for_each (upto (length l) 0) (fun p l =>
    do s <- at_ l p ; if minIndex <? sx_index s then take_spawn_step step p l else Ok l) l.
End SpawnStep.
