(** Model of the detection of invalid connections of a snake: SnaxEdgeConnecDetection and
    SnaxNoConnecDetection, src/snake/snakeengine.cpp 415-493, and the loop of CleanupSnakeConnec
    that makes the merges agree, 591-622, and the one that removes edges with twice the same
    end, 644-659.

    The messages on std::cout are left out. *)
From Verif Require Import Base Containers Mesh Num Snake Spawn.
Set Implicit Arguments.
Open Scope Z_scope.

(** ConnecRemv, incl/mesh.hpp 513-521, without scopeind, which is not set here: keepind,
    typeobj, rmvind. *)
Record connec := mkConnec { cn_keep : Z; cn_type : Z; cn_rmv : list Z }.

Section Detect.
Variable N : num.
(** 424-469, at position [ii] of the edges; the state is connecEdit. *)
Definition edge_detect (k : snake N) (ii : Z) (out : list connec) : outcome (list connec) :=
  do e <- at_ (edges (k_conn k)) ii;
  match ed_vertind e with
  | [] => Ok out
  | _ =>
      do a <- at_ (ed_vertind e) 0; do b <- at_ (ed_vertind e) 1;
      let p := find (@sx_index N) (k_snaxs k) a in
      let q := find (@sx_index N) (k_snaxs k) b in
      if ((p =? -1) || (q =? -1))%bool then Ok out else
      do s <- at_ (k_snaxs k) p; do t <- at_ (k_snaxs k) q;
      if sx_edge s =? sx_edge t then
        let out1 := if p =? q then out else out ++ [mkConnec (sx_index s) 1 [sx_index t]] in
        do x <- at_ (k_edges k) ii;
        Ok (out1 ++ [mkConnec (fst x) 2 [fst x]])
      else Ok out
  end.
(** SnaxEdgeConnecDetection 415-471. *)
Definition detect_edges (k : snake N) (out : list connec) : outcome (list connec) :=
  for_each (map Z.of_nat (seq 0 (length (k_edges k)))) (edge_detect k) out.
End Detect.
(** SnaxNoConnecDetection 473-493. *)
Definition detect_loose (c : mesh) (out : list connec) : list connec :=
  fold_left (fun out v => match ve_edgeind v with [] => out ++ [mkConnec (ve_index v) 1 [ve_index v]] | _ => out end) (verts c) out.

(** rmvind[0]; every record made above holds one index. *)
Definition rmv0 (c : connec) : Z := hd (-1) (cn_rmv c).
(** 603-607. *)
Definition overlaps (c d : connec) : bool :=
  (negb (cn_keep d =? rmv0 d) &&
   ((rmv0 d =? rmv0 c) || (rmv0 d =? cn_keep c) || (cn_keep d =? rmv0 c) || (cn_keep d =? cn_keep c)))%bool.
(** 599-619 for the merge [c]; [nk] is connecEdit[ii + 1].keepind.  The record after a merge
    is the removal of an edge, which the loop passes over at its next turn. *)
Fixpoint settle_after (c : connec) (nk : Z) (l : list connec) : outcome (list connec) :=
  match l with
  | [] => Ok []
  | d :: r =>
      if ((cn_type d =? 1) && overlaps c d)%bool then
        match r with
        | [] => UB
        | e :: r1 => do r2 <- settle_after c nk r1; Ok (mkConnec (cn_keep c) (cn_type d) [rmv0 c] :: mkConnec nk (cn_type e) [-1] :: r2)
        end
      else do r1 <- settle_after c nk r; Ok (d :: r1)
  end.
(** 591-622, on the records from nSnaxConn on; the calls of SwitchIndex, which change the
    mesh and not the records, are left out. *)
Fixpoint settle (fuel : nat) (l : list connec) : outcome (list connec) :=
  match l, fuel with
  | [], _ => Ok []
  | _, O => OutOfFuel
  | c :: r, S f =>
      if cn_type c =? 1 then do r1 <- settle_after c (cn_keep (hd c r)) r; do r2 <- settle f r1; Ok (c :: r2)
      else do r2 <- settle f r; Ok (c :: r2)
  end.

(** 644-659, at position [ii]; the state is snakeconn and connecEdit.  DeHashParent of the
    snaxedge is left out. *)
Definition loop_edge (ii : Z) (st : mesh * list connec) : outcome (mesh * list connec) :=
  let (m, out) := st in
  do e <- at_ (edges m) ii;
  match ed_vertind e with
  | a :: b :: _ =>
      if a =? b then
        do m1 <- remove_index 2 (ed_index e) m;
        do e1 <- at_ (edges m1) ii;
        Ok (m1, out ++ [mkConnec (ed_index e1) 2 [ed_index e1]])
      else Ok st
  | _ => Ok st
  end.
Definition drop_loops (m : mesh) (out : list connec) : outcome (mesh * list connec) :=
  for_each (map Z.of_nat (seq 0 (length (edges m)))) loop_edge (m, out).
(** 785-795, on the records up to nEdgeConn; the result is indDelEdge.vec.  isearch is
    [Edit.isearch]. *)
Definition edges_again (m : mesh) (l : list connec) : outcome (list Z) :=
  for_each l (fun c out =>
    if cn_type c =? 2 then
      do e <- at_ (edges m) (find ed_index (edges m) (cn_keep c));
      do a <- at_ (ed_vertind e) 0;
      do b <- at_ (ed_vertind e) 1;
      Ok (if a =? b then out ++ [cn_keep c] else out)
    else Ok out) [].
(** 626-641, on the records from nSnaxConn to nVertConn; the state is snakeconn and the
    records passed.  DeHashParent of the snaxedge is left out. *)
Definition drop_record (c : connec) (st : mesh * list connec) : outcome (mesh * list connec) :=
  let (m, out) := st in
  if cn_type c =? 2 then
    do r <- at_ (cn_rmv c) 0;
    if 0 <? r then do m1 <- remove_index 2 r m; Ok (m1, out ++ [c])
    else Ok (m, out ++ [mkConnec (cn_keep c) (cn_type c) (upd (cn_rmv c) 0 (cn_keep c))])
  else Ok (m, out ++ [c]).
Definition drop_recorded (m : mesh) (l : list connec) : outcome (mesh * list connec) :=
  for_each l drop_record (m, []).
