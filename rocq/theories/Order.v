(** Model of edge ordering.
    Sources: SRCC/src/grid/mesh.cpp OrderEdgeList 3287-3429, OrderList
    3449-3563, vert::OrderEdges 3565-3602, surf::OrderedVerts 3808-3854;
    SRCC/incl/mesh.hpp 96-102 (return codes).

    The release build is modelled: the extra checks compiled under SAFE_ACCESS,
    SAFE_ALGO and RSVS_DIAGNOSTIC are left out, as are the messages printed when
    [warn] is set. *)
From Verif Require Import Base Containers Mesh.
Set Implicit Arguments.
Open Scope Z_scope.

(** mesh.hpp 98-101 *)
Definition ordered : Z := 0.
Definition truncated : Z := 1.
Definition order_error : Z := 2.

(** The local variables of the loop 3479-3561. *)
Record walk := mkWalk { w_vert : Z; w_edge : Z; w_done : list bool; w_list : list Z; w_ends : bool }.

(** What one turn of the loop does: go on or return. *)
Inductive turn := Next (w : walk) | Stop (code : Z) (l : list Z).

Section Ordering.
(** [edge2Vert], [*edgeIndOrigPtr], and the table [vert2Edge]: [rng v] is the
    content of [equal_range(v)], positions of [v] in [edge2Vert].  The order
    inside a range of an unordered_multimap is not specified, so [rng] is kept
    abstract. *)
Variable e2v : list Z.
Variable orig : list Z.
Variable rng : Z -> list nat.
Variable errout : bool.

Definition nat_at {A} (l : list A) (p : nat) : outcome A := at_ l (Z.of_nat p).

(** 3534-3560.  Reading the first entry of an empty range is undefined; so is
    stepping past a range of one entry (the iterator then points to an entry of
    another key or to the end). *)
Definition order_pick (ii : nat) (w : walk) (range : list nat) : outcome turn :=
  match range with
  | [] => UB
  | x :: r =>
    do o <- nat_at orig (x / 2);
    do it <- (if o =? w_edge w then match r with y :: _ => Ok y | [] => UB end else Ok x);
    do d <- nat_at (w_done w) (it / 2);
    if negb d then
      do e <- nat_at orig (it / 2);
      do a <- nat_at e2v (it / 2 * 2);
      do v <- nat_at e2v (it / 2 * 2 + (if (a =? w_vert w)%Z then 1 else 0))%nat;
      Ok (Next (mkWalk v e (upd (w_done w) (it / 2) true) (upd (w_list w) ii e) (w_ends w)))
    else if w_ends w then Ok (Stop (- Z.of_nat ii) (w_list w))
    else Ok (Stop truncated (firstn ii (w_list w)))
  end.

(** 3481-3513 then 3534-3560: a vertex seen once is an end of an open chain; the
    first time the walk restarts from the other vertex of the first edge. *)
Definition order_turn (ii : nat) (w : walk) : outcome turn :=
  if (length (rng (w_vert w)) =? 1)%nat then
    if errout then Throw
    else if w_ends w then Ok (Stop (- Z.of_nat ii) (w_list w))
    else
      do v <- nat_at e2v 1;
      do e <- nat_at (w_list w) 0;
      order_pick ii (mkWalk v e (w_done w) (w_list w) true) (rng v)
  else order_pick ii w (rng (w_vert w)).

(** 3479-3562 *)
Fixpoint order_loop (k : nat) (ii : nat) (w : walk) : outcome (Z * list Z) :=
  match k with
  | O => Ok (ordered, w_list w)
  | S k' =>
    do t <- order_turn ii w;
    match t with
    | Next w' => order_loop k' (S ii) w'
    | Stop c l => Ok (c, l)
    end
  end.

(** 3457-3562 with [edgeIndOrigPtr] given. *)
Definition order_list (edgeind : list Z) : outcome (Z * list Z) :=
  match edgeind with
  | [] => Ok (ordered, [])
  | e0 :: _ =>
    do v0 <- nat_at e2v 0;
    do _ <- nat_at orig 0;
    order_loop (length edgeind - 1) 1
      (mkWalk v0 e0 (upd (repeat false (length orig)) 0 true) edgeind false)
  end.
End Ordering.

(** HashVector (arraystructures.hpp) seen through equal_range. *)
Definition table_of (e2v : list Z) (v : Z) : list nat := positions (Z.eqb v) e2v.

(** OrderList without [edgeIndOrigPtr], 3462-3469: the elements are sorted, the
    pairs are not. *)
Definition order_list_sorting e2v rng errout edgeind :=
  let l := tighten edgeind in order_list e2v l rng errout l.

(** find_list and ConcatenateVectorField 3310-3311
    (arraystructures_incl.cpp:61-75). *)
Definition edge_pairs (m : mesh) (edgeind : list Z) : outcome (list Z) :=
  do es <- omap_list (fun e => at_ (edges m) (find ed_index (edges m) e)) edgeind;
  Ok (flat_map ed_vertind es).

(** surf::OrderEdges 3684-3690: [edgeind] sorted, then OrderEdgeList with
    errout. *)
Definition surf_order (m : mesh) (table : list Z -> Z -> list nat) (edgeind : list Z) : outcome (Z * list Z) :=
  match edgeind with
  | [] => Ok (ordered, [])
  | _ => let l := tighten edgeind in
         do e2v <- edge_pairs m l; order_list e2v l (table e2v) true l
  end.

(** vert::OrderEdges 3565-3602: the edges around a vertex, chained by their
    surfaces. *)
Definition vert_order (m : mesh) (table : list Z -> Z -> list nat) (edgeind : list Z) : outcome (Z * list Z) :=
  let l := tighten edgeind in
  if (length l <? 2)%nat then Ok (order_error, l)
  else
    do es <- omap_list (fun e => at_ (edges m) (find ed_index (edges m) e)) l;
    if negb (forallb (fun e => (length (ed_surfind e) =? 2)%nat) es) then Ok (order_error, l)
    else
      let e2s := flat_map ed_surfind es in
      do cr <- order_list e2s l (table e2s) false l;
      Ok (fst cr, if fst cr =? ordered then snd cr else l).

(** surf::OrderedVerts 3808-3854. *)
Definition edge_ends (m : mesh) (e : Z) : outcome (Z * Z) :=
  do ed <- at_ (edges m) (find ed_index (edges m) e);
  do a <- at_ (ed_vertind ed) 0;
  do b <- at_ (ed_vertind ed) 1;
  Ok (a, b).
Fixpoint ordered_verts_from (m : mesh) (past : Z * Z) (l : list Z) : outcome (list Z) :=
  match l with
  | [] => Ok []
  | e :: r =>
    do ab <- edge_ends m e;
    let v := if ((fst ab =? fst past) || (snd ab =? fst past))%bool then fst past else snd past in
    do vs <- ordered_verts_from m ab r;
    Ok (v :: vs)
  end.
Definition ordered_verts (m : mesh) (edgeind : list Z) : outcome (list Z) :=
  do e <- at_ edgeind (Z.of_nat (length edgeind) - 1);
  do past <- edge_ends m e;
  ordered_verts_from m past edgeind.
