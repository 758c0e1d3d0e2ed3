(** Model of the search for snake edges lying on the same surface.
    Source: SRCC/src/snake/snakeengine.cpp, lines cited below.

    The snake is its connectivity mesh (snakeconn.edges, [es]) and, for each
    position, the parent surface of the snake edge there ([keys]).  Positions in
    the two lists correspond (C39).  Hash tables of the local vectors are
    searches of those vectors; findall and findsiblings may enumerate equal
    elements in any order, the increasing one is used here. *)
From Verif Require Import Base Containers Mesh.
Set Implicit Arguments.
Open Scope Z_scope.

(** findsiblings, arraystructures_incl.cpp: the positions whose key is that of
    the element at [cur]; snakeengine.cpp:1002. *)
Definition siblings (keys : list Z) (cur : Z) : outcome (list Z) :=
  do k <- at_ keys cur; Ok (map Z.of_nat (positions (Z.eqb k) keys)).
(** ConcatenateVectorField and the companion vector edge2Surf,
    snakeengine.cpp:1003-1012: the surfaces of the edges at [sub] and, for each,
    the place in [sub] it came from, starting at [n]. *)
Fixpoint gather (es : list edge) (sub : list Z) (n : Z) : outcome (list Z * list Z) :=
  match sub with
  | [] => Ok ([], [])
  | p :: r =>
      do e <- at_ es p; do (a, b) <- gather es r (n + 1);
      Ok (ed_surfind e ++ a, map (fun _ => n) (ed_surfind e) ++ b)
  end.
(** HashedVector::count of each value, with the final 0 pushed, 1018-1019 *)
Definition counts (hash vals : list Z) : list Z :=
  map (fun s => count_if (Z.eqb s) hash) vals ++ [0].
(** The while loop, 1025-1028: the count is read before the bound is tested. *)
Fixpoint step_to_shared (fuel : nat) (cnt : list Z) (nTemp step : Z) : outcome Z :=
  match fuel with
  | O => OutOfFuel
  | S f => do c <- at_ cnt step;
           if (c <? 2) && (step <=? nTemp) then step_to_shared f cnt nTemp (step + 1) else Ok step
  end.
(** IndentifyEdgeSameSurf, 993-1039, called with [stepCheck] = 0 as its only
    caller does (968-971): the final stepCheck and tempSub2, which keeps its old
    value [sub2] when no surface is found. *)
Definition edge_same_surf (es : list edge) (keys : list Z) (cur : Z) (sub2 : list Z)
    : outcome (Z * list Z) :=
  do sub <- siblings keys cur;
  do (hash, from) <- gather es sub 0;
  do e <- at_ es cur;
  let cnt := counts hash (ed_surfind e) in
  let nTemp := Z.of_nat (length cnt) - 1 in
  do step <- step_to_shared (2 + length cnt) cnt nTemp 0;
  if step <? nTemp then
    do s <- at_ (ed_surfind e) step;
    do r <- omap_list (fun q => do k <- at_ from q; at_ sub k)
                      (map Z.of_nat (positions (Z.eqb s) hash));
    Ok (step, r)
  else Ok (step, sub2).
