(** Model of the motion of a snake along the edges of its mesh.
    Sources: SRCC/src/snake/snake.cpp, lines cited below; SRCC/incl/snake.hpp
    191-242 (class snax).

    The hash table [hashParent] of the snaxel array appears as [rng], the content
    of [equal_range] for a mesh edge: the positions of the snaxels on that edge in
    an order that the standard leaves open (see C05 for the table itself). *)
From Verif Require Import Base Containers Mesh Flood Num.
Set Implicit Arguments.
Open Scope Z_scope.

Section Snake.
Variable N : num.

(** snake.hpp:191-200 *)
Record snax := mkSnax { sx_index : Z; sx_d : N; sx_v : N; sx_from : Z; sx_to : Z;
                        sx_edge : Z; sx_freeze : Z; sx_order : Z }.
(** Assignments to the members [d] and [orderedge]. *)
Definition sx_set_d (d : N) (s : snax) : snax :=
  mkSnax (sx_index s) d (sx_v s) (sx_from s) (sx_to s) (sx_edge s) (sx_freeze s) (sx_order s).
Definition sx_set_order (o : Z) (s : snax) : snax :=
  mkSnax (sx_index s) (sx_d s) (sx_v s) (sx_from s) (sx_to s) (sx_edge s) (sx_freeze s) o.

(** ** UpdateDistance, 818-894 *)
(** 836-847 and 878-889 *)
Definition limited (lim x : N) : N :=
  if nlt lim x then lim else if nlt x (nopp lim) then nopp lim else x.
(** 848-850 and 890-892 *)
Definition clamp (x : N) : N := std_min (std_max x n0) n1.
Definition move (dt lim : N) (s : snax) : snax :=
  sx_set_d (clamp (nadd (sx_d s) (limited lim (nmul (sx_v s) dt)))) s.
(** SnaxStepLimit, 964-978.  [es] are the indices of the mesh edges in array
    order, [limits] is edgeStepLimit. *)
Definition step_limit (es : list Z) (limits : list N) (s : snax) : outcome N :=
  at_ limits (find (fun e => e) es (sx_edge s)).
(** 831-835 and 873-877.  [limits] is the vector after the call of
    SetEdgeStepLimits at 826 or 867 (StepLimit.v). *)
Definition own_limit (es : list Z) (limits : list N) (scaled : bool) (maxDstep : N) (s : snax) : outcome N :=
  if scaled then do l <- step_limit es limits s; Ok (nmul l (nmul n1 maxDstep)) else Ok (nmul n1 maxDstep).
(** The overload with one time step per snaxel, 854-894; mismatched sizes throw. *)
Definition update_distance (es : list Z) (limits : list N) (scaled : bool) (maxDstep : N)
                           (dt : list N) (l : list snax) : outcome (list snax) :=
  if (length dt =? length l)%nat
  then omap_list (fun ds => do lim <- own_limit es limits scaled maxDstep (snd ds); Ok (move (fst ds) lim (snd ds)))
                 (combine dt l)
  else Throw.
(** The overload with one time step, 818-852. *)
Definition update_distance1 (es : list Z) (limits : list N) (scaled : bool) (maxDstep dt : N)
                            (l : list snax) : outcome (list snax) :=
  omap_list (fun s => do lim <- own_limit es limits scaled maxDstep s; Ok (move dt lim s)) l.

(** ** UpdateCoord, 980-1003.  Mesh and snake vertices are pairs of an index and
    three coordinates; edge lengths are left out. *)
Definition point := (N * N * N)%type.
(** 990-995 *)
Definition lerp (a b d : N) : N := nadd (nmul (nsub b a) d) a.
Definition lerp3 (p q : point) (d : N) : point :=
  let '(px, py, pz) := p in let '(qx, qy, qz) := q in (lerp px qx d, lerp py qy d, lerp pz qz d).
Definition snax_coord (mverts : list (Z * point)) (s : snax) : outcome point :=
  do f <- at_ mverts (find fst mverts (sx_from s));
  do t <- at_ mverts (find fst mverts (sx_to s));
  Ok (lerp3 (snd f) (snd t) (sx_d s)).
(** The coordinates of snaxel number [ii] go to snake vertex number [ii]. *)
Fixpoint update_coord (mverts : list (Z * point)) (l : list snax) (sverts : list (Z * point))
  : outcome (list (Z * point)) :=
  match l, sverts with
  | [], _ => Ok sverts
  | _ :: _, [] => UB
  | s :: l', v :: sv' => do p <- snax_coord mverts s; do r <- update_coord mverts l' sv'; Ok ((fst v, p) :: r)
  end.

(** ** Flip, 2329-2343.  ForceArrayReady only sets flags.  [isFlipped] is carried
    beside the snaxels. *)
Definition flip_snax (s : snax) : snax :=
  mkSnax (sx_index s) (nsub n1 (sx_d s)) (nopp (sx_v s)) (sx_to s) (sx_from s) (sx_edge s) (sx_freeze s) (sx_order s).
Definition flip (st : list snax * bool) : list snax * bool := (map flip_snax (fst st), negb (snd st)).

(** ** Inside flags *)
(** CompareSnakeInternalStatus, 486-511: reads stop at the first vertex inside
    both. *)
Fixpoint compare_internal (this : list bool) (tf : bool) (other : list bool) (of : bool) : outcome bool :=
  match this with
  | [] => Ok true
  | a :: r =>
    if xorb a tf then
      match other with
      | [] => UB
      | b :: r' => if xorb b of then Ok false else compare_internal r tf r' of
      end
    else compare_internal r tf (tl other) of
  end.
(** 540-555 *)
Definition merge_flag (indep : bool) (tf of : bool) (a b : bool) : bool :=
  xorb (if indep then xorb a tf || xorb b of else xorb a tf && xorb b of)%bool tf.
Fixpoint merge_flags (indep tf of : bool) (this other : list bool) : outcome (list bool) :=
  match this with
  | [] => Ok []
  | a :: r => do b <- at_ other 0; do r' <- merge_flags indep tf of r (tl other); Ok (merge_flag indep tf of a b :: r')
  end.
(** The part of snake::Concatenate that sets isMeshVertIn, 527-555, for two
    snakes on the same mesh.  [||] and [&&] skip the read of [other] when the
    first operand decides; such a skipped read past the end is still counted as
    undefined here. *)
Definition concat_inside (this : list bool) (tf : bool) (other : list bool) (of : bool) (isInternal : Z)
  : outcome (list bool) :=
  do indep <- (if isInternal =? 0 then compare_internal this tf other of else Ok (isInternal <=? 0));
  merge_flags indep tf of this other.

(** ** Order along an edge *)
(** 1053-1054: position measured from the vertex with the lower number. *)
Definition along (s : snax) : N := if sx_to s <? sx_from s then nsub n1 (sx_d s) else sx_d s.
(** std::sort on doubles *)
Fixpoint insert (x : N) (l : list N) : list N :=
  match l with [] => [x] | y :: r => if nlt y x then y :: insert x r else x :: l end.
Fixpoint sort (l : list N) : list N := match l with [] => [] | x :: r => insert x (sort r) end.
(** [hashTable.find(key)] of an unordered_multimap: one of the entries with that
    key, chosen by [choose]; -1 when there is none (FindSub,
    arraystructures_incl.cpp:755-765). *)
Variable choose : list Z -> Z.
Definition find_sub (table : list (N * Z)) (key : N) : Z :=
  match map snd (filter (fun kp => neq (fst kp) key) table) with [] => -1 | l => choose l end.
(** FindSubList with a table that may be changed, arraystructures_incl.cpp:768-795:
    the table is filled only when it is empty. *)
Definition find_sub_list (keys : list N) (l : list N) (table : list (N * Z)) : list Z * list (N * Z) :=
  let table' := match table with [] => combine l (upto (length l) 0) | _ => table end in
  (map (find_sub table') keys, table').

Variable rng : Z -> list Z.
(** 1061-1064 *)
Definition assign_orders (subs order : list Z) (l : list snax) : outcome (list snax) :=
  for_each (combine order (upto (length order) 0))
           (fun kj l => do p <- at_ subs (fst kj); modify l p (sx_set_order (snd kj + 1))) l.
(** 1043-1066: body of the loop over the edges; the table hashOrder is declared
    outside the loop. *)
Definition order_edge (e : Z) (st : list snax * list (N * Z)) : outcome (list snax * list (N * Z)) :=
  let (l, table) := st in
  let subs := rng e in
  if (1 <? length subs)%nat then
    do keys <- omap_list (fun p => do s <- at_ l p; Ok (along s)) subs;
    let (order, table') := find_sub_list (sort keys) keys table in
    do l' <- assign_orders subs order l; Ok (l', table')
  else Ok st.
(** OrderOnEdge, 1032-1069 *)
Definition order_on_edge (l : list snax) : outcome (list snax) :=
  do st <- for_each (tighten (map sx_edge l)) order_edge (l, []); Ok (fst st).

(** ReorderOnEdge, 1071-1137 *)
(** 1100-1110 *)
Definition arrival_order (maxOrd : Z) (s : snax) : Z :=
  let bwd := sx_to s <? sx_from s in
  if (bwd && neq (sx_d s) n0)%bool then maxOrd + 1
  else if (negb bwd && neq (sx_d s) n0)%bool then 0
  else if (bwd && neq (sx_d s) n1)%bool then 0
  else if (negb bwd && neq (sx_d s) n1)%bool then maxOrd + 1
  else sx_order s.
(** 1092-1095 *)
Definition max_order (subs : list Z) (l : list snax) : outcome Z :=
  for_each subs (fun p m => do s <- at_ l p; Ok (if m <=? sx_order s then sx_order s else m)) 0.
(** 1096-1120: the array and needIncrement *)
Definition reorder_new (maxOrd : Z) (p : Z) (st : list snax * bool) : outcome (list snax * bool) :=
  let (l, inc) := st in
  do s <- at_ l p;
  if sx_order s =? -1 then
    let o := arrival_order maxOrd s in
    do l' <- modify l p (sx_set_order o); Ok (l', (inc || (o =? 0))%bool)
  else Ok st.
Definition reorder_edge (e : Z) (l : list snax) : outcome (list snax) :=
  let subs := rng e in
  if (1 <? length subs)%nat then
    do maxOrd <- max_order subs l;
    do st <- for_each subs (reorder_new maxOrd) (l, false);
    let (l', inc) := st in
    if inc : bool then for_each subs (fun p l => modify l p (fun s => sx_set_order (sx_order s + 1) s)) l' else Ok l'
  else do p <- at_ subs 0; modify l p (sx_set_order 1).
Definition reorder_on_edge (l : list snax) : outcome (list snax) :=
  for_each (tighten (map sx_edge l)) reorder_edge l.

(** ** Time steps *)
(** SnaxImpactDt, 2345-2365 *)
Definition impact_dt (s1 s2 : snax) : N :=
  let same := sx_from s1 =? sx_from s2 in
  let off := if same then n0 else n1 in
  let sg := if same then n1 else nopp n1 in
  let dD := nsub (nadd off (nmul sg (sx_d s2))) (sx_d s1) in
  let dV := nsub (nmul sg (sx_v s2)) (sx_v s1) in
  if approx dD n0 then n0 else if approx dV n0 then nopp n1 else ndiv (nopp dD) dV.
(** All pairs (ii, jj) with ii < jj, in the order of the loops 1147-1159. *)
Fixpoint pairs {A} (l : list A) : list (A * A) :=
  match l with [] => [] | x :: r => map (fun y => (x, y)) r ++ pairs r end.
(** 1155-1156 *)
Definition lower (dt : list N) (p : Z) (t : N) : outcome (list N) :=
  modify dt p (fun x => if nlt t x then t else x).
(** CalculateTimeStepOnEdge, 1139-1160, without isSnaxDone *)
Definition time_on_edge (l : list snax) (subs : list Z) (dt : list N) : outcome (list N) :=
  for_each (pairs subs)
    (fun pq dt => do s1 <- at_ l (fst pq); do s2 <- at_ l (snd pq);
       let t := impact_dt s1 s2 in
       if nle n0 t then do dt1 <- lower dt (fst pq) t; lower dt1 (snd pq) t else Ok dt) dt.
(** The loops over snaxels of CalculateTimeStep (2306-2326) and
    SnaxImpactDetection (2383-2413): an edge is handled when its first snaxel is
    met, and isSnaxDone then skips the others. *)
Definition mark (subs : list Z) (done : list bool) : outcome (list bool) :=
  for_each subs (fun p d => modify d p (fun _ => true)) done.
Definition visit {S} (l : list snax) (single : Z -> S -> outcome S) (many : list Z -> S -> outcome S)
                 (p : Z) (st : S * list bool) : outcome (S * list bool) :=
  let (x, done) := st in
  do d <- at_ done p;
  if d : bool then Ok st
  else
    do s <- at_ l p;
    match rng (sx_edge s) with
    | [] => Throw
    | [_] => do x' <- single p x; do done' <- modify done p (fun _ => true); Ok (x', done')
    | subs => do x' <- many subs x; do done' <- mark subs done; Ok (x', done')
    end.
(** 2291-2301: [fabs(v > eps)] is 1 or 0, so the test is [v > eps]. *)
Definition shape_dt (distDefault : N) (l : list snax) (dtDefault : N) : N :=
  fold_left (fun dt s => if nlt neps (sx_v s)
                         then let t := ndiv distDefault (nabs (sx_v s)) in if nlt t dt then t else dt
                         else dt) l dtDefault.
(** CalculateTimeStep, 2279-2327 *)
Definition time_step (conserve : bool) (l : list snax) (dtDefault distDefault : N) : outcome (list N) :=
  let dt0 := if conserve then shape_dt distDefault l dtDefault else dtDefault in
  do st <- for_each (upto (length l) 0) (visit l (fun _ dt => Ok dt) (fun subs dt => time_on_edge l subs dt))
             (repeat dt0 (length l), repeat false (length l));
  Ok (fst st).

(** ** Impact detection: the vector isImpact as a list of pairs. *)
(** 2390-2399 *)
Definition arrival (s : snax) : list (Z * Z) :=
  if (approx (sx_d s) n0 && nle (sx_v s) n0)%bool then [(sx_index s, -1)]
  else if (approx (sx_d s) n1 && nle n0 (sx_v s))%bool then [(sx_index s, -2)] else [].
(** 2513-2524 *)
Definition arrival_many (n : Z) (s : snax) : list (Z * Z) :=
  if (approx (sx_d s) n0 && nle (sx_v s) n0 && (sx_order s =? 1))%bool then [(sx_index s, -1)]
  else if (approx (sx_d s) n1 && nle n0 (sx_v s) && (sx_order s =? n))%bool then [(sx_index s, -2)] else [].
(** 2499-2511 *)
Definition collision (s1 s2 : snax) : list (Z * Z) :=
  if ((Z.abs (sx_order s1 - sx_order s2) =? 1) && approx (impact_dt s1 s2) n0)%bool
  then [(sx_index s1, sx_index s2); (sx_index s2, sx_index s1)] else [].
(** DetectImpactOnEdge, 2488-2526, on the snaxels of the edge *)
Fixpoint detect_many (n : Z) (ss : list snax) : list (Z * Z) :=
  match ss with
  | [] => []
  | s :: r => flat_map (collision s) r ++ arrival_many n s ++ detect_many n r
  end.
(** SnaxImpactDetection, 2367-2414 *)
Definition impact_detection (l : list snax) : outcome (list (Z * Z)) :=
  do st <- for_each (upto (length l) 0)
    (visit l (fun p out => do s <- at_ l p; Ok (out ++ arrival s))
             (fun subs out => do ss <- omap_list (fun p => at_ l p) subs;
                              Ok (out ++ detect_many (Z.of_nat (length subs)) ss)))
    ([], repeat false (length l));
  Ok (fst st).

(** ** snax::ValidateDistance, 2194-2257.  [sibs] are the snaxels on the same
    edge, including this one. *)
(** 2219-2249 *)
Definition validate_against (s t : snax) : snax :=
  if sx_index s =? sx_index t then s else
  let diff := negb (sx_from s =? sx_from t) in
  let inOrder := sx_from t <? sx_to t in
  let after := sx_order s <? sx_order t in
  let turn (x : N) := if diff then nsub n1 x else x in
  let d := turn (sx_d s) in
  let d' := if (xorb inOrder after && nlt d (sx_d t))%bool then sx_d t
            else if (negb (xorb inOrder after) && nlt (sx_d t) d)%bool then sx_d t else d in
  sx_set_d (turn d') s.
Definition validate_distance (sibs : list snax) (s : snax) : outcome snax :=
  if (nlt (sx_d s) n0 || nlt n1 (sx_d s))%bool then Throw
  else match sibs with
       | [] => Throw
       | [_] => Ok s
       | _ => Ok (fold_left validate_against sibs s)
       end.

(** ** ValidateEquilibrateD, 1162-1198.  [minLim] and [maxLim] are
    pow(stepLength, 0.5) and pow(stepLength, 1.5), 1164-1165. *)
Definition equilibrate (minLim maxLim newD oldD : N) : N :=
  if nlt oldD nhalf then
    if negb (nfin newD) then oldD
    else if nlt newD minLim then minLim else if nlt maxLim newD then maxLim else newD
  else
    if negb (nfin newD) then oldD
    else if nlt newD (nsub n1 maxLim) then nsub n1 maxLim
    else if nlt (nsub n1 minLim) newD then nsub n1 minLim else newD.

(** ** FindBlockSnakeMeshVerts, 2625-2733 *)
Record block_state := mkBlock { b_vert : list bool; b_snax : list bool; b_block : list Z; b_seen : Z; b_next : list Z }.
(** 2714-2721 *)
Definition see_snax (l : list snax) (v : Z) (p : Z) (st : list bool * Z) : outcome (list bool * Z) :=
  let (done, n) := st in
  do s <- at_ l p;
  if v =? sx_from s then
    do d <- at_ done p;
    Ok (upd done (Z.to_nat p) true, if d : bool then n else n + 1)
  else Ok st.
(** 2684-2723 *)
Definition block_edge (m : mesh) (l : list snax) (v : vert) (e : Z) (st : block_state) : outcome block_state :=
  match rng e with
  | [] => do ed <- at_ (edges m) (find ed_index (edges m) e);
          do x <- other_end (ve_index v) (ed_vertind ed);
          Ok (mkBlock (b_vert st) (b_snax st) (b_block st) (b_seen st) (b_next st ++ [find ve_index (verts m) x]))
  | subs => do sn <- for_each subs (see_snax l (ve_index v)) (b_snax st, b_seen st);
            Ok (mkBlock (b_vert st) (fst sn) (b_block st) (snd sn) (b_next st))
  end.
(** 2678-2726 *)
Definition block_vert (m : mesh) (l : list snax) (nBlocks : Z) (q : Z) (st : block_state) : outcome block_state :=
  do b <- at_ (b_vert st) q;
  if b : bool then Ok st
  else
    do v <- at_ (verts m) q;
    do st1 <- for_each (ve_edgeind v) (block_edge m l v)
                (mkBlock (b_vert st) (b_snax st) (upd (b_block st) (Z.to_nat q) nBlocks) (b_seen st) (b_next st));
    Ok (mkBlock (upd (b_vert st1) (Z.to_nat q) true) (b_snax st1) (b_block st1) (b_seen st1) (b_next st1)).
(** 2651-2731.  The fuel bounds the number of iterations. *)
Fixpoint block_loop (fuel : nat) (m : mesh) (l : list snax) (nBlocks : Z) (queue : list Z) (st : block_state)
  : outcome (Z * list Z) :=
  if Z.of_nat (length l) <=? b_seen st then Ok (nBlocks, b_block st) else
  match fuel with
  | O => OutOfFuel
  | S fuel' =>
    do (nB, q) <- match queue with
                  | [] => let ii := first_false (b_snax st) 0 in
                          do b <- at_ (b_snax st) ii;
                          if b : bool then Throw
                          else do s <- at_ l ii; Ok (nBlocks + 1, [find ve_index (verts m) (sx_from s)])
                  | _ => Ok (nBlocks, queue)
                  end;
    do st1 <- for_each q (block_vert m l nB) st;
    block_loop fuel' m l nB (b_next st1) (mkBlock (b_vert st1) (b_snax st1) (b_block st1) (b_seen st1) [])
  end.
Definition find_block (fuel : nat) (m : mesh) (l : list snax) : outcome (Z * list Z) :=
  block_loop fuel m l 0 []
    (mkBlock (repeat false (length (verts m))) (repeat false (length l)) (repeat 0 (length (verts m))) 0 []).
(** AssignInternalVerts, 2609-2624: isMeshVertIn and isFlipped. *)
Definition assign_internal (fuel : nat) (m : mesh) (l : list snax) : outcome (list bool * bool) :=
  do r <- find_block fuel m l; Ok (map (fun b => 0 <? b) (snd r), false).
End Snake.
Arguments mkSnax {N}.
