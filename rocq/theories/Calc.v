(** Model of the assembly of the optimisation problem: src/rsvs/RSVScalc.cpp,
    RSVScalc_core.cpp and RSVScalctools.cpp.

    Numbers are real numbers, so the replacement of NaN by 0 (RSVScalctools.cpp
    117-120) does nothing and is left out.  Eigen matrices are functions of row and
    column; positions are checked against the sizes where they are used, and a
    position out of range is undefined behaviour.  [isearch] is a search in a list by
    index (C01), undefined when there is no such element.  Timers, console output and
    the call counter dvCallConstr are left out. *)
From Coq Require Export Reals List Lia ZArith.
From Verif Require Export Base RsvsMath.
Export ListNotations.
Set Implicit Arguments.
Open Scope R_scope.

(** meshtypes, triangulate.hpp 62. *)
Definition t_mesh : Z := 1.
(** triangulate.hpp 63. *)
Definition t_snake : Z := 2.
(** triangulate.hpp 64. *)
Definition t_tri : Z := 3.
(** triangle, triangulate.hpp 133-188: the types and indices of the points, and the
    cells it bounds with the sign of its influence (tri2mesh, 125-131). *)
Record triangle := mkTri { tri_index : Z; tri_pts : list (Z * Z); celltarg : list Z; influence : list R }.
(** trianglepoint, triangulate.hpp 190-226: position, parent surface and the type of the parent. *)
Record tripoint := mkTp { tp_coord : vec; tp_parent : Z; tp_ptype : Z }.
(** The part of snax that is read here: snake.hpp. *)
Record snaxel := mkSnaxel { x_index : Z; x_from : Z; x_to : Z; x_freeze : bool; x_v : R }.
(** What CalculateTriangulation reads: the triangles (dynatri, intertri, stattri,
    acttri), the added points (trivert), the corners of the mixed surfaces (trisurf:
    types and indices), the vertices of the mesh and of the snake, the snaxels, and the
    corners of the surfaces of the snake in the order given by ConnVertFromConnEdge
    (C22; OrderedVerts gives the same corners). *)
Record tri_env := mkEnv {
  dynatri : list triangle; intertri : list triangle; stattri : list triangle; acttri : list Z;
  trivert : list (Z * tripoint); trisurf : list (Z * list (Z * Z));
  mesh_verts : list (Z * vec); snake_verts : list (Z * vec); snaxs : list snaxel;
  snake_surfs : list (Z * list Z) }.

(** ArrayStruct::isearch, arraystructures.hpp, on a prepared array. *)
Fixpoint lookup {A} (k : Z) (l : list (Z * A)) : outcome A :=
  match l with [] => UB | (i, a) :: r => if Z.eqb i k then Ok a else lookup k r end.
(** snaxs.isearch, as in RSVScalctools.cpp 139. *)
Definition lookup_snax (k : Z) (l : list snaxel) : outcome snaxel := lookup k (map (fun x => (x_index x, x)) l).
(** HashedVector::find on a vector without repetitions, C08; [None] is -1. *)
Fixpoint index_of (k : Z) (l : list Z) : option nat :=
  match l with [] => None | x :: r => if Z.eqb x k then Some 0%nat else match index_of k r with Some i => Some (S i) | None => None end end.
(** HashedMap: pairs of a key and a target; findall, arraystructures_incl.cpp
    710-713, 748-753, and ReturnDataEqualRange, 131-158.  The order of equal keys in the
    hash table is not specified; the model takes the order of insertion. *)
Definition findall (k : Z) (l : list (Z * Z)) : list Z := map snd (filter (fun p => Z.eqb (fst p) k) l).
(** sort followed by unique, arraystructures_incl.cpp. *)
Fixpoint insert (x : Z) (l : list Z) : list Z :=
  match l with
  | [] => [x]
  | y :: r => if Z.ltb x y then x :: l else if Z.eqb x y then l else y :: insert x r
  end.
(** sort and unique of a list, RSVScalc_core.cpp 639-640. *)
Definition sort_unique (l : list Z) : list Z := fold_right insert [] l.

(** TrianglePointerCoordinates, RSVScalctools.cpp 26-37: one point. *)
Definition point_coord (e : tri_env) (p : Z * Z) : outcome (list vec) :=
  let (t, i) := p in
  if Z.eqb t t_mesh then do v <- lookup i (mesh_verts e) ; Ok [v]
  else if Z.eqb t t_snake then do v <- lookup i (snake_verts e) ; Ok [v]
  else if Z.eqb t t_tri then do v <- lookup i (trivert e) ; Ok [tp_coord v]
  else Ok [].
(** A loop that appends to a vector, as in 24-38. *)
Fixpoint concat_all {A B} (f : A -> outcome (list B)) (l : list A) : outcome (list B) :=
  match l with [] => Ok [] | a :: r => do x <- f a ; do y <- concat_all f r ; Ok (x ++ y) end.
(** The first three elements, RSVScalctools.cpp 23-24, RSVScalc_core.cpp 65. *)
Definition three {A} (l : list A) : outcome (list A) :=
  match l with a :: b :: c :: _ => Ok [a; b; c] | _ => UB end.
(** TrianglePointerCoordinates, RSVScalctools.cpp 18-41. *)
Definition tri_coords (e : tri_env) (t : triangle) : outcome (list vec) :=
  do p <- three (tri_pts t) ; concat_all (point_coord e) p.

(** dvMap.find(i) != __notfound, RSVScalctools.cpp 54. *)
Definition in_map (dvs : list Z) (i : Z) : bool := match index_of i dvs with Some _ => true | None => false end.
(** TriangleActiveDesignVariables, 53-94: one point. *)
Definition point_dvs (e : tri_env) (dvs : list Z) (centre : bool) (p : Z * Z) : outcome (list Z) :=
  let (t, i) := p in
  if andb (Z.eqb t t_snake) (in_map dvs i) then Ok [i]
  else if andb (Z.eqb t t_tri) centre then
    do tp <- lookup i (trivert e) ;
    if Z.eqb (tp_ptype tp) t_tri then
      do s <- lookup (tp_parent tp) (trisurf e) ;
      Ok (map snd (filter (fun q => andb (Z.eqb (fst q) t_snake) (in_map dvs (snd q))) s))
    else if Z.eqb (tp_ptype tp) t_snake then
      do s <- lookup (tp_parent tp) (snake_surfs e) ; Ok (filter (in_map dvs) s)
    else Ok []
  else Ok [].
(** TriangleActiveDesignVariables, 43-102. *)
Definition tri_dvs (e : tri_env) (dvs : list Z) (centre : bool) (t : triangle) : outcome (list Z) :=
  do p <- three (tri_pts t) ; do l <- concat_all (point_dvs e dvs centre) p ; Ok (sort_unique l).

(** The direction in which a snaxel moves, RSVScalctools.cpp 139-146. *)
Definition snax_dir (e : tri_env) (i : Z) : outcome vec :=
  do x <- lookup_snax i (snaxs e) ; do a <- lookup (x_from x) (mesh_verts e) ; do b <- lookup (x_to x) (mesh_verts e) ;
  Ok (fun k => b k - a k).
(** Coordinates of a corner of a mixed surface, triangulate.cpp 485-495, or of a
    surface of the snake, 447-450. *)
Definition corner_coord (e : tri_env) (q : Z * Z) : outcome (list vec) :=
  let (t, i) := q in
  if Z.eqb t t_mesh then do v <- lookup i (mesh_verts e) ; Ok [v]
  else if Z.eqb t t_snake then do v <- lookup i (snake_verts e) ; Ok [v] else Ok [].
(** The contributions of one point to dPos: row (within the three rows of the point),
    column, value.  RSVScalctools.cpp 168-177: one corner of a
    surface, of Jacobian [jac]. *)
Definition corner_jac (count : nat) (jac : mat) (act : list Z) (j : nat) (i : Z) (g : vec) : list (nat * nat * R) :=
  match index_of i act with
  | None => []
  | Some q => flat_map (fun k => map (fun l => (k, q, jac k (j + count * l)%nat * g l)) (seq 0 3)) (seq 0 3)
  end.
(** TrianglePositionDerivatives, 137-212: one point.  The last case of triangulate.cpp
    496-507 (a mixed surface with three corners gets its first corner twice, while the
    stride used here stays 3) is kept. *)
Definition point_jac (st : statics) (e : tri_env) (act : list Z) (centre : bool) (p : Z * Z) : outcome (list (nat * nat * R)) :=
  let (t, i) := p in
  match (if Z.eqb t t_snake then index_of i act else None) with
  | Some q => do g <- snax_dir e i ; Ok (map (fun k => (k, q, g k)) (seq 0 3))
  | None =>
    if andb (Z.eqb t t_tri) centre then
      do tp <- lookup i (trivert e) ;
      if Z.eqb (tp_ptype tp) t_tri then
        do s <- lookup (tp_parent tp) (trisurf e) ;
        do pts <- concat_all (corner_coord e) (if Nat.eqb (length s) 3 then s ++ firstn 1 s else s) ;
        do c <- centroid_calc st (centroid_new pts) ;
        concat_all (fun jq : nat * (Z * Z) =>
            if andb (Z.eqb (fst (snd jq)) t_snake) (in_map act (snd (snd jq)))
            then do g <- snax_dir e (snd (snd jq)) ; Ok (corner_jac (length s) (c_jac c) act (fst jq) (snd (snd jq)) g)
            else Ok [])
          (combine (seq 0 (length s)) s)
      else if Z.eqb (tp_ptype tp) t_snake then
        do s <- lookup (tp_parent tp) (snake_surfs e) ;
        if Nat.eqb (length s) 3 then Throw else
        do pts <- concat_all (fun i => corner_coord e (t_snake, i)) s ;
        do c <- centroid_calc st (centroid_new pts) ;
        concat_all (fun jq : nat * Z =>
            do g <- snax_dir e (snd jq) ; Ok (corner_jac (length s) (c_jac c) act (fst jq) (snd jq) g))
          (combine (seq 0 (length s)) s)
      else Ok []
    else Ok []
  end.
(** The contributions to HPos, 216-256: row, column and component of the point.
    Only surfaces of the snake have them. *)
Definition point_hes (st : statics) (e : tri_env) (act : list Z) (centre hessian : bool) (p : Z * Z) : outcome (list (nat * nat * nat * R)) :=
  let (t, i) := p in
  if andb (andb (Z.eqb t t_tri) centre) hessian then
    do tp <- lookup i (trivert e) ;
    if Z.eqb (tp_ptype tp) t_snake then
      do s <- lookup (tp_parent tp) (snake_surfs e) ;
      if Nat.eqb (length s) 3 then Throw else
      do pts <- concat_all (fun i => corner_coord e (t_snake, i)) s ;
      do c <- centroid_calc st (centroid_new pts) ;
      do gs <- concat_all (fun i => do g <- snax_dir e i ; Ok [g]) s ;
      let n := length s in
      Ok (flat_map (fun jq : nat * Z => flat_map (fun jq2 : nat * Z =>
            match index_of (snd jq) act, index_of (snd jq2) act with
            | Some q, Some q2 => map (fun k => (q, q2, k,
                fold_right Rplus 0 (map (fun ab : nat * nat =>
                  pt gs (fst jq) (fst ab) * c_hes c (fst jq + fst ab * n)%nat (fst jq2 + snd ab * n + k * (n * 3))%nat * pt gs (fst jq2) (snd ab))
                  (list_prod (seq 0 3) (seq 0 3))))) (seq 0 3)
            | _, _ => []
            end) (combine (seq 0 n) s)) (combine (seq 0 n) s))
    else Ok []
  else Ok [].
(** A matrix made of zeros to which values are added, RSVScalctools.cpp 131-132. *)
Definition sum_entries (ws : list (nat * nat * R)) : mat := fun i j =>
  fold_right Rplus 0 (map (fun w => if andb (Nat.eqb (fst (fst w)) i) (Nat.eqb (snd (fst w)) j) then snd w else 0) ws).
(** TrianglePositionDerivatives, 110-287: dPos, with nine rows. *)
Definition tri_jac (st : statics) (e : tri_env) (act : list Z) (centre : bool) (t : triangle) : outcome mat :=
  do p <- three (tri_pts t) ;
  do ws <- concat_all (fun ip : nat * (Z * Z) =>
      do l <- point_jac st e act centre (snd ip) ; Ok (map (fun w => ((fst ip * 3 + fst (fst w))%nat, snd (fst w), snd w)) l))
    (combine (seq 0 3) p) ;
  Ok (sum_entries ws).
(** TrianglePositionDerivatives, 110-287: the nine layers of HPos, each a square matrix. *)
Definition tri_hes (st : statics) (e : tri_env) (act : list Z) (centre hessian : bool) (t : triangle) : outcome (nat -> mat) :=
  do p <- three (tri_pts t) ;
  do ws <- concat_all (fun ip : nat * (Z * Z) =>
      do l <- point_hes st e act centre hessian (snd ip) ;
      Ok (map (fun w : nat * nat * nat * R => let '(q, q2, k, x) := w in ((fst ip * 3 + k)%nat, (q, q2, x))) l))
    (combine (seq 0 3) p) ;
  Ok (fun k => sum_entries (map snd (filter (fun w => Nat.eqb (fst w) k) ws))).

(** Deriv1stChainScalar and Deriv2ndChainScalar, matrixtools.cpp 80-115 (C57), with
    nine intermediate variables. *)
Definition sum9 (f : nat -> R) : R := fold_right Rplus 0 (map f (seq 0 9)).
(** matrixtools.cpp 80-115, the first derivative. *)
Definition chain1 (dval : vec) (dpos : mat) : vec := fun j => sum9 (fun r => dval r * dpos r j).
(** matrixtools.cpp 80-115, the second derivative. *)
Definition chain2 (dval : vec) (dpos : mat) (hval : mat) (hpos : nat -> mat) : mat := fun i j =>
  sum9 (fun r => hpos r i j * dval r) + sum9 (fun r => sum9 (fun s => dpos r i * hval r s * dpos s j)).

(** ** RSVScalc *)
(** RSVScalc.hpp 132-206: the numbers of variables and constraints, what was summed up
    so far, and the maps.  With sparse mathematics the same fields stand for the
    sparse arrays. *)
Record calc := mkCalc {
  nDv : nat; nConstr : nat; falseaccess : nat; cutoff : Z; useCentre : bool; useHessian : bool;
  obj : R; constr : vec; dObj : vec; dConstr : mat; HConstr : mat; HObj : mat;
  lagMult : vec; nLag : nat; constrTarg : list R; deltaDV : vec;
  dvAct : nat -> bool; constrAct : nat -> bool;
  dvMap : list Z; constrMap : list (Z * Z) }.
(** UseFullMath, RSVScalc.hpp 215-218. *)
Definition full_math (c : calc) : bool := Z.ltb (Z.of_nat (nDv c)) (cutoff c).
(** v[i] += x, as in RSVScalc_core.cpp 96. *)
Definition add1 (i : nat) (x : R) (v : vec) : vec := fun k => if Nat.eqb k i then v k + x else v k.
(** m(i, j) += x, as in RSVScalc_core.cpp 151. *)
Definition add2 (i j : nat) (x : R) (m : mat) : mat := fun a b => if andb (Nat.eqb a i) (Nat.eqb b j) then m a b + x else m a b.
(** isDvAct.at(i) = true, RSVScalc_core.cpp 175. *)
Definition set_flag (i : nat) (f : nat -> bool) : nat -> bool := fun k => orb (Nat.eqb k i) (f k).

(** BuildMathArrays, RSVScalc.cpp 443-486. *)
Definition build_arrays (n m : nat) (c : calc) : calc :=
  {| nDv := n; nConstr := m; falseaccess := falseaccess c; cutoff := cutoff c; useCentre := useCentre c; useHessian := useHessian c;
     obj := 0; constr := fun _ => 0; dObj := fun _ => 0; dConstr := zero_mat; HConstr := zero_mat; HObj := zero_mat;
     lagMult := if Nat.eqb m (nLag c) then lagMult c else (fun _ => 0); nLag := m;
     constrTarg := constrTarg c; deltaDV := fun _ => 0;
     dvAct := fun _ => false; constrAct := fun _ => false; dvMap := dvMap c; constrMap := constrMap c |}.
(** BuildDVMap, RSVScalc.cpp 522-529. *)
Definition build_dv_map (l : list Z) (c : calc) : calc :=
  {| nDv := nDv c; nConstr := nConstr c; falseaccess := falseaccess c; cutoff := cutoff c; useCentre := useCentre c; useHessian := useHessian c;
     obj := obj c; constr := constr c; dObj := dObj c; dConstr := dConstr c; HConstr := HConstr c; HObj := HObj c;
     lagMult := lagMult c; nLag := nLag c; constrTarg := constrTarg c; deltaDV := deltaDV c;
     dvAct := dvAct c; constrAct := constrAct c; dvMap := sort_unique l; constrMap := constrMap c |}.
(** BuildConstrMap, RSVScalc.cpp 488-503, from what ReturnParentMap gives (C46). *)
Definition build_constr_map (m : list (Z * Z)) (targ : list R) (c : calc) : calc :=
  {| nDv := nDv c; nConstr := nConstr c; falseaccess := falseaccess c; cutoff := cutoff c; useCentre := useCentre c; useHessian := useHessian c;
     obj := obj c; constr := constr c; dObj := dObj c; dConstr := dConstr c; HConstr := HConstr c; HObj := HObj c;
     lagMult := lagMult c; nLag := nLag c; constrTarg := targ; deltaDV := deltaDV c;
     dvAct := dvAct c; constrAct := constrAct c; dvMap := dvMap c; constrMap := m |}.

(** SnakDVcond, RSVScalc.cpp 73-93: the snaxel at a position has a neighbour that is not frozen.
    [conn] holds, for each position, the pairs of vertices of the edges of the vertex of
    snakeconn at that position. *)
Definition has_free_neighbour (e : tri_env) (edges : list (Z * Z)) : outcome bool :=
  (fix go l := match l with
    | [] => Ok false
    | (a, b) :: r =>
        do x <- lookup_snax a (snaxs e) ; do y <- lookup_snax b (snaxs e) ;
        if andb (x_freeze x) (x_freeze y) then go r else Ok true
    end) edges.
(** PrepTriangulationCalc, RSVScalc.cpp 55-67: the list of variables. *)
Definition pick_dvs (e : tri_env) (conn : list (list (Z * Z))) : outcome (list Z) :=
  concat_all (fun ix : nat * snaxel =>
      if negb (x_freeze (snd ix)) then Ok [x_index (snd ix)]
      else do edges <- at_ conn (Z.of_nat (fst ix)) ; do b <- has_free_neighbour e edges ;
           Ok (if b then [x_index (snd ix)] else []))
    (combine (seq 0 (length (snaxs e))) (snaxs e)).
(** PrepTriangulationCalc, RSVScalc.cpp 35-71; [n] is CountVoluParent, and [m] and [targ]
    what ReturnParentMap gives. *)
Definition prep (e : tri_env) (conn : list (list (Z * Z))) (m : list (Z * Z)) (targ : list R) (n : nat) (c : calc) : outcome calc :=
  do l <- pick_dvs e conn ;
  let c := build_dv_map l (build_constr_map m targ c) in
  Ok (build_arrays (length (dvMap c)) n c).

(** DBL_EPSILON, the tolerance of IsAproxEqual, rsvsutils.hpp 19. *)
Definition dbl_epsilon : R := / 4503599627370496.
(** IsAproxEqual(x, 0.0), rsvsutils.hpp 19-22. *)
Definition is_zero (x : R) : bool := if Rlt_dec (Rabs x) dbl_epsilon then true else false.
(** dvMap.find(i), used as a position in the arrays: RSVScalctools.cpp 297. *)
Definition dv_pos (c : calc) (i : Z) : outcome nat :=
  match index_of i (dvMap c) with Some q => if Nat.ltb q (nDv c) then Ok q else UB | None => UB end.
(** The positions of all the active variables, RSVScalctools.cpp 295-297. *)
Fixpoint dv_positions (c : calc) (l : list Z) : outcome (list nat) :=
  match l with [] => Ok [] | i :: r => do q <- dv_pos c i ; do t <- dv_positions c r ; Ok (q :: t) end.
(** RSVScalctools.cpp 295-298, 318-324: adds the entries of a vector over the active
    variables at the positions [qs]; [keep] tells which values are added. *)
Definition scatter1 (keep : R -> bool) (qs : list nat) (d : vec) (scale : R) (v : vec) : vec :=
  fold_left (fun v iq => if keep (d (fst iq)) then add1 (snd iq) (scale * d (fst iq)) v else v) (combine (seq 0 (length qs)) qs) v.
(** RSVScalctools.cpp 300-307, 326-335: the same for a matrix. *)
Definition scatter2 (keep : R -> bool) (qs : list nat) (h : mat) (scale : R) (m : mat) : mat :=
  fold_left (fun m iq => fold_left (fun m jq =>
      if keep (h (fst jq) (fst iq)) then add2 (snd jq) (snd iq) (scale * h (fst jq) (fst iq)) m else m)
    (combine (seq 0 (length qs)) qs) m) (combine (seq 0 (length qs)) qs) m.
(** AssignConstraintDerivativesFullMath and ...SparseMath, RSVScalctools.cpp 289-337.
    The sparse version leaves out values close to zero; for the Hessian the value
    tested includes the multiplier. *)
Definition assign_derivs (c : calc) (qs : list nat) (dpart : vec) (hpart : mat) (k : nat) (infl : R) : calc :=
  let keep := if full_math c then (fun _ => true) else (fun x => negb (is_zero x)) in
  {| nDv := nDv c; nConstr := nConstr c; falseaccess := falseaccess c; cutoff := cutoff c; useCentre := useCentre c; useHessian := useHessian c;
     obj := obj c; constr := constr c; dObj := dObj c;
     dConstr := (fun i => if Nat.eqb i k then scatter1 keep qs dpart infl (dConstr c i) else dConstr c i);
     HConstr := scatter2 keep qs (fun i j => hpart i j * lagMult c k) infl (HConstr c); HObj := HObj c;
     lagMult := lagMult c; nLag := nLag c; constrTarg := constrTarg c; deltaDV := deltaDV c;
     dvAct := dvAct c; constrAct := constrAct c; dvMap := dvMap c; constrMap := constrMap c |}.
(** RSVScalc_core.cpp 96. *)
Definition add_constr (c : calc) (k : nat) (x : R) : calc :=
  {| nDv := nDv c; nConstr := nConstr c; falseaccess := falseaccess c; cutoff := cutoff c; useCentre := useCentre c; useHessian := useHessian c;
     obj := obj c; constr := add1 k x (constr c); dObj := dObj c; dConstr := dConstr c; HConstr := HConstr c; HObj := HObj c;
     lagMult := lagMult c; nLag := nLag c; constrTarg := constrTarg c; deltaDV := deltaDV c;
     dvAct := dvAct c; constrAct := constrAct c; dvMap := dvMap c; constrMap := constrMap c |}.
(** RSVScalc_core.cpp 113. *)
Definition false_access (c : calc) : calc :=
  {| nDv := nDv c; nConstr := nConstr c; falseaccess := S (falseaccess c); cutoff := cutoff c; useCentre := useCentre c; useHessian := useHessian c;
     obj := obj c; constr := constr c; dObj := dObj c; dConstr := dConstr c; HConstr := HConstr c; HObj := HObj c;
     lagMult := lagMult c; nLag := nLag c; constrTarg := constrTarg c; deltaDV := deltaDV c;
     dvAct := dvAct c; constrAct := constrAct c; dvMap := dvMap c; constrMap := constrMap c |}.
(** RSVScalc_core.cpp 90-115: one cell; [i] is its position, for the influence. *)
Definition constr_cell (qs : list nat) (val : R) (dpart : vec) (hpart : mat) (isDeriv : bool) (infl : list R)
    (ic : nat * Z) (c : calc) : outcome calc :=
  (fix go (l : list Z) (c : calc) : outcome calc := match l with
    | [] => Ok c
    | k :: r =>
      do c' <- (if Z.eqb k (-1) then Ok (false_access c)
                else if andb (Z.leb 0 k) (Z.ltb k (Z.of_nat (nConstr c))) then
                  do f <- at_ infl (Z.of_nat (fst ic)) ;
                  let c1 := add_constr c (Z.to_nat k) (f * val) in
                  Ok (if isDeriv then assign_derivs c1 qs dpart hpart (Z.to_nat k) f else c1)
                else UB) ;
      go r c'
    end) (findall (snd ic) (constrMap c)) c.
(** RSVScalc_core.cpp 87-116. *)
Fixpoint constr_cells (qs : list nat) (val : R) (dpart : vec) (hpart : mat) (isDeriv : bool) (infl : list R)
    (l : list (nat * Z)) (c : calc) : outcome calc :=
  match l with [] => Ok c | ic :: r => do c' <- constr_cell qs val dpart hpart isDeriv infl ic c ; constr_cells qs val dpart hpart isDeriv infl r c' end.
(** RSVScalc_core.cpp 140-167 and 303-327: the objective.  Only the first ([thin]) leaves
    out the values close to zero of a sparse Hessian. *)
Definition add_obj (thin : bool) (c : calc) (qs : list nat) (val : R) (dpart : vec) (hpart : mat) (isDeriv : bool) : calc :=
  let keep := if orb (full_math c) (negb thin) then (fun _ => true) else (fun x => negb (is_zero x)) in
  {| nDv := nDv c; nConstr := nConstr c; falseaccess := falseaccess c; cutoff := cutoff c; useCentre := useCentre c; useHessian := useHessian c;
     obj := obj c + val; constr := constr c;
     dObj := if isDeriv then scatter1 (fun _ => true) qs dpart 1 (dObj c) else dObj c;
     dConstr := dConstr c; HConstr := HConstr c;
     HObj := if isDeriv then scatter2 keep qs hpart 1 (HObj c) else HObj c;
     lagMult := lagMult c; nLag := nLag c; constrTarg := constrTarg c; deltaDV := deltaDV c;
     dvAct := dvAct c; constrAct := constrAct c; dvMap := dvMap c; constrMap := constrMap c |}.
(** RSVScalc_core.cpp 173-192: the variables and constraints that take part. *)
Definition mark_active (c : calc) (qs : list nat) (cells : list Z) : outcome calc :=
  let ks := match qs with [] => [] | _ => filter (fun k => negb (Z.eqb k (-1))) (flat_map (fun z => findall z (constrMap c)) cells) end in
  if forallb (fun k => andb (Z.leb 0 k) (Z.ltb k (Z.of_nat (nConstr c)))) ks then
  Ok {| nDv := nDv c; nConstr := nConstr c; falseaccess := falseaccess c; cutoff := cutoff c; useCentre := useCentre c; useHessian := useHessian c;
     obj := obj c; constr := constr c; dObj := dObj c; dConstr := dConstr c; HConstr := HConstr c; HObj := HObj c;
     lagMult := lagMult c; nLag := nLag c; constrTarg := constrTarg c; deltaDV := deltaDV c;
     dvAct := fold_left (fun f q => set_flag q f) qs (dvAct c);
     constrAct := fold_left (fun f k => set_flag (Z.to_nat k) f) ks (constrAct c);
     dvMap := dvMap c; constrMap := constrMap c |}
  else Throw.
(** CalcTriangle, RSVScalc_core.cpp 32-197, and CalcTriangleFD ([fd]), 199-353. *)
Definition calc_triangle (st : statics) (e : tri_env) (fd isObj isConstr isDeriv : bool) (t : triangle) (c : calc) : outcome calc :=
  do p <- tri_coords e t ;
  do act <- tri_dvs e (dvMap c) (useCentre c) t ;
  do dpos <- tri_jac st e act (useCentre c) t ;
  do hpos <- tri_hes st e act (useCentre c) (useHessian c) t ;
  do p <- three p ;
  do qs <- dv_positions c act ;
  let f0 := mkFunc (map Some p) 0 zero_mat zero_mat in
  do c <- (if isConstr then
      do f <- (if fd then calc_fd st f0 else RsvsMath.calc st KVolume f0) ;
      let dval := f_jac f 0%nat in
      constr_cells qs (f_fun f) (chain1 dval dpos) (chain2 dval dpos (f_hes f) hpos) isDeriv (influence t)
        (combine (seq 0 (length (celltarg t))) (celltarg t)) c
    else Ok c) ;
  do c <- (if isObj then
      do f <- RsvsMath.calc st KArea f0 ;
      let dval := f_jac f 0%nat in
      Ok (add_obj (negb fd) c qs (f_fun f) (chain1 dval dpos) (chain2 dval dpos (f_hes f) hpos) isDeriv)
    else Ok c) ;
  mark_active c qs (celltarg t).
(** CalcTriangleDirectVolume, RSVScalc_core.cpp 385-429: [dvec] and [veccoordvol] are empty vectors when
    their elements are written, for each point of one of the three types (407-424); when
    no point has one of these types, veccoord is empty when it is read (392). *)
Definition calc_triangle_direct (st : statics) (e : tri_env) (isObj isConstr isDeriv : bool) (t : triangle) (c : calc) : outcome calc :=
  do p <- tri_coords e t ;
  do act <- tri_dvs e (dvMap c) (useCentre c) t ;
  do dpos <- tri_jac st e act (useCentre c) t ;
  UB.
(** RSVScalc.cpp 117-133: one of the loops. *)
Fixpoint calc_triangles (f : triangle -> calc -> outcome calc) (l : list triangle) (c : calc) : outcome calc :=
  match l with [] => Ok c | t :: r => do c' <- f t c ; calc_triangles f r c' end.
(** stattri.isearch(acttri[ii]), RSVScalc.cpp 129-132. *)
Definition active_static (e : tri_env) : outcome (list triangle) :=
  concat_all (fun i => do t <- lookup i (map (fun t => (tri_index t, t)) (stattri e)) ; Ok [t]) (acttri e).
(** CalculateTriangulation, RSVScalc.cpp 104-133. *)
Definition calc_all (st : statics) (e : tri_env) (method : Z) (c : calc) : outcome calc :=
  let f := if Z.eqb method 1 then calc_triangle st e true
           else if Z.eqb method 2 then calc_triangle_direct st e else calc_triangle st e false in
  do c <- calc_triangles (f true true true) (dynatri e) c ;
  do c <- calc_triangles (f false true true) (intertri e) c ;
  do l <- active_static e ;
  calc_triangles (f false true false) l c.
(** CalculateTriangulation, RSVScalc.cpp 95-136. *)
Definition calculate_triangulation (st : statics) (e : tri_env) (conn : list (list (Z * Z))) (m : list (Z * Z)) (targ : list R)
    (n : nat) (method : Z) (c : calc) : outcome calc :=
  do c <- prep e conn m targ n c ; calc_all st e method c.

(** ReturnVelocities, RSVScalc.cpp 143-154. *)
Definition return_velocities (c : calc) (l : list snaxel) : list snaxel :=
  map (fun x => mkSnaxel (x_index x) (x_from x) (x_to x) (x_freeze x)
    (match index_of (x_index x) (dvMap c) with Some q => deltaDV c q | None => 0 end)) l.
