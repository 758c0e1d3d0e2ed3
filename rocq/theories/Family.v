(** Mesh families: parents and children of a mesh (mesh.cpp 878-1453).

    Meshes are C++ objects linked by raw pointers.  Here an address is an
    integer and a family maps every address to what is stored there.  Reading
    or writing through the address of a mesh that has been destroyed is UB. *)
From Coq Require Import ZArith List Bool QArith Qabs.
From Verif Require Import Base Mesh Edit.
Import ListNotations.
Local Open Scope Z_scope.
Set Implicit Arguments.

(** class meshdependence, mesh.hpp 529-547.  The hash tables kept beside
    elemind and the connection lists are left out (Containers.v models
    them). *)
Record tree := mkTree { nParents : Z; elemind : list Z; parentmesh : list Z;
                        childmesh : list Z; parentconn : list (list Z) }.

(** The default member values, mesh.hpp 534-544. *)
Definition no_tree : tree := mkTree 0 [] [] [] [].

(** One mesh object: whether it is constructed, its meshtree and
    meshDepIsSet members (mesh.hpp 595), and its topology. *)
Record member := mkMember { alive : bool; mtree : tree; depset : bool; topo : mesh }.
Definition family := Z -> member.

(** Write one address (a simplification of memory; no code). *)
Definition put (f : family) (a : Z) (x : member) : family :=
  fun b => if b =? a then x else f b.
Definition put_tree (f : family) (a : Z) (t : tree) : family :=
  put f a (mkMember (alive (f a)) t (depset (f a)) (topo (f a))).

(** Following a pointer to a mesh. *)
Definition deref (f : family) (a : Z) : outcome member :=
  if alive (f a) then Ok (f a) else UB.

(** meshdependence::AddParent of one mesh, mesh.cpp 881-888: the count nParents is
    not changed. *)
Definition t_add_parent (t : tree) (p : Z) : tree :=
  mkTree (nParents t) (elemind t) (parentmesh t ++ [p]) (childmesh t) (parentconn t ++ [[]]).

(** meshdependence::AddChild, mesh.cpp 889-895. *)
Definition t_add_child (t : tree) (c : Z) : tree :=
  mkTree (nParents t) (elemind t) (parentmesh t) (childmesh t ++ [c]) (parentconn t).

(** The loop of RemoveChild, mesh.cpp 898-904: after an erase the counter still
    advances, so the element that follows is passed over. *)
Fixpoint erase_child (c : Z) (l : list Z) : list Z :=
  match l with
  | [] => []
  | x :: r => if c =? x
              then match r with [] => [] | y :: r' => y :: erase_child c r' end
              else x :: erase_child c r
  end.
(** meshdependence::RemoveChild, mesh.cpp 896-905. *)
Definition t_remove_child (t : tree) (c : Z) : tree :=
  mkTree (nParents t) (elemind t) (parentmesh t) (erase_child c (childmesh t)) (parentconn t).

(** The loop of RemoveParent, mesh.cpp 908-915. *)
Fixpoint erase_parent (p : Z) (l : list Z) : list Z :=
  match l with
  | [] => []
  | x :: r => if p =? x then r else x :: erase_parent p r
  end.
(** meshdependence::RemoveParent, mesh.cpp 906-917: parentconn is not
    changed. *)
Definition t_remove_parent (t : tree) (p : Z) : tree :=
  let ps := erase_parent p (parentmesh t) in
  mkTree (Z.of_nat (length ps)) (elemind t) ps (childmesh t) (parentconn t).

(** meshdependence::AddParent with a connection list, mesh.cpp 919-943.  [None]
    is the exception of line 933. *)
Definition t_add_parent_conn (t : tree) (p : Z) (conn : list Z) : option tree :=
  if Z.of_nat (length conn) =? Z.of_nat (length (elemind t))
  then let ps := parentmesh t ++ [p] in
       Some (mkTree (Z.of_nat (length ps)) (elemind t) ps (childmesh t) (parentconn t ++ [conn]))
  else None.

(** mesh::SetMeshDepElm, mesh.cpp 989-1026. *)
Definition dep_elements (m : mesh) : list Z :=
  if meshDim m =? 0 then map ve_index (verts m)
  else if meshDim m =? 1 then map ed_index (edges m)
  else if meshDim m =? 2 then map su_index (surfs m)
  else if meshDim m =? 3 then map vo_index (volus m)
  else [].
Definition set_dep (x : member) : member :=
  mkMember (alive x)
    (mkTree (nParents (mtree x)) (dep_elements (topo x)) (parentmesh (mtree x))
            (childmesh (mtree x)) (parentconn (mtree x)))
    true (topo x).
(** Lines 972-975 and 981-984. *)
Definition set_dep_once (x : member) : member := if depset x then x else set_dep x.

(** One loop of RemoveFromFamily over a list of pointers. *)
Fixpoint each_relative (change : tree -> tree) (l : list Z) (f : family) : outcome family :=
  match l with
  | [] => Ok f
  | a :: r => do x <- deref f a ;
              each_relative change r (put_tree f a (change (mtree x)))
  end.

(** mesh::RemoveFromFamily, mesh.cpp 945-957. *)
Definition remove_from_family (m : Z) (f : family) : outcome family :=
  do f1 <- each_relative (fun t => t_remove_child t m) (parentmesh (mtree (f m))) f ;
  each_relative (fun t => t_remove_parent t m) (childmesh (mtree (f1 m))) f1.

(** The calls that make up the history of a set of meshes. *)
Inductive fop :=
| FNew (a : Z) (m : mesh)                     (* mesh constructed at a *)
| FAddChild (a c : Z)                         (* mesh.cpp 959 *)
| FAddParent (a p : Z)                        (* mesh.cpp 964 *)
| FAddChildConn (a c : Z) (conn : list Z)     (* mesh.cpp 970 *)
| FAddParentConn (a p : Z) (conn : list Z)    (* mesh.cpp 979 *)
| FDestroy (a : Z)                            (* mesh.hpp 735-738 *)
| FLeave (a : Z)                              (* RemoveFromFamily called on its own *)
| FCopy (a b : Z)                             (* implicit copy constructor, b built from a *)
| FClear (a : Z).                             (* mesh.hpp 616-627 *)

(** Effect of one call: the memory afterwards and whether an exception left the
    call. *)
Definition fstep (o : fop) (f : family) : outcome (family * bool) :=
  match o with
  | FNew a m =>
      if alive (f a) then UB else Ok (put f a (mkMember true no_tree false m), false)
  | FAddChild a c =>
      do x <- deref f a ;
      let f1 := put_tree f a (t_add_child (mtree x) c) in
      do y <- deref f1 c ;
      Ok (put_tree f1 c (t_add_parent (mtree y) a), false)
  | FAddParent a p =>
      do x <- deref f a ;
      let f1 := put_tree f a (t_add_parent (mtree x) p) in
      do y <- deref f1 p ;
      Ok (put_tree f1 p (t_add_child (mtree y) a), false)
  | FAddChildConn a c conn =>
      do x <- deref f a ;
      let f0 := put f a (set_dep_once x) in
      let f1 := put_tree f0 a (t_add_child (mtree (f0 a)) c) in
      do y <- deref f1 c ;
      match t_add_parent_conn (mtree y) a conn with
      | Some t => Ok (put_tree f1 c t, false)
      | None => Ok (f1, true)
      end
  | FAddParentConn a p conn =>
      do x <- deref f a ;
      let f0 := put f a (set_dep_once x) in
      match t_add_parent_conn (mtree (f0 a)) p conn with
      | Some t =>
          let f1 := put_tree f0 a t in
          do y <- deref f1 p ;
          Ok (put_tree f1 p (t_add_child (mtree y) a), false)
      | None => Ok (f0, true)
      end
  | FDestroy a =>
      do x <- deref f a ;
      do f1 <- remove_from_family a f ;
      let y := f1 a in
      Ok (put f1 a (mkMember false (mtree y) (depset y) (topo y)), false)
  | FLeave a =>
      do x <- deref f a ;
      do f1 <- remove_from_family a f ;
      Ok (f1, false)
  | FCopy a b =>
      do x <- deref f a ;
      if alive (f b) then UB else Ok (put f b x, false)
  | FClear a =>
      (* meshdependence::clear, mesh.hpp 567-579, erases from the vectors it is
         ranging over, which is undefined unless they are empty. *)
      do x <- deref f a ;
      let t := mtree x in
      match parentmesh t, childmesh t with
      | [], [] => Ok (put f a (mkMember true (mkTree (nParents t) [] [] [] []) false
                                 (mkMesh [] [] [] [] (meshDim (topo x)))), false)
      | _, _ => UB
      end
  end.

(** A whole history; the caller is taken to survive exceptions. *)
Fixpoint frun (os : list fop) (f : family) : outcome family :=
  match os with
  | [] => Ok f
  | o :: r => do x <- fstep o f ; frun r (fst x)
  end.

(** Nothing constructed yet. *)
Definition nobody : family := fun _ => mkMember false no_tree false (mkMesh [] [] [] [] 3).

(** ** Queries on the connection lists *)

(** A read parentconn[j][k]: HashedVectorSafe::operator[], arraystructures.hpp
    446-470, unchecked in the release build. *)
Definition conn_at (t : tree) (j k : Z) : outcome Z :=
  do row <- at_ (parentconn t) j ; at_ row k.

(** The loop of mesh::SurfInParent, mesh.cpp 1125-1136, from parent [jj];
    [n] is the number of parents left to look at. *)
Fixpoint in_parent_loop (t : tree) (kk1 kk2 : Z) (n : nat) (jj : Z) : outcome Z :=
  match n with
  | O => Ok (-1)
  | S n' =>
      do here <- (if xorb (negb (kk1 =? -1)) (negb (kk2 =? -1)) then Ok true
                  else if negb (kk1 =? -1)
                       then do c1 <- conn_at t jj kk1 ;
                            do c2 <- conn_at t jj kk2 ;
                            Ok (negb (c1 =? c2))
                       else Ok false) ;
      if here then Ok jj else in_parent_loop t kk1 kk2 n' (jj + 1)
  end.

(** mesh::SurfInParent(int), mesh.cpp 1115-1146. *)
Definition surf_in_parent (m : mesh) (t : tree) (s : Z) : outcome Z :=
  let ii := find su_index (surfs m) s in
  if 0 <=? ii then
    do su <- at_ (surfs m) ii ;
    do v0 <- at_ (su_voluind su) 0 ;
    do v1 <- at_ (su_voluind su) 1 ;
    in_parent_loop t (find vo_index (volus m) v0) (find vo_index (volus m) v1)
                   (Z.to_nat (nParents t)) 0
  else Ok (-1).

(** mesh::SurfInParent(vector<int>&), mesh.cpp 1148-1159: positions. *)
Fixpoint surfs_in_parent_loop (m : mesh) (t : tree) (l : list surf) (ii : Z)
  : outcome (list Z) :=
  match l with
  | [] => Ok []
  | s :: r =>
      do j <- surf_in_parent m t (su_index s) ;
      do rest <- surfs_in_parent_loop m t r (ii + 1) ;
      Ok (if 0 <=? j then ii :: rest else rest)
  end.
Definition surfs_in_parent (m : mesh) (t : tree) : outcome (list Z) :=
  surfs_in_parent_loop m t (surfs m) 0.

(** A cell of a parent mesh with its four values (volu::fill, target, error and volume,
    mesh.hpp 199, and the same for surf; volume is the area for a surface).  Doubles are
    rationals here. *)
Record cell := mkCell { ce_index : Z; ce_volume : Q; ce_fill : Q; ce_target : Q; ce_error : Q }.
(** The cells stored at each mesh address. *)
Definition cells := Z -> list cell.

(** The member pointer [mp] of mesh.cpp 1068, 1090, 1188 and 1232. *)
Inductive field := Volume | Fill | Target | Error.
Definition get_field (k : field) (c : cell) : Q :=
  match k with Volume => ce_volume c | Fill => ce_fill c
             | Target => ce_target c | Error => ce_error c end.
Definition set_field (k : field) (v : Q) (c : cell) : cell :=
  match k with
  | Volume => mkCell (ce_index c) v (ce_fill c) (ce_target c) (ce_error c)
  | Fill => mkCell (ce_index c) (ce_volume c) v (ce_target c) (ce_error c)
  | Target => mkCell (ce_index c) (ce_volume c) (ce_fill c) v (ce_error c)
  | Error => mkCell (ce_index c) (ce_volume c) (ce_fill c) (ce_target c) v
  end.

(** mesh::VoluValuesofParents, mesh.cpp 1232-1246 (and SurfValuesofParents,
    1188-1202), after the search for the element, whose position is [sub]. *)
Fixpoint parent_values (h : cells) (t : tree) (k : field) (sub : Z) (n : nat) (ii : Z)
  : outcome (list Q) :=
  match n with
  | O => Ok []
  | S n' =>
      do p <- at_ (parentmesh t) ii ;
      do c <- conn_at t ii sub ;
      do x <- isearch ce_index (h p) c ;
      do rest <- parent_values h t k sub n' (ii + 1) ;
      Ok (get_field k x :: rest)
  end.

(** boundVolume, mesh.cpp 1271-1278. *)
Definition bound_of (outer : bool) : Q := if outer then 0%Q else 1%Q.
(** fabs(v - bound) < DBL_EPSILON, mesh.cpp 1313-1324.  The difference is exact
    for doubles near 0 and 1, so rationals give the same answer. *)
Definition near (b v : Q) : bool :=
  if Qlt_le_dec (Qabs (v - b)) (1 # 4503599627370496) then true else false.

(** The loop of mesh.cpp 1308-1316: the first parent where exactly one side is
    at the bound. *)
Fixpoint first_bound (b : Q) (l0 l1 : list Q) : option (Q * Q) :=
  match l0, l1 with
  | x0 :: r0, x1 :: r1 => if xorb (near b x0) (near b x1) then Some (x0, x1)
                          else first_bound b r0 r1
  | _, _ => None
  end.

(** The body of the loop of mesh::SurfOnParentBound, mesh.cpp 1285-1336:
    whether the surface is listed, and the volumes it adds. *)
Definition surf_on_bound1 (m : mesh) (t : tree) (h : cells) (isBorderBound outer : bool)
  (s : surf) : outcome (bool * list Z) :=
  do v0 <- at_ (su_voluind s) 0 ;
  do v1 <- at_ (su_voluind s) 1 ;
  if (v0 =? 0) || (v1 =? 0) then
    Ok (isBorderBound,
        (if isBorderBound && negb (v0 =? 0) then [v0] else []) ++
        (if isBorderBound && negb (v1 =? 0) then [v1] else []))
  else
    do j <- surf_in_parent m t (su_index s) ;
    if 0 <=? j then
      let n := Z.to_nat (nParents t) in
      do vals0 <- parent_values h t Target (find vo_index (volus m) v0) n 0 ;
      do vals1 <- parent_values h t Target (find vo_index (volus m) v1) n 0 ;
      match first_bound (bound_of outer) vals0 vals1 with
      | Some (x0, x1) =>
          Ok (true, if near (bound_of outer) x1 then [v1]
                    else if near (bound_of outer) x0 then [v0] else [])
      | None => Ok (false, [])
      end
    else Ok (false, []).

(** mesh::SurfOnParentBound, mesh.cpp 1260-1337: the surfaces and the
    volumes. *)
Fixpoint surf_on_bound_loop (m : mesh) (t : tree) (h : cells) (ibb outer : bool)
  (l : list surf) : outcome (list Z * list Z) :=
  match l with
  | [] => Ok ([], [])
  | s :: r =>
      do x <- surf_on_bound1 m t h ibb outer s ;
      do y <- surf_on_bound_loop m t h ibb outer r ;
      Ok ((if fst x then [su_index s] else []) ++ fst y, snd x ++ snd y)
  end.
Definition surf_on_bound (m : mesh) (t : tree) (h : cells) (ibb outer : bool) :=
  surf_on_bound_loop m t h ibb outer (surfs m).

(** The loop of mesh.cpp 1387-1391. *)
Fixpoint first_bound_eq (b : Q) (l0 l1 : list Q) : option (Q * Q) :=
  match l0, l1 with
  | x0 :: r0, x1 :: r1 =>
      if negb (Qeq_bool x0 x1) && (Qeq_bool x0 b || Qeq_bool x1 b) then Some (x0, x1)
      else first_bound_eq b r0 r1
  | _, _ => None
  end.

(** Lines 1393-1408: one side added to surfInd, unless it is a border surface
    and the bound is 1. *)
Definition add_side (m : mesh) (outer : bool) (s : Z) : outcome (list Z) :=
  if outer then Ok [s]
  else do su <- isearch su_index (surfs m) s ; Ok (if su_border su then [] else [s]).

(** The body of the loop of mesh::EdgeOnParentBound, mesh.cpp 1364-1416.  Line
    1379 passes the index of the edge to SurfInParent. *)
Definition edge_on_bound1 (m : mesh) (t : tree) (h : cells) (isBorderBound outer : bool)
  (e : edge) : outcome (bool * list Z) :=
  do s0 <- at_ (ed_surfind e) 0 ;
  do s1 <- at_ (ed_surfind e) 1 ;
  if (s0 =? 0) || (s1 =? 0) then
    Ok (isBorderBound,
        (if isBorderBound && negb (s0 =? 0) then [s0] else []) ++
        (if isBorderBound && negb (s1 =? 0) then [s1] else []))
  else
    do j <- surf_in_parent m t (ed_index e) ;
    if 0 <=? j then
      let n := Z.to_nat (nParents t) in
      do vals0 <- parent_values h t Target (find su_index (surfs m) s0) n 0 ;
      do vals1 <- parent_values h t Target (find su_index (surfs m) s1) n 0 ;
      match first_bound_eq (bound_of outer) vals0 vals1 with
      | Some (x0, x1) =>
          do a1 <- (if Qeq_bool x1 (bound_of outer) then add_side m outer s1 else Ok []) ;
          do a0 <- (if Qeq_bool x0 (bound_of outer) then add_side m outer s0 else Ok []) ;
          Ok (true, a1 ++ a0)
      | None => Ok (false, [])
      end
    else Ok (false, []).

(** mesh::EdgeOnParentBound, mesh.cpp 1339-1417. *)
Fixpoint edge_on_bound_loop (m : mesh) (t : tree) (h : cells) (ibb outer : bool)
  (l : list edge) : outcome (list Z * list Z) :=
  match l with
  | [] => Ok ([], [])
  | e :: r =>
      do x <- edge_on_bound1 m t h ibb outer e ;
      do y <- edge_on_bound_loop m t h ibb outer r ;
      Ok ((if fst x then [ed_index e] else []) ++ fst y, snd x ++ snd y)
  end.
Definition edge_on_bound (m : mesh) (t : tree) (h : cells) (ibb outer : bool) :=
  edge_on_bound_loop m t h ibb outer (edges m).

(** mesh::ElmOnParentBound, mesh.cpp 1248-1258.  For another dimension the
    caller's vectors are left alone, here given as empty. *)
Definition elm_on_bound (m : mesh) (t : tree) (h : cells) (ibb outer : bool) :=
  if meshDim m =? 3 then surf_on_bound m t h ibb outer
  else if meshDim m =? 2 then edge_on_bound m t h ibb outer
  else Ok ([], []).

(** mesh::ParentElementIndex, mesh.cpp 1429-1453. *)
Definition parent_element_index (m : mesh) (t : tree) (c parentInd : Z) : outcome Z :=
  if (Z.of_nat (length (parentconn t)) <=? parentInd) || (parentInd <? 0) then Throw
  else if meshDim m =? 3 then conn_at t parentInd (find vo_index (volus m) c)
  else if meshDim m =? 2 then conn_at t parentInd (find su_index (surfs m) c)
  else Throw.

(** ** Constraint numbering *)

(** The four output vectors of mesh::ReturnParentMap, mesh.cpp 1028. *)
Record pmap := mkPmap { currind : list Z; parentpos : list Z;
                        parentcases : list (Z * Z); voluVals : list Q }.

(** Lines 1059-1063: one parent's row.  The sum is done in size_t and stored in
    an int, which gives the integer sum while positions fit in an int. *)
Fixpoint row_positions (parent : list cell) (row : list Z) (nPar : Z) (elems : list Z) (jj : Z)
  : outcome (list Z) :=
  match elems with
  | [] => Ok []
  | _ :: r =>
      do c <- at_ row jj ;
      do rest <- row_positions parent row nPar r (jj + 1) ;
      Ok ((find ce_index parent c + nPar) :: rest)
  end.

(** The loop of lines 1048-1065, with [n] parents left. *)
Fixpoint parent_map_loop (h : cells) (t : tree) (n : nat) (ii nPar : Z) (acc : pmap)
  : outcome pmap :=
  match n with
  | O => Ok acc
  | S n' =>
      do p <- at_ (parentmesh t) ii ;
      let cs := h p in
      do row <- (match elemind t with [] => Ok [] | _ => at_ (parentconn t) ii end) ;
      do pos <- row_positions cs row nPar (elemind t) 0 ;
      parent_map_loop h t n' (ii + 1) (nPar + Z.of_nat (length cs))
        (mkPmap (currind acc ++ elemind t) (parentpos acc ++ pos)
                (parentcases acc ++ map (fun c => (ii, ce_index c)) cs)
                (voluVals acc ++ map (fun c => (ce_volume c * ce_target c)%Q) cs))
  end.

(** mesh::ReturnParentMap, mesh.cpp 1028-1066: voluVals is not cleared. *)
Definition return_parent_map (h : cells) (t : tree) (vals : list Q) : outcome pmap :=
  parent_map_loop h t (Z.to_nat (nParents t)) 0 0 (mkPmap [] [] [] vals).

(** mesh::CountVoluParent, mesh.cpp 1419-1427. *)
Definition count_volu_parent (h : cells) (t : tree) : Z :=
  fold_right (fun p n => Z.of_nat (length (h p)) + n) 0 (parentmesh t).

(** volus[find(index)].*mp = v, as in mesh.cpp 1079-1082 and 1098. *)
Definition write_cell (l : list cell) (index : Z) (k : field) (v : Q) : outcome (list cell) :=
  modify l (find ce_index l index) (set_field k v).

(** The loop of mesh::MapVolu2Parent, mesh.cpp 1076-1087, from case [ii]. *)
Fixpoint map_to_parent (t : tree) (k : field) (fillIn : list Q) (cases : list (Z * Z)) (ii : Z)
  (h : cells) : outcome cells :=
  match cases with
  | [] => Ok h
  | (a, b) :: r =>
      do p <- at_ (parentmesh t) a ;
      do v <- at_ fillIn ii ;
      do l <- write_cell (h p) b k v ;
      map_to_parent t k fillIn r (ii + 1) (fun q => if q =? p then l else h q)
  end.

(** mesh::MapVolu2Self, mesh.cpp 1090-1102. *)
Fixpoint map_to_self (k : field) (fillIn : list Q) (elms : list Z) (ii : Z) (l : list cell)
  : outcome (list cell) :=
  match elms with
  | [] => Ok l
  | e :: r =>
      do v <- at_ fillIn ii ;
      do l' <- write_cell l e k v ;
      map_to_self k fillIn r (ii + 1) l'
  end.
