(** Connectivity model of class mesh.
    Sources: SRCC/incl/mesh.hpp, SRCC/src/grid/mesh.cpp (lines cited below).

    Simplifications, common to the whole file:
    - an element keeps only its index, border flag, ordering flag and
      connectivity lists; fill, target, error, coordinates and cached lengths
      are not touched by the functions modelled here;
    - the parent/child tree (meshtree) bookkeeping is in Family.v;
    - [find] is the position of the index in the element list.  This is what a
      prepared container answers when indices are unique (MeshProofs.find_unique
      links it to the hash-table model of Containers.v). *)
From Verif Require Import Base Containers.
Set Implicit Arguments.
Open Scope Z_scope.

(** mesh.hpp: class volu / surf / edge / vert. *)
Record volu := mkVolu { vo_index : Z; vo_border : bool; vo_surfind : list Z }.
(** mesh.hpp 266-347. *)
Record surf := mkSurf { su_index : Z; su_border : bool; su_ordered : bool;
                        su_voluind : list Z; su_edgeind : list Z }.
(** mesh.hpp 352-442. *)
Record edge := mkEdge { ed_index : Z; ed_border : bool;
                        ed_surfind : list Z; ed_vertind : list Z }.
(** mesh.hpp 447 on. *)
Record vert := mkVert { ve_index : Z; ve_border : bool; ve_edgeind : list Z }.
(** mesh.hpp 591 on: the four arrays and meshDim. *)
Record mesh := mkMesh { volus : list volu; surfs : list surf;
                        edges : list edge; verts : list vert; meshDim : Z }.

(** Assignments to one field of an element (mesh.hpp 196-500); the functions that
    make them are cited where these are used. *)
Definition vo_set_surfind l v := mkVolu (vo_index v) (vo_border v) l.
Definition vo_set_border b v := mkVolu (vo_index v) b (vo_surfind v).
Definition su_set_voluind l s := mkSurf (su_index s) (su_border s) (su_ordered s) l (su_edgeind s).
Definition su_set_edgeind l s := mkSurf (su_index s) (su_border s) (su_ordered s) (su_voluind s) l.
Definition su_set_ordered b s := mkSurf (su_index s) (su_border s) b (su_voluind s) (su_edgeind s).
Definition su_set_border b s := mkSurf (su_index s) b (su_ordered s) (su_voluind s) (su_edgeind s).
Definition ed_set_surfind l e := mkEdge (ed_index e) (ed_border e) l (ed_vertind e).
Definition ed_set_vertind l e := mkEdge (ed_index e) (ed_border e) (ed_surfind e) l.
Definition ed_set_border b e := mkEdge (ed_index e) b (ed_surfind e) (ed_vertind e).
Definition ve_set_edgeind l v := mkVert (ve_index v) (ve_border v) l.
Definition ve_set_border b v := mkVert (ve_index v) b (ve_edgeind v).

(** Assignments to one array of a mesh (mesh.hpp 591 on). *)
Definition set_volus l m := mkMesh l (surfs m) (edges m) (verts m) (meshDim m).
Definition set_surfs l m := mkMesh (volus m) l (edges m) (verts m) (meshDim m).
Definition set_edges l m := mkMesh (volus m) (surfs m) l (verts m) (meshDim m).
Definition set_verts l m := mkMesh (volus m) (surfs m) (edges m) l (meshDim m).

(** ArrayStruct::find on a prepared container. *)
Fixpoint find_from {T} (index : T -> Z) (l : list T) (k : Z) (n : Z) : Z :=
  match l with
  | [] => -1
  | e :: r => if index e =? k then n else find_from index r k (n + 1)
  end.
(** arraystructures_incl.cpp 405-431. *)
Definition find {T} (index : T -> Z) (l : list T) (k : Z) : Z := find_from index l k 0.
(** find_list, arraystructures_incl.cpp:433-442. *)
Definition find_list {T} (index : T -> Z) (l : list T) (ks : list Z) : list Z :=
  map (find index l) ks.

(** A write through operator[] at a position; out of range is undefined. *)
Definition modify {A} (l : list A) (p : Z) (f : A -> A) : outcome (list A) :=
  do e <- at_ l p; Ok (upd l (Z.to_nat p) (f e)).

(** A loop over a list of positions, the body updating a state. *)
Fixpoint for_each {A S} (l : list A) (body : A -> S -> outcome S) (s : S) : outcome S :=
  match l with
  | [] => Ok s
  | a :: r => do s1 <- body a s; for_each r body s1
  end.

(** The inner loops that overwrite, erase or count the entries equal to a
    value. *)
Definition replace_all (old new : Z) (l : list Z) : list Z :=
  map (fun x => if x =? old then new else x) l.
(** The loops that erase, such as mesh.cpp 2319-2326. *)
Definition erase_all (x : Z) (l : list Z) : list Z :=
  filter (fun y => negb (y =? x)) l.
(** The loops that append once for each entry found, in SwitchIndex (see below). *)
Definition copies (x : Z) (old : Z) (l : list Z) : list Z :=
  map (fun _ => x) (filter (fun y => y =? old) l).

(** The loop body shared by types 2, 3 and 4: overwrite [old] by [new] in the
    list of the referring element at [p] and push that element's index on the
    list of the element at [newSub], once per overwritten entry.  Without a
    match nothing is written. *)
Definition redirect {A B} (idxA : A -> Z) (getA : A -> list Z) (setA : list Z -> A -> A)
    (getB : B -> list Z) (setB : list Z -> B -> B) (old new newSub : Z)
    (p : Z) (s : list A * list B) : outcome (list A * list B) :=
  let '(la, lb) := s in
  do a <- at_ la p;
  match copies (idxA a) old (getA a) with
  | [] => Ok (la, lb)
  | c => do lb1 <- modify lb newSub (fun b => setB (getB b ++ c) b);
         Ok (upd la (Z.to_nat p) (setA (replace_all old new (getA a)) a), lb1)
  end.
(** The scoped types 5, 6 and 7 also erase the referring element from the list
    of the element at [oldSub], after every push; erasing is idempotent, so one
    erasure after the last push leaves the same lists. *)
Definition redirect_erase {A B} (idxA : A -> Z) (getA : A -> list Z) (setA : list Z -> A -> A)
    (getB : B -> list Z) (setB : list Z -> B -> B) (old new newSub oldSub : Z)
    (p : Z) (s : list A * list B) : outcome (list A * list B) :=
  let '(la, lb) := s in
  do a <- at_ la p;
  match copies (idxA a) old (getA a) with
  | [] => Ok (la, lb)
  | c => do lb1 <- modify lb newSub (fun b => setB (getB b ++ c) b);
         do lb2 <- modify lb1 oldSub (fun b => setB (erase_all (idxA a) (getB b)) b);
         Ok (upd la (Z.to_nat p) (setA (replace_all old new (getA a)) a), lb2)
  end.
(** The loop body of RemoveIndex: erase [x] from the list of the element at
    [p]. *)
Definition erase_at {A} (get : A -> list Z) (set : list Z -> A -> A) (x : Z)
    (p : Z) (l : list A) : outcome (list A) :=
  modify l p (fun a => set (erase_all x (get a)) a).
(** Loop bodies that skip the position -1 (element not found). *)
Definition if_found {S} (body : Z -> S -> outcome S) (p : Z) (s : S) : outcome S :=
  if p =? -1 then Ok s else body p s.

(** ** ChangeIndices, mesh.cpp:1957-2002 and 3235-3241. *)
Definition shift_pos (d x : Z) : Z := if 0 <? x then x + d else x.
(** volu::ChangeIndices, mesh.cpp 1957-1964. *)
Definition volu_change (nVert nEdge nSurf nVolu : Z) (v : volu) : volu :=
  mkVolu (vo_index v + nVolu) (vo_border v) (map (shift_pos nSurf) (vo_surfind v)).
(** surf::ChangeIndices, mesh.cpp 1966-1978. *)
Definition surf_change (nVert nEdge nSurf nVolu : Z) (s : surf) : surf :=
  mkSurf (su_index s + nSurf) (su_border s) (su_ordered s)
         (map (shift_pos nVolu) (su_voluind s))
         (map (fun x => x + nEdge) (su_edgeind s)).
(** edge::ChangeIndices, mesh.cpp 1980-1992. *)
Definition edge_change (nVert nEdge nSurf nVolu : Z) (e : edge) : edge :=
  mkEdge (ed_index e + nEdge) (ed_border e)
         (map (shift_pos nSurf) (ed_surfind e))
         (map (fun x => x + nVert) (ed_vertind e)).
(** vert::ChangeIndices, mesh.cpp 1994-2001. *)
Definition vert_change (nVert nEdge nSurf nVolu : Z) (v : vert) : vert :=
  mkVert (ve_index v + nVert) (ve_border v) (map (fun x => x + nEdge) (ve_edgeind v)).
(** mesh::ChangeIndices, mesh.cpp 3235-3241. *)
Definition change_indices (nVert nEdge nSurf nVolu : Z) (m : mesh) : mesh :=
  mkMesh (map (volu_change nVert nEdge nSurf nVolu) (volus m))
         (map (surf_change nVert nEdge nSurf nVolu) (surfs m))
         (map (edge_change nVert nEdge nSurf nVolu) (edges m))
         (map (vert_change nVert nEdge nSurf nVolu) (verts m)) (meshDim m).

(** MakeCompatible_inplace, 3223-3233; GetMaxIndex of a prepared mesh is the
    maximum (theorem C02). *)
Definition make_compatible (this other : mesh) : mesh :=
  change_indices (max_index ve_index (verts this)) (max_index ed_index (edges this))
                 (max_index su_index (surfs this)) (max_index vo_index (volus this)) other.
(** Concatenate, 3249-3255. *)
Definition concatenate (this other : mesh) : mesh :=
  mkMesh (volus this ++ volus other) (surfs this ++ surfs other)
         (edges this ++ edges other) (verts this ++ verts other) (meshDim this).

(** ** TightenConnectivity, 2003-2010 and mesh.hpp:217-221, 303-310, 379-387,
    469-473.  Edges keep their vertices; an edge with more than two throws. *)
Definition volu_tighten (v : volu) : volu := vo_set_surfind (tighten (vo_surfind v)) v.
(** mesh.hpp 303-310: a surface also loses its order. *)
Definition surf_tighten (s : surf) : surf :=
  mkSurf (su_index s) (su_border s) false (tighten (su_voluind s)) (tighten (su_edgeind s)).
(** mesh.hpp 469-473. *)
Definition vert_tighten (v : vert) : vert := ve_set_edgeind (tighten (ve_edgeind v)) v.
(** mesh.hpp 379-387. *)
Definition edge_tighten (e : edge) : outcome edge :=
  if (2 <? length (ed_vertind e))%nat then Throw
  else Ok (ed_set_surfind (tighten (ed_surfind e)) e).
(** A loop that stops at the first failure. *)
Fixpoint omap_list {A B} (f : A -> outcome B) (l : list A) : outcome (list B) :=
  match l with
  | [] => Ok []
  | a :: r => do b <- f a; do bs <- omap_list f r; Ok (b :: bs)
  end.
(** mesh.cpp 2003-2010. *)
Definition mesh_tighten (m : mesh) : outcome mesh :=
  do es <- omap_list edge_tighten (edges m);
  Ok (mkMesh (map volu_tighten (volus m)) (map surf_tighten (surfs m)) es
             (map vert_tighten (verts m)) (meshDim m)).

(** ** SwitchIndex, 2012-2306. *)

(** typeInd 1, 2024-2053.  [jj = vertind[1]==oldInd; vertind[jj] = newInd]
    needs two entries. *)
Definition swap_end (old new : Z) (e : edge) : outcome edge :=
  match ed_vertind e with
  | v0 :: v1 :: r => Ok (ed_set_vertind (if v1 =? old then v0 :: new :: r else new :: v1 :: r) e)
  | _ => UB
  end.
(** mesh.cpp 2029-2043, for the edge at [p]. *)
Definition switch1_body (old new newSub oldSub : Z) (p : Z) (m : mesh) : outcome mesh :=
  do e <- at_ (edges m) p;
  do e1 <- swap_end old new e;
  do vs1 <- modify (verts m) newSub (fun v => ve_set_edgeind (ve_edgeind v ++ [ed_index e]) v);
  do vs2 <- modify vs1 oldSub (fun v => ve_set_edgeind (erase_all (ed_index e) (ve_edgeind v)) v);
  Ok (set_verts vs2 (set_edges (upd (edges m) (Z.to_nat p) e1) m)).
(** mesh.cpp 2024-2053. *)
Definition switch1 (old new : Z) (m : mesh) : outcome mesh :=
  let newSub := find ve_index (verts m) new in
  let oldSub := find ve_index (verts m) old in
  do vo <- at_ (verts m) oldSub;
  let subList := find_list ed_index (edges m) (ve_edgeind vo) in
  do m1 <- for_each subList (switch1_body old new newSub oldSub) m;
  do vs <- modify (verts m1) newSub (fun v => ve_set_edgeind (tighten (ve_edgeind v)) v);
  Ok (set_verts vs m1).

(** typeInd 2, 2054-2098.  In a mesh with volumes an unknown surface is not
    skipped: the read at -1 is undefined (line 2073). *)
Definition su_set_edgeind_unordered (l : list Z) (s : surf) : surf :=
  su_set_ordered false (su_set_edgeind l s).
(** mesh.cpp 2054-2098. *)
Definition switch2 (old new : Z) (m : mesh) : outcome mesh :=
  let newSub := find ed_index (edges m) new in
  let oldSub := find ed_index (edges m) old in
  let is3D := 0 <? Z.of_nat (length (volus m)) in
  do eo <- at_ (edges m) oldSub;
  do vs <- for_each (find_list ve_index (verts m) (ed_vertind eo))
             (fun p vs => modify vs p (fun v => ve_set_edgeind (replace_all old new (ve_edgeind v)) v))
             (verts m);
  let body := redirect su_index su_edgeind su_set_edgeind_unordered ed_surfind ed_set_surfind
                       old new newSub in
  do (ss, es) <- for_each (find_list su_index (surfs m) (ed_surfind eo))
                   (if is3D then body else if_found body) (surfs m, edges m);
  Ok (mkMesh (volus m) ss es vs (meshDim m)).

(** typeInd 3, 2099-2148. *)
Definition switch3 (old new : Z) (m : mesh) : outcome mesh :=
  let newSub := find su_index (surfs m) new in
  let oldSub := find su_index (surfs m) old in
  do so <- at_ (surfs m) oldSub;
  do (es, ss1) <- for_each (find_list ed_index (edges m) (su_edgeind so))
      (redirect ed_index ed_surfind ed_set_surfind su_edgeind su_set_edgeind old new newSub)
      (edges m, surfs m);
  do so1 <- at_ ss1 oldSub;
  do (vs, ss2) <- for_each (find_list vo_index (volus m) (su_voluind so1))
      (if_found (redirect vo_index vo_surfind vo_set_surfind su_voluind su_set_voluind old new newSub))
      (volus m, ss1);
  do ss3 <- modify ss2 newSub (su_set_ordered false);
  Ok (mkMesh vs ss3 es (verts m) (meshDim m)).

(** typeInd 4, 2149-2178. *)
Definition switch4 (old new : Z) (m : mesh) : outcome mesh :=
  let newSub := find vo_index (volus m) new in
  let oldSub := find vo_index (volus m) old in
  do vo <- at_ (volus m) oldSub;
  do (ss, vs) <- for_each (find_list su_index (surfs m) (vo_surfind vo))
      (redirect su_index su_voluind su_set_voluind vo_surfind vo_set_surfind old new newSub)
      (surfs m, volus m);
  Ok (mkMesh vs ss (edges m) (verts m) (meshDim m)).

(** typeInd 5, 2179-2218 (scoped vertex switch): only edges of the scope that
    the old vertex lists. *)
Definition switch5 (old new : Z) (scope : list Z) (m : mesh) : outcome mesh :=
  let newSub := find ve_index (verts m) new in
  let oldSub := find ve_index (verts m) old in
  do vo <- at_ (verts m) oldSub;
  let own := find_list ed_index (edges m) (ve_edgeind vo) in
  do (es, vs) <- for_each (find_list ed_index (edges m) scope)
      (fun p s => if mem_z p own
         then redirect_erase ed_index ed_vertind ed_set_vertind ve_edgeind ve_set_edgeind
                             old new newSub oldSub p s
         else Ok s)
      (edges m, verts m);
  Ok (mkMesh (volus m) (surfs m) es vs (meshDim m)).

(** typeInd 6, 2219-2260 (scoped surface switch). *)
Definition switch6 (old new : Z) (scope : list Z) (m : mesh) : outcome mesh :=
  let newSub := find su_index (surfs m) new in
  let oldSub := find su_index (surfs m) old in
  do (es, ss) <- for_each (find_list ed_index (edges m) scope)
      (redirect_erase ed_index ed_surfind ed_set_surfind su_edgeind su_set_edgeind
                      old new newSub oldSub)
      (edges m, surfs m);
  do sn <- at_ ss newSub;
  do vs <- for_each (su_voluind sn)
      (fun v vs => if 0 <? v
         then modify vs (find vo_index vs v) (fun w => vo_set_surfind (vo_surfind w ++ [new]) w)
         else Ok vs)
      (volus m);
  Ok (mkMesh vs ss es (verts m) (meshDim m)).

(** typeInd 7, 2261-2296 (scoped volume switch). *)
Definition switch7 (old new : Z) (scope : list Z) (m : mesh) : outcome mesh :=
  let newSub := find vo_index (volus m) new in
  let oldSub := find vo_index (volus m) old in
  do (ss, vs) <- for_each (find_list su_index (surfs m) scope)
      (redirect_erase su_index su_voluind su_set_voluind vo_surfind vo_set_surfind
                      old new newSub oldSub)
      (surfs m, volus m);
  Ok (mkMesh vs ss (edges m) (verts m) (meshDim m)).

(** SwitchIndex, mesh.cpp 2012-2306; another type throws (2300-2305). *)
Definition switch_index (typeInd old new : Z) (scope : list Z) (m : mesh) : outcome mesh :=
  match typeInd with
  | 1 => switch1 old new m
  | 2 => switch2 old new m
  | 3 => switch3 old new m
  | 4 => switch4 old new m
  | 5 => switch5 old new scope m
  | 6 => switch6 old new scope m
  | 7 => switch7 old new scope m
  | _ => Throw
  end.

(** ** RemoveIndex, 2308-2455. *)
(** typeInd 1, 2313-2332: the vertex keeps its own edge list. *)
Definition remove1 (old : Z) (m : mesh) : outcome mesh :=
  do v <- at_ (verts m) (find ve_index (verts m) old);
  do es <- for_each (find_list ed_index (edges m) (ve_edgeind v))
             (erase_at ed_vertind ed_set_vertind old) (edges m);
  Ok (mkMesh (volus m) (surfs m) es (verts m) (meshDim m)).
(** typeInd 2, 2333-2374. *)
Definition drop_edge (old : Z) (s : surf) : surf :=
  let s1 := su_set_edgeind (erase_all old (su_edgeind s)) s in
  if mem_z old (su_edgeind s) then su_set_ordered false s1 else s1.
(** mesh.cpp 2333-2374. *)
Definition remove2 (old : Z) (m : mesh) : outcome mesh :=
  let sub := find ed_index (edges m) old in
  do e <- at_ (edges m) sub;
  do vs <- for_each (find_list ve_index (verts m) (ed_vertind e))
             (erase_at ve_edgeind ve_set_edgeind old) (verts m);
  do ss <- for_each (find_list su_index (surfs m) (ed_surfind e))
             (if_found (fun p ss => modify ss p (drop_edge old))) (surfs m);
  do es <- modify (edges m) sub (fun e => ed_set_surfind [] (ed_set_vertind [] e));
  Ok (mkMesh (volus m) ss es vs (meshDim m)).
(** typeInd 3, 2375-2416. *)
Definition remove3 (old : Z) (m : mesh) : outcome mesh :=
  let sub := find su_index (surfs m) old in
  do s <- at_ (surfs m) sub;
  do es <- for_each (find_list ed_index (edges m) (su_edgeind s))
             (erase_at ed_surfind ed_set_surfind old) (edges m);
  do vs <- for_each (find_list vo_index (volus m) (su_voluind s))
             (if_found (erase_at vo_surfind vo_set_surfind old)) (volus m);
  do ss <- modify (surfs m) sub (fun s => su_set_voluind [] (su_set_edgeind [] s));
  Ok (mkMesh vs ss es (verts m) (meshDim m)).
(** typeInd 4, 2417-2443.  The inner loop: erase the entry at jj, push a 0 when
    fewer than two are left, and look at position jj again.  [n] bounds the
    number of steps (the loop never appends more than it erases). *)
Fixpoint erase_push0 (n : nat) (old : Z) (seen rest : list Z) : list Z :=
  match n with
  | O => seen ++ rest
  | S n' => match rest with
            | [] => seen
            | x :: r =>
                if x =? old then
                  if (length (seen ++ r) <? 2)%nat then erase_push0 n' old seen (r ++ [0])
                  else erase_push0 n' old seen r
                else erase_push0 n' old (seen ++ [x]) r
            end
  end.
(** mesh.cpp 2417-2443, the list of one surface. *)
Definition drop_volu (old : Z) (l : list Z) : list Z :=
  erase_push0 (2 * length l + 2) old [] l.
(** mesh.cpp 2417-2443. *)
Definition remove4 (old : Z) (m : mesh) : outcome mesh :=
  let sub := find vo_index (volus m) old in
  do v <- at_ (volus m) sub;
  do ss <- for_each (find_list su_index (surfs m) (vo_surfind v))
             (fun p ss => modify ss p (fun s => su_set_voluind (drop_volu old (su_voluind s)) s))
             (surfs m);
  do vs <- modify (volus m) sub (vo_set_surfind []);
  Ok (mkMesh vs ss (edges m) (verts m) (meshDim m)).
(** RemoveIndex, mesh.cpp 2308-2455; another type throws (2444-2454). *)
Definition remove_index (typeInd old : Z) (m : mesh) : outcome mesh :=
  match typeInd with
  | 1 => remove1 old m
  | 2 => remove2 old m
  | 3 => remove3 old m
  | 4 => remove4 old m
  | _ => Throw
  end.

(** ** TestConnectivity, 2457-2633: the number of errors found. *)
Definition count_if {A} (f : A -> bool) (l : list A) : Z := Z.of_nat (length (filter f l)).
(** The error counts added up over the elements. *)
Fixpoint sum_over {A} (f : A -> Z) (l : list A) : Z :=
  match l with [] => 0 | a :: r => f a + sum_over f r end.
(** entries that are not 0 and not found *)
Definition unknown0 {T} (index : T -> Z) (l : list T) (refs : list Z) : Z :=
  count_if (fun r => (find index l r <? 0) && negb (r =? 0)) refs.
(** entries that are not found, 0 included *)
Definition unknown {T} (index : T -> Z) (l : list T) (refs : list Z) : Z :=
  count_if (fun r => find index l r <? 0) refs.
(** size() == 0. *)
Definition is_nil {A} (l : list A) : bool := match l with [] => true | _ => false end.
(** mesh.cpp 2457-2633, in the order of its loops. *)
Definition test_connectivity (m : mesh) : Z :=
  sum_over (fun v => if is_nil (ve_edgeind v) then 1 else unknown0 ed_index (edges m) (ve_edgeind v)) (verts m) +
  sum_over (fun e => unknown0 ve_index (verts m) (ed_vertind e)) (edges m) +
  sum_over (fun e => unknown0 su_index (surfs m) (ed_surfind e)) (edges m) +
  sum_over (fun s => unknown ed_index (edges m) (su_edgeind s) + (if is_nil (su_edgeind s) then 1 else 0)) (surfs m) +
  sum_over (fun s => unknown0 vo_index (volus m) (su_voluind s)) (surfs m) +
  sum_over (fun v => unknown0 su_index (surfs m) (vo_surfind v)) (volus m).

(** ** TestConnectivityBiDir, 2635-2976.  Both totals; only the first is
    returned (line 2975).  The diagnostics printed for a one-way reference
    subscript with the loop counter instead of the found position (2684, 2742,
    2788, 2841, 2896): that read may be out of range; the model leaves the
    printing out.  WhatDim() is meshDim. *)
Definition one_way {T} (index : T -> Z) (back : T -> list Z) (l : list T) (self : Z) (refs : list Z) : Z :=
  count_if (fun r => negb (r =? 0) &&
    match at_ l (find index l r) with Ok t => negb (mem_z self (back t)) | _ => false end) refs.
(** mesh.cpp 2635-2976: errTot and the count of one-way references. *)
Definition test_bidir (emptyIsErr : bool) (m : mesh) : Z * Z :=
  (sum_over (fun v => if emptyIsErr && is_nil (ve_edgeind v) then 1
                      else unknown0 ed_index (edges m) (ve_edgeind v)) (verts m) +
   sum_over (fun e => (if emptyIsErr && negb (length (ed_vertind e) =? 2)%nat then 1 else 0) +
                      unknown0 ve_index (verts m) (ed_vertind e)) (edges m) +
   sum_over (fun e => unknown0 su_index (surfs m) (ed_surfind e)) (edges m) +
   sum_over (fun s => (if is_nil (su_edgeind s) then 1 else 0) +
                      unknown ed_index (edges m) (su_edgeind s)) (surfs m) +
   sum_over (fun s => (if (2 <? meshDim m) && emptyIsErr && negb (length (su_voluind s) =? 2)%nat then 1 else 0) +
                      unknown0 vo_index (volus m) (su_voluind s)) (surfs m) +
   sum_over (fun v => unknown0 su_index (surfs m) (vo_surfind v)) (volus m),
   sum_over (fun v => one_way ed_index ed_vertind (edges m) (ve_index v) (ve_edgeind v)) (verts m) +
   sum_over (fun e => one_way ve_index ve_edgeind (verts m) (ed_index e) (ed_vertind e)) (edges m) +
   sum_over (fun e => one_way su_index su_edgeind (surfs m) (ed_index e) (ed_surfind e)) (edges m) +
   sum_over (fun s => one_way ed_index ed_surfind (edges m) (su_index s) (su_edgeind s)) (surfs m) +
   sum_over (fun s => one_way vo_index vo_surfind (volus m) (su_index s) (su_voluind s)) (surfs m) +
   sum_over (fun v => one_way su_index su_voluind (surfs m) (vo_index v) (vo_surfind v)) (volus m)).
(** mesh.cpp 2975. *)
Definition test_connectivity_bidir (emptyIsErr : bool) (m : mesh) : Z := fst (test_bidir emptyIsErr m).
