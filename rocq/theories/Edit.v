(** Model of mesh editing and searching.
    Sources: SRCC/src/grid/mesh.cpp GetOffBorderVert 3964-4173,
    RemoveSingularConnectors 4473-4618 (vertconneq 3870, edgeconneq 3876),
    Crop 5681-5828, EdgeFromVerts 5842, SurfFromEdges 5872, VertFromVertEdge
    5926, ReOrder 5949-6050, OrderMatchLists 6052 and 6165, ConnVertFromConnEdge
    6218.

    Lookups read the arrays directly, as in Mesh.v. *)
From Verif Require Import Base Containers Mesh Order.
Set Implicit Arguments.
Open Scope Z_scope.

(** rsvs3d::constants::__notfound *)
Definition notfound : Z := -1.

(** ArrayStruct::isearch *)
Definition isearch {A} (idx : A -> Z) (l : list A) (i : Z) : outcome A := at_ l (find idx l i).

(** ** ReOrder, 5949-6044.  The four calls of std::sort are represented by their
    results: any rearrangement of each array.  The comparison functions read
    vertex coordinates, which are not modelled.  The final PrepareForUse is not
    part of the model. *)
Fixpoint number {A} (set : Z -> A -> A) (n : Z) (l : list A) : list A :=
  match l with [] => [] | a :: r => set n a :: number set (n + 1) r end.
(** mesh.cpp 5949-6044: the new index of an element is its position after the sort,
    plus one. *)
Definition renum {A} (idx : A -> Z) (l : list A) (k : Z) : Z := find idx l k + 1.
(** ReOrder, mesh.cpp 5949-6044. *)
Definition reorder (vos : list volu) (sus : list surf) (eds : list edge) (ves : list vert) (m : mesh) : mesh :=
  let fv := renum vo_index vos in
  let fs := renum su_index sus in
  let fe := renum ed_index eds in
  let fn := renum ve_index ves in
  mkMesh
    (number (fun i v => mkVolu i (vo_border v) (map fs (vo_surfind v))) 1 vos)
    (number (fun i s => mkSurf i (su_border s) (su_ordered s) (map fv (su_voluind s)) (map fe (su_edgeind s))) 1 sus)
    (number (fun i e => mkEdge i (ed_border e) (map fs (ed_surfind e)) (map fn (ed_vertind e))) 1 eds)
    (number (fun i v => mkVert i (ve_border v) (map fe (ve_edgeind v))) 1 ves)
    (meshDim m).

(** ** Crop, 5681-5823 *)
(** ArrayStruct::remove *)
Definition drop {A} (idx : A -> Z) (del : list Z) (l : list A) : list A :=
  filter (fun a => negb (mem_z (idx a) del)) l.
(** find_list then ConcatenateVectorField *)
Definition gather {A} (idx : A -> Z) (get : A -> list Z) (l : list A) (ks : list Z) : outcome (list Z) :=
  do xs <- omap_list (fun k => isearch idx l k) ks; Ok (flat_map get xs).
(** 5756-5764: the first entry is erased when it is 0, the count is lowered
    either way. *)
Definition crop_volus (voluDel : list Z) : list Z * list Z :=
  match voluDel with
  | [] => ([], [])
  | x :: r => let l := if x =? 0 then r else voluDel in (l, firstn (length voluDel - 1) l)
  end.
(** 5766-5778 *)
Definition one_sided (s : surf) : surf :=
  match su_voluind s with [_] => su_set_voluind (su_voluind s ++ [0]) s | _ => s end.
(** 5704-5747: the cases fall through. *)
Definition crop_lists (indType : Z) (ind : list Z) (m : mesh) : outcome (list Z * list Z * list Z * list Z) :=
  let from_surf s := do v <- gather su_index su_voluind (surfs m) s; Ok v in
  let from_edge e := do s <- gather ed_index ed_surfind (edges m) e; do v <- from_surf s; Ok (s, v) in
  match indType with
  | 1 => do e <- gather ve_index ve_edgeind (verts m) ind; do sv <- from_edge e; Ok (ind, e, fst sv, snd sv)
  | 2 => do sv <- from_edge ind; Ok ([], ind, fst sv, snd sv)
  | 3 => do v <- from_surf ind; Ok ([], [], ind, v)
  | 4 => Ok ([], [], [], ind)
  | _ => Throw
  end.
(** 5681-5823. *)
Definition crop_core (indType : Z) (ind : list Z) (m : mesh) : outcome mesh :=
  do lists <- crop_lists indType ind m;
  let '(vertDel, edgeDel, surfDel, voluDel0) := lists in
  let (voluDel, voluOff) := crop_volus (tighten voluDel0) in
  do m1 <- for_each voluOff (fun v m => remove_index 4 v m) m;
  let surfDel' := tighten (surfDel ++ map su_index (filter (fun s => is_nil (su_voluind s)) (surfs m1))) in
  let m1' := set_surfs (map one_sided (surfs m1)) m1 in
  do m2 <- for_each surfDel' (fun s m => remove_index 3 s m) m1';
  let edgeDel' := tighten (edgeDel ++ map ed_index (filter (fun e => is_nil (ed_surfind e)) (edges m2))) in
  do m3 <- for_each edgeDel' (fun e m => remove_index 2 e m) m2;
  let vertDel' := tighten (vertDel ++ map ve_index (filter (fun v => is_nil (ve_edgeind v)) (verts m3))) in
  do m4 <- for_each vertDel' (fun v m => remove_index 1 v m) m3;
  Ok (mkMesh (drop vo_index voluDel (volus m4)) (drop su_index surfDel' (surfs m4))
             (drop ed_index edgeDel' (edges m4)) (drop ve_index vertDel' (verts m4)) (meshDim m4)).

(** ** RemoveSingularConnectors without vertices, 4506-4617 *)
(** vertconneq 3870, edgeconneq 3876 *)
Definition vertconneq (a b : edge) : outcome bool :=
  do a0 <- at_ (ed_vertind a) 0; do a1 <- at_ (ed_vertind a) 1;
  do b0 <- at_ (ed_vertind b) 0; do b1 <- at_ (ed_vertind b) 1;
  Ok (((a0 =? b0) && (a1 =? b1)) || ((a1 =? b0) && (a0 =? b1)))%bool.
(** edgeconneq, 3876-3915. *)
Definition edgeconneq (a b : surf) : bool :=
  (forallb (fun e => mem_z e (su_edgeind b)) (su_edgeind a) &&
   forallb (fun e => mem_z e (su_edgeind a)) (su_edgeind b))%bool.
(** The loop counter of 4509, 4531 and 4572. *)
Definition upto_pos {A} (l : list A) : list Z := map Z.of_nat (seq 0 (length l)).
(** 4509-4517. *)
Definition singular_edge (i : Z) (st : mesh * list Z) : outcome (mesh * list Z) :=
  let (m, rmv) := st in
  do e <- at_ (edges m) i;
  do a <- at_ (ed_vertind e) 0; do b <- at_ (ed_vertind e) 1;
  if a =? b then do m' <- remove_index 2 (ed_index e) m; Ok (m', rmv ++ [ed_index e]) else Ok st.
(** 4531-4550. *)
Definition singular_surf (i : Z) (st : mesh * list Z * list Z) : outcome (mesh * list Z * list Z) :=
  let '(m, rmv, rmv2) := st in
  do s <- at_ (surfs m) i;
  do st2 <- match su_edgeind s with
            | [e0; e1] =>
                do a <- isearch ed_index (edges m) e0; do b <- isearch ed_index (edges m) e1;
                do eq <- vertconneq a b;
                if (eq && negb (e1 =? e0))%bool then do m' <- switch_index 2 e1 e0 [] m; Ok (m', rmv2 ++ [e1])
                else Ok (m, rmv2)
            | _ => Ok (m, rmv2)
            end;
  if (length (su_edgeind s) <? 3)%nat then
    do m' <- remove_index 3 (su_index s) (fst st2); Ok (m', rmv ++ [su_index s], snd st2)
  else Ok (fst st2, rmv, snd st2).
(** 4572-4601. *)
Definition singular_volu (voidError : bool) (i : Z) (st : mesh * list Z * list Z) : outcome (mesh * list Z * list Z) :=
  let '(m, rmv, rmv2) := st in
  do v <- at_ (volus m) i;
  do st2 <- match vo_surfind v with
            | [s0; s1] =>
                do a <- isearch su_index (surfs m) s0; do b <- isearch su_index (surfs m) s1;
                if (negb (s0 =? s1) && edgeconneq a b)%bool then do m' <- switch_index 3 s1 s0 [] m; Ok (m', rmv2 ++ [s1])
                else Ok (m, rmv2)
            | [_; _; _] => if voidError then Throw else Ok (m, rmv2)
            | _ => Ok (m, rmv2)
            end;
  if (length (vo_surfind v) <? 4)%nat then
    do m' <- remove_index 4 (vo_index v) (fst st2); Ok (m', rmv ++ [vo_index v], snd st2)
  else Ok (fst st2, rmv, snd st2).
(** 4506-4618. *)
Definition remove_singular (voidError : bool) (m : mesh) : outcome mesh :=
  do st1 <- for_each (upto_pos (edges m)) singular_edge (m, []);
  let m1 := set_edges (drop ed_index (snd st1) (edges (fst st1))) (fst st1) in
  do st2 <- for_each (upto_pos (surfs m1)) singular_surf (m1, [], []);
  let '(m2, rs, re) := st2 in
  let m2' := set_edges (drop ed_index re (edges m2)) (set_surfs (drop su_index rs (surfs m2)) m2) in
  do st3 <- for_each (upto_pos (volus m2')) (singular_volu voidError) (m2', [], []);
  let '(m3, rv, rs3) := st3 in
  Ok (set_surfs (drop su_index rs3 (surfs m3)) (set_volus (drop vo_index rv (volus m3)) m3)).
(** Crop, 5681-5828, with the default arguments of RemoveSingularConnectors
    (voidError is true).  The two calls of PrepareForUse are left out. *)
Definition crop (indType : Z) (ind : list Z) (m : mesh) : outcome mesh :=
  do m' <- crop_core indType ind m; remove_singular true m'.

(** ** EdgeFromVerts, 5842-5860 *)
Fixpoint edge_scan (m : mesh) (v1 v2 : Z) (el : list Z) : outcome Z :=
  match el with
  | [] => Ok notfound
  | e :: r =>
    do ed <- isearch ed_index (edges m) e;
    do a <- at_ (ed_vertind ed) 0;
    do b <- at_ (ed_vertind ed) 1;
    if (((a =? v1) && (b =? v2)) || ((b =? v1) && (a =? v2)))%bool then Ok e else edge_scan m v1 v2 r
  end.
(** EdgeFromVerts, 5842-5860. *)
Definition edge_from_verts (m : mesh) (v1 v2 : Z) : outcome Z :=
  do a <- isearch ve_index (verts m) v1;
  do b <- isearch ve_index (verts m) v2;
  edge_scan m v1 v2 (ve_edgeind (if (length (ve_edgeind a) <? length (ve_edgeind b))%nat then a else b)).

(** ** SurfFromEdges, 5872-5916.  [prev] is retSurf once one has been found. *)
Fixpoint surf_scan (m : mesh) (rep eNoExp : Z) (prev : option Z) (sl : list Z) : outcome Z :=
  match sl with
  | [] => Ok (match prev with Some s => s | None => notfound end)
  | s :: r =>
    do su <- isearch su_index (surfs m) s;
    if mem_z eNoExp (su_edgeind su) then
      match prev with
      | Some _ => if rep =? 1 then Ok notfound else Throw
      | None => if rep =? 0 then Ok s else surf_scan m rep eNoExp (Some s) r
      end
    else surf_scan m rep eNoExp prev r
  end.
(** SurfFromEdges, 5872-5916. *)
Definition surf_from_edges (m : mesh) (e1 e2 rep : Z) : outcome Z :=
  do a <- isearch ed_index (edges m) e1;
  do b <- isearch ed_index (edges m) e2;
  if (length (ed_surfind a) <? length (ed_surfind b))%nat
  then surf_scan m rep e2 None (ed_surfind a)
  else surf_scan m rep e1 None (ed_surfind b).

(** ** VertFromVertEdge, 5926-5931 *)
Definition vert_from_vert_edge (m : mesh) (v e : Z) : outcome Z :=
  do ed <- isearch ed_index (edges m) e;
  do a <- at_ (ed_vertind ed) 0;
  at_ (ed_vertind ed) (if a =? v then 1 else 0).

(** ** OrderMatchLists, 6052-6079 *)
Fixpoint match_sum (p1 p2 : Z) (ii : Z) (l : list Z) : Z * Z :=
  match l with
  | [] => (0, 0)
  | x :: r =>
    let (o, k) := match_sum p1 p2 (ii + 1) r in
    if x =? p1 then (o + ii, k + 1) else if x =? p2 then (o - ii, k + 1) else (o, k)
  end.
(** 6070-6078. *)
Definition order_match (vec : list Z) (p1 p2 : Z) : Z * Z :=
  let (o, k) := match_sum p1 p2 0 vec in
  (if 1 <? o then -1 else if o <? -1 then 1 else o, k).
(** 6165-6216 *)
Definition order_match_lists (vec1 vec2 : list Z) (p1 p2 : Z) : outcome Z :=
  let (o1, k1) := order_match vec1 p1 p2 in
  if negb (k1 =? 2) then Throw
  else
    let (o2, k2) := order_match vec2 p1 p2 in
    if negb (k2 =? 2) then Throw else Ok (if o1 =? o2 then 1 else -1).

(** ** ConnVertFromConnEdge, 6218-6250, starting from an empty list *)
Definition end_at (m : mesh) (e : Z) (ll : Z) : outcome Z :=
  do ed <- isearch ed_index (edges m) e; at_ (ed_vertind ed) ll.
(** 6232-6233 and 6244-6246. *)
Definition in_ends (m : mesh) (e x : Z) : outcome bool :=
  do a <- end_at m e 0; do b <- end_at m e 1; Ok ((x =? a) || (x =? b))%bool.
(** 6238-6249. *)
Fixpoint conn_loop (m : mesh) (ll : Z) (l : list Z) : outcome (list Z) :=
  match l with
  | [] => Ok []
  | e :: r =>
    do v <- end_at m e ll;
    do ll' <- match r with
              | [] => Ok ll
              | f :: _ => do x <- end_at m f ll; do b <- in_ends m e x; Ok (if b then (ll + 1) mod 2 else ll)
              end;
    do vs <- conn_loop m ll' r;
    Ok (v :: vs)
  end.
(** 6218-6250. *)
Definition conn_vert (m : mesh) (l : list Z) : outcome (list Z) :=
  do e0 <- at_ l 0; do e1 <- at_ l 1;
  do x <- end_at m e0 0; do b <- in_ends m e1 x;
  conn_loop m (if b then 0 else 1) l.

(** ** GetOffBorderVert *)
(** The overload for mesh objects that are not const, 3964-3982: in a member
    function that is not const the call at 3981 designates the same overload. *)
Fixpoint get_off_border (fuel : nat) (setBorders : mesh -> outcome mesh) (borderIsSet : bool) (m : mesh)
  : outcome (list Z * list Z) :=
  match fuel with
  | O => OutOfFuel
  | S n => do m' <- (if borderIsSet then Ok m else setBorders m); get_off_border n setBorders true m'
  end.

(** The const overload in three dimensions, 3996-4072.  [outer i] is the result
    of the test on the parent values of volume [i] (4026-4045); it is not called
    when outerVolume is -1. *)
Definition off_verts (m : mesh) (el : list Z) : outcome (list Z) :=
  do vss <- omap_list (fun e =>
    do ed <- isearch ed_index (edges m) e;
    do vs <- omap_list (fun v => do ve <- isearch ve_index (verts m) v;
                                 Ok (if ve_border ve then [] else [v])) (ed_vertind ed);
    Ok (concat vs)) el;
  Ok (concat vss).
(** 3996-4072. *)
Definition off_border_3d (outer : Z -> bool) (outerVolume : Z) (m : mesh) : outcome (list Z * list Z) :=
  do rs <- omap_list (fun v =>
    if vo_border v then
      do c <- (if ((outerVolume =? 0) || (outerVolume =? 1))%bool then Ok (outer (vo_index v))
               else if outerVolume =? -1 then Ok true else Throw);
      if c then
        do vss <- omap_list (fun s => do su <- isearch su_index (surfs m) s; off_verts m (su_edgeind su)) (vo_surfind v);
        Ok (concat vss, [vo_index v])
      else Ok ([], [])
    else Ok ([], [])) (volus m);
  Ok (concat (map fst rs), concat (map snd rs)).

(** The const overload in two dimensions, 4074-4173.  [outer i] is the result of
    the test on the parent values of surface [i] (4102-4123). *)
Definition neighbours_2d (m : mesh) (s : surf) : outcome (list Z) :=
  do rs <- omap_list (fun e =>
    do ed <- isearch ed_index (edges m) e;
    do a <- at_ (ed_surfind ed) 0; do b <- at_ (ed_surfind ed) 1;
    do xs <- omap_list (fun k => if k =? 0 then Ok [] else
                                 do su <- isearch su_index (surfs m) k; Ok (if su_border su then [] else [k])) [a; b];
    Ok (concat xs)) (su_edgeind s);
  Ok (concat rs).
(** 4074-4173. *)
Definition off_border_2d (outer : Z -> bool) (outerVolume : Z) (m : mesh) : outcome (list Z * list Z) :=
  do rs <- omap_list (fun s =>
    if su_border s then
      do c <- (if ((outerVolume =? 0) || (outerVolume =? 1))%bool then Ok (outer (su_index s))
               else if outerVolume =? -1 then Ok true else Throw);
      if c then
        do ss <- (if outerVolume =? 0 then neighbours_2d m s else Ok [su_index s]);
        do vs <- off_verts m (su_edgeind s);
        Ok (vs, ss)
      else Ok ([], [])
    else Ok ([], [])) (surfs m);
  Ok (concat (map fst rs), concat (map snd rs)).
(** 3984-3994 *)
Definition off_border (outer : Z -> bool) (outerVolume : Z) (m : mesh) : outcome (list Z * list Z) :=
  if meshDim m =? 3 then off_border_3d outer outerVolume m
  else if meshDim m =? 2 then off_border_2d outer outerVolume m
  else Ok ([], []).
