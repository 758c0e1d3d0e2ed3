(** Model of the helpers that cut a mesh along a box.
    Source: SRCC/src/grid/mesh.cpp and SRCC/incl/mesh.hpp, lines cited below. *)
From Coq Require Import Reals.
From Verif Require Import Base Containers Mesh Edit Geom.
Set Implicit Arguments.
Open Scope Z_scope.

(** The loops of SplitBorderSurfaceEdgeind (mesh.cpp:6362-6382) and
    SplitBorderVolumeSurfind (6467-6487), over the positions found; [ci] and [co]
    are the lists built so far. *)
Fixpoint split_loop {T} (index : T -> Z) (l : list T) (out : list bool) (pos ci co : list Z)
    : outcome (list Z * list Z) :=
  match pos with
  | [] => Ok (ci, co)
  | p :: r =>
      if p =? -1 then Throw
      else do b <- at_ out p; do t <- at_ l p;
           if b : bool then split_loop index l out r ci (co ++ [index t])
           else split_loop index l out r (ci ++ [index t]) co
  end.
(** The two new lists, inside then outside. *)
Definition split_border {T} (index : T -> Z) (l : list T) (out : list bool) (conn : list Z) :=
  split_loop index l out (find_list index l conn) [] [].
(** mesh.cpp:6352-6383 *)
Definition split_surface_edges (m : mesh) := split_border ed_index (edges m).
(** mesh.cpp:6457-6488 *)
Definition split_volume_surfs (m : mesh) := split_border su_index (surfs m).

(** FindEdgeInFromSurfOut, mesh.cpp:6541-6563 *)
Definition edges_in_of_surfs (m : mesh) (out : list bool) (sl : list Z) : outcome (list Z) :=
  do ll <- omap_list (fun s => do f <- isearch su_index (surfs m) s; Ok (su_edgeind f)) sl;
  for_each (concat ll) (fun e acc => do b <- at_ out (find ed_index (edges m) e);
                                     Ok (if b : bool then acc else acc ++ [e])) [].
(** FindVertInFromEdgeOut, mesh.cpp:6490-6540 *)
Definition first_two (l : list Z) : outcome (list Z) :=
  do a <- at_ l 0; do b <- at_ l 1; Ok [a; b].
Definition verts_in_of_edges (m : mesh) (out : list bool) (el check : list Z) : outcome (list Z) :=
  do ll <- omap_list (fun e => do x <- isearch ed_index (edges m) e; first_two (ed_vertind x)) el;
  do vl <- for_each (concat ll) (fun v acc => do b <- at_ out (find ve_index (verts m) v);
                                              Ok (if b : bool then acc else acc ++ [v])) [];
  let vl := tighten vl in
  if Z.of_nat (length vl) =? 2 then Ok (tighten vl)
  else do cl <- omap_list (fun e => do x <- isearch ed_index (edges m) e; Ok (ed_vertind x)) check;
       Ok (tighten (filter (fun v => mem_z v vl) (concat cl))).

(** std::min and std::max on doubles: the first argument unless the comparison
    holds. *)
Definition std_min (a b : ext) : ext := if ext_lt b a then b else a.
Definition std_max (a b : ext) : ext := if ext_lt a b then b else a.
(** Division of finite doubles.  A zero divisor is +0: it is a difference of
    equal doubles. *)
Definition quotient (a b : R) : ext :=
  if Req_EM_T b 0 then (if Rlt_dec 0 a then PInf else if Rlt_dec a 0 then MInf else Nan)
  else Fin (a / b).
(** ProjectRay, mesh.hpp:815-835, the loop over the coordinates from [j] *)
Fixpoint project_ray (n : nat) (j : Z) (lb ub dir orig : list R) (l : ext) : outcome ext :=
  match n with
  | O => Ok l
  | S n' =>
      do a <- at_ lb j; do b <- at_ ub j; do d <- at_ dir j; do o <- at_ orig j;
      project_ray n' (j + 1) lb ub dir orig
        (std_max l (std_min (quotient (a - o) d) (quotient (b - o) d)))
  end.
(** A double times [l], plus a double. *)
Definition along_ray (d : R) (l : ext) (o : R) : ext :=
  match l with
  | Fin x => Fin (d * x + o)
  | PInf => if Req_EM_T d 0 then Nan else if Rlt_dec 0 d then PInf else MInf
  | MInf => if Req_EM_T d 0 then Nan else if Rlt_dec 0 d then MInf else PInf
  | Nan => Nan
  end.
(** PlaceBorderVertex, mesh.cpp:6321-6350; the SAFE_ALGO test is not compiled. *)
Definition place_border_vertex (cin cout lb ub : list R) : outcome (list ext) :=
  do i0 <- at_ cin 0; do i1 <- at_ cin 1; do i2 <- at_ cin 2;
  do o0 <- at_ cout 0; do o1 <- at_ cout 1; do o2 <- at_ cout 2;
  let dir := [i0 - o0; i1 - o1; i2 - o2]%R in
  do l0 <- project_ray 3 0 lb ub dir cin MInf;
  let l := std_min l0 (Fin 0) in
  Ok [along_ray (i0 - o0) l i0; along_ray (i1 - o1) l i1; along_ray (i2 - o2) l i2].
