(** Model of ModifyMergVoluConnec, src/snake/snakeengine.cpp 1392-1441. *)
From Verif Require Import Base Containers Mesh Num Snake Spawn Detect.
Set Implicit Arguments.
Open Scope Z_scope.

(** 1408-1412: the position kk passes a leading 0. *)
Definition after_zero (l : list Z) : list Z :=
  match l with x :: r => if x =? 0 then r else l | [] => [] end.
(** 1398-1439, for the vertex [n]; the state is snakeconn and connecEdit.  scopeind, which
    SwitchIndex does not read for type 4, is left empty. *)
Definition merge_at (n : Z) (st : mesh * list connec) : outcome (mesh * list connec) :=
  let (m, out) := st in
  do v <- at_ (verts m) (find ve_index (verts m) n);
  do es <- omap_list (at_ (edges m)) (find_list ed_index (edges m) (ve_edgeind v));
  do ss <- omap_list (at_ (surfs m)) (find_list su_index (surfs m) (flat_map ed_surfind es));
  match after_zero (tighten (flat_map su_voluind ss)) with
  | keep :: r =>
      match filter (fun x => 0 <? x) r with
      | [] => Ok st
      | rmv => do m1 <- for_each rmv (fun o m => switch_index 4 o keep [] m) m; Ok (m1, out ++ [mkConnec keep 4 rmv])
      end
  | [] => Ok st
  end.
(** 1392-1441 *)
Definition merge_volus (l : list Z) (m : mesh) (out : list connec) : outcome (mesh * list connec) :=
  for_each l merge_at (m, out).
