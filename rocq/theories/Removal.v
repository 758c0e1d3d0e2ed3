(** Model of the lists of objects to remove in CleanupSnakeConnec, src/snake/snakeengine.cpp:
    vertices and edges 721-742, surfaces and volumes 754-780, surfaces without edges 804-819.
    The messages on std::cerr are left out. *)
From Verif Require Import Base Containers Mesh Num Snake Spawn Detect.
Set Implicit Arguments.
Open Scope Z_scope.

(** One pass of 723-736; the state is indRmvEdge and indRmvVert. *)
Definition put_low (st : list Z * list Z) (c : connec) : list Z * list Z :=
  let (es, vs) := st in
  if cn_type c =? 2 then (es ++ cn_rmv c, vs)
  else if cn_type c =? 3 then st
  else if ((cn_type c =? 5) || (cn_type c =? 1))%bool then (es, vs ++ cn_rmv c)
  else st.
(** 721-742: the edges and the vertices to remove, after sort and unique. *)
Definition low_removals (l : list connec) : list Z * list Z :=
  let (es, vs) := fold_left put_low l ([], []) in (tighten es, tighten vs).
(** One pass of 757-775; the state is indRmvSurf and indRmvVolu. *)
Definition put_high (st : list Z * list Z) (c : connec) : list Z * list Z :=
  let (ss, vs) := st in
  if cn_type c =? 3 then (ss ++ cn_rmv c, vs)
  else if cn_type c =? 4 then (ss, vs ++ cn_rmv c)
  else st.
(** 754-780: the surfaces and the volumes to remove. *)
Definition high_removals (l : list connec) : list Z * list Z :=
  let (ss, vs) := fold_left put_high l ([], []) in (tighten ss, tighten vs).
(** 804-813: indDelSurf. *)
Definition bare_surfs (m : mesh) : list Z :=
  fold_left (fun out s => if (length (su_edgeind s) =? 0)%nat then out ++ [su_index s] else out) (surfs m) [].
(** 804-819: snakeconn and indDelSurf. *)
Definition drop_bare (m : mesh) : outcome (mesh * list Z) :=
  do m1 <- for_each (bare_surfs m) (fun i m => remove_index 3 i m) m;
  Ok (m1, bare_surfs m).
(** 836, 843 and 845: the final list of surfaces, with those just found. *)
Definition all_surfs (rmv del : list Z) : list Z := tighten (rmv ++ del).
