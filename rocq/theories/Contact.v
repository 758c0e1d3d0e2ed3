(** Model of the merging of snaxels in contact: MergeAllContactVertices,
    src/snake/snakeengine.cpp 220-276.

    The hashed vectors impactInd and impactTarg are one list of pairs.  isImpactDone is
    replaced by the list [T] of the targets merged into so far: lines 253-264 mark exactly
    the impacts that have such a target as their first or second entry, and the impacts
    before the current one have all been handled (line 247). *)
From Verif Require Import Base Containers Mesh Edit Num Snake Spawn.
Set Implicit Arguments.
Open Scope Z_scope.

Section Contact.
Variable N : num.
Notation snax := (snax N).
Notation snake := (snake N).

(** 243-268: the mesh, subVelTo0 and snaxToRemove. *)
Fixpoint contacts (xs : list snax) (imp : list (Z * Z)) (T : list Z) (c : mesh) (vel rem : list Z)
  : outcome (mesh * list Z * list Z) :=
  match imp with
  | [] => Ok (c, vel, rem)
  | (i, t) :: r =>
      if (mem_z i T || mem_z t T)%bool then contacts xs r T c vel rem
      else if 0 <? t then
        do c' <- switch_index 1 i t [] c ;
        contacts xs r (t :: T) c' (vel ++ [find (@sx_index N) xs t]) (rem ++ [i])
      else contacts xs r T c vel rem
  end.
(** The field v of a snaxel (snake.hpp, class snax), set to 0. *)
Definition stopped (s : snax) : snax := @mkSnax N (sx_index s) (sx_d s) n0 (sx_from s) (sx_to s) (sx_edge s) (sx_freeze s) (sx_order s).
(** 220-276 *)
Definition merge_contacts (k : snake) (imp : list (Z * Z)) : outcome snake :=
  do r <- contacts (k_snaxs k) imp [] (k_conn k) [] [] ;
  let '(c, vel, rem) := r in
  do xs <- for_each vel (fun p l => modify l p stopped) (k_snaxs k) ;
  Ok (mkSnake (drop (@sx_index N) rem xs) (k_edges k) (k_surfs k)
              (mkMesh (volus c) (surfs c) (edges c) (drop ve_index rem (verts c)) (meshDim c)) (k_in k) (k_flipped k)).
End Contact.
