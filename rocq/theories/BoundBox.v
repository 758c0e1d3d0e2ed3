(** Model of tetgen::output::GetBoundBox, src/interfaces/tetgenrsvs.cpp 683-703.  Doubles are
    rationals and the two infinities: they are only compared and copied, so nothing is
    rounded; NaN is left out. *)
From Coq Require Import QArith.
From Verif Require Import Base Containers Mesh Flood Tetgen.
Set Implicit Arguments.
Open Scope Z_scope.

(** A double that is not NaN. *)
Inductive bound : Type := PInf | MInf | Fin (q : Q).
(** a <= b on doubles *)
Definition ble (a b : bound) : bool :=
  match a, b with
  | MInf, _ => true
  | _, PInf => true
  | Fin x, Fin y => Qle_bool x y
  | _, _ => false
  end.
(** 694-698, for coordinate [j] of point [i]; the state is domBounds[0] and domBounds[1]. *)
Definition box_coord (t : tetout Q) (i j : Z) (b : list bound * list bound) : outcome (list bound * list bound) :=
  let (lo, hi) := b in
  do x <- at_ (pointlist t) (i * 3 + j);
  do l <- at_ lo j;
  do h <- at_ hi j;
  Ok (upd lo (Z.to_nat j) (if ble l (Fin x) then l else Fin x), upd hi (Z.to_nat j) (if ble (Fin x) h then h else Fin x)).
(** 690-700 *)
Definition box_point (t : tetout Q) (i : Z) (b : list bound * list bound) : outcome (list bound * list bound) :=
  for_each (upto 3 0) (box_coord t i) b.
(** 683-703 *)
Definition get_bound_box (t : tetout Q) : outcome (list bound * list bound) :=
  for_each (upto (numberofpoints t) 0) (box_point t) ([PInf; PInf; PInf], [MInf; MInf; MInf]).
