(** Vocabulary for the statements about the volumes of the cells of a mesh. *)
From Coq Require Import Reals List ZArith Permutation.
From Verif Require Import Base Mesh RsvsMath SpecRsvs SpecCalc.
Import ListNotations.
Set Implicit Arguments.
Open Scope R_scope.

(** The positions of vertices. *)
Definition at_corners (coord : list (Z * RsvsMath.vec)) (vs : list Z) : list RsvsMath.vec := map (fun v => assoc origin v coord) vs.
(** The volume between the origin and a polygon: a triangle, or the triangles from the
    sides to the centre of the outline. *)
Definition face_volume (ps : list RsvsMath.vec) : R :=
  let n := length ps in
  if Nat.eqb n 3 then signed_volume (pt ps 0) (pt ps 1) (pt ps 2)
  else sum_to n (fun i => signed_volume (pt ps i) (pt ps (next n i)) (wire_centre n (pt ps))).
(** The sign of surface [s] for cell [z]: + when it is the second of the surface, - when
    it is the first. *)
Definition sign_for (s : surf) (z : Z) : R :=
  (if Z.eqb (nth 1 (su_voluind s) (-1)%Z) z then 1 else 0) - (if Z.eqb (nth 0 (su_voluind s) (-1)%Z) z then 1 else 0).
(** The volume of cell [z] of a mesh with the surfaces and corners [l]. *)
Definition volume_of (coord : list (Z * RsvsMath.vec)) (l : list (surf * list Z)) (z : Z) : R :=
  total (fun sv => sign_for (fst sv) z * face_volume (at_corners coord (snd sv))) l.
(** The directed sides of a polygon. *)
Definition around (vs : list Z) : list (Z * Z) := combine vs (tl vs ++ firstn 1 vs).
Definition swap (e : Z * Z) : Z * Z := (snd e, fst e).
(** The directed sides of the surfaces of cell [z], all seen from the same side. *)
Definition cell_sides (l : list (surf * list Z)) (z : Z) : list (Z * Z) :=
  flat_map (fun sv => (if Z.eqb (nth 1 (su_voluind (fst sv)) (-1)%Z) z then around (snd sv) else []) ++
                      (if Z.eqb (nth 0 (su_voluind (fst sv)) (-1)%Z) z then map swap (around (snd sv)) else [])) l.
(** Each is used as often in one direction as in the other. *)
Definition closed_cell (l : list (surf * list Z)) (z : Z) : Prop := Permutation (map swap (cell_sides l z)) (cell_sides l z).
(** The mesh with all vertices moved by [t]. *)
Definition moved (t : RsvsMath.vec) (coord : list (Z * RsvsMath.vec)) : list (Z * RsvsMath.vec) := map (fun p => (fst p, translate t (snd p))) coord.
(** Polygons other than triangles are not shorter than 1e-15. *)
Definition long_enough (coord : list (Z * RsvsMath.vec)) (vs : list Z) : Prop :=
  length vs <> 3%nat -> / 1000000000000000 <= outline (length vs) (pt (at_corners coord vs)).
(** A mesh made of closed polygons with the corners [vss], each between two cells or a
    cell and the outside, with a position for each corner. *)
Definition solid (m : mesh) (outlined : surf -> list Z -> Prop) (coord : list (Z * RsvsMath.vec)) (vss : list (list Z)) : Prop :=
  NoDup (map ed_index (edges m)) /\ NoDup (map su_index (surfs m)) /\ NoDup (map vo_index (volus m)) /\
  Forall2 outlined (surfs m) vss /\ (forall s, In s (surfs m) -> length (su_voluind s) = 2%nat) /\
  (forall vs, In vs vss -> long_enough coord vs /\ forall v, In v vs -> has v coord).
(** Is [z] a cell of the mesh? *)
Definition is_cell (m : mesh) (z : Z) : R := if List.existsb (Z.eqb z) (map vo_index (volus m)) then 1 else 0.
