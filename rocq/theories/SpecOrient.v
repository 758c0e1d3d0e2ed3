(** Specification for C109: surfaces oriented alike around each cell. *)
From Verif Require Import Base Mesh SpecMesh SpecOrder SpecEdit Orient.
Import Mesh.
Set Implicit Arguments.
Open Scope Z_scope.

(** The corners of a surface, in the order of its edges. *)
Definition corners (m : mesh) (s : surf) (vs : list Z) : Prop :=
  (3 <= length vs)%nat /\ NoDup vs /\ polygon (edge_joins m) (su_edgeind s) vs.
(** Every surface is a closed polygon between two different cells, 0 being the exterior. *)
Definition faces (m : mesh) : Prop :=
  forall s, In s (surfs m) -> (exists vs, corners m s vs) /\ exists a b, su_voluind s = [a; b] /\ a <> b.
(** Cell [v] is the first side of [s]. *)
Definition first_side (s : surf) (v : Z) : Prop := nth_error (su_voluind s) 0 = Some v.
(** Two surfaces that share an edge and a cell are oriented alike: they run through the edge
    in the same direction exactly when the cell is the first side of one of them only. *)
Definition alike (m : mesh) (s t : surf) : Prop :=
  forall e a b v vs ws, In e (su_edgeind s) -> In e (su_edgeind t) -> edge_is m e a b ->
    v <> 0 -> In v (su_voluind s) -> In v (su_voluind t) -> corners m s vs -> corners m t ws ->
    ((follows vs a b <-> follows ws a b) <-> ~ (first_side s v <-> first_side t v)).
(** All surfaces of the mesh are oriented alike. *)
Definition oriented (m : mesh) : Prop :=
  forall s t, In s (surfs m) -> In t (surfs m) -> su_index s <> su_index t -> alike m s t.
(** The mesh with the sides of the surfaces chosen by [g] exchanged. *)
Definition turn (s : surf) : surf := mkSurf (su_index s) (su_border s) (su_ordered s) (rev (su_voluind s)) (su_edgeind s).
Definition turned (g : Z -> bool) (m : mesh) : mesh :=
  mkMesh (volus m) (map (fun s => if g (su_index s) then turn s else s) (surfs m)) (edges m) (verts m) (meshDim m).
(** Two surfaces that share an edge and a cell. *)
Definition adjacent (s t : surf) : Prop :=
  su_index s <> su_index t /\ exists e v, In e (su_edgeind s) /\ In e (su_edgeind t) /\ v <> 0 /\ In v (su_voluind s) /\ In v (su_voluind t).
(** The test of the direction never contradicts the orientation [g]: a positive answer means
    that the cell is on the first side. *)
Definition truthful (m : mesh) (g : Z -> bool) (facing : Z -> Z -> Z) : Prop :=
  forall s c, In s (surfs m) -> c <> 0 -> In c (su_voluind s) ->
    let s' := if g (su_index s) then turn s else s in
    (0 < facing (su_index s) c -> first_side s' c) /\ (facing (su_index s) c < 0 -> ~ first_side s' c).
(** From every surface one whose direction is known can be reached through adjacent
    surfaces. *)
Definition decided (m : mesh) (facing : Z -> Z -> Z) : Prop :=
  forall s, In s (surfs m) -> exists t, In t (surfs m) /\
    reach (fun a b => In b (surfs m) /\ adjacent a b) s t /\
    forall c, c <> 0 -> In c (su_voluind t) -> facing (su_index t) c <> 0.
