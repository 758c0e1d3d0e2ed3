(** Specifications for border flags and flood fills. *)
From Verif Require Import Base Mesh SpecMesh.
Set Implicit Arguments.
Open Scope Z_scope.

(** The element with index [i] sits at a position where the vector holds [x]. *)
Definition label {A} (idx : A -> Z) (l : list A) (block : list Z) (i x : Z) : Prop :=
  exists p a, nth_error l p = Some a /\ idx a = i /\ nth_error block p = Some x.

(** A path of free objects, each adjacent to the next. *)
Inductive joined (free : Z -> Prop) (adj : Z -> Z -> Prop) : Z -> Z -> Prop :=
| joined_refl u : free u -> joined free adj u u
| joined_step u v w : joined free adj u v -> adj v w -> free w -> joined free adj u w.

(** Not given a non-zero label beforehand. *)
Definition free_elem {A} (idx : A -> Z) (l : list A) (block0 : list Z) (i : Z) : Prop :=
  (exists a, In a l /\ idx a = i) /\ ~ (exists x, x <> 0 /\ label idx l block0 i x).

Definition share_edge m u v := exists e, EV m e u /\ EV m e v.
(** Two volumes on the two sides of a surface that does not stop the fill. *)
Definition share_surface m (stops : Z -> Prop) u v :=
  exists s, ~ stops s /\ SV m s u /\ SV m s v.
Definition stopping m (bound : list bool) s :=
  exists p a, nth_error (surfs m) p = Some a /\ su_index a = s /\ nth_error bound p = Some true.

(** What a labelling by connected components is. *)
Definition component_labels {A} (idx : A -> Z) (l : list A) (adj : Z -> Z -> Prop)
    (block0 : list Z) (n : Z) (block : list Z) : Prop :=
  let free := free_elem idx l block0 in
  length block = length l /\
  (* labels given by the caller stay *)
  (forall i x, x <> 0 -> label idx l block0 i x -> label idx l block i x) /\
  (* every other element gets a label in 1..n, and all of these are used *)
  (forall i, free i -> exists x, label idx l block i x /\ 1 <= x <= n) /\
  (forall x, 1 <= x <= n -> exists i, free i /\ label idx l block i x) /\
  (* equal labels exactly for connected elements *)
  (forall i j, free i -> free j ->
     ((exists x, label idx l block i x /\ label idx l block j x) <-> joined free adj i j)).

(** Border flags by index. *)
Definition flagged {A} (idx : A -> Z) (bd : A -> bool) (l : list A) (i : Z) : Prop :=
  exists a, In a l /\ idx a = i /\ bd a = true.
Definition border_volu m := flagged vo_index vo_border (volus m).
Definition border_surf m := flagged su_index su_border (surfs m).
Definition border_edge m := flagged ed_index ed_border (edges m).
Definition border_vert m := flagged ve_index ve_border (verts m).

(** Equal except for border flags. *)
Definition same_but_borders m m' : Prop :=
  map (vo_set_border false) (volus m') = map (vo_set_border false) (volus m) /\
  map (su_set_border false) (surfs m') = map (su_set_border false) (surfs m) /\
  map (ed_set_border false) (edges m') = map (ed_set_border false) (edges m) /\
  map (ve_set_border false) (verts m') = map (ve_set_border false) (verts m) /\
  meshDim m' = meshDim m.

(** The vertices of a surface. *)
Definition on_surface m s v : Prop := exists e, SE m s e /\ EV m e v.
