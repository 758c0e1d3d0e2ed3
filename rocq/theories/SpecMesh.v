(** Specifications used by the mesh connectivity theorems: who lists whom, and
    what a consistent mesh is.  Only the records of Mesh.v are used. *)
From Verif Require Import Base Mesh.
Set Implicit Arguments.
Open Scope Z_scope.

(** [lists idx get l i x]: an element of [l] with index [i] has [x] in the list
    [get]. *)
Definition lists {A} (idx : A -> Z) (get : A -> list Z) (l : list A) (i x : Z) : Prop :=
  exists a, In a l /\ idx a = i /\ In x (get a).
(** vertex v lists edge e, edge e lists vertex v, ... *)
Definition VE m v e := lists ve_index ve_edgeind (verts m) v e.
Definition EV m e v := lists ed_index ed_vertind (edges m) e v.
Definition ES m e s := lists ed_index ed_surfind (edges m) e s.
Definition SE m s e := lists su_index su_edgeind (surfs m) s e.
Definition SV m s v := lists su_index su_voluind (surfs m) s v.
Definition VS m v s := lists vo_index vo_surfind (volus m) v s.

Definition has_vert m i := exists v, In v (verts m) /\ ve_index v = i.
Definition has_edge m i := exists e, In e (edges m) /\ ed_index e = i.
Definition has_surf m i := exists s, In s (surfs m) /\ su_index s = i.
Definition has_volu m i := exists v, In v (volus m) /\ vo_index v = i.

(** No two objects of a kind share an index, and 0 is not an index. *)
Definition unique_indices m : Prop :=
  NoDup (map vo_index (volus m)) /\ NoDup (map su_index (surfs m)) /\
  NoDup (map ed_index (edges m)) /\ NoDup (map ve_index (verts m)) /\
  ~ has_volu m 0 /\ ~ has_surf m 0 /\ ~ has_edge m 0 /\ ~ has_vert m 0.

(** Every reference other than 0 is returned. *)
Definition mutual m : Prop :=
  (forall v e, VE m v e -> e <> 0 -> EV m e v) /\
  (forall v e, EV m e v -> v <> 0 -> VE m v e) /\
  (forall e s, ES m e s -> s <> 0 -> SE m s e) /\
  (forall e s, SE m s e -> e <> 0 -> ES m e s) /\
  (forall s v, SV m s v -> v <> 0 -> VS m v s) /\
  (forall s v, VS m v s -> s <> 0 -> SV m s v).

(** 0 stands for the exterior: it is only a side of a surface (or of an edge,
    in a mesh without volumes). *)
Definition exterior_only m : Prop :=
  (forall v, ~ VE m v 0) /\ (forall e, ~ EV m e 0) /\
  (forall s, ~ SE m s 0) /\ (forall v, ~ VS m v 0) /\
  (volus m <> [] -> forall e, ~ ES m e 0).

Definition well_connected m : Prop := unique_indices m /\ mutual m /\ exterior_only m.

(** A reference set in which [old] has become [new]. *)
Definition renamed (old new : Z) (P : Z -> Prop) (x : Z) : Prop :=
  (P x /\ x <> old) \/ (x = new /\ P old).

(** Same objects in the same order: indices and border flags. *)
Definition same_objects m m' : Prop :=
  map (fun v => (vo_index v, vo_border v)) (volus m') = map (fun v => (vo_index v, vo_border v)) (volus m) /\
  map (fun v => (su_index v, su_border v)) (surfs m') = map (fun v => (su_index v, su_border v)) (surfs m) /\
  map (fun v => (ed_index v, ed_border v)) (edges m') = map (fun v => (ed_index v, ed_border v)) (edges m) /\
  map (fun v => (ve_index v, ve_border v)) (verts m') = map (fun v => (ve_index v, ve_border v)) (verts m) /\
  meshDim m' = meshDim m.

(** All six reference relations are the same. *)
Definition same_refs m m' : Prop :=
  (forall i x, VE m' i x <-> VE m i x) /\ (forall i x, EV m' i x <-> EV m i x) /\
  (forall i x, ES m' i x <-> ES m i x) /\ (forall i x, SE m' i x <-> SE m i x) /\
  (forall i x, SV m' i x <-> SV m i x) /\ (forall i x, VS m' i x <-> VS m i x).

(** What TestConnectivity promises: every reference designates an object (0 is
    let through everywhere except in the edges of a surface), every vertex has
    an edge and every surface has an edge. *)
Definition references_known m : Prop :=
  (forall v e, VE m v e -> e = 0 \/ has_edge m e) /\
  (forall e v, EV m e v -> v = 0 \/ has_vert m v) /\
  (forall e s, ES m e s -> s = 0 \/ has_surf m s) /\
  (forall s e, SE m s e -> has_edge m e) /\
  (forall s v, SV m s v -> v = 0 \/ has_volu m v) /\
  (forall v s, VS m v s -> s = 0 \/ has_surf m s).
Definition no_empty m : Prop :=
  (forall v, In v (verts m) -> ve_edgeind v <> []) /\
  (forall s, In s (surfs m) -> su_edgeind s <> []).

(** One mesh is a renumbered copy of another: objects in the same order, every
    index and every non-zero reference shifted by a constant per kind. *)
Definition shifted (dvert dedge dsurf dvolu : Z) (m m' : mesh) : Prop :=
  let ref d x := if x =? 0 then 0 else x + d in
  map vo_index (volus m') = map (fun v => vo_index v + dvolu) (volus m) /\
  map vo_surfind (volus m') = map (fun v => map (ref dsurf) (vo_surfind v)) (volus m) /\
  map su_index (surfs m') = map (fun s => su_index s + dsurf) (surfs m) /\
  map su_voluind (surfs m') = map (fun s => map (ref dvolu) (su_voluind s)) (surfs m) /\
  map su_edgeind (surfs m') = map (fun s => map (ref dedge) (su_edgeind s)) (surfs m) /\
  map ed_index (edges m') = map (fun e => ed_index e + dedge) (edges m) /\
  map ed_surfind (edges m') = map (fun e => map (ref dsurf) (ed_surfind e)) (edges m) /\
  map ed_vertind (edges m') = map (fun e => map (ref dvert) (ed_vertind e)) (edges m) /\
  map ve_index (verts m') = map (fun v => ve_index v + dvert) (verts m) /\
  map ve_edgeind (verts m') = map (fun v => map (ref dedge) (ve_edgeind v)) (verts m).

(** Indices are positive and references are positive or 0. *)
Definition positive_indices m : Prop :=
  (forall i, has_volu m i \/ has_surf m i \/ has_edge m i \/ has_vert m i -> 0 < i) /\
  (forall i x, VE m i x \/ EV m i x \/ ES m i x \/ SE m i x \/ SV m i x \/ VS m i x -> 0 <= x).
