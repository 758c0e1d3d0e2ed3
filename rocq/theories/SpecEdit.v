(** Specifications for mesh editing and searching. *)
From Verif Require Import Base Mesh SpecMesh SpecOrder.
Set Implicit Arguments.
Open Scope Z_scope.

(** ** Renumbering *)
(** [m'] is [m] with its objects rearranged and every index and reference mapped:
    [fn] on vertices, [fe] on edges, [fs] on surfaces, [fv] on volumes. *)
Definition relabelled (fn fe fs fv : Z -> Z) (m m' : mesh) : Prop :=
  Permutation (verts m') (map (fun v => mkVert (fn (ve_index v)) (ve_border v) (map fe (ve_edgeind v))) (verts m)) /\
  Permutation (edges m') (map (fun e => mkEdge (fe (ed_index e)) (ed_border e) (map fs (ed_surfind e)) (map fn (ed_vertind e))) (edges m)) /\
  Permutation (surfs m') (map (fun s => mkSurf (fs (su_index s)) (su_border s) (su_ordered s) (map fv (su_voluind s)) (map fe (su_edgeind s))) (surfs m)) /\
  Permutation (volus m') (map (fun v => mkVolu (fv (vo_index v)) (vo_border v) (map fs (vo_surfind v))) (volus m)) /\
  meshDim m' = meshDim m.
(** A mapping that keeps 0 and numbers [n] objects 1 to [n], one to one. *)
Definition numbering (f : Z -> Z) (has : Z -> Prop) (n : nat) : Prop :=
  f 0 = 0 /\ (forall i, has i -> 1 <= f i <= Z.of_nat n) /\
  (forall i j, has i -> has j -> f i = f j -> i = j).
(** Object number [k] of each array has index [k]. *)
Definition numbered (l : list Z) : Prop := forall j i, nth_error l j = Some i -> i = Z.of_nat j + 1.

(** ** Cropping *)
(** The indices given exist; 0 may be given for the exterior volume. *)
Definition crop_target m (t i : Z) : Prop :=
  (t = 1 /\ has_vert m i) \/ (t = 2 /\ has_edge m i) \/ (t = 3 /\ has_surf m i) \/ (t = 4 /\ (i = 0 \/ has_volu m i)).
(** Which objects are asked for, directly and through those above them. *)
Definition above {A B} (P : A -> Prop) (R : A -> B -> Prop) (b : B) : Prop := exists a, P a /\ R a b.
Definition plan_vert (t : Z) (L : list Z) (n : Z) : Prop := t = 1 /\ In n L.
Definition plan_edge m (t : Z) (L : list Z) (e : Z) : Prop :=
  (t = 2 /\ In e L) \/ above (plan_vert t L) (VE m) e.
Definition plan_surf m t L (s : Z) : Prop := (t = 3 /\ In s L) \/ above (plan_edge m t L) (ES m) s.
Definition plan_volu m t L (v : Z) : Prop := (t = 4 /\ In v L) \/ above (plan_surf m t L) (SV m) v.
(** What is left: objects not asked for that still hold something. *)
Definition cropped m t L m' : Prop :=
  (forall v, has_volu m' v <-> has_volu m v /\ ~ plan_volu m t L v) /\
  (forall s, has_surf m' s <-> has_surf m s /\ ~ plan_surf m t L s /\ exists v, SV m s v) /\
  (forall e, has_edge m' e <-> has_edge m e /\ ~ plan_edge m t L e /\ exists s, ES m e s /\ (s = 0 \/ has_surf m' s)) /\
  (forall n, has_vert m' n <-> has_vert m n /\ ~ plan_vert t L n /\ exists e, VE m n e /\ has_edge m' e).
(** The references left are the old ones between objects left. *)
Definition restricted m m' : Prop :=
  (forall n e, VE m' n e <-> VE m n e /\ has_vert m' n /\ has_edge m' e) /\
  (forall e n, EV m' e n <-> EV m e n /\ has_vert m' n /\ has_edge m' e) /\
  (forall e s, s <> 0 -> (ES m' e s <-> ES m e s /\ has_edge m' e /\ has_surf m' s)) /\
  (forall e, ES m' e 0 <-> ES m e 0 /\ has_edge m' e) /\
  (forall s e, SE m' s e <-> SE m s e /\ has_edge m' e /\ has_surf m' s) /\
  (forall s v, v <> 0 -> (SV m' s v <-> SV m s v /\ has_surf m' s /\ has_volu m' v)) /\
  (forall v s, VS m' v s <-> VS m v s /\ has_surf m' s /\ has_volu m' v).
(** Nothing for RemoveSingularConnectors to do. *)
Definition not_singular m : Prop :=
  (forall e, In e (edges m) -> exists a b r, ed_vertind e = a :: b :: r /\ a <> b) /\
  (forall s, In s (surfs m) -> (3 <= length (su_edgeind s))%nat) /\
  (forall v, In v (volus m) -> (4 <= length (vo_surfind v))%nat).

(** ** Cycles *)
(** In the cycle [l] the entry [q] comes right after the entry [p]. *)
Definition follows (l : list Z) (p q : Z) : Prop :=
  exists i, nth_error l i = Some p /\ nth_error (tl l ++ firstn 1 l) i = Some q.

(** ** Searching *)
(** A surface used by both edges. *)
Definition common_surf m e1 e2 s : Prop := ES m e1 s /\ ES m e2 s.

(** ** Vertices next to the border *)
(** Reached from an object on the border whose parent value passes the test. *)
Definition border_volu m (test : Z -> Prop) v : Prop :=
  exists x, In x (volus m) /\ vo_index x = v /\ vo_border x = true /\ test v.
Definition border_surf m (test : Z -> Prop) s : Prop :=
  exists x, In x (surfs m) /\ su_index x = s /\ su_border x = true /\ test s.
Definition inner_vert m n : Prop := exists x, In x (verts m) /\ ve_index x = n /\ ve_border x = false.
Definition inner_surf m s : Prop := exists x, In x (surfs m) /\ su_index x = s /\ su_border x = false.
