(** Specification of the points from which the bodies are emptied (C113). *)
From Coq Require Import List ZArith QArith.
From Verif Require Import Base Mesh Num Snake Spawn.
Import ListNotations.
Set Implicit Arguments.
Open Scope Z_scope.

(** The vertex [x] of [m] is marked in [l], which is aligned with the vertices. *)
Definition flagged (m : mesh) (l : list bool) (x : Z) : Prop :=
  exists p v, nth_error (verts m) p = Some v /\ ve_index v = x /\ nth_error l p = Some true.
(** A vertex that can hold a hole: inside the snake and not near a snaxel. *)
Definition certain (m : mesh) (vin : list bool) (unc : list Z) (x : Z) : Prop := flagged m vin x /\ ~ In x unc.
(** [y] is an end of the edge stored at the position given by the index of an edge of [x]. *)
Definition reads (m : mesh) (x y : Z) : Prop :=
  exists v i e, In v (verts m) /\ ve_index v = x /\ In (Z.of_nat i) (ve_edgeind v) /\
    nth_error (edges m) i = Some e /\ In y (ed_vertind e).
(** [y] is an end of an edge of [x]. *)
Definition joins (m : mesh) (x y : Z) : Prop :=
  exists v e, In v (verts m) /\ ve_index v = x /\ In (ed_index e) (ve_edgeind v) /\
    In e (edges m) /\ In y (ed_vertind e).
(** [y] is [x] or is met from [x] by steps of [r] that leave only vertices inside the snake
    and near a snaxel. *)
Inductive reach (r : Z -> Z -> Prop) (m : mesh) (vin : list bool) (unc : list Z) : Z -> Z -> Prop :=
| reach_here x : reach r m vin unc x x
| reach_step x y z : flagged m vin x -> In x unc -> r x y -> reach r m vin unc y z -> reach r m vin unc x z.
(** The search finished around every vertex marked in [ex]. *)
Definition settled (m : mesh) (vin : list bool) (unc : list Z) (ex : list bool) : Prop :=
  forall y, flagged m ex y -> In y unc /\ forall z, reads m y z -> flagged m vin z -> flagged m ex z.
(** Around a vertex inside the snake and near a snaxel the reads stay in the arrays. *)
Definition readable (m : mesh) (vin : list bool) (unc : list Z) : Prop :=
  forall v, In v (verts m) -> flagged m vin (ve_index v) -> In (ve_index v) unc ->
  forall ei, In ei (ve_edgeind v) -> 0 <= ei /\
    exists e, nth_error (edges m) (Z.to_nat ei) = Some e /\ forall y, In y (ed_vertind e) -> exists w, In w (verts m) /\ ve_index w = y.
(** Distinct indices, none of them -1. *)
Definition indexed (m : mesh) : Prop := NoDup (map ve_index (verts m)) /\ forall v, In v (verts m) -> ve_index v <> -1.

Section Snake.
Variables (N : num) (k : snake N).
(** [x] is the vertex that a snaxel of the body [v] comes from. *)
Definition from_of (v : volu) (x : Z) : Prop :=
  exists s e sx, In s (surfs (k_conn k)) /\ In (su_index s) (vo_surfind v) /\
    In e (edges (k_conn k)) /\ In (ed_index e) (su_edgeind s) /\
    In sx (k_snaxs k) /\ In (sx_index sx) (ed_vertind e) /\ sx_from sx = x.
(** The references of the bodies lead somewhere; edges have two ends. *)
Definition resolved : Prop :=
  NoDup (map su_index (surfs (k_conn k))) /\ NoDup (map ed_index (edges (k_conn k))) /\
  NoDup (map (@sx_index N) (k_snaxs k)) /\
  (forall v i, In v (volus (k_conn k)) -> In i (vo_surfind v) -> In i (map su_index (surfs (k_conn k)))) /\
  (forall s i, In s (surfs (k_conn k)) -> In i (su_edgeind s) -> In i (map ed_index (edges (k_conn k)))) /\
  (forall e, In e (edges (k_conn k)) -> exists a b, ed_vertind e = [a; b] /\
     In a (map (@sx_index N) (k_snaxs k)) /\ In b (map (@sx_index N) (k_snaxs k))).
(** A hole for the body [v]: a vertex inside the snake that one of its snaxels comes from,
    or nothing if there is none. *)
Definition hole_of (m : mesh) (v : volu) (o : option Z) : Prop :=
  match o with
  | Some h => from_of v h /\ flagged m (k_in k) h
  | None => forall x, from_of v x -> ~ flagged m (k_in k) x
  end.
(** Every body has a face, and every face an edge. *)
Definition bounded : Prop :=
  (forall v, In v (volus (k_conn k)) -> vo_surfind v <> []) /\
  (forall s, In s (surfs (k_conn k)) -> su_edgeind s <> []).
End Snake.
(** The holes chosen for the bodies, in their order. *)
Fixpoint chosen (os : list (option Z)) : list Z :=
  match os with [] => [] | Some h :: r => h :: chosen r | None :: r => chosen r end.
