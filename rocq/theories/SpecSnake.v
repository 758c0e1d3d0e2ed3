(** Vocabulary for the properties of snakes. *)
From Verif Require Import Base Mesh Flood Num Snake.
Set Implicit Arguments.
Open Scope Q_scope.

Notation qsnax := (snax Qn).

(** Everything about a snaxel except its distance. *)
Definition same_but_d {N} (s s' : snax N) : Prop :=
  sx_index s' = sx_index s /\ sx_v s' = sx_v s /\ sx_from s' = sx_from s /\ sx_to s' = sx_to s /\
  sx_edge s' = sx_edge s /\ sx_freeze s' = sx_freeze s /\ sx_order s' = sx_order s.
Definition same_but_order {N} (s s' : snax N) : Prop :=
  sx_index s' = sx_index s /\ sx_d s' = sx_d s /\ sx_v s' = sx_v s /\ sx_from s' = sx_from s /\
  sx_to s' = sx_to s /\ sx_edge s' = sx_edge s /\ sx_freeze s' = sx_freeze s.

Definition in01 (x : Q) : Prop := 0 <= x /\ x <= 1.

(** The snaxel runs between the mesh vertices [a] and [b], in either direction. *)
Definition runs (a b : Z) {N} (s : snax N) : Prop :=
  (sx_from s = a /\ sx_to s = b) \/ (sx_from s = b /\ sx_to s = a).
(** Its position and velocity measured from [a] towards [b]. *)
Definition pos_is (a b : Z) (s : qsnax) (x : Q) : Prop :=
  (sx_from s = a /\ sx_to s = b /\ x == sx_d s) \/ (sx_from s = b /\ sx_to s = a /\ x == 1 - sx_d s).
Definition vel_is (a b : Z) (s : qsnax) (x : Q) : Prop :=
  (sx_from s = a /\ sx_to s = b /\ x == sx_v s) \/ (sx_from s = b /\ sx_to s = a /\ x == - sx_v s).

(** [rng e] lists, in some order, the positions of the snaxels on edge [e]. *)
Definition legal_rng {N} (l : list (snax N)) (rng : Z -> list Z) : Prop :=
  forall e, NoDup (rng e) /\
    forall p, In p (rng e) <-> (0 <= p)%Z /\ exists s, nth_error l (Z.to_nat p) = Some s /\ sx_edge s = e.

(** All snaxels of a mesh edge run between the same two vertices. *)
Definition edges_agree (ends : Z -> Z * Z) {N} (l : list (snax N)) : Prop :=
  forall s, In s l -> (fst (ends (sx_edge s)) < snd (ends (sx_edge s)))%Z /\
                      runs (fst (ends (sx_edge s))) (snd (ends (sx_edge s))) s.

(** Mesh vertices that can be reached from the origin of some snaxel along edges
    that carry no snaxel. *)
Inductive enclosed (m : mesh) {N} (l : list (snax N)) : Z -> Prop :=
| enc_origin s : In s l -> enclosed m l (sx_from s)
| enc_edge e v w : enclosed m l v -> In e (edges m) ->
    (forall s, In s l -> sx_edge s <> ed_index e) ->
    (ed_vertind e = [v; w] \/ ed_vertind e = [w; v]) -> enclosed m l w.

(** DBL_EPSILON *)
Definition eps : Q := 1 # 4503599627370496.
(** The snaxel is at its origin and does not leave it; it is at its destination
    and does not leave it. *)
Definition at_start (s : qsnax) : Prop := Qabs (sx_d s) < eps /\ sx_v s <= 0.
Definition at_end (s : qsnax) : Prop := Qabs (sx_d s - 1) < eps /\ 0 <= sx_v s.
(** Two snaxels between [a] and [b] are at the same place, or will be (or were)
    within a negligible time. *)
Definition meets (a b : Z) (s t : qsnax) : Prop :=
  exists x y u v, pos_is a b s x /\ pos_is a b t y /\ vel_is a b s u /\ vel_is a b t v /\
    (Qabs (y - x) < eps \/ (eps <= Qabs (v - u) /\ Qabs (y - x) < eps * Qabs (v - u))).
Definition siblings {N} (l : list (snax N)) (s : snax N) : list (snax N) :=
  filter (fun t => sx_edge t =? sx_edge s)%Z l.

(** Position measured from the lower-numbered end. *)
Definition low (s : qsnax) : Q := if (sx_to s <? sx_from s)%Z then 1 - sx_d s else sx_d s.
(** How many snaxels of the same edge come before it. *)
Definition before (l : list qsnax) (s : qsnax) : nat :=
  length (filter (fun t => match low t ?= low s with Lt => true | _ => false end) (siblings l s)).
(** [choose] picks one of the entries it is given. *)
Definition legal_choose (choose : list Z -> Z) : Prop := forall l, l <> [] -> In (choose l) l.
(** A snaxel that has not been given an order yet, at the lower-numbered or the
    higher-numbered end of its edge. *)
Definition fresh {N} (s : snax N) : Prop := sx_order s = (-1)%Z.
Definition fresh_low (s : qsnax) : Prop := fresh s /\ low s == 0.
Definition fresh_high (s : qsnax) : Prop := fresh s /\ low s == 1.
(** On every edge the orders are positive, differ, and agree with the positions. *)
Definition well_ordered (l : list qsnax) : Prop :=
  forall i j s t, nth_error l i = Some s -> nth_error l j = Some t -> i <> j -> sx_edge s = sx_edge t ->
    (1 <= sx_order s)%Z /\ sx_order s <> sx_order t /\ ((sx_order s < sx_order t)%Z -> low s <= low t).
(** ... and are no larger than the number of snaxels on the edge. *)
Definition orders_full (l : list qsnax) : Prop :=
  forall s, In s l -> (1 <= sx_order s <= Z.of_nat (length (siblings l s)))%Z.
(** The snaxels that already have an order. *)
Definition settled {N} (l : list (snax N)) : list (snax N) := filter (fun s => negb (sx_order s =? -1)%Z) l.
(** Every snaxel starts at a vertex of the mesh, on an edge of that vertex. *)
Definition on_mesh (m : mesh) {N} (l : list (snax N)) : Prop :=
  forall s, In s l -> exists v, In v (verts m) /\ ve_index v = sx_from s /\ In (sx_edge s) (ve_edgeind v).
(** Two snaxels that differ at most in velocity. *)
Definition same_but_v {N} (s s' : snax N) : Prop :=
  sx_index s' = sx_index s /\ sx_d s' = sx_d s /\ sx_from s' = sx_from s /\ sx_to s' = sx_to s /\
  sx_edge s' = sx_edge s /\ sx_freeze s' = sx_freeze s /\ sx_order s' = sx_order s.
(** A history of a snake between changes of topology: velocities are set at will,
    the snake is moved by one of the two overloads with any limits, or flipped. *)
Inductive evolves : list qsnax -> list qsnax -> Prop :=
| ev_refl l : evolves l l
| ev_velocity l l1 l2 : evolves l l1 -> Forall2 same_but_v l1 l2 -> evolves l l2
| ev_move l l1 l2 es limits scaled maxD dt : evolves l l1 ->
    @update_distance Qn es limits scaled maxD dt l1 = Ok l2 -> evolves l l2
| ev_move1 l l1 l2 es limits scaled maxD dt : evolves l l1 ->
    @update_distance1 Qn es limits scaled maxD dt l1 = Ok l2 -> evolves l l2
| ev_flip l l1 b : evolves l l1 -> evolves l (fst (@flip Qn (l1, b))).
(** The hash table read in the order of insertion, for concrete examples. *)
Definition rng_of {N} (l : list (snax N)) (e : Z) : list Z :=
  map snd (filter (fun sp => sx_edge (fst sp) =? e)%Z (combine l (upto (length l) 0))).
(** The plain reading of the merging rule. *)
Definition inside (flags : list bool) (flipped : bool) (i : nat) : Prop :=
  exists b, nth_error flags i = Some b /\ xorb b flipped = true.
