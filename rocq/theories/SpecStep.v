(** Specifications for C101 and C102: limits on the steps of snaxels. *)
From Verif Require Import Base Mesh SpecMesh Num Snake SpecSnake.
Set Implicit Arguments.
Open Scope Z_scope.

(** [len] has the length of each edge of [m]. *)
Definition edge_length (m : mesh) (len : list Q) (e : Z) (x : Q) : Prop :=
  exists q a, nth_error (edges m) q = Some a /\ ed_index a = e /\ nth_error len q = Some x.
(** The edge is on a cell whose parent in parent mesh number [fst k] is cell [snd k]. *)
Definition shares (m : mesh) (parents : list (list Z * list Z)) (e : Z) (k : nat * Z) : Prop :=
  exists cells conn p v s, nth_error parents (fst k) = Some (cells, conn) /\ In (snd k) cells /\
    nth_error conn p = Some (snd k) /\ nth_error (volus m) p = Some v /\ In s (vo_surfind v) /\ SE m s e.
(** The shortest edge of the cells in a parent cell. *)
Definition shortest (m : mesh) (len : list Q) (parents : list (list Z * list Z)) (k : nat * Z) (x : Q) : Prop :=
  (exists e, shares m parents e k /\ edge_length m len e x) /\
  forall e y, shares m parents e k -> edge_length m len e y -> (x <= y)%Q.
Definition qsum (l : list Q) : Q := fold_right Qplus 0%Q l.
Definition count {A} (l : list A) : Q := inject_Z (Z.of_nat (length l)).
(** The shortest edge at a vertex. *)
Definition shortest_at (m : mesh) (len : list Q) (v : Z) (x : Q) : Prop :=
  (exists e, VE m v e /\ edge_length m len e x) /\ forall e y, VE m v e -> edge_length m len e y -> (x <= y)%Q.
(** A new snaxel has left the vertex it was at by [step] times the shortest edge there, and
    has not reached the middle of its edge; the others have not moved. *)
Definition stepped (m : mesh) (len : list Q) (step : Q) (minIndex : Z) (s s' : qsnax) : Prop :=
  same_but_d s s' /\ (sx_index s <= minIndex -> s' = s) /\
  (minIndex < sx_index s -> exists x y, edge_length m len (sx_edge s) y /\
      shortest_at m len (if Qeq_bool (sx_d s) 0 then sx_from s else sx_to s) x /\
      (sx_d s == 0 -> sx_d s' * y == step * x /\ 0 < sx_d s' < 1 # 2)%Q /\
      (sx_d s == 1 -> (1 - sx_d s') * y == step * x /\ 1 # 2 < sx_d s' < 1)%Q).
