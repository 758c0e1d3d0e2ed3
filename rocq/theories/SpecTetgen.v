(** Specifications for C103 to C107: meshes exchanged with tetgen. *)
From Verif Require Import Base Mesh SpecMesh SpecOrder Tetgen.
Import Mesh.
Set Implicit Arguments.
Open Scope Z_scope.

(** Element [i] (from 1) of a table with [n] entries for each element has entry [x]; tetgen
    numbers things from [first]. *)
Definition entry (first : Z) (l : list Z) (n : Z) (i x : Z) : Prop :=
  exists j, 0 <= j < n /\ 1 <= i /\ nth_error l (Z.to_nat ((i - 1) * n + j)) = Some (x - 1 + first).
(** A table of [count] elements with [n] entries each, all numbers of one of [max] things. *)
Definition table (first : Z) (l : list Z) (count n : nat) (max : nat) : Prop :=
  (count * n <= length l)%nat /\
  forall p x, (p < count * n)%nat -> nth_error l p = Some x -> first <= x < first + Z.of_nat max.
(** What tetgen returns. *)
Definition legal {REAL} (t : tetout REAL) (t2f : list Z) : Prop :=
  (firstnumber t = 0 \/ firstnumber t = 1) /\ tet2facelist t = Some t2f /\
  (numberofpoints t * 3 <= length (pointlist t))%nat /\
  table (firstnumber t) (edgelist t) (numberofedges t) 2 (numberofpoints t) /\
  table (firstnumber t) (face2edgelist t) (numberoftrifaces t) 3 (numberofedges t) /\
  table (firstnumber t) t2f (numberoftetrahedra t) 4 (numberoftrifaces t).
Definition numbered_from_1 {A} (idx : A -> Z) (l : list A) (n : nat) : Prop := map idx l = map Z.of_nat (seq 1 n).
(** Exactly one entry of the first [count] is [x]. *)
Definition once (l : list Z) (count : nat) (x : Z) : Prop :=
  exists p, (p < count)%nat /\ nth_error l p = Some x /\ forall q, (q < count)%nat -> nth_error l q = Some x -> q = p.

(** ** C103 *)
(** [cs] is [l] cut into [count] pieces of [n]. *)
Definition pieces {X} (n : nat) (l : list X) (count : nat) (cs : list (list X)) : Prop :=
  length cs = count /\ forall i c, nth_error cs i = Some c -> length c = n /\ forall j, (j < n)%nat -> nth_error c j = nth_error l (i * n + j).
(** The mesh has the things tetgen returned, numbered from 1, and exactly their connections;
    a face that occurs in one tetrahedron only has the exterior as other side. *)
Definition connected_as {REAL} (t : tetout REAL) (t2f : list Z) (m : mesh) : Prop :=
  let first := firstnumber t in
  numbered_from_1 vo_index (volus m) (numberoftetrahedra t) /\ numbered_from_1 su_index (surfs m) (numberoftrifaces t) /\
  numbered_from_1 ed_index (edges m) (numberofedges t) /\ numbered_from_1 ve_index (verts m) (numberofpoints t) /\
  (forall e, In e (edges m) -> exists a b, ed_vertind e = [a; b] /\
     nth_error (edgelist t) (Z.to_nat ((ed_index e - 1) * 2)) = Some (a - 1 + first) /\
     nth_error (edgelist t) (Z.to_nat ((ed_index e - 1) * 2 + 1)) = Some (b - 1 + first)) /\
  (forall s e, SE m s e <-> 1 <= s <= Z.of_nat (numberoftrifaces t) /\ entry first (face2edgelist t) 3 s e) /\
  (forall w s, VS m w s <-> 1 <= w <= Z.of_nat (numberoftetrahedra t) /\ entry first t2f 4 w s) /\
  (forall s, SV m s 0 <-> 1 <= s <= Z.of_nat (numberoftrifaces t) /\ once t2f (numberoftetrahedra t * 4) (s - 1 + first)).

(** ** C104 *)
(** Every surface is listed as a closed polygon of three edges or more. *)
Definition outlined (m : mesh) : Prop :=
  forall s, In s (surfs m) -> (3 <= length (su_edgeind s))%nat /\ exists vs, NoDup vs /\ polygon (edge_joins m) (su_edgeind s) vs.
(** [f] lists the corners of [s], in order, as positions among the vertices, from [offset]. *)
Definition facet_of (m : mesh) (offset : nat) (s : surf) (f : list Z) : Prop :=
  exists vs, polygon (edge_joins m) (su_edgeind s) vs /\
    Forall2 (fun p v => exists q a, p = Z.of_nat (q + offset) /\ nth_error (verts m) q = Some a /\ ve_index a = v) f vs.
Definition with_coords (m : mesh) {REAL} (c : list (list REAL)) : Prop :=
  length c = length (verts m) /\ forall p, In p c -> length p = 3%nat.

(** ** C105 *)
(** Everything but the metrics of the points is the same. *)
Definition same_but_metrics {REAL} (s s' : tetin REAL) : Prop :=
  in_npoints s' = in_npoints s /\ in_nfacets s' = in_nfacets s /\ in_nmtrs s' = in_nmtrs s /\ in_points s' = in_points s /\
  in_pmarkers s' = in_pmarkers s /\ in_facets s' = in_facets s /\ in_fmarkers s' = in_fmarkers s /\ in_constraints s' = in_constraints s.
(** Metric [j] of point [p]. *)
Definition metric {REAL} (s : tetin REAL) (p j : nat) : option (option REAL) :=
  if (Z.of_nat j <? in_nmtrs s) then nth_error (in_mtrs s) (p * Z.to_nat (in_nmtrs s) + j) else None.
Definition whole {REAL} (s : tetin REAL) : Prop :=
  0 <= in_npoints s /\ 0 <= in_nmtrs s /\ length (in_mtrs s) = (Z.to_nat (in_npoints s) * Z.to_nat (in_nmtrs s))%nat.

(** ** C107 *)
Definition su2_legal {REAL} (t : tetout REAL) : Prop :=
  (firstnumber t = 0 \/ firstnumber t = 1) /\ (numberofpoints t * 3 <= length (pointlist t))%nat /\
  4 <= numberofcorners t /\ Z.of_nat (numberoftetrahedra t) * numberofcorners t <= Z.of_nat (length (tetrahedronlist t)) /\
  (numberoftrifaces t * 3 <= length (trifacelist t))%nat /\ (numberoftrifaces t <= length (trifacemarkerlist t))%nat.
(** [n] entries of a table from [start], numbered from 0. *)
Definition from_0 (first : Z) (l : list Z) (start n : nat) : list Z := map (fun x => x - first) (firstn n (skipn start l)).
(** The faces with a marker, in order. *)
Definition faces_with {REAL} (t : tetout REAL) (d : Z) : list (list Z) :=
  map (fun i => from_0 (firstnumber t) (trifacelist t) (i * 3) 3)
    (filter (fun i => nth i (trifacemarkerlist t) 0 =? d) (seq 0 (numberoftrifaces t))).
Definition marks {REAL} (t : tetout REAL) : list Z := firstn (numberoftrifaces t) (trifacemarkerlist t).
