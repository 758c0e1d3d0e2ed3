(** What coarsening a mesh means.  Only the reference relations of SpecMesh.v
    are used. *)
From Coq Require Import Reals.
From Verif Require Import Base Mesh SpecMesh Geom.
Set Implicit Arguments.
Open Scope Z_scope.

(** [f] sends every cell to the representative of its group: a cell, itself its
    own representative; the exterior stays the exterior. *)
Definition grouping (cell : Z -> Prop) (f : Z -> Z) : Prop :=
  f 0 = 0 /\ forall c, cell c -> cell (f c) /\ f (f c) = f c.

(** The object has a side and all its sides are in one group. *)
Definition inner (f : Z -> Z) (side : Z -> Prop) : Prop :=
  exists y, (exists x, side x) /\ forall x, side x -> f x = y.

(** [m'] is [m] with each group of surfaces made one surface. *)
Definition coarsened2 (f : Z -> Z) (m m' : mesh) : Prop :=
  (forall s, has_surf m' s <-> has_surf m s /\ f s = s) /\
  (forall e, has_edge m' e <-> has_edge m e /\ ~ inner f (ES m e)) /\
  (forall v, has_vert m' v <-> exists e, has_edge m' e /\ EV m e v) /\
  (forall e s, ES m' e s <-> has_edge m' e /\ exists z, ES m e z /\ s = f z) /\
  (forall e v, EV m' e v <-> has_edge m' e /\ EV m e v) /\
  volus m' = [] /\ meshDim m' = meshDim m /\ well_connected m'.

(** [m'] is [m] with each group of volumes made one volume. *)
Definition coarsened3 (f : Z -> Z) (m m' : mesh) : Prop :=
  (forall v, has_volu m' v <-> has_volu m v /\ f v = v) /\
  (forall s, has_surf m' s <-> has_surf m s /\ ~ inner f (SV m s)) /\
  (forall e, has_edge m' e <-> exists s, has_surf m' s /\ SE m s e) /\
  (forall v, has_vert m' v <-> exists e, has_edge m' e /\ EV m e v) /\
  (forall s v, SV m' s v <-> has_surf m' s /\ exists z, SV m s z /\ v = f z) /\
  (forall s e, SE m' s e <-> has_surf m' s /\ SE m s e) /\
  (forall e v, EV m' e v <-> has_edge m' e /\ EV m e v) /\
  meshDim m' = meshDim m /\ well_connected m'.

(** ** Boxes *)
Open Scope R_scope.
(** Coordinate [j] of vertex [v]. *)
Definition coordinate (g : gmesh) (j : nat) (v : Z) : R :=
  match coord_of g v with Ok p => nth j p 0 | _ => 0 end.
(** [lo] and [hi] are the least and greatest coordinates [j] of the mesh. *)
Definition extent (g : gmesh) (j : nat) (lo hi : R) : Prop :=
  (exists v, has_vert (gtopo g) v /\ coordinate g j v = lo) /\
  (exists v, has_vert (gtopo g) v /\ coordinate g j v = hi) /\
  forall v, has_vert (gtopo g) v -> lo <= coordinate g j v <= hi.
(** [x] is the mean of coordinate [j] over the vertices of a cell. *)
Definition mean_coordinate (g : gmesh) (belongs : Z -> Prop) (j : nat) (x : R) : Prop :=
  exists vs, NoDup vs /\ vs <> [] /\ (forall v, In v vs <-> belongs v) /\
    x = fold_right Rplus 0 (map (coordinate g j) vs) / INR (length vs).
(** [x] lies in interval [k] when [lo, hi] is cut in [d] equal parts; the last
    interval is closed. *)
Definition in_part (lo hi : R) (d k : Z) (x : R) : Prop :=
  (0 <= k < d)%Z /\ lo + IZR k * ((hi - lo) / IZR d) <= x /\
  (x < lo + IZR (k + 1) * ((hi - lo) / IZR d) \/ k = (d - 1)%Z /\ x <= hi).
(** The box of a cell in a split of the mesh in d0 x d1 x d2 boxes. *)
Definition in_box (g : gmesh) (belongs : Z -> Prop) (dims box : Z * Z * Z) : Prop :=
  let '(d0, d1, d2) := dims in
  let '(k0, k1, k2) := box in
  forall j d k, (j, d, k) = (0%nat, d0, k0) \/ (j, d, k) = (1%nat, d1, k1) \/ (j, d, k) = (2%nat, d2, k2) ->
    exists lo hi x, extent g j lo hi /\ mean_coordinate g belongs j x /\ in_part lo hi d k x.
(** The vertices of a surface and of a volume. *)
Definition surf_has (m : mesh) (s v : Z) : Prop := exists e, SE m s e /\ EV m e v.
Definition volu_has (m : mesh) (c v : Z) : Prop := exists s, VS m c s /\ surf_has m s v.
Open Scope Z_scope.
