(** Vocabulary for the statements about the assembly of the optimisation problem:
    where the points of the triangles are when the snaxels are at given fractions of
    their edges, and the volumes and areas that follow. *)
From Coq Require Import Reals List ZArith.
From Verif Require Import Base RsvsMath SpecRsvs SpecCentre Calc.
Set Implicit Arguments.
Open Scope R_scope.

(** The element of index [k], or [d]. *)
Definition assoc {A} (d : A) (k : Z) (l : list (Z * A)) : A :=
  match List.find (fun p => Z.eqb (fst p) k) l with Some p => snd p | None => d end.
Definition origin : vec := fun _ => 0.
Definition mesh_at (e : tri_env) (i : Z) : vec := assoc origin i (mesh_verts e).
Definition snax_of (e : tri_env) (i : Z) : snaxel :=
  match List.find (fun x => Z.eqb (x_index x) i) (snaxs e) with Some x => x | None => mkSnaxel 0 0 0 false 0 end.
(** The edge of a snaxel: where it starts and where it ends. *)
Definition start_of (e : tri_env) (i : Z) : vec := mesh_at e (x_from (snax_of e i)).
Definition end_of (e : tri_env) (i : Z) : vec := mesh_at e (x_to (snax_of e i)).
(** A corner of a surface, when snaxel [i] is at fraction [d i] of its edge. *)
Definition corner_at (e : tri_env) (d : Z -> R) (q : Z * Z) : vec :=
  if Z.eqb (fst q) t_mesh then mesh_at e (snd q) else along (start_of e (snd q)) (end_of e (snd q)) (d (snd q)).
(** The corners of the surface an added point is the centre of. *)
Definition corners_of (e : tri_env) (tp : tripoint) : list (Z * Z) :=
  if Z.eqb (tp_ptype tp) t_tri then assoc [] (tp_parent tp) (trisurf e)
  else map (fun i => (t_snake, i)) (assoc [] (tp_parent tp) (snake_surfs e)).
Definition polygon (e : tri_env) (d : Z -> R) (l : list (Z * Z)) : nat -> vec :=
  fun j => corner_at e d (nth j l (t_mesh, 0%Z)).
Definition tripoint_of (e : tri_env) (i : Z) : tripoint := assoc (mkTp origin 0 0) i (trivert e).
(** Is it the centre of a surface that moves with the snake? *)
Definition moving (tp : tripoint) : bool := orb (Z.eqb (tp_ptype tp) t_tri) (Z.eqb (tp_ptype tp) t_snake).
(** A point of a triangle. *)
Definition place (e : tri_env) (d : Z -> R) (p : Z * Z) : vec :=
  if Z.eqb (fst p) t_tri then
    let tp := tripoint_of e (snd p) in
    if moving tp then wire_centre (length (corners_of e tp)) (polygon e d (corners_of e tp)) else tp_coord tp
  else corner_at e d p.
Definition nth_pt (t : triangle) (j : nat) : Z * Z := nth j (tri_pts t) (t_mesh, 0%Z).

(** Volume of the tetrahedron over a triangle, and area of the triangle with the square
    of its double shifted by [eps]. *)
Definition tri_volume (e : tri_env) (d : Z -> R) (t : triangle) : R :=
  signed_volume (place e d (nth_pt t 0)) (place e d (nth_pt t 1)) (place e d (nth_pt t 2)).
Definition tri_area (eps : R) (e : tri_env) (d : Z -> R) (t : triangle) : R :=
  shifted_area eps (place e d (nth_pt t 0)) (place e d (nth_pt t 1)) (place e d (nth_pt t 2)).
Definition total {A} (f : A -> R) (l : list A) : R := fold_right Rplus 0 (map f l).
(** How often cell [z] counts for constraint [k]. *)
Definition times (m : list (Z * Z)) (z : Z) (k : nat) : R :=
  total (fun p => if andb (Z.eqb (fst p) z) (Z.eqb (snd p) (Z.of_nat k)) then 1 else 0) m.
(** The factor of a triangle in constraint [k]. *)
Definition weight (m : list (Z * Z)) (t : triangle) (k : nat) : R :=
  total (fun ci => snd ci * times m (fst ci) k) (combine (celltarg t) (influence t)).
(** The triangles that count: those of the snake, those between the snake and the mesh,
    and the chosen ones of the mesh. *)
Definition chosen (e : tri_env) (t : triangle) : Prop := In t (stattri e) /\ In (tri_index t) (acttri e).
Definition static_tri (e : tri_env) (i : Z) : triangle :=
  match List.find (fun t => Z.eqb (tri_index t) i) (stattri e) with Some t => t | None => mkTri 0 [] [] [] end.
Definition all_tris (e : tri_env) : list triangle := dynatri e ++ intertri e ++ map (static_tri e) (acttri e).
(** Constraint [k] and the objective, when the snaxels are at [d]. *)
Definition cell_volume (e : tri_env) (m : list (Z * Z)) (k : nat) (d : Z -> R) : R :=
  total (fun t => weight m t k * tri_volume e d t) (all_tris e).
Definition snake_area (eps : R) (e : tri_env) (d : Z -> R) : R := total (tri_area eps e d) (dynatri e).

(** The coordinates stored in [e] are those of snaxels at [d]. *)
Definition same3 (a b : vec) : Prop := forall k, (k < 3)%nat -> a k = b k.
Definition placed (e : tri_env) (d : Z -> R) : Prop :=
  (forall i v, In (i, v) (snake_verts e) -> same3 v (along (start_of e i) (end_of e i) (d i))) /\
  (forall i tp, In (i, tp) (trivert e) -> same3 (tp_coord tp) (place e d (t_tri, i))).
(** [d] with snaxel [i] at [t]. *)
Definition slide (d : Z -> R) (i : Z) (t : R) : Z -> R := fun j => if Z.eqb j i then t else d j.
(** [x] is the derivative of [f] at [d] when snaxel [i] moves. *)
Definition rate (f : (Z -> R) -> R) (d : Z -> R) (i : Z) (x : R) : Prop :=
  derivable_pt_lim (fun t => f (slide d i t)) (d i) x.
(** [x] is the derivative, when snaxel [j] moves, of the derivative when snaxel [i] moves. *)
Definition rate2 (f : (Z -> R) -> R) (d : Z -> R) (i j : Z) (x : R) : Prop :=
  exists g, (forall t, rate f (slide d j t) i (g t)) /\ derivable_pt_lim g (d j) x.

(** A triangle has no centre of a moving surface among its points. *)
Definition plain (e : tri_env) (t : triangle) : Prop :=
  forall p, In p (tri_pts t) -> fst p = t_tri -> moving (tripoint_of e (snd p)) = false.
(** A triangle of the mesh does not move. *)
Definition fixed (e : tri_env) (t : triangle) : Prop := plain e t /\ forall p, In p (tri_pts t) -> fst p <> t_snake.

(** The velocity of a corner when snaxel [i] moves. *)
Definition pull (e : tri_env) (i : Z) (q : Z * Z) : vec :=
  fun k => if andb (Z.eqb (fst q) t_snake) (Z.eqb (snd q) i) then end_of e i k - start_of e i k else 0.
(** Is the point the centre of a moving surface? *)
Definition is_centre (e : tri_env) (p : Z * Z) : bool := andb (Z.eqb (fst p) t_tri) (moving (tripoint_of e (snd p))).
(** The surface of such a centre has at least four corners, no side of length zero, and
    an outline that is not minute. *)
Definition shaped (e : tri_env) (d : Z -> R) (p : Z * Z) : Prop :=
  is_centre e p = true -> let l := corners_of e (tripoint_of e (snd p)) in let n := length l in
  (4 <= n)%nat /\ (forall q, In q l -> fst q = t_mesh \/ fst q = t_snake) /\
  / 1000000000000000 <= outline n (polygon e d l) /\ (forall v, (v < n)%nat -> 0 < side n (polygon e d l) v).
(** Error on the velocity of a point: that of the slopes of centres (C75). *)
Definition place_error (st : statics) (e : tri_env) (d : Z -> R) (i : Z) (p : Z * Z) (k : nat) : R :=
  if is_centre e p then
    let l := corners_of e (tripoint_of e (snd p)) in let n := length l in
    sum_to n (fun v => sum_to 3 (fun m =>
      slope_error n (polygon e d l) (centre_a st + centre2_a st) (centre2_a st) k v m * Rabs (pull e i (nth v l (t_mesh, 0%Z)) m)))
  else 0.
Definition unit_vec (k : nat) : vec := fun j => if Nat.eqb j k then 1 else 0.
(** What these errors make of the volume and of the area: the volume is linear in each
    point, and the area changes by at most half the opposite side. *)
Definition volume_error (st : statics) (e : tri_env) (d : Z -> R) (i : Z) (t : triangle) : R :=
  let a := place e d (nth_pt t 0) in let b := place e d (nth_pt t 1) in let c := place e d (nth_pt t 2) in
  sum_to 3 (fun k => Rabs (signed_volume (unit_vec k) b c) * place_error st e d i (nth_pt t 0) k
    + Rabs (signed_volume a (unit_vec k) c) * place_error st e d i (nth_pt t 1) k
    + Rabs (signed_volume a b (unit_vec k)) * place_error st e d i (nth_pt t 2) k).
Definition area_error (st : statics) (e : tri_env) (d : Z -> R) (i : Z) (t : triangle) : R :=
  let a := place e d (nth_pt t 0) in let b := place e d (nth_pt t 1) in let c := place e d (nth_pt t 2) in
  sum_to 3 (fun k => SpecRsvs.dist b c / 2 * place_error st e d i (nth_pt t 0) k
    + SpecRsvs.dist a c / 2 * place_error st e d i (nth_pt t 1) k
    + SpecRsvs.dist a b / 2 * place_error st e d i (nth_pt t 2) k).

(** A triangle whose moving centres, if any, have good outlines and are differentiated. *)
Definition smooth_tri (e : tri_env) (d : Z -> R) (centre : bool) (t : triangle) : Prop :=
  forall j, (j < 3)%nat -> shaped e d (nth_pt t j) /\ (centre = true \/ is_centre e (nth_pt t j) = false).
(** Values smaller than this are left out of sparse matrices. *)
Definition slack (c : calc) : R := if full_math c then 0 else dbl_epsilon.

(** The sum of the volumes, each times its multiplier. *)
Definition weighted_volumes (e : tri_env) (m : list (Z * Z)) (n : nat) (lag : nat -> R) (d : Z -> R) : R :=
  sum_to n (fun k => lag k * cell_volume e m k d).
(** Snaxel [i] is free, or frozen with a free one at an end of one of its edges; [conn]
    gives the ends of the edges of each snaxel. *)
Definition is_free (e : tri_env) (i : Z) : Prop := x_freeze (snax_of e i) = false.
Definition wanted (e : tri_env) (conn : list (list (Z * Z))) (i : Z) : Prop :=
  exists p x, nth_error (snaxs e) p = Some x /\ x_index x = i /\
    (x_freeze x = false \/ exists edges a b, nth_error conn p = Some edges /\ In (a, b) edges /\ (is_free e a \/ is_free e b)).
(** A point of a triangle depends on snaxel [i]. *)
Definition depends (e : tri_env) (centre : bool) (p : Z * Z) (i : Z) : Prop :=
  p = (t_snake, i) \/ (centre = true /\ is_centre e p = true /\ In (t_snake, i) (corners_of e (tripoint_of e (snd p)))).
Definition tri_depends (e : tri_env) (centre : bool) (t : triangle) (i : Z) : Prop :=
  exists j, (j < 3)%nat /\ depends e centre (nth_pt t j) i.

(** What the calculation needs: the elements named exist, and the surfaces whose centres
    are differentiated have enough corners. *)
Definition has {A} (i : Z) (l : list (Z * A)) : Prop := In i (map fst l).
Definition is_snaxel (e : tri_env) (i : Z) : Prop := In i (map x_index (snaxs e)).
Definition good_corner (e : tri_env) (q : Z * Z) : Prop :=
  (fst q = t_mesh /\ has (snd q) (mesh_verts e)) \/ (fst q = t_snake /\ has (snd q) (snake_verts e) /\ is_snaxel e (snd q)).
Definition good_point (e : tri_env) (p : Z * Z) : Prop :=
  good_corner e p \/
  (fst p = t_tri /\ has (snd p) (trivert e) /\ let tp := tripoint_of e (snd p) in
   (tp_ptype tp = t_tri -> has (tp_parent tp) (trisurf e) /\ (3 <= length (corners_of e tp))%nat) /\
   (tp_ptype tp = t_snake -> has (tp_parent tp) (snake_surfs e) /\ (4 <= length (corners_of e tp))%nat) /\
   (moving tp = true -> forall q, In q (corners_of e tp) -> good_corner e q)).
Definition good_tri (e : tri_env) (m : list (Z * Z)) (n : nat) (t : triangle) : Prop :=
  length (tri_pts t) = 3%nat /\ (forall p, In p (tri_pts t) -> good_point e p) /\ length (influence t) = length (celltarg t) /\
  forall z k, In z (celltarg t) -> In (z, k) m -> k = (-1)%Z \/ (0 <= k < Z.of_nat n)%Z.
Definition good_env (e : tri_env) (conn : list (list (Z * Z))) (m : list (Z * Z)) (n : nat) : Prop :=
  (forall x, In x (snaxs e) -> has (x_from x) (mesh_verts e) /\ has (x_to x) (mesh_verts e)) /\
  length conn = length (snaxs e) /\ (forall l a b, In l conn -> In (a, b) l -> is_snaxel e a /\ is_snaxel e b) /\
  (forall i, In i (acttri e) -> In i (map tri_index (stattri e))) /\
  forall t, In t (all_tris e) -> good_tri e m n t.
