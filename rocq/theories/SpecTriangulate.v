(** Vocabulary for the statements about the triangulation. *)
From Coq Require Import Reals List ZArith.
From Verif Require Import Base Mesh SpecMesh SpecOrder Family SpecFamily SpecRsvs SpecCentre SpecCalc Calc Triangulate.
Set Implicit Arguments.
Open Scope Z_scope.

(** Surface [s] is a closed polygon through the distinct corners [vs]. *)
Definition outlined (m : mesh) (s : surf) (vs : list Z) : Prop :=
  (3 <= length vs)%nat /\ NoDup vs /\ SpecOrder.polygon (edge_joins m) (su_edgeind s) vs.
(** The triangles [ts] are those of the polygon [l]: the polygon itself when it has three
    corners; otherwise one triangle for each side, from the side to the new point, if any,
    of the list [cs]. *)
Definition fan_of (l : list (Z * Z)) (parent typ : Z) (ts : list face) (cs : list centre) : Prop :=
  (forall f, In f ts -> fc_parent f = parent) /\
  ((length l = 3%nat /\ map (fun f => tri_pts (fc_tri f)) ts = [l] /\ cs = []) \/
   ((3 < length l)%nat /\ length ts = length l /\ exists c, cs = [c] /\ cn_parent c = parent /\ cn_ptype c = typ /\
    forall i f, nth_error ts i = Some f -> exists a b,
      nth_error l i = Some a /\ nth_error l ((i + 1) mod length l) = Some b /\ tri_pts (fc_tri f) = [a; b; (t_tri, cn_index c)])).
(** The cells and the signs of all these triangles. *)
Definition signed (cells : list Z) (infl : list R) (ts : list face) : Prop :=
  forall f, In f ts -> celltarg (fc_tri f) = cells /\ influence (fc_tri f) = infl.
(** The indices are [a] + 1, [a] + 2 and so on. *)
Definition numbered (a : Z) (l : list Z) : Prop := forall i x, nth_error l i = Some x -> x = a + Z.of_nat i + 1.
(** No two elements have the same index, and none is above the largest index recorded. *)
Definition tidy {A} (index : A -> Z) (r : arr A) : Prop := NoDup (map index (items r)) /\ forall a, In a (items r) -> index a <= top r.
(** The array of triangles of each type. *)
Definition tri_array (typ : Z) (t : tris) : arr face := if typ =? t_mesh then t_stat t else if typ =? t_snake then t_dyna t else t_inter t.
(** Everything but the triangles of type [typ] and the added points is the same. *)
Definition kept (typ : Z) (t t' : tris) : Prop :=
  (forall z, In z [t_mesh; t_snake; t_tri] -> z <> typ -> tri_array z t' = tri_array z t) /\ t_surf t' = t_surf t /\ t_act t' = t_act t.
(** [ss] are the elements at the positions [sub], or all of them when there is no position. *)
Definition picks {A} (all : list A) (sub : list Z) (ss : list A) : Prop :=
  match sub with [] => ss = all | _ => Forall2 (fun p s => 0 <= p /\ nth_error all (Z.to_nat p) = Some s) sub ss end.
(** What is added for one surface of the mesh or of the snake with corners [vs]: its
    triangles and perhaps its centre.  The cells of the triangles of the snake are not
    known yet. *)
Definition surface_done (typ : Z) (s : surf) (vs : list Z) (p : list face * list centre) : Prop :=
  fan_of (map (pair typ) vs) (su_index s) typ (fst p) (snd p) /\
  (typ = t_mesh -> signed (su_voluind s) [(-1)%R; 1%R] (fst p)) /\ (typ = t_snake -> signed [] [] (fst p)).
(** [t'] is [t] with the triangles and the points of [parts]; their indices are new. *)
Definition extended (typ : Z) (parts : list (list face * list centre)) (t t' : tris) : Prop :=
  kept typ t t' /\
  items (tri_array typ t') = items (tri_array typ t) ++ concat (map fst parts) /\
  items (t_vert t') = items (t_vert t) ++ concat (map snd parts) /\
  numbered (top (tri_array typ t)) (map fc_index (concat (map fst parts))) /\
  NoDup (map cn_index (concat (map snd parts))) /\ (forall c, In c (concat (map snd parts)) -> top (t_vert t) < cn_index c) /\
  (tidy fc_index (tri_array typ t) -> tidy fc_index (tri_array typ t')) /\ (tidy cn_index (t_vert t) -> tidy cn_index (t_vert t')).
(** Surface [s] is between different cells of some parent. *)
Definition between (m : mesh) (tr : tree) (s : surf) : Prop :=
  exists v0 v1 i, SpecFamily.sides s v0 v1 /\ Z.of_nat i < nParents tr /\ apart m tr i v0 v1.
