(** What a round trip through a file should keep. *)
From Coq Require Import Reals.
From Flocq Require Import Core.
From Verif Require Import Base Containers Mesh Codec.
Open Scope R_scope.

(** A value that a double can have: a magnitude of the format binary64 below
    overflow, with a sign, an infinity or a NaN. *)
Definition is_double (a : R) : Prop := generic_format radix2 (FLT_exp (-1074) 53) a.
Definition double (x : dbl) : Prop :=
  match x with Fin _ a => is_double a /\ 0 <= a < bpow radix2 1024 | _ => True end.

(** All the numbers that are written for an element, a mesh, a snake *)
Definition volu_nums (v : fvolu) := [fv_fill v; fv_target v; fv_error v].
Definition surf_nums (s : fsurf) := [fs_fill s; fs_target s; fs_error s].
Definition mesh_nums (m : fmesh) : list dbl :=
  flat_map fe_coord (snd (f_verts m)) ++ flat_map surf_nums (snd (f_surfs m)) ++ flat_map volu_nums (snd (f_volus m)).
Definition cell_nums (c : fcell) := [fc_n0 c; fc_n1 c; fc_n2 c].
Definition snax_nums (s : fsnax) := [fx_d s; fx_v s].
Definition snake_nums (s : fsnake) : list dbl :=
  flat_map snax_nums (snd (fk_snaxs s)) ++ flat_map cell_nums (snd (fk_edges s)) ++
  flat_map cell_nums (snd (fk_surfs s)) ++ mesh_nums (fk_conn s).

(** [y] is [x] up to [eps], with the same sign bit, and is [x] from [exact] upwards. *)
Definition close (eps exact : R) (x y : dbl) : Prop :=
  match x with
  | Fin neg a => exists b, y = Fin neg b /\ Rabs (b - a) <= eps /\ (exact <= a -> b = a)
  | _ => y = x
  end.
(** 16 decimals: doubles from 1/2 on are exact; 6 decimals: doubles from 2^33 on *)
Definition close16 : dbl -> dbl -> Prop := close (/ 10 ^ 16) (/ 2).
Definition close6 : dbl -> dbl -> Prop := close (/ 10 ^ 6) (2 ^ 33).

(** A mesh read again: all indices, border flags and references, in the same order;
    only the numbers may differ.  [isordered] is false afterwards. *)
Definition vert_again (v w : fvert) : Prop := fe_vert w = fe_vert v /\ Forall2 close16 (fe_coord v) (fe_coord w).
Definition surf_again (s w : fsurf) : Prop :=
  su_index (fs_surf w) = su_index (fs_surf s) /\ su_border (fs_surf w) = su_border (fs_surf s) /\
  su_voluind (fs_surf w) = su_voluind (fs_surf s) /\ su_edgeind (fs_surf w) = su_edgeind (fs_surf s) /\
  Forall2 close16 (surf_nums s) (surf_nums w).
Definition volu_again (v w : fvolu) : Prop := fv_volu w = fv_volu v /\ Forall2 close16 (volu_nums v) (volu_nums w).
Definition mesh_again (m m' : fmesh) : Prop :=
  Forall2 vert_again (snd (f_verts m)) (snd (f_verts m')) /\ snd (f_edges m') = snd (f_edges m) /\
  Forall2 surf_again (snd (f_surfs m)) (snd (f_surfs m')) /\ Forall2 volu_again (snd (f_volus m)) (snd (f_volus m')).
(** The flags isInMesh, which mesh::read sets *)
Definition in_mesh (m : fmesh) : Prop :=
  fst (f_verts m) = true /\ fst (f_edges m) = true /\ fst (f_surfs m) = true /\ fst (f_volus m) = true.

(** The same for snakes. *)
Definition snax_again (s w : fsnax) : Prop :=
  fx_index w = fx_index s /\ fx_edge w = fx_edge s /\ fx_from w = fx_from s /\ fx_to w = fx_to s /\
  fx_freeze w = fx_freeze s /\ fx_order w = fx_order s /\ close6 (fx_d s) (fx_d w) /\ close6 (fx_v s) (fx_v w).
Definition cell_again (c w : fcell) : Prop :=
  fc_index w = fc_index c /\ fc_parent w = fc_parent c /\ Forall2 close6 (cell_nums c) (cell_nums w).
Definition arr_again {A} (P : A -> A -> Prop) (a b : farr A) : Prop := fst b = fst a /\ Forall2 P (snd a) (snd b).
Definition snake_again (s w : fsnake) : Prop :=
  arr_again snax_again (fk_snaxs s) (fk_snaxs w) /\ arr_again cell_again (fk_edges s) (fk_edges w) /\
  arr_again cell_again (fk_surfs s) (fk_surfs w) /\ mesh_again (fk_conn s) (fk_conn w).
