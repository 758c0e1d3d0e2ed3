(** Vocabulary for the statements about the triangulation of a snake that changes. *)
From Coq Require Import Reals List ZArith.
From Verif Require Import Base Mesh SpecMesh SpecOrder Calc Edit Family Triangulate SpecTriangulate SpecActive.
Set Implicit Arguments.
Open Scope Z_scope.

(** The triangles and the added points of the surface [s] of the snake. *)
Definition snake_tris (t : tris) (s : Z) : list face := filter (fun f => fc_parent f =? s) (items (t_dyna t)).
Definition snake_centres (t : tris) (s : Z) : list centre := filter (fun c => (cn_ptype c =? t_snake) && (cn_parent c =? s))%bool (items (t_vert t)).
(** The triangles of surface [su] of the snake are those of its present outline, and their
    cell and sign are those of the surface. *)
Definition covered (k : snk) (t : tris) (su : surf) : Prop :=
  (exists vs, outlined (sk_conn k) su vs /\ fan_of (map (pair t_snake) vs) (su_index su) t_snake (snake_tris t (su_index su)) (snake_centres t (su_index su))) /\
  (exists z v r, In (su_index su, z) (sk_surfs k) /\ su_voluind su = v :: r /\ signed [z] [if v =? 0 then 1%R else (-1)%R] (snake_tris t (su_index su))).
(** The triangulation is in order: indices are unique and not above the recorded maximum,
    the added points used by triangles of the snake are those of their surface, none is
    left unused, those used by triangles of the mesh belong to the mesh, and these
    triangles have their cells. *)
Record in_order (t : tris) : Prop := {
  ord_dyna : tidy fc_index (t_dyna t);
  ord_vert : tidy cn_index (t_vert t);
  ord_used : forall f i, In f (items (t_dyna t)) -> In (t_tri, i) (tri_pts (fc_tri f)) ->
    exists c, In c (items (t_vert t)) /\ cn_index c = i /\ cn_ptype c = t_snake /\ cn_parent c = fc_parent f;
  ord_needed : forall c, In c (items (t_vert t)) -> cn_ptype c = t_snake ->
    exists f, In f (items (t_dyna t)) /\ fc_parent f = cn_parent c /\ In (t_tri, cn_index c) (tri_pts (fc_tri f));
  ord_mesh : forall f i, In f (items (t_stat t)) -> In (t_tri, i) (tri_pts (fc_tri f)) ->
    exists c, In c (items (t_vert t)) /\ cn_index c = i /\ cn_ptype c = t_mesh;
  ord_cells : forall f, In f (items (t_stat t)) -> celltarg (fc_tri f) <> [] }.
(** No triangle and no added point belongs to a surface that is gone. *)
Definition none_gone (k : snk) (t : tris) : Prop :=
  (forall f, In f (items (t_dyna t)) -> exists su, In su (surfs (sk_conn k)) /\ su_index su = fc_parent f) /\
  (forall c, In c (items (t_vert t)) -> cn_ptype c = t_snake -> exists su, In su (surfs (sk_conn k)) /\ su_index su = cn_parent c).
(** The mesh part is as before. *)
Definition mesh_part_kept (t t' : tris) : Prop :=
  t_stat t' = t_stat t /\ filter (fun c => cn_ptype c =? t_mesh) (items (t_vert t')) = filter (fun c => cn_ptype c =? t_mesh) (items (t_vert t)).
(** The mixed surfaces are [parts], each with its triangles. *)
Definition parts_done (parts : list trisf) (t : tris) : Prop :=
  t_surf t = parts /\ exists l, items (t_inter t) = concat (map fst l) /\ filter (fun c => cn_ptype c =? t_tri) (items (t_vert t)) = concat (map snd l) /\
    numbered 0 (map fc_index (items (t_inter t))) /\ length l = length parts /\
    forall i s p, nth_error parts i = Some s -> nth_error l i = Some p ->
      fan_of (ts_corners s) (ts_index s) t_tri (fst p) (snd p) /\ signed (ts_volu s) [(-1)%R; 1%R] (fst p).
(** The snake [k] can be triangulated: its indices are unique, the modified surfaces are
    closed polygons, every surface has a cell and a volume, the mixed surfaces can be built
    and are [parts], and for every surface of the mesh it can be told if it is inside. *)
Record ready (n : nat) (m : mesh) (tr : tree) (stat : list face) (k : snk) (parts : list trisf) : Prop := {
  rd_surfs : NoDup (map su_index (surfs (sk_conn k)));
  rd_edges : NoDup (map ed_index (edges (sk_conn k)));
  rd_outlined : forall su, In su (surfs (sk_conn k)) -> In (su_index su) (sk_modif k) -> exists vs, outlined (sk_conn k) su vs;
  rd_cells : forall su, In su (surfs (sk_conn k)) -> exists z v r, In (su_index su, z) (sk_surfs k) /\ su_voluind su = v :: r;
  rd_parts : build_trisurf n k m tr = Ok parts;
  rd_num : numbered 0 (map ts_index parts);
  rd_three : forall x, In x parts -> (3 <= length (ts_corners x))%nat;
  rd_active : forall f, leads stat f -> exists b, decided m (sk_in k) parts f b }.
(** From the snake [k] to the snake [k'], each surface that is not marked as modified is the
    same surface, with the same outline and the same cell. *)
Definition marks_changes (k k' : snk) : Prop := forall su, In su (surfs (sk_conn k')) -> ~ In (su_index su) (sk_modif k') ->
  In su (surfs (sk_conn k)) /\ (forall vs, outlined (sk_conn k) su vs -> outlined (sk_conn k') su vs) /\
  (forall z, In (su_index su, z) (sk_surfs k) -> In (su_index su, z) (sk_surfs k')).
(** The same at each step of a history that starts at [k]. *)
Fixpoint all_marked (k : snk) (ks : list snk) : Prop :=
  match ks with [] => True | k' :: r => marks_changes k k' /\ all_marked k' r end.
(** MaintainTriangulateSnake after each step of a history. *)
Fixpoint maintain_all (n : nat) (m : mesh) (tr : tree) (ks : list snk) (t : tris) : outcome tris :=
  match ks with [] => Ok t | k :: r => do x <- maintain n k m tr t ; maintain_all n m tr r (fst x) end.
