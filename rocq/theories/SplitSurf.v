(** Model of the ordering of all the surfaces of a mesh and of the splitting of
    surfaces made of several polygons.
    Sources: SRCC/src/grid/mesh.cpp surf::OrderEdges 3663-3717,
    surf::SplitSurface 3719-3806, mesh::OrderEdges 3917-3960.

    The release build is modelled: the checks compiled under SAFE_ACCESS,
    SAFE_ALGO and RSVS_DIAGNOSTIC_FIXED are left out, as are the hash flags and
    the fill and error values of surfaces.  [cap] is the capacity of the vector
    of surfaces.  A reallocation frees the surface on which the method runs;
    reading or writing it afterwards is undefined. *)
From Verif Require Import Base Containers Mesh Order.
Set Implicit Arguments.
Open Scope Z_scope.

(** mesh.cpp 3698, 3701, 3714: fields of the surface on which the method
    runs. *)
Definition su_write (l : list Z) (b : bool) (s : surf) : surf := su_set_ordered b (su_set_edgeind l s).

(** mesh.cpp 3732-3749: the edges of the surface that the walk left out. *)
Definition left_out (full walked : list Z) : list Z := filter (fun e => negb (mem_z e walked)) full.

(** mesh.cpp 3790-3798: the new surface is appended to a volume, if known. *)
Definition volu_push (new v : Z) (vs : list volu) : outcome (list volu) :=
  let kk := find vo_index vs v in
  if kk =? -1 then Ok vs else modify vs kk (fun w => vo_set_surfind (vo_surfind w ++ [new]) w).

(** mesh.cpp 3779-3799, for the surface at [ii]. *)
Definition volus_push (new ii : Z) (m : mesh) : outcome mesh :=
  if 2 <? meshDim m then
    do s <- at_ (surfs m) ii;
    do v0 <- at_ (su_voluind s) 0;
    do vs0 <- volu_push new v0 (volus m);
    do v1 <- at_ (su_voluind s) 1;
    do vs1 <- volu_push new v1 vs0;
    Ok (mkMesh vs1 (surfs m) (edges m) (verts m) (meshDim m))
  else Ok m.

(** mesh.cpp 3723-3770: the new surface is appended and takes its edges.
    SetMaxIndex starts from 0. *)
Definition new_surf (l full : list Z) (ii : Z) (m : mesh) : outcome (mesh * Z) :=
  do s <- at_ (surfs m) ii;
  let new := max_index su_index (surfs m) + 1 in
  let rest := left_out full l in
  let t := mkSurf new (su_border s) (su_ordered s) (su_voluind s) rest in
  let ss := upd (surfs m) (Z.to_nat ii) (su_set_edgeind l s) ++ [t] in
  do m1 <- switch6 (su_index s) new rest (mkMesh (volus m) ss (edges m) (verts m) (meshDim m));
  Ok (m1, new).

(** The vector of surfaces is replaced (mesh.cpp 3698-3714, 3798). *)
Definition with_surfs (m : mesh) (ss : list surf) : mesh := mkMesh (volus m) ss (edges m) (verts m) (meshDim m).

(** surf::OrderEdges and surf::SplitSurface for the surface at [ii]: the mesh,
    the capacity and the returned index.  The recursion 3776 works on fewer
    edges. *)
Fixpoint order_surface (table : list Z -> Z -> list nat) (fuel : nat) (ii : Z) (m : mesh) (cap : Z) {struct fuel}
    : outcome (mesh * Z * Z) :=
  match fuel with
  | O => OutOfFuel
  | S fuel' =>
    do s <- at_ (surfs m) ii;
    do (c, l) <- surf_order m table (su_edgeind s);
    if negb (c =? truncated) then
      do ss <- modify (surfs m) ii (su_write l true);
      Ok (with_surfs m ss, cap, -1)
    else
      let full := tighten (su_edgeind s) in
      if cap - Z.of_nat (length (surfs m)) =? 0 then
        do ss <- modify (surfs m) ii (su_write full false);
        Ok (with_surfs m ss, cap + cap / 2, -1)
      else
        do (m1, new) <- new_surf l full ii m;
        do (m2, cap2, _) <- order_surface table fuel' (Z.of_nat (length (surfs m1)) - 1) m1 cap;
        if cap2 =? cap then
          do m3 <- volus_push new ii m2;
          do ss <- modify (surfs m3) ii (su_set_ordered true);
          Ok (with_surfs m3 ss, cap, new)
        else UB
  end.

(** mesh.cpp 3934-3946: one pass over the surfaces, including those it
    appends. *)
Fixpoint order_pass (table : list Z -> Z -> list nat) (fuel : nat) (ii : Z) (m : mesh) (cap : Z) (pairs : list Z)
    : outcome (mesh * Z * list Z) :=
  match fuel with
  | O => OutOfFuel
  | S fuel' =>
    if ii <? Z.of_nat (length (surfs m)) then
      do s <- at_ (surfs m) ii;
      if su_ordered s then order_pass table fuel' (ii + 1) m cap pairs
      else
        do (m1, cap1, new) <- order_surface table (S (length (su_edgeind s))) ii m cap;
        order_pass table fuel' (ii + 1) m1 cap1 (if -1 <? new then pairs ++ [su_index s; new] else pairs)
    else Ok (m, cap, pairs)
  end.

(** mesh.cpp 3929-3951: passes until the vector of surfaces is not
    reallocated. *)
Fixpoint order_passes (table : list Z -> Z -> list nat) (fuel : nat) (m : mesh) (cap : Z) (pairs : list Z)
    : outcome (mesh * Z * list Z) :=
  match fuel with
  | O => OutOfFuel
  | S fuel' =>
    do (m1, cap1, p1) <- order_pass table fuel 0 m cap pairs;
    if cap1 =? cap then Ok (m1, cap1, p1) else order_passes table fuel' m1 cap1 p1
  end.

(** mesh::OrderEdges 3917-3960.  The model's fuel bounds the passes and the
    surfaces of a pass. *)
Definition order_edges (table : list Z -> Z -> list nat) (fuel : nat) (m : mesh) (cap : Z) : outcome (mesh * Z * list Z) :=
  match surfs m with
  | [] => Ok (m, cap, [])
  | _ => order_passes table fuel m cap []
  end.
