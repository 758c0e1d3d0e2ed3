(** Model of the domain given to tetgen: DomInter, BuildDomain and BuildCutCellDomain,
    src/grid/meshprocessing.cpp 432-555.

    Doubles are real numbers.  PrepareForUse (hash tables, borders, order of the edges of
    the faces, lengths) is left out: the meshes are block grids, whose preparation changes
    no index, no reference and no position.  The size of std::array is 3, so the test
    449-456 is always false. *)
From Coq Require Import Reals List ZArith.
From Verif Require Import Base Containers Mesh Flood Voxel FloatQuot Geom.
Import ListNotations.
Set Implicit Arguments.
Open Scope R_scope.

(** DomInter 432-436. *)
Definition dom_inter (x y1 y2 : R) : R := x * (y2 - y1) + y1.
(** 466-467, in one direction; [b] is {lowerB[j], upperB[j]}, [x] the coordinate in the
    grid. *)
Definition place (b : R * R) (tol x : R) : R := x * (snd b + tol - (fst b - tol)) + (fst b - tol).
(** 461-469: the vertex at position [ii] of the grid (see block_coord in Voxel.v). *)
Definition place_vert (b : limits) (tol : R) (ii : Z) : list R :=
  let '(bx, by_, bz) := b in
  let '((px, py, pz), (nx, ny, nz)) := block_coord quot32 quot64 (1, 1, 1)%Z ii in
  [place bx tol (IZR px / IZR nx); place by_ tol (IZR py / IZR ny); place bz tol (IZR pz / IZR nz)].
(** BuildDomain 438-472. *)
Definition build_domain (b : limits) (tol : R) : gmesh :=
  let cube := block_grid quot32 quot64 (1, 1, 1)%Z in
  mkG cube (map (place_vert b tol) (upto (length (verts cube)) 0)).

(** 539-543: scaleDom. *)
Definition scale_dom (outer inner : limits) (nSteps i : Z) : limits :=
  let x := IZR i / IZR (nSteps - 1) in
  let between (bi bo : R * R) := (dom_inter x (fst bi) (fst bo), dom_inter x (snd bi) (snd bo)) in
  let '(ix, iy, iz) := inner in let '(ox, oy, oz) := outer in
  (between ix ox, between iy oy, between iz oz).
(** 545-551.  MakeCompatible_inplace changes meshtemp, which the next step starts from. *)
Definition cut_step (outer inner : limits) (nSteps i : Z) (st : gmesh * gmesh * list Z) : outcome (gmesh * gmesh * list Z) :=
  let '(dom, temp, per) := st in
  do gt <- scale (scale_dom outer inner nSteps i) temp;
  let temp1 := mkG (make_compatible (gtopo dom) (gtopo (fst gt))) (gcoord (fst gt)) in
  Ok (mkG (concatenate (gtopo dom) (gtopo temp1)) (gcoord dom ++ gcoord temp1), temp1,
      per ++ [Z.of_nat (length (verts (gtopo temp1)))]).
(** BuildCutCellDomain 512-555: the mesh and vertPerSubDomain, which holds [per] before
    the call. *)
Definition build_cut_cell (outer inner : limits) (nSteps : Z) (per : list Z) : outcome (gmesh * list Z) :=
  if Z.eqb nSteps 0 then Ok (mkG (mkMesh [] [] [] [] 0) [], per) else
  let d := build_domain inner (1 / 10) in
  do st <- for_each (map Z.of_nat (seq 1 (Z.to_nat nSteps - 1))) (cut_step outer inner nSteps)
             (d, d, [Z.of_nat (length (verts (gtopo d)))]);
  Ok (fst (fst st), snd st).
