(** Model of the generation of Cartesian block grids.
    Source: SRCC/src/grid/voxel.cpp, lines cited below; SRCC/incl/voxel.hpp 61-123
    (cumsum, cumprod).

    The random fill values are left out.  Integers are unbounded; the operands of
    % are never negative.  The two floating-point quotients are parameters here
    ([qf]: single precision, [qd]: double precision); FloatQuot.v has the binary32
    and binary64 instances. *)
From Verif Require Import Base Containers Mesh Flood.
Set Implicit Arguments.
Open Scope Z_scope.

(** Eigen::RowVector3i *)
Definition row := (Z * Z * Z)%type.
Definition radd (a b : row) : row :=
  let '(a0, a1, a2) := a in let '(b0, b1, b2) := b in (a0 + b0, a1 + b1, a2 + b2).
Definition rsub (a b : row) : row :=
  let '(a0, a1, a2) := a in let '(b0, b1, b2) := b in (a0 - b0, a1 - b1, a2 - b2).
Definition dot (a b : row) : Z :=
  let '(a0, a1, a2) := a in let '(b0, b1, b2) := b in a0 * b0 + a1 * b1 + a2 * b2.
Definition rprod (a : row) : Z := let '(a0, a1, a2) := a in a0 * a1 * a2.
Definition rsum (a : row) : Z := let '(a0, a1, a2) := a in a0 + a1 + a2.
(** voxel.hpp:61-123 on one row *)
Definition cumsum (a : row) : row := let '(a0, a1, a2) := a in (a0, a0 + a1, a0 + a1 + a2).
Definition cumprod (a : row) : row := let '(a0, a1, a2) := a in (a0, a0 * a1, a0 * a1 * a2).
(** Element [j] of a row; [j] is 0, 1 or 2. *)
Definition rget (a : row) (j : Z) : Z := let '(a0, a1, a2) := a in if j =? 0 then a0 else if j =? 1 then a1 else a2.
(** Row [j] of the 3x3 identity, of surfProp (54) and of edgeProp (55). *)
Definition axis (j : Z) : row := if j =? 0 then (1, 0, 0) else if j =? 1 then (0, 1, 0) else (0, 0, 1).
Definition surf_prop (j : Z) : row := if j =? 0 then (0, 0, 1) else if j =? 1 then (0, 1, 0) else (1, 0, 0).
Definition edge_prop (j : Z) : row := rsub (1, 1, 1) (axis j).
(** Rows of matSurf and matEdge, 111, 173-174, 283-284, 413 *)
Definition mat_surf (dim : row) (j : Z) : row := radd dim (surf_prop j).
Definition mat_edge (dim : row) (j : Z) : row := radd dim (edge_prop j).
(** nSurfDim and nEdgeDim, 57-58 *)
Definition n_surf_dim (dim : row) : row := (rprod (mat_surf dim 0), rprod (mat_surf dim 1), rprod (mat_surf dim 2)).
Definition n_edge_dim (dim : row) : row := (rprod (mat_edge dim 0), rprod (mat_edge dim 1), rprod (mat_edge dim 2)).
(** incrSurf and incrEdge, 113-114, 176-181, 286-291, 407-408 *)
Definition incr (n : row) : row := let '(n0, n1, _) := n in cumsum (0, n0, n1).
(** A row of incPos, 117-118, 183-184, 293-294, 415-416; cumProdDimGrid, 188-189,
    298-300 *)
Definition inc_pos (mat : row) : row := let '(m0, m1, _) := mat in cumprod (1, m0, m1).

Section Build.
Variables qf qd : Z -> Z -> Z.
(** pos, 127-129 and 422-424 with [q] the single-precision quotient, 202-204 and
    310-312 with the double-precision one *)
Definition position (q : Z -> Z -> Z) (dim : row) (ii : Z) : row :=
  let '(d0, d1, d2) := dim in (ii mod d0, q ii d0 mod d1, qd ii (d0 * d1) mod d2).

(** BuildBlockVolu, 122-140 *)
Definition block_volu (dim : row) (ii : Z) : volu :=
  let pos := position qf dim ii in
  let ind p j := dot p (inc_pos (mat_surf dim j)) + rget (incr (n_surf_dim dim)) j + 1 in
  mkVolu (ii + 1) false
    (map (ind pos) [0; 1; 2] ++ map (fun j => ind (radd pos (surf_prop j)) j) [0; 1; 2]).

(** Number of entries of a row that are not above [ii], 198 and 307 *)
Definition not_above (a : row) (ii : Z) : Z :=
  let '(a0, a1, a2) := a in let b x := if x <=? ii then 1 else 0 in b a0 + b a1 + b a2.
(** The loops 215-224, 330-339 and 341-350: the two positions at which the mask
    is set. *)
Fixpoint pick_two (mask : Z -> bool) (js : list Z) (c : Z * Z) (kk : Z) : Z * Z :=
  match js with
  | [] => c
  | j :: r =>
    let c' := if kk =? 0 then (j, snd c) else (fst c, j) in
    let kk' := if mask j then kk + 1 else kk in
    if kk' =? 2 then c' else pick_two mask r c' kk'
  end.
Definition in_plane (jPlane : Z) : Z * Z := pick_two (fun j => negb (2 - j =? jPlane)) [0; 1; 2] (0, 0) 0.
Definition off_plane (jPlane : Z) : Z * Z := pick_two (fun j => negb (j =? jPlane)) [0; 1; 2] (0, 0) 0.
(** 207 and 209 *)
Definition any_ge (a b : row) : bool :=
  let '(a0, a1, a2) := a in let '(b0, b1, b2) := b in (b0 <=? a0) || (b1 <=? a1) || (b2 <=? a2).
Definition any_neg (a : row) : bool := let '(a0, a1, a2) := a in (a0 <? 0) || (a1 <? 0) || (a2 <? 0).
(** BuildBlockSurf, 193-245 *)
Definition block_surf (dim : row) (ii : Z) : surf :=
  let jPlane := not_above (cumsum (n_surf_dim dim)) ii in
  let pos := position qd (mat_surf dim jPlane) (ii - rget (incr (n_surf_dim dim)) jPlane) in
  let side p := dot p (inc_pos dim) + 1 in
  let below := rsub pos (surf_prop jPlane) in
  let '(c0, c1) := in_plane jPlane in
  let ind p c := dot p (inc_pos (mat_edge dim c)) + rget (incr (n_edge_dim dim)) c + 1 in
  mkSurf (ii + 1) false false
    [if any_ge pos dim then 0 else side pos; if any_neg below then 0 else side below]
    [ind pos c0; ind (radd pos (axis c0)) c1; ind (radd pos (axis c1)) c0; ind pos c1].

(** 360-361 and 438-440: a row outside of the box *)
Definition out_of (pos mat : row) : bool := (any_neg pos || any_ge pos mat)%bool.
(** mask, 328 and 351-354 *)
Definition edge_mask (jPlane j : Z) : row :=
  let '(a0, a1) := in_plane jPlane in let '(b0, b1) := off_plane jPlane in
  if j =? a0 then axis b0 else if j =? a1 then axis b1 else (0, 0, 0).
(** BuildBlockEdge, 304-378 *)
Definition block_edge (dim : row) (ii : Z) : edge :=
  let jPlane := not_above (incr (n_edge_dim dim)) ii - 1 in
  let pos := position qd (mat_edge dim jPlane) (ii - rget (incr (n_edge_dim dim)) jPlane) in
  let cpd := inc_pos (radd dim (1, 1, 1)) in
  let far := rsub (radd pos (1, 1, 1)) (edge_prop jPlane) in
  let ind p j := dot p (inc_pos (mat_surf dim j)) + rget (incr (n_surf_dim dim)) j + 1 in
  let candidates := map (fun j => (j, pos)) [0; 1; 2] ++ map (fun j => (j, rsub pos (edge_mask jPlane j))) [0; 1; 2] in
  let kept := filter (fun jp => negb (out_of (snd jp) (mat_surf dim (fst jp)) || (2 - fst jp =? jPlane))) candidates in
  let l := map (fun jp => ind (snd jp) (fst jp)) kept in
  mkEdge (ii + 1) false (l ++ repeat 0 (2 - length l)) [dot pos cpd + 1; dot far cpd + 1].

(** BuildBlockVert, 418-453, without the coordinates *)
Definition block_vert (dim : row) (ii : Z) : vert :=
  let pos := position qf (radd dim (1, 1, 1)) ii in
  let ind p j := dot p (inc_pos (mat_edge dim j)) + rget (incr (n_edge_dim dim)) j + 1 in
  let candidates := map (fun j => (j, pos)) [0; 1; 2] ++ map (fun j => (j, rsub pos (axis j))) [0; 1; 2] in
  let kept := filter (fun jp => negb (out_of (snd jp) (mat_edge dim (fst jp)))) candidates in
  mkVert (ii + 1) false (map (fun jp => ind (snd jp) (fst jp)) kept).

(** BuildBlockGrid, 42-93, up to PrepareForUse; meshDim is set there
    (mesh.cpp:3035-3050). *)
Definition grid_dim (nVert nEdge nSurf nVolu : Z) : Z :=
  if negb (nVolu =? 0) then 3 else if negb (nSurf =? 0) then 2 else if negb (nEdge =? 0) then 1 else 0.
Definition block_grid (dim : row) : mesh :=
  let nVolu := rprod dim in
  let nVert := rprod (radd dim (1, 1, 1)) in
  let nSurf := rsum (n_surf_dim dim) in
  let nEdge := rsum (n_edge_dim dim) in
  let all {A} (f : Z -> A) n := map f (upto (Z.to_nat n) 0) in
  mkMesh (all (block_volu dim) nVolu) (all (block_surf dim) nSurf)
         (all (block_edge dim) nEdge) (all (block_vert dim) nVert)
         (grid_dim nVert nEdge nSurf nVolu).
End Build.

(** BuildBlockVert, 411 and 426-430: numerator and denominator of the three
    coordinates of vertex number [ii]. *)
Definition block_coord (qf qd : Z -> Z -> Z) (dim : row) (ii : Z) : row * row :=
  let '(d0, d1, d2) := dim in
  (position qd qf (radd dim (1, 1, 1)) ii, (Z.max d0 1, Z.max d1 1, Z.max d2 1)).
