(** Model of the geometry functions.
    Source: SRCC/src/grid/mesh.cpp, SRCC/src/grid/meshprocessing.cpp,
    SRCC/incl/mesh.hpp, SRCC/src/warning.cpp, lines cited below.

    Doubles are real numbers here: no rounding, no infinity, no NaN.  Division by
    zero is left to the theorems, which exclude it.  Printed warnings are left
    out. *)
From Coq Require Import Reals.
From Verif Require Import Base Containers Mesh Edit.
Set Implicit Arguments.
Open Scope R_scope.

(** ** coordvec *)
(** DBL_EPSILON *)
Definition dbl_eps : R := / 4503599627370496.
(** IsAproxEqual with the default tolerance, rsvsutils.hpp:19-22 *)
Definition aprox_equal (a b : R) : bool := if Rlt_dec (Rabs (a - b)) dbl_eps then true else false.

(** mesh.hpp:113-118 *)
Record coordvec := mkCv { elems : list R; norm : R; utd : bool }.
(** mesh.hpp:161-170 *)
Definition cv_new : coordvec := mkCv [0; 0; 0] 0 false.
(** The loops over the shorter of the two sizes, mesh.cpp:165-228 *)
Fixpoint each (f : R -> R -> R) (e v : list R) : list R :=
  match e, v with
  | a :: e', b :: v' => f a b :: each f e' v'
  | _, _ => e
  end.
(** mesh.cpp:137-142; pow(x, 2) is x * x *)
Definition calc_norm (c : coordvec) : outcome coordvec :=
  do a <- at_ (elems c) 0; do b <- at_ (elems c) 1; do d <- at_ (elems c) 2;
  Ok (mkCv (elems c) (sqrt (a * a + b * b + d * d)) true).
(** mesh.cpp:118-126: the vector afterwards; its [norm] is the value returned *)
Definition get_norm (c : coordvec) : outcome coordvec := if utd c then Ok c else calc_norm c.
(** mesh.cpp:127-135 *)
Definition get_norm_const (c : coordvec) : outcome R := if utd c then Ok (norm c) else Throw.
(** Apply [f] to elements 0, 1 and 2. *)
Definition on3 (f : R -> R) (l : list R) : outcome (list R) :=
  match l with
  | a :: b :: d :: r => Ok (f a :: f b :: f d :: r)
  | _ => UB
  end.
(** mesh.cpp:73-79 *)
Definition flipsign (c : coordvec) : outcome coordvec :=
  do l <- on3 Ropp (elems c); Ok (mkCv l (norm c) (utd c)).
(** mesh.cpp:87-98; the value returned is [norm] of [get_norm] *)
Definition normalize (c : coordvec) : outcome coordvec :=
  do c1 <- get_norm c; do l <- on3 (fun x => x / norm c1) (elems c1); Ok (mkCv l 1 true).
(** mesh.cpp:149-155 *)
Definition assign (a b d : R) (c : coordvec) : outcome coordvec :=
  match elems c with
  | _ :: _ :: _ :: r => calc_norm (mkCv (a :: b :: d :: r) (norm c) (utd c))
  | _ => UB
  end.
(** mesh.hpp:171-180 and swap with a vector, mesh.cpp:48-57 *)
Definition set_elems (v : list R) (c : coordvec) : coordvec := mkCv v (norm c) false.
(** A write through operator[], mesh.cpp:24-35 *)
Definition put (i : Z) (x : R) (c : coordvec) : outcome coordvec :=
  do _ <- at_ (elems c) i; Ok (mkCv (upd (elems c) (Z.to_nat i) x) (norm c) false).
(** mesh.cpp:165-228 *)
Definition with_vec (f : R -> R -> R) (v : list R) (c : coordvec) : coordvec :=
  mkCv (each f (elems c) v) (norm c) false.
Definition rmax (a b : R) : R := if Rle_dec b a then a else b.
Definition rmin (a b : R) : R := if Rle_dec a b then a else b.
Definition cv_max := with_vec rmax.
Definition cv_min := with_vec rmin.
Definition cv_add := with_vec Rplus.
Definition cv_sub := with_vec Rminus.
Definition cv_subfrom := with_vec (fun e v => v - e).
Definition cv_divv := with_vec Rdiv.
Definition cv_mulv := with_vec Rmult.
(** mesh.cpp:234-242 and 230-233 *)
Definition cv_mul (s : R) (c : coordvec) : coordvec :=
  mkCv (map (fun x => x * s) (elems c)) (s * norm c) (utd c).
Definition cv_div (s : R) (c : coordvec) : coordvec := cv_mul (1 / s) c.

(** The calls that change a coordvec. *)
Inductive cvop :=
| OAssign (a b d : R) | OSet (v : list R) | OPut (i : Z) (x : R) | OFlip | ONormalize | OCalc | OGet
| OMax (v : list R) | OMin (v : list R) | OAdd (v : list R) | OSub (v : list R) | OSubFrom (v : list R)
| ODivV (v : list R) | OMulV (v : list R) | OMul (s : R) | ODiv (s : R).
Definition cv_step (o : cvop) (c : coordvec) : outcome coordvec :=
  match o with
  | OAssign a b d => assign a b d c
  | OSet v => Ok (set_elems v c)
  | OPut i x => put i x c
  | OFlip => flipsign c
  | ONormalize => normalize c
  | OCalc => calc_norm c
  | OGet => get_norm c
  | OMax v => Ok (cv_max v c)
  | OMin v => Ok (cv_min v c)
  | OAdd v => Ok (cv_add v c)
  | OSub v => Ok (cv_sub v c)
  | OSubFrom v => Ok (cv_subfrom v c)
  | ODivV v => Ok (cv_divv v c)
  | OMulV v => Ok (cv_mulv v c)
  | OMul s => Ok (cv_mul s c)
  | ODiv s => Ok (cv_div s c)
  end.

(** mesh.cpp:244-254 *)
Definition cross (e v : list R) : outcome (list R) :=
  omap_list (fun ii =>
    do a <- at_ e ((ii + 1) mod 3)%Z; do b <- at_ v ((ii + 2) mod 3)%Z;
    do c <- at_ e ((ii - 1) mod 3)%Z; do d <- at_ v ((ii - 2) mod 3)%Z;
    Ok (a * b - c * d)) [3; 4; 5]%Z.
(** mesh.cpp:256-265 *)
Definition dot (e v : list R) : outcome R :=
  for_each [0; 1; 2]%Z (fun ii r => do a <- at_ e ii; do b <- at_ v ii; Ok (r + a * b)) 0.

(** DiffPoints, mesh.cpp:296-301 *)
Definition diff_points (v1 v2 : list R) : outcome coordvec :=
  calc_norm (cv_subfrom v2 (set_elems v1 cv_new)).
(** DiffPointsFromCentre, 313-322, and PlaneNormal, 333-338: normal and temp1.  The
    vectors passed in are overwritten, so they are not arguments here. *)
Definition plane_normal (v1 v2 v3 : list R) : outcome coordvec :=
  do n <- calc_norm (cv_subfrom v2 (set_elems v1 cv_new));
  do t <- calc_norm (cv_subfrom v3 (set_elems v1 cv_new));
  do l <- cross (elems t) (elems n);
  Ok (set_elems l n).
(** VertexDistanceToPlane, 400-415: the distance and temp2 *)
Definition vertex_distance_to_plane (v1 v2 v3 p : list R) : outcome (R * coordvec) :=
  if (Z.of_nat (length p) =? 3)%Z then
    do n <- plane_normal v1 v2 v3;
    do a <- dot (elems n) p; do b <- dot (elems n) v1; Ok (a - b, n)
  else Throw.
(** The sub-vector from position [a] to [b], as vector::assign does. *)
Definition slice (l : list R) (a b : nat) : list R := firstn (b - a) (skipn a l).
(** VerticesDistanceToPlane, 438-465 *)
Definition vertices_distance_to_plane (v1 v2 v3 ps : list R) : outcome (list R) :=
  if (Z.of_nat (length ps) mod 3 =? 0)%Z then
    let nPts := (length ps / 3)%nat in
    match nPts with
    | O => Ok []
    | S more =>
      do dn <- vertex_distance_to_plane v1 v2 v3 (slice ps 0 3);
      do planePosition <- dot (elems (snd dn)) v1;
      do rest <- omap_list (fun i => do a <- dot (elems (snd dn)) (slice ps (3 * i) (3 * i)); Ok (a - planePosition))
                           (seq 1 more);
      Ok (fst dn :: rest)
    end
  else Throw.

(** ** Meshes with coordinates *)
(** [gcoord] has the coord of each vertex, in the order of [verts]. *)
Record gmesh := mkG { gtopo : mesh; gcoord : list (list R) }.
(** verts.isearch(i)->coord *)
Definition coord_of (g : gmesh) (i : Z) : outcome (list R) :=
  at_ (gcoord g) (find ve_index (verts (gtopo g)) i).
(** edge::GeometricProperties, 1456-1468: centre and length *)
Definition geometric_properties (g : gmesh) (e : edge) : outcome (coordvec * R) :=
  do c0 <- assign 0 0 0 cv_new;
  do i0 <- at_ (ed_vertind e) 0; do p0 <- coord_of g i0;
  do i1 <- at_ (ed_vertind e) 1; do p1 <- coord_of g i1;
  do c <- calc_norm (cv_add p1 (cv_sub p0 c0));
  Ok (cv_div 2 (cv_add p0 (cv_add p0 c)), norm c).
(** int(x) for a double that is in the range of int: truncation *)
Definition to_int (x : R) : Z := if Rle_dec 0 x then Int_part x else (- Int_part (- x))%Z.
(** surf::PseudoCentroid, 573-601: coord and the value returned, an int.  coord is
    assigned first, so its previous value is not an argument. *)
Definition pseudo_surf (g : gmesh) (s : surf) : outcome (coordvec * Z) :=
  let props ei := do e <- isearch ed_index (edges (gtopo g)) ei; geometric_properties g e in
  do c0 <- assign 0 0 0 cv_new;
  do r <- for_each (su_edgeind s) (fun ei st =>
            do pl <- props ei;
            Ok (cv_add (elems (cv_mul (snd pl) (fst pl))) (fst st), snd st + snd pl)) (c0, 0);
  if aprox_equal (snd r) 0 then
    match su_edgeind s with
    | [] => Ok (fst r, to_int (snd r))
    | e0 :: _ => do pl <- props e0; Ok (fst pl, to_int (snd r))
    end
  else Ok (cv_div (snd r) (fst r), to_int (snd r)).
(** volu::PseudoCentroid, 610-638 *)
Definition pseudo_volu (g : gmesh) (v : volu) : outcome coordvec :=
  let props si := do s <- isearch su_index (surfs (gtopo g)) si; pseudo_surf g s in
  do c0 <- assign 0 0 0 cv_new;
  do r <- for_each (vo_surfind v) (fun si st =>
            do pl <- props si;
            let l := IZR (snd pl) in
            Ok (cv_add (elems (cv_mul l (fst pl))) (fst st), snd st + l)) (c0, 0);
  if aprox_equal (snd r) 0 then
    match vo_surfind v with
    | [] => Ok (fst r)
    | s0 :: _ => do pl <- props s0; Ok (fst pl)
    end
  else Ok (cv_div (snd r) (fst r)).
(** mesh::CalcCentreVolu, 4872-4907 *)
Definition calc_centre_volu (g : gmesh) (ind : Z) : outcome coordvec :=
  do v <- isearch vo_index (volus (gtopo g)) ind;
  do r <- for_each (vo_surfind v) (fun si st =>
    do s <- isearch su_index (surfs (gtopo g)) si;
    for_each (su_edgeind s) (fun ei st =>
      do e <- isearch ed_index (edges (gtopo g)) ei;
      do t0 <- assign 0 0 0 cv_new;
      do i0 <- at_ (ed_vertind e) 0; do p0 <- coord_of g i0;
      do i1 <- at_ (ed_vertind e) 1; do p1 <- coord_of g i1;
      do t <- calc_norm (cv_sub p1 (cv_add p0 t0));
      let l := norm t in
      Ok (cv_add (elems (cv_mul l (cv_add p1 (cv_add p1 t)))) (fst st), snd st + l)) st) (cv_new, 0);
  Ok (cv_div (snd r) (fst r)).
(** volu::vertind before sorting, 1919-1932 *)
Definition volu_verts (m : mesh) (v : volu) : outcome (list Z) :=
  do sss <- omap_list (fun si =>
    do s <- isearch su_index (surfs m) si;
    do es <- omap_list (fun ei => do e <- isearch ed_index (edges m) ei; Ok (ed_vertind e)) (su_edgeind s);
    Ok (concat es)) (vo_surfind v);
  Ok (concat sss).
(** CoordInVolume for one volume, meshprocessing.cpp:803-824: one coordinate at a
    time; the counter is incremented once per coordinate (815), so by three per
    vertex. *)
Definition coord_in_volume (g : gmesh) (v : volu) : outcome (list R) :=
  do vs <- volu_verts (gtopo g) v;
  do sums <- for_each vs (fun vi st =>
    do p <- coord_of g vi;
    do x <- at_ p 0; do y <- at_ p 1; do z <- at_ p 2;
    let '(a, b, c, n) := st in Ok (a + x, b + y, c + z, (n + 3)%Z)) (0, 0, 0, 0%Z);
  let '(a, b, c, n) := sums in Ok [a / IZR n; b / IZR n; c / IZR n].
(** VolumeInternalLayers, meshprocessing.cpp:869-898: the points added for one
    volume whose centroid is [centre], for one vertex position [p] *)
Definition layer_points (nLayers : Z) (centre p : list R) : outcome (list (list R)) :=
  omap_list (fun j =>
    omap_list (fun k =>
      do a <- at_ centre k; do b <- at_ p k;
      Ok (a * (IZR (j + 1) / IZR (nLayers + 1)) + b * (IZR (nLayers - j) / IZR (nLayers + 1)))) [0; 1; 2]%Z)
    (map Z.of_nat (seq 0 (Z.to_nat nLayers))).
Definition volume_layers (g : gmesh) (nLayers : Z) (v : volu) : outcome (list (list R)) :=
  if (nLayers <? 0)%Z then Throw else
  do c <- pseudo_volu g v;
  do vs <- volu_verts (gtopo g) v;
  do pss <- omap_list (fun vi => do p <- coord_of g vi; layer_points nLayers (elems c) p) (tighten vs);
  Ok (concat pss).

(** ** Edge lengths and their cache *)
(** LengthSquared, mesh.cpp:1477-1488 *)
Definition length_squared (g : gmesh) (e : edge) : outcome R :=
  do i0 <- at_ (ed_vertind e) 0; do p0 <- coord_of g i0;
  do i1 <- at_ (ed_vertind e) 1; do p1 <- coord_of g i1;
  for_each (map Z.of_nat (seq 0 (Z.to_nat (meshDim (gtopo g)))))
    (fun i r => do a <- at_ p0 i; do b <- at_ p1 i; Ok (r + (a - b) * (a - b))) 0.
(** __issetlength, mesh.hpp:94 *)
Definition is_set (l : R) : bool := if Rle_dec 0 l then true else false.
(** A mesh with the field length of each edge, in the order of [edges], and
    edgesLengthsAreSet. *)
Record lmesh := mkL { lg : gmesh; llen : list R; lset : bool }.
(** edge::Length of the edge at position [p], 1496-1503 *)
Definition edge_length (m : lmesh) (p : Z) : outcome R :=
  do l <- at_ (llen m) p;
  if is_set l then Ok l else
  do e <- at_ (edges (gtopo (lg m))) p;
  do q <- length_squared (lg m) e; Ok (sqrt q).
(** SetEdgeLengths, 3009-3027 *)
Definition set_edge_lengths (m : lmesh) : outcome lmesh :=
  do ls <- omap_list (fun p => edge_length m p) (map Z.of_nat (seq 0 (length (edges (gtopo (lg m))))));
  Ok (mkL (lg m) ls true).
(** The part of PrepareForUse about lengths, 3073-3085.  An exception would be
    swallowed; none is thrown by what is modelled. *)
Definition prepare_lengths (m : lmesh) : outcome lmesh := if lset m then Ok m else set_edge_lengths m.
(** InvalidateEdgeLength, 3087-3096 *)
Definition invalidate_length (i : Z) (m : lmesh) : outcome lmesh :=
  let p := find ed_index (edges (gtopo (lg m))) i in
  do _ <- at_ (llen m) p;
  Ok (mkL (lg m) (upd (llen m) (Z.to_nat p) (-1)) false).

(** ** Transformations *)
(** grid::transformation: for each direction new origin, old origin, factor *)
Definition transformation := (R * R * R * (R * R * R) * (R * R * R))%type.
Definition move1 (t : R * R * R) (x : R) : R := let '(a, b, c) := t in a + ((x - b) * c).
(** LinearTransform, 5207-5219 *)
Definition move_point (t : transformation) (p : list R) : outcome (list R) :=
  let '(tx, ty, tz) := t in
  match p with
  | x :: y :: z :: r => Ok (move1 tx x :: move1 ty y :: move1 tz z :: r)
  | _ => UB
  end.
Definition linear_transform (t : transformation) (g : gmesh) : outcome gmesh :=
  do ps <- omap_list (move_point t) (gcoord g); Ok (mkG (gtopo g) ps).
(** BoundingBox in direction [j], 5247-5266; [None] is the initial {inf, -inf}. *)
Definition box_dir (j : Z) (ps : list (list R)) : outcome (option (R * R)) :=
  for_each ps (fun p (b : option (R * R)) =>
    do x <- at_ p j;
    match b with
    | None => Ok (Some (x, x))
    | Some (lo, hi) => Ok (Some (if Rle_dec lo x then lo else x, if Rle_dec x hi then hi else x))
    end) None.
Definition bounding_box (g : gmesh) : outcome (option (R * R) * option (R * R) * option (R * R)) :=
  do x <- box_dir 0 (gcoord g); do y <- box_dir 1 (gcoord g); do z <- box_dir 2 (gcoord g); Ok (x, y, z).
(** One direction of the transformation computed by Scale, 5185-5195.  A mesh
    without vertices has box {inf, -inf}; its transformation is applied to nothing
    and is not modelled (the value below is arbitrary). *)
Definition scale_dir (d : R * R) (b : option (R * R)) : R * R * R :=
  match b with
  | None => (fst d, 0, 1)
  | Some (lo, hi) => (fst d, lo, if Req_EM_T (hi - lo) 0 then 1 else (snd d - fst d) / (hi - lo))
  end.
Definition limits := (R * R * (R * R) * (R * R))%type.
(** Scale, 5168-5200 *)
Definition scale (d : limits) (g : gmesh) : outcome (gmesh * transformation) :=
  do b <- bounding_box g;
  let '(bx, by_, bz) := b in let '(dx, dy, dz) := d in
  let t := (scale_dir dx bx, scale_dir dy by_, scale_dir dz bz) in
  do g' <- linear_transform t g; Ok (g', t).

(** The calls that change positions or cached lengths; LinearTransform and Scale
    leave the cached lengths alone. *)
Inductive lop := LTransform (t : transformation) | LScale (d : limits) | LPrepare | LInvalidate (i : Z).
Definition lstep (o : lop) (m : lmesh) : outcome lmesh :=
  match o with
  | LTransform t => do g <- linear_transform t (lg m); Ok (mkL g (llen m) (lset m))
  | LScale d => do gt <- scale d (lg m); Ok (mkL (fst gt) (llen m) (lset m))
  | LPrepare => prepare_lengths m
  | LInvalidate i => invalidate_length i m
  end.

(** ** Lengths at a vertex *)
(** Doubles with infinities, for the functions that use INFINITY. *)
Inductive ext := Fin (x : R) | PInf | MInf | Nan.
Definition ext_lt (a b : ext) : bool :=
  match a, b with
  | Fin x, Fin y => if Rlt_dec x y then true else false
  | MInf, Fin _ | MInf, PInf | Fin _, PInf => true
  | _, _ => false
  end.
Definition ext_add (a b : ext) : ext :=
  match a, b with
  | Fin x, Fin y => Fin (x + y)
  | Nan, _ | _, Nan | PInf, MInf | MInf, PInf => Nan
  | PInf, _ | _, PInf => PInf
  | MInf, _ | _, MInf => MInf
  end.
(** Division by the size of a vector. *)
Definition ext_div (a : ext) (n : nat) : ext :=
  match a with
  | Fin x => if (n =? 0)%nat then (if Rlt_dec 0 x then PInf else if Rlt_dec x 0 then MInf else Nan) else Fin (x / INR n)
  | _ => a
  end.
(** The loops of CalculateVertexMinEdgeLength, MaxEdgeLength and MeanEdgeLength,
    meshprocessing.cpp:699-707, 726-734, 753-762, on the lengths of the edges of a
    vertex *)
Definition min_length (ls : list R) : ext :=
  fold_left (fun b l => if ext_lt (Fin l) b then Fin l else b) ls PInf.
Definition max_length (ls : list R) : ext :=
  fold_left (fun b l => if ext_lt b (Fin l) then Fin l else b) ls MInf.
Definition mean_length (ls : list R) : ext :=
  ext_div (fold_left (fun b l => ext_add b (Fin l)) ls PInf) (length ls).
(** The lengths of the edges of the vertex at position [p], with the search. *)
Definition lengths_at (m : lmesh) (v : vert) : outcome (list R) :=
  omap_list (fun ei => edge_length m (find ed_index (edges (gtopo (lg m))) ei)) (ve_edgeind v).

(** ** Line and sphere *)
(** IntersectLineSphere, meshprocessing.cpp:1070-1090; [None] is {-inf, inf} *)
Definition intersect_line_sphere (line offset : list R) (r : R) : outcome (option (R * R)) :=
  do a <- dot line line; do b0 <- dot line offset; do c0 <- dot offset offset;
  let b := 2 * b0 in let c := c0 - r * r in
  let det := b * b - 4 * a * c in
  let inva := 1 / (2 * a) in
  if Rlt_dec det 0 then Ok None
  else if aprox_equal det 0 then Ok (Some (- b * inva, - b * inva))
  else Ok (Some ((- b - sqrt det) * inva, (- b + sqrt det) * inva)).
(** 1092-1099 *)
Definition intersect_line_sphere_at (line point centre : list R) (r : R) : outcome (option (R * R)) :=
  intersect_line_sphere line (elems (cv_sub centre (set_elems point cv_new))) r.

(** ** Chain rule *)
(** Matrices by rows; an entry outside is an out-of-range read. *)
Definition entry (m : list (list R)) (i j : nat) : outcome R :=
  do r <- at_ m (Z.of_nat i); at_ r (Z.of_nat j).
Definition build (nr nc : nat) (f : nat -> nat -> outcome R) : outcome (list (list R)) :=
  omap_list (fun i => omap_list (fun j => f i j) (seq 0 nc)) (seq 0 nr).
Definition sum_to (n : nat) (f : nat -> outcome R) : outcome R :=
  for_each (seq 0 n) (fun k r => do x <- f k; Ok (r + x)) 0.
Definition cols (m : list (list R)) : nat := match m with [] => 0 | r :: _ => length r end.
(** Eigen's product and transpose; a mismatch is undefined in a release build. *)
Definition mat_mul (a b : list (list R)) : outcome (list (list R)) :=
  if (cols a =? length b)%nat then
    build (length a) (cols b) (fun i j => sum_to (length b) (fun k => do x <- entry a i k; do y <- entry b k j; Ok (x * y)))
  else UB.
Definition mat_tr (a : list (list R)) : outcome (list (list R)) := build (cols a) (length a) (fun i j => entry a j i).
Definition mat_add (a b : list (list R)) : outcome (list (list R)) :=
  if ((length a =? length b) && (cols a =? cols b))%bool%nat then
    build (length a) (cols a) (fun i j => do x <- entry a i j; do y <- entry b i j; Ok (x + y))
  else UB.
(** VecBy3DimArray, matrixtools.cpp:31-78; nVec = 0 divides by zero *)
Definition vec_by_3dim (vec arr : list (list R)) : outcome (list (list R)) :=
  let nVec := cols vec in
  if (nVec =? 0)%nat then UB else
  let nColFin := (cols arr / nVec)%nat in
  build (length arr) nColFin (fun i j => sum_to nVec (fun k => do x <- entry arr i (j + k * nColFin); do y <- entry vec 0 k; Ok (x * y))).
(** Deriv1stChainScalar, 80-83, Deriv2ndChainScalar, 85-115 *)
Definition deriv1 (dSdc dcdd : list (list R)) := mat_mul dSdc dcdd.
Definition deriv2 (dSdc dcdd HSc Hcd : list (list R)) : outcome (list (list R)) :=
  do h <- vec_by_3dim dSdc Hcd;
  do t <- mat_tr dcdd; do a <- mat_mul t HSc; do b <- mat_mul a dcdd;
  mat_add h b.

(** ** Scales *)
(** rsvs3d::sign, warning.hpp *)
Definition rsign (x : R) : R := if Rlt_dec 0 x then 1 else if Rlt_dec x 0 then -1 else 0.
Definition log10 (x : R) : R := ln x / ln 10.
(** rsvs3d::SignedLogScale, warning.cpp:40-58 *)
Definition signed_log_scale (x : R) : R :=
  let s := rsign x in
  if Req_EM_T s 0 then s
  else if Rlt_dec dbl_eps (Rabs x) then s * (log10 (Rabs x) - (-15) + 1)
  else - s * 1 / (log10 (Rabs x) - (-15) + 1).
