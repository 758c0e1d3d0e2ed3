(** Model of the test of the direction in mesh::OrientSurfaceVolume, over the real numbers:
    src/grid/mesh.cpp 4909-4943 and 5010-5016.  As in Geom.v there is no rounding. *)
From Coq Require Import Reals.
From Verif Require Import Base Mesh Edit Order Geom.
Import Mesh.
Set Implicit Arguments.
Open Scope R_scope.

(** mesh::CalcPseudoNormalSurf, 4909-4943 *)
Definition pseudo_normal (g : gmesh) (ind : Z) : outcome coordvec :=
  do s <- at_ (surfs (gtopo g)) (find su_index (surfs (gtopo g)) ind) ;
  do vs <- ordered_verts (gtopo g) (su_edgeind s) ;
  let nj := length vs in
  do r0 <- assign 0 0 0 cv_new ;
  do r <- for_each (seq 0 nj) (fun jj st =>
    do t0 <- assign 0 0 0 cv_new ;
    do a <- at_ vs (Z.of_nat ((jj + 1) mod nj)) ; do pa <- coord_of g a ;
    do b <- at_ vs (Z.of_nat ((jj + nj - 1) mod nj)) ; do pb <- coord_of g b ;
    do v <- at_ vs (Z.of_nat jj) ; do pv <- coord_of g v ;
    do l <- cross (elems (cv_sub pv (cv_add pa t0))) (elems (cv_sub pv (cv_add pb t0))) ;
    do t3 <- calc_norm (set_elems l cv_new) ;
    Ok (cv_add (elems t3) (fst st), snd st + norm t3)) (r0, 0) ;
  Ok (cv_div (snd r) (fst r)).
(** dotProd, 5011-5015, for surface [ind] and cell [c]. *)
Definition dot_prod (g : gmesh) (ind c : Z) : outcome R :=
  do s <- at_ (surfs (gtopo g)) (find su_index (surfs (gtopo g)) ind) ;
  do centre <- calc_centre_volu g c ;
  do n <- pseudo_normal g ind ;
  do ei <- at_ (su_edgeind s) 0 ;
  do e <- isearch ed_index (edges (gtopo g)) ei ;
  do v <- at_ (ed_vertind e) 0 ; do p <- coord_of g v ;
  dot (elems (cv_subfrom p centre)) (elems n).
(** Its sign, 5016 and 5018; 0 when smaller than epsilon.  An undefined dotProd is 0 here
    too: it does not occur where the theorems use this. *)
Definition facing_of (g : gmesh) (ind c : Z) : Z :=
  match dot_prod g ind c with
  | Ok d => if Rlt_dec (Rabs d) dbl_eps then 0%Z else if Rlt_dec d 0 then (-1)%Z else 1%Z
  | _ => 0%Z
  end.
