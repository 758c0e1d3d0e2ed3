(** Border flags and flood fills of class mesh.
    Source: SRCC/src/grid/mesh.cpp, lines cited below. *)
From Verif Require Import Base Containers Mesh.
Set Implicit Arguments.
Open Scope Z_scope.

(** ** SetBorders, mesh.cpp:4175-4329. *)

(** [while (jj < nT && !isBorder) { isBorder = flag(list[jj]); jj++; }]: the
    scan stops at the first true; looking up an unknown index is undefined. *)
Fixpoint scan {A} (flag : A -> outcome bool) (l : list A) : outcome bool :=
  match l with
  | [] => Ok false
  | x :: r => do b <- flag x; if b then Ok true else scan flag r
  end.
(** [surfs(surfs.find(x))->isBorder] and the like (4202, 4216, 4244, 4259,
    4280). *)
Definition border_of {A} (index : A -> Z) (border : A -> bool) (l : list A) (x : Z) : outcome bool :=
  do a <- at_ l (find index l x); Ok (border a).
(** Some vertex of some edge in the list is on the border (4276-4290 and
    4309-4323). *)
Definition edges_touch (m : mesh) (es : list Z) : outcome bool :=
  scan (fun e => do ed <- at_ (edges m) (find ed_index (edges m) e);
                 scan (border_of ve_index ve_border (verts m)) (ed_vertind ed)) es.
(** 4178-4221 *)
Definition borders3 (m : mesh) : outcome mesh :=
  let ss := map (fun s => su_set_border (existsb (fun v => v =? 0) (su_voluind s)) s) (surfs m) in
  do vs <- omap_list (fun v => do b <- scan (border_of su_index su_border ss) (vo_surfind v);
                               Ok (vo_set_border b v)) (volus m);
  do es <- omap_list (fun e => do b <- scan (border_of su_index su_border ss) (ed_surfind e);
                               Ok (ed_set_border b e)) (edges m);
  Ok (mkMesh vs ss es (verts m) (meshDim m)).
(** 4222-4249 *)
Definition borders2 (m : mesh) : outcome mesh :=
  let es := map (fun e => ed_set_border (existsb (fun s => s =? 0) (ed_surfind e)) e) (edges m) in
  do ss <- omap_list (fun s => do b <- scan (border_of ed_index ed_border es) (su_edgeind s);
                               Ok (su_set_border b s)) (surfs m);
  Ok (mkMesh (volus m) ss es (verts m) (meshDim m)).
(** 4251-4263 *)
Definition borders_vert (m : mesh) : outcome mesh :=
  do vs <- omap_list (fun v => do b <- scan (border_of ed_index ed_border (edges m)) (ve_edgeind v);
                               Ok (ve_set_border b v)) (verts m);
  Ok (set_verts vs m).
(** 4265-4299 *)
Definition borders_volu (m : mesh) : outcome mesh :=
  do vs <- omap_list (fun v =>
      if vo_border v then Ok v else
      do b <- scan (fun s => do su <- at_ (surfs m) (find su_index (surfs m) s);
                             edges_touch m (su_edgeind su)) (vo_surfind v);
      Ok (vo_set_border b v)) (volus m);
  Ok (set_volus vs m).
(** 4300-4327 *)
Definition borders_surf (m : mesh) : outcome mesh :=
  do ss <- omap_list (fun s =>
      if su_border s then Ok s else
      do b <- edges_touch m (su_edgeind s); Ok (su_set_border b s)) (surfs m);
  Ok (set_surfs ss m).
(** The whole function.  borderIsSet is not part of the model. *)
Definition set_borders (m : mesh) : outcome mesh :=
  if (0 <? length (volus m))%nat
  then do m1 <- borders3 m; do m2 <- borders_vert m1; borders_volu m2
  else do m1 <- borders2 m; do m2 <- borders_vert m1; borders_surf m2.

(** ** The flood fill shared by ConnectedVertex (mesh.cpp:4678-4734) and
    ConnectedVolumes (4802-4869).  [nbrs p] is what exploring position [p]
    pushes on nextQueue. *)
Section Fill.
Variable nbrs : Z -> outcome (list Z).

(** status (vertStatus/volStatus), block, nExplored, nextQueue *)
Record fill := mkFill { f_status : list bool; f_block : list Z; f_explored : Z; f_next : list Z }.

(** Body of the loop over currQueue, 4702-4728 and 4826-4863. *)
Definition explore (nBlocks : Z) (q : Z) (f : fill) : outcome fill :=
  do s <- at_ (f_status f) q;
  if s then Ok f
  else do _ <- at_ (f_block f) q;
       do l <- nbrs q;
       Ok {| f_status := upd (f_status f) (Z.to_nat q) true;
             f_block := upd (f_block f) (Z.to_nat q) nBlocks;
             f_explored := f_explored f + 1;
             f_next := f_next f ++ l |}.

(** First unexplored position, 4684-4688; the length when there is none, and
    [vertStatus[ii]] at 4689 then reads past the end. *)
Fixpoint first_false (l : list bool) (n : Z) : Z :=
  match l with
  | [] => n
  | b :: r => if b then first_false r (n + 1) else n
  end.

(** The while loop, 4679-4733.  The fuel bounds the number of iterations. *)
Fixpoint fill_loop (fuel : nat) (n : Z) (nBlocks : Z) (queue : list Z) (f : fill) : outcome (Z * list Z) :=
  if n <=? f_explored f then Ok (nBlocks, f_block f) else
  match fuel with
  | O => OutOfFuel
  | S fuel' =>
      do (nB, q) <- match queue with
                    | [] => let ii := first_false (f_status f) 0 in
                            do s <- at_ (f_status f) ii;
                            if s then Throw else Ok (nBlocks + 1, [ii])
                    | _ => Ok (nBlocks, queue)
                    end;
      do f1 <- for_each q (explore nB) f;
      fill_loop fuel' n nB (f_next f1)
        {| f_status := f_status f1; f_block := f_block f1; f_explored := f_explored f1; f_next := [] |}
  end.

(** 4645-4674: an empty vector becomes zeros; a vector of the right size marks
    its non-zero entries as explored; any other size throws. *)
Definition flood (n : nat) (block0 : list Z) : outcome (Z * list Z) :=
  do b <- (if (length block0 =? 0)%nat then Ok (repeat 0 n)
           else if (length block0 =? n)%nat then Ok block0 else Throw);
  fill_loop (2 * n + 2) (Z.of_nat n) 0 []
    {| f_status := map (fun x => negb (x =? 0)) b; f_block := b;
       f_explored := Z.of_nat (length (filter (fun x => negb (x =? 0)) b)); f_next := [] |}.
End Fill.

(** [kk = (list[0] == self); list[kk]]: the other end of an edge or surface
    (4710-4712 and 4843-4849). *)
Definition other_end (self : Z) (l : list Z) : outcome Z :=
  do x <- at_ l 0; if x =? self then at_ l 1 else Ok x.

(** 4707-4712 *)
Definition vert_nbrs (m : mesh) (q : Z) : outcome (list Z) :=
  do v <- at_ (verts m) q;
  omap_list (fun e => do ed <- at_ (edges m) (find ed_index (edges m) e);
                      do x <- other_end (ve_index v) (ed_vertind ed);
                      Ok (find ve_index (verts m) x)) (ve_edgeind v).
(** ConnectedVertex, 4633-4735: the returned count and the vector. *)
Definition connected_vertex (m : mesh) (vertBlock : list Z) : outcome (Z * list Z) :=
  flood (vert_nbrs m) (length (verts m)) vertBlock.

(** 4834-4849: boundary surfaces and the exterior are skipped.  [bound] is
    boundaryFaces. *)
Fixpoint volu_nbrs_from (m : mesh) (bound : list bool) (self : Z) (l : list Z) : outcome (list Z) :=
  match l with
  | [] => Ok []
  | s :: r =>
      let p := find su_index (surfs m) s in
      do stop <- (if is_nil bound then Ok false else at_ bound p);
      do hd <- (if stop : bool then Ok []
                else do su <- at_ (surfs m) p;
                     do x <- other_end self (su_voluind su);
                     if x =? 0 then Ok [] else Ok [find vo_index (volus m) x]);
      do tl <- volu_nbrs_from m bound self r;
      Ok (hd ++ tl)
  end.
Definition volu_nbrs (m : mesh) (bound : list bool) (q : Z) : outcome (list Z) :=
  do v <- at_ (volus m) q; volu_nbrs_from m bound (vo_index v) (vo_surfind v).
(** ConnectedVolumes, 4737-4870.  The size of voluBlock is tested before the
    size of boundaryFaces; both throw the same exception. *)
Definition connected_volumes (m : mesh) (voluBlock : list Z) (bound : list bool) : outcome (Z * list Z) :=
  if ((length bound =? 0) || (length bound =? length (surfs m)))%nat
  then flood (volu_nbrs m bound) (length (volus m)) voluBlock else Throw.

(** ** ForceCloseContainers, mesh.cpp:4331-4418.  The SAFE_ALGO messages do not
    change the result and are left out; Init, PopulateIndices and HashArray
    leave default elements numbered 1..nBlocks (mesh.hpp default constructors:
    isBorder false, surf::isordered false, voluind {0,0}). *)
Fixpoint upto (n : nat) (k : Z) : list Z :=
  match n with O => [] | S n' => k :: upto n' (k + 1) end.
(** 4367-4388 *)
Definition close3_surf (b : Z) (s : Z) (st : list volu * list surf) : outcome (list volu * list surf) :=
  let '(vs, ss) := st in
  let iSurf := find su_index ss s in
  do _ <- at_ ss iSurf;
  do vs1 <- modify vs (find vo_index vs b) (fun v => vo_set_surfind (vo_surfind v ++ [s]) v);
  do ss1 <- modify ss iSurf (su_set_voluind [b; 0]);
  Ok (vs1, ss1).
(** 4343-4391 *)
Definition close3 (m : mesh) (nBlocks : Z) (block : list Z) : outcome mesh :=
  do (vs, ss) <- for_each (combine (verts m) block)
    (fun vb st => let '(v, b) := vb in
       for_each (ve_edgeind v)
         (fun e st => do ed <- at_ (edges m) (find ed_index (edges m) e);
                      for_each (ed_surfind ed) (close3_surf b) st) st)
    (map (fun i => mkVolu i false []) (upto (Z.to_nat nBlocks) 1), surfs m);
  Ok (mkMesh vs ss (edges m) (verts m) (meshDim m)).
(** 4392-4412 *)
Definition close2 (m : mesh) (nBlocks : Z) (block : list Z) : outcome mesh :=
  do (ss, es) <- for_each (combine (verts m) block)
    (fun vb st => let '(v, b) := vb in
       for_each (ve_edgeind v)
         (fun e st => let '(ss, es) := st in
            do ss1 <- modify ss (find su_index ss b) (fun s => su_set_edgeind (su_edgeind s ++ [e]) s);
            do es1 <- modify es (find ed_index es e) (ed_set_surfind [b; 0]);
            Ok (ss1, es1)) st)
    (map (fun i => mkSurf i false false [0; 0] []) (upto (Z.to_nat nBlocks) 1), edges m);
  Ok (mkMesh (volus m) ss es (verts m) (meshDim m)).
Definition force_close (m : mesh) : outcome mesh :=
  do (nBlocks, block) <- connected_vertex m [];
  if (0 <? length (volus m))%nat then close3 m nBlocks block else close2 m nBlocks block.
