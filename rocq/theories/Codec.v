(** Model of the mesh and snake files.
    Sources: SRCC/src/grid/mesh.cpp 1736-1875 and 3112-3131,
    SRCC/src/snake/snake.cpp 47-74 and 255-271,
    SRCC/incl/arraystructures_incl.cpp 444-463, and the conversions of the C library
    that they use (C11 7.21.6.1 and 7.21.6.2; correctly rounded, as glibc does).

    A file is the list of its character codes.  Integers are unbounded.  A double is
    its sign and its magnitude, a real number of the format binary64.  fopen and disk
    errors are left out. *)
From Coq Require Import Reals.
From Flocq Require Import Core.
From Verif Require Import Base Containers Mesh.
Set Implicit Arguments.
Open Scope Z_scope.

(** ** Doubles *)
Inductive dbl := Fin (neg : bool) (a : R) | Inf (neg : bool) | NaN.
Definition fmt := FLT_exp (-1074) 53.
Definition ten : radix := Build_radix 10 eq_refl.
(** The double closest to a magnitude, ties to even; overflow is infinity. *)
Definition to_dbl (neg : bool) (x : R) : dbl :=
  let y := round radix2 fmt ZnearestE x in
  if Rlt_dec y (bpow radix2 1024) then Fin neg y else Inf neg.

(** ** Printing *)
(** %i of a number that is not negative; the fuel is the number of binary digits. *)
Fixpoint digits (fuel : nat) (n : Z) (acc : list Z) : list Z :=
  match fuel with
  | O => acc
  | S f => if n <? 10 then (48 + n) :: acc else digits f (n / 10) ((48 + n mod 10) :: acc)
  end.
Definition print_nat (n : Z) : list Z := digits (S (Z.to_nat (Z.log2 n))) n [].
(** %i *)
Definition print_int (z : Z) : list Z := if z <? 0 then 45 :: print_nat (- z) else print_nat z.
(** The last [k] decimal digits of [n] *)
Fixpoint fixed (k : nat) (n : Z) (acc : list Z) : list Z :=
  match k with
  | O => acc
  | S k' => fixed k' (n / 10) ((48 + n mod 10) :: acc)
  end.
(** %.[k]lf; %lf is %.6lf *)
Definition print_dbl (k : nat) (x : dbl) : list Z :=
  match x with
  | Fin neg a =>
    let n := ZnearestE (a * bpow ten (Z.of_nat k))%R in
    (if neg then [45] else []) ++ print_nat (n / 10 ^ Z.of_nat k) ++ [46] ++ fixed k n []
  | Inf neg => (if neg then [45] else []) ++ [105; 110; 102]
  | NaN => [110; 97; 110]
  end.

(** ** Scanning *)
(** isspace in the C locale *)
Definition is_space (c : Z) : bool := ((c =? 32) || ((9 <=? c) && (c <=? 13)))%bool.
(** A white-space directive *)
Fixpoint skip (l : list Z) : list Z :=
  match l with c :: r => if is_space c then skip r else l | [] => [] end.
(** The value of a digit, or [None] *)
Definition digit (base c : Z) : option Z :=
  let v := if (48 <=? c) && (c <=? 57) then c - 48
           else if (97 <=? c) && (c <=? 102) then c - 87
           else if (65 <=? c) && (c <=? 70) then c - 55 else 16 in
  if v <? base then Some v else None.
(** The longest run of digits: value after [acc], number of digits after [n], rest *)
Fixpoint scan_digits (base : Z) (l : list Z) (acc n : Z) : Z * Z * list Z :=
  match l with
  | c :: r => match digit base c with
              | Some v => scan_digits base r (acc * base + v) (n + 1)
              | None => (acc, n, l)
              end
  | [] => (acc, n, [])
  end.
(** An optional sign *)
Definition scan_sign (l : list Z) : bool * list Z :=
  match l with
  | c :: r => if c =? 45 then (true, r) else if c =? 43 then (false, r) else (false, l)
  | [] => (false, [])
  end.
(** %i: like strtol with base 0, so a leading 0 selects octal and 0x hexadecimal *)
Definition scan_int (l : list Z) : option (Z * list Z) :=
  let (neg, l1) := scan_sign (skip l) in
  let '(v, n, r) :=
    match l1 with
    | 48 :: c :: r => if ((c =? 120) || (c =? 88))%bool then scan_digits 16 r 0 0 else scan_digits 8 l1 0 0
    | _ => scan_digits 10 l1 0 0
    end in
  if n =? 0 then None else Some (if neg then - v else v, r).
(** Does the text start with this word? *)
Fixpoint after (w l : list Z) : option (list Z) :=
  match w, l with
  | [], _ => Some l
  | a :: w', b :: l' => if a =? b then after w' l' else None
  | _ :: _, [] => None
  end.
(** The optional exponent of %lf; without digits it is no exponent *)
Definition scan_exp (l : list Z) : Z * list Z :=
  match l with
  | c :: r =>
    if ((c =? 101) || (c =? 69))%bool then
      let (neg, r1) := scan_sign r in
      let '(v, n, r2) := scan_digits 10 r1 0 0 in
      if n =? 0 then (0, l) else (if neg then - v else v, r2)
    else (0, l)
  | [] => (0, [])
  end.
(** %lf.  Hexadecimal floats, capitals, "infinity" and the characters of a NaN are
    left out. *)
Definition scan_dbl (l : list Z) : option (dbl * list Z) :=
  let (neg, l1) := scan_sign (skip l) in
  match after [105; 110; 102] l1, after [110; 97; 110] l1 with
  | Some r, _ => Some (Inf neg, r)
  | None, Some r => Some (NaN, r)
  | None, None =>
    let '(v, n, r) := scan_digits 10 l1 0 0 in
    let '(v', n', r') := match r with
                         | 46 :: r1 => scan_digits 10 r1 v 0
                         | _ => (v, 0, r)
                         end in
    if n + n' =? 0 then None
    else let (e, r2) := scan_exp r' in Some (to_dbl neg (IZR v' * bpow ten (e - n'))%R, r2)
  end.

(** ** Readers.  A conversion that fails leaves its variable as it was, in most calls
    without a value; every failed conversion is [UB] here. *)
Definition reader (A : Type) := list Z -> outcome (A * list Z).
Definition rret {A} (a : A) : reader A := fun l => Ok (a, l).
Definition rbind {A B} (r : reader A) (k : A -> reader B) : reader B :=
  fun l => match r l with
           | Ok (a, l') => k a l'
           | Throw => Throw
           | UB => UB
           | OutOfFuel => OutOfFuel
           end.
Notation "'rd' x <- e ; k" := (rbind e (fun x => k)) (at level 200, x name, e at level 100, k at level 200).
(** fscanf "%i " and "%lf " *)
Definition rint : reader Z := fun l => match scan_int l with Some (z, r) => Ok (z, skip r) | None => UB end.
Definition rdbl : reader dbl := fun l => match scan_dbl l with Some (x, r) => Ok (x, skip r) | None => UB end.
Definition rbool : reader bool := rd i <- rint ; rret (negb (i =? 0)).
Fixpoint rmany {A} (n : nat) (r : reader A) : reader (list A) :=
  match n with
  | O => rret []
  | S n' => rd x <- r ; rd xs <- rmany n' r ; rret (x :: xs)
  end.
(** A count, vector::assign and the elements; a negative count throws length_error. *)
Definition rlist {A} (r : reader A) : reader (list A) :=
  rd n <- rint ; if n <? 0 then fun _ => Throw else rmany (Z.to_nat n) r.

(** ** Writers *)
(** fprintf "%i ", "%.16lf ", "%lf ", and a count with its elements *)
Definition wint (z : Z) : list Z := print_int z ++ [32].
Definition wdbl (k : nat) (x : dbl) : list Z := print_dbl k x ++ [32].
Definition wbool (b : bool) : list Z := wint (if b then 1 else 0).
Definition wlist {A} (w : A -> list Z) (l : list A) : list Z :=
  wint (Z.of_nat (length l)) ++ concat (map w l).
Definition nl : list Z := [10].

(** ** Mesh elements; length, volume, area and isModif are not in the files. *)
Record fvolu := mkFVolu { fv_volu : volu; fv_fill : dbl; fv_target : dbl; fv_error : dbl }.
Record fsurf := mkFSurf { fs_surf : surf; fs_fill : dbl; fs_target : dbl; fs_error : dbl }.
Record fvert := mkFVert { fe_vert : vert; fe_coord : list dbl }.

(** 1736-1747 and 1803-1815 *)
Definition write_volu (v : fvolu) : list Z :=
  wint (vo_index (fv_volu v)) ++ wdbl 16 (fv_fill v) ++ wdbl 16 (fv_target v) ++ wdbl 16 (fv_error v) ++
  wbool (vo_border (fv_volu v)) ++ wlist wint (vo_surfind (fv_volu v)) ++ nl.
Definition read_volu : reader fvolu :=
  rd i <- rint ; rd f <- rdbl ; rd t <- rdbl ; rd e <- rdbl ; rd b <- rbool ; rd s <- rlist rint ;
  rret (mkFVolu (mkVolu i b s) f t e).
(** 1749-1765 and 1817-1835; isordered is false in a new surf (mesh.hpp) *)
Definition write_surf (s : fsurf) : list Z :=
  wint (su_index (fs_surf s)) ++ wdbl 16 (fs_fill s) ++ wdbl 16 (fs_target s) ++ wdbl 16 (fs_error s) ++
  wbool (su_border (fs_surf s)) ++ wlist wint (su_voluind (fs_surf s)) ++ wlist wint (su_edgeind (fs_surf s)) ++ nl.
Definition read_surf : reader fsurf :=
  rd i <- rint ; rd f <- rdbl ; rd t <- rdbl ; rd e <- rdbl ; rd b <- rbool ; rd v <- rlist rint ; rd s <- rlist rint ;
  rret (mkFSurf (mkSurf i b false v s) f t e).
(** 1767-1783 and 1837-1855 *)
Definition write_edge (e : edge) : list Z :=
  wint (ed_index e) ++ wbool (ed_border e) ++ wlist wint (ed_vertind e) ++ wlist wint (ed_surfind e) ++ nl.
Definition read_edge : reader edge :=
  rd i <- rint ; rd b <- rbool ; rd v <- rlist rint ; rd s <- rlist rint ; rret (mkEdge i b s v).
(** 1785-1801 and 1857-1875 *)
Definition write_vert (v : fvert) : list Z :=
  wint (ve_index (fe_vert v)) ++ wbool (ve_border (fe_vert v)) ++ wlist wint (ve_edgeind (fe_vert v)) ++
  wlist (wdbl 16) (fe_coord v) ++ nl.
Definition read_vert : reader fvert :=
  rd i <- rint ; rd b <- rbool ; rd e <- rlist rint ; rd c <- rlist rdbl ; rret (mkFVert (mkVert i b e) c).

(** ** Arrays: isInMesh and the elements, arraystructures_incl.cpp:444-463 *)
Definition farr (A : Type) := (bool * list A)%type.
Definition write_arr {A} (w : A -> list Z) (a : farr A) : list Z :=
  wint (Z.of_nat (length (snd a))) ++ wbool (fst a) ++ nl ++ concat (map w (snd a)).
Definition read_arr {A} (r : reader A) : reader (farr A) :=
  rd n <- rint ; rd b <- rbool ; if n <? 0 then fun _ => Throw else rd l <- rmany (Z.to_nat n) r ; rret (b, l).

(** ** Meshes, mesh.cpp:3112-3131; meshDim is not in the file and not changed. *)
Record fmesh := mkFMesh { f_verts : farr fvert; f_edges : farr edge; f_surfs : farr fsurf; f_volus : farr fvolu }.
Definition write_mesh (m : fmesh) : list Z :=
  write_arr write_vert (f_verts m) ++ write_arr write_edge (f_edges m) ++
  write_arr write_surf (f_surfs m) ++ write_arr write_volu (f_volus m).
Definition read_mesh : reader fmesh :=
  rd ve <- read_arr read_vert ; rd ed <- read_arr read_edge ; rd su <- read_arr read_surf ; rd vo <- read_arr read_volu ;
  rret (mkFMesh (true, snd ve) (true, snd ed) (true, snd su) (true, snd vo)).

(** ** Snakes, snake.cpp:47-74 and 255-271 *)
Record fsnax := mkFSnax { fx_index : Z; fx_d : dbl; fx_v : dbl; fx_edge : Z; fx_from : Z; fx_to : Z;
                          fx_freeze : Z; fx_order : Z }.
Definition write_snax (s : fsnax) : list Z :=
  wint (fx_index s) ++ wdbl 6 (fx_d s) ++ wdbl 6 (fx_v s) ++ wint (fx_edge s) ++ wint (fx_from s) ++
  wint (fx_to s) ++ wint (fx_freeze s) ++ wint (fx_order s) ++ nl.
Definition read_snax : reader fsnax :=
  rd i <- rint ; rd d <- rdbl ; rd v <- rdbl ; rd e <- rint ; rd f <- rint ; rd t <- rint ; rd z <- rint ; rd o <- rint ;
  rret (mkFSnax i d v e f t z o).
(** snaxedge (surfind) and snaxsurf (voluind), whose isBorder is not in the file *)
Record fcell := mkFCell { fc_index : Z; fc_parent : Z; fc_n0 : dbl; fc_n1 : dbl; fc_n2 : dbl }.
Definition write_cell (c : fcell) : list Z :=
  wint (fc_index c) ++ wint (fc_parent c) ++ wdbl 6 (fc_n0 c) ++ wdbl 6 (fc_n1 c) ++ wdbl 6 (fc_n2 c) ++ nl.
Definition read_cell : reader fcell :=
  rd i <- rint ; rd p <- rint ; rd a <- rdbl ; rd b <- rdbl ; rd c <- rdbl ; rret (mkFCell i p a b c).
(** A snake: the flags of its mesh vertices are not in the file. *)
Record fsnake := mkFSnake { fk_snaxs : farr fsnax; fk_edges : farr fcell; fk_surfs : farr fcell; fk_conn : fmesh;
                            fk_inside : list bool; fk_flipped : bool }.
Definition write_snake (s : fsnake) : list Z :=
  write_arr write_snax (fk_snaxs s) ++ write_arr write_cell (fk_edges s) ++ write_arr write_cell (fk_surfs s) ++
  write_mesh (fk_conn s).
(** Reading into the snake [old] *)
Definition read_snake (old : fsnake) : reader fsnake :=
  rd a <- read_arr read_snax ; rd b <- read_arr read_cell ; rd c <- read_arr read_cell ; rd m <- read_mesh ;
  rret (mkFSnake a b c m (fk_inside old) (fk_flipped old)).
