(** Model of the loading of target fills.
    Source: SRCC/src/grid/mesh.cpp 5278-5327 (LoadTargetFill); the extraction of a
    double from a stream is that of C++11 (istream sentry, num_get).

    A mesh is reduced to its dimension and the targets of its cells (volumes in 3D,
    surfaces in 2D).  The check that the file could be opened, the printing and
    PrepareForUse are left out. *)
From Coq Require Import Reals.
From Flocq Require Import Core.
From Verif Require Import Base Mesh Codec.
Open Scope Z_scope.

(** A stream: the characters not yet read, eofbit and failbit *)
Record stream := mkStream { s_rest : list Z; s_eof : bool; s_fail : bool }.
Definition opened (l : list Z) : stream := mkStream l false false.
(** A decimal number as num_get takes it: sign, digits, optional decimals, optional
    exponent, which must have digits; no infinity, NaN or hexadecimal *)
Definition scan_num (l : list Z) : option (dbl * list Z) :=
  let (neg, l1) := scan_sign l in
  let '(v, n, r) := scan_digits 10 l1 0 0 in
  let '(v', n', r') := match r with
                       | 46 :: r1 => scan_digits 10 r1 v 0
                       | _ => (v, 0, r)
                       end in
  if n + n' =? 0 then None
  else let (e, r2) := scan_exp r' in
       match r2 with
       | c :: _ => if ((c =? 101) || (c =? 69))%bool then None else Some (to_dbl neg (IZR v' * bpow ten (e - n'))%R, r2)
       | [] => Some (to_dbl neg (IZR v' * bpow ten (e - n'))%R, r2)
       end.
(** The largest double *)
Definition largest : R := (IZR (2 ^ 53 - 1) * bpow radix2 971)%R.
(** [file >> ft].  The sentry fails on a stream that is not good and at the end of the
    file; ft is then not changed.  A malformed number sets ft to 0 and failbit; that it
    can also reach the end of the file is left out.  A number that is too large sets ft
    to the largest double and failbit. *)
Definition extract (s : stream) (ft : dbl) : stream * dbl :=
  if (s_eof s || s_fail s)%bool then (mkStream (s_rest s) (s_eof s) true, ft)
  else match skip (s_rest s) with
       | [] => (mkStream [] true true, ft)
       | l => match scan_num l with
              | Some (Inf neg, r) => (mkStream r (match r with [] => true | _ => false end) true, Fin neg largest)
              | Some (x, r) => (mkStream r (match r with [] => true | _ => false end) false, x)
              | None => (mkStream l false true, Fin false 0)
              end
       end.
(** The loop 5303-5308; [n] is nElms - count *)
Fixpoint load (n : nat) (s : stream) (ft : dbl) : list dbl :=
  match n with
  | O => []
  | S n' => if s_eof s then [] else let (s', x) := extract s ft in x :: load n' s' x
  end.
(** 5288-5325: [targets] has one entry per volume (dim = 3) or surface (dim = 2);
    [garbage] is the uninitialised ft.  An empty fillVals would be a remainder by zero. *)
Definition load_target_fill (dim : Z) (file : list Z) (garbage : dbl) (targets : list dbl) : outcome (list dbl) :=
  if ((dim =? 3) || (dim =? 2))%bool then
    let vals := load (length targets) (opened file) garbage in
    omap_list (fun i => match vals with
                   | [] => UB
                   | _ => at_ vals (Z.of_nat i mod Z.of_nat (length vals))
                   end) (seq 0 (length targets))
  else Throw.
