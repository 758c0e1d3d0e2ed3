(** The text of a fill file. *)
From Coq Require Import Reals.
From Flocq Require Import Core.
From Verif Require Import Base Codec.
Open Scope Z_scope.

Definition blank (c : Z) : Prop := c = 32 \/ 9 <= c <= 13.
Definition decimal_digit (c : Z) : Prop := 48 <= c <= 57.
(** The number that decimal digits stand for *)
Fixpoint number (rev : list Z) : Z :=
  match rev with [] => 0 | c :: r => number r * 10 + (c - 48) end.
(** A number in a file: an optional sign, digits, optionally a point and digits, and
    optionally an exponent, which is the letter e or E, perhaps a sign, and digits *)
Inductive power : list Z -> Z -> Prop :=
| power_none : power [] 0
| power_plain c ds : c = 101 \/ c = 69 -> Forall decimal_digit ds -> ds <> [] -> power (c :: ds) (number (rev ds))
| power_plus c ds : c = 101 \/ c = 69 -> Forall decimal_digit ds -> ds <> [] -> power (c :: 43 :: ds) (number (rev ds))
| power_minus c ds : c = 101 \/ c = 69 -> Forall decimal_digit ds -> ds <> [] -> power (c :: 45 :: ds) (- number (rev ds)).
Definition numeral (neg : bool) (ds fs ex : list Z) : list Z :=
  (if neg then [45] else []) ++ ds ++ (match fs with [] => [] | _ => 46 :: fs end) ++ ex.
Definition stands_for (neg : bool) (ds fs : list Z) (e : Z) : dbl :=
  to_dbl neg (IZR (number (rev (ds ++ fs))) * bpow ten (e - Z.of_nat (length fs)))%R.
(** A file with these numbers between white space, and the white space at its end; no
    number is too large for a double *)
Inductive file_of : list Z -> list dbl -> list Z -> Prop :=
| file_last b neg ds fs ex e tail :
    Forall blank b -> Forall decimal_digit ds -> ds <> [] -> Forall decimal_digit fs -> power ex e -> Forall blank tail ->
    (forall n, stands_for neg ds fs e <> Inf n) ->
    file_of (b ++ numeral neg ds fs ex ++ tail) [stands_for neg ds fs e] tail
| file_more b neg ds fs ex e c rest xs tail :
    Forall blank b -> Forall decimal_digit ds -> ds <> [] -> Forall decimal_digit fs -> power ex e -> blank c ->
    (forall n, stands_for neg ds fs e <> Inf n) ->
    file_of (c :: rest) xs tail ->
    file_of (b ++ numeral neg ds fs ex ++ c :: rest) (stands_for neg ds fs e :: xs) tail.
