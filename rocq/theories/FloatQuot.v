(** The floating-point quotients of the block grid generator.
    Source: SRCC/src/grid/voxel.cpp 128-129, 203-204, 311-312, 423-424.

    IEEE 754 conversion, division and truncation are those of Flocq
    (BinarySingleNaN), which are computable functions. *)
From Coq Require Import ZArith.
From Flocq Require Import Core IEEE754.BinarySingleNaN.
Open Scope Z_scope.

#[export] Instance prec24 : Prec_gt_0 24 := eq_refl.
#[export] Instance emax24 : Prec_lt_emax 24 128 := eq_refl.
#[export] Instance prec53 : Prec_gt_0 53 := eq_refl.
#[export] Instance emax53 : Prec_lt_emax 53 1024 := eq_refl.

(** [int(floor(T(a) / T(b)))] for operands that are not negative: the conversion
    to int truncates, which is the floor of such a quotient. *)
Definition quot_of (prec emax : Z) {Hp : Prec_gt_0 prec} {He : Prec_lt_emax prec emax} (a b : Z) : Z :=
  let of_int z := binary_normalize prec emax Hp He mode_NE z 0 false in
  Btrunc (Bdiv mode_NE (of_int a) (of_int b)).
(** float and double *)
Definition quot32 : Z -> Z -> Z := quot_of 24 128.
Definition quot64 : Z -> Z -> Z := quot_of 53 1024.
