(** The numbers of the model.  The C++ type double is represented in two ways:
    exactly, by rational numbers, and literally, by the IEEE 754 binary64
    operations of Coq.Floats.SpecFloat (which needs no axiom).  Functions that
    compute with doubles are written once over the record [num]; theorems say
    which instance they are about. *)
From Coq Require Export QArith Qabs Qminmax Lqa.
From Coq Require Import Floats.SpecFloat.
From Verif Require Import Base.
Set Implicit Arguments.

Record num := mkNum {
  carrier :> Type;
  n0 : carrier; n1 : carrier; nhalf : carrier; neps : carrier;
  nadd : carrier -> carrier -> carrier;
  nsub : carrier -> carrier -> carrier;
  nmul : carrier -> carrier -> carrier;
  ndiv : carrier -> carrier -> carrier;
  nopp : carrier -> carrier;
  nabs : carrier -> carrier;
  nlt : carrier -> carrier -> bool;
  nle : carrier -> carrier -> bool;
  neq : carrier -> carrier -> bool;
  nfin : carrier -> bool }.

Arguments n0 {_}.
Arguments n1 {_}.
Arguments nhalf {_}.
Arguments neps {_}.
Arguments nadd {_}.
Arguments nsub {_}.
Arguments nmul {_}.
Arguments ndiv {_}.
Arguments nopp {_}.
Arguments nabs {_}.
Arguments nlt {_}.
Arguments nle {_}.
Arguments neq {_}.
Arguments nfin {_}.

(** Exact arithmetic: doubles without rounding, infinities or NaN.  Division by
    zero gives 0 here and inf or NaN in C++; theorems that use division state
    that the divisor is not 0. *)
Definition qlt (a b : Q) : bool := negb (Qle_bool b a).
Definition Qn : num :=
  mkNum 0%Q 1%Q (1 # 2)%Q (1 # 4503599627370496)%Q Qplus Qminus Qmult Qdiv Qopp Qabs qlt Qle_bool Qeq_bool (fun _ => true).

(** binary64: precision 53, emax 1024, round to nearest even. *)
Definition f64 := spec_float.
Definition fadd : f64 -> f64 -> f64 := SFadd 53 1024.
Definition fsub : f64 -> f64 -> f64 := SFsub 53 1024.
Definition fmul : f64 -> f64 -> f64 := SFmul 53 1024.
Definition fdiv : f64 -> f64 -> f64 := SFdiv 53 1024.
Definition f_one : f64 := S754_finite false 4503599627370496 (-52).
Definition f_half : f64 := S754_finite false 4503599627370496 (-53).
Definition f_eps : f64 := S754_finite false 4503599627370496 (-104).
Definition f_finite (x : f64) : bool :=
  match x with S754_zero _ => true | S754_finite _ _ _ => true | _ => false end.
Definition Fn : num :=
  mkNum (S754_zero false) f_one f_half f_eps fadd fsub fmul fdiv SFopp SFabs SFltb SFleb SFeqb f_finite.

(** rsvs3d::utils::IsAproxEqual with the default tolerance, rsvsutils.hpp:19-22 *)
Definition approx {N : num} (a b : N) : bool := nlt (nabs (nsub a b)) neps.
(** std::min and std::max *)
Definition std_max {N : num} (a b : N) : N := if nlt a b then b else a.
Definition std_min {N : num} (a b : N) : N := if nlt b a then b else a.

Lemma qlt_true a b : qlt a b = true <-> (a < b)%Q.
Proof.
  unfold qlt. rewrite negb_true_iff. split; intro H.
  - destruct (Qlt_le_dec a b) as [L|L]; auto. apply Qle_bool_iff in L. congruence.
  - destruct (Qle_bool b a) eqn:E; auto. apply Qle_bool_iff in E. lra.
Qed.
Lemma qlt_false a b : qlt a b = false <-> (b <= a)%Q.
Proof. unfold qlt. rewrite negb_false_iff. apply Qle_bool_iff. Qed.
Lemma qle_false a b : Qle_bool a b = false <-> (b < a)%Q.
Proof. rewrite <- qlt_true. unfold qlt. now rewrite negb_true_iff. Qed.
Lemma qeq_false a b : Qeq_bool a b = false <-> ~ (a == b)%Q.
Proof.
  split; intro H.
  - now apply Qeq_bool_neq.
  - destruct (Qeq_bool a b) eqn:E; auto. apply Qeq_bool_iff in E. contradiction.
Qed.
