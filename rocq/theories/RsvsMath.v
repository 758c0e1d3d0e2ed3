(** Model of the derivatives used by the optimiser: src/rsvs/RSVSmath.cpp,
    incl/RSVSmath.hpp and the generated formulas of
    src/rsvs/RSVSmath_automatic.cpp.

    The formulas were transcribed mechanically, one [let] for each assignment to
    a local variable, and a triple (row, column, value) for each assignment to
    the array argument; [put_all] writes these into the array, so that what is
    not assigned keeps its old value.  Numbers are real numbers: rounding is left
    out, and so is division by zero (theorems assume it does not happen).
    A coordinate vector is a function from positions to numbers: the check of
    its length (done only when SAFE_ALGO is defined) and reads beyond three
    components are left out.  SurfIntersect, which nothing calls, is left out. *)
From Coq Require Export Reals List Lia ZArith.
From Verif Require Export Base.
Export ListNotations.
Set Implicit Arguments.
Open Scope R_scope.

(** A std::vector<double>, as a function of the position (RSVSmath.hpp). *)
Definition vec := nat -> R.
(** incl/vectorarray.hpp 50-109: ArrayVec<double>, as a function of row and column. *)
Definition mat := nat -> nat -> R.
(** vectorarray.hpp: assign(nR, nC, 0). *)
Definition zero_mat : mat := fun _ _ => 0.
(** vectorarray.hpp 79-90: an assignment through operator[]. *)
Definition put (m : mat) (w : nat * nat * R) : mat :=
  fun i j => if andb (Nat.eqb i (fst (fst w))) (Nat.eqb j (snd (fst w))) then snd w else m i j.
(** A sequence of such assignments, in order. *)
Definition put_all (ws : list (nat * nat * R)) (m : mat) : mat := fold_left put ws m.
(** pow(x, 3.0/2.0) for x >= 0. *)
Definition pow32 (x : R) : R := x * sqrt x.

(** src/rsvs/RSVSmath_automatic.cpp 12-37 *)
Definition Volume2_f (d0 : R) (d1 : R) (d2 : R) (g0s : vec) (g1s : vec) (g2s : vec) (g0e : vec) (g1e : vec)
    (g2e : vec) : R :=
  let t2 := (g0e 1%nat) - (g0s 1%nat) in
  let t3 := d0 * t2 in
  let t4 := (g0e 0%nat) - (g0s 0%nat) in
  let t5 := d0 * t4 in
  let t6 := (g1e 0%nat) - (g1s 0%nat) in
  let t7 := (g0s 0%nat) - (g1s 0%nat) + t5 - d1 * t6 in
  let t8 := (g0e 2%nat) - (g0s 2%nat) in
  let t9 := d0 * t8 in
  let t10 := (g2e 0%nat) - (g2s 0%nat) in
  let t11 := (g0s 0%nat) - (g2s 0%nat) + t5 - d2 * t10 in
  let t12 := (g1e 1%nat) - (g1s 1%nat) in
  let t13 := (g0s 1%nat) - (g1s 1%nat) + t3 - d1 * t12 in
  let t14 := (g2e 2%nat) - (g2s 2%nat) in
  let t15 := (g0s 2%nat) - (g2s 2%nat) + t9 - d2 * t14 in
  let t16 := (g1e 2%nat) - (g1s 2%nat) in
  let t17 := (g0s 2%nat) - (g1s 2%nat) + t9 - d1 * t16 in
  let t18 := (g2e 1%nat) - (g2s 1%nat) in
  let t19 := (g0s 1%nat) - (g2s 1%nat) + t3 - d2 * t18 in
  ((g0s 1%nat) + t3) * (t7 * t15 - t11 * t17) * (1 / 6) + ((g0s 2%nat) + t9) * (t11 * t13 - t7 * t19) * (1 /
      6) - ((g0s 0%nat) + t5) * (t13 * t15 - t17 * t19) * (1 / 6).

(** src/rsvs/RSVSmath_automatic.cpp 39-81 *)
Definition Volume2_df (d0 : R) (d1 : R) (d2 : R) (g0s : vec) (g1s : vec) (g2s : vec) (g0e : vec) (g1e : vec)
    (g2e : vec) : list (nat * nat * R) :=
  let t2 := (g0e 0%nat) - (g0s 0%nat) in
  let t3 := (g0e 1%nat) - (g0s 1%nat) in
  let t4 := d0 * t2 in
  let t5 := d0 * t3 in
  let t6 := (g0e 2%nat) - (g0s 2%nat) in
  let t7 := (g1e 0%nat) - (g1s 0%nat) in
  let t20 := d1 * t7 in
  let t8 := (g0s 0%nat) - (g1s 0%nat) + t4 - t20 in
  let t9 := d0 * t6 in
  let t10 := (g2e 0%nat) - (g2s 0%nat) in
  let t23 := d2 * t10 in
  let t11 := (g0s 0%nat) - (g2s 0%nat) + t4 - t23 in
  let t12 := (g1e 1%nat) - (g1s 1%nat) in
  let t22 := d1 * t12 in
  let t13 := (g0s 1%nat) - (g1s 1%nat) + t5 - t22 in
  let t14 := (g1e 2%nat) - (g1s 2%nat) in
  let t25 := d1 * t14 in
  let t15 := (g0s 2%nat) - (g1s 2%nat) + t9 - t25 in
  let t16 := (g2e 1%nat) - (g2s 1%nat) in
  let t21 := d2 * t16 in
  let t17 := (g0s 1%nat) - (g2s 1%nat) + t5 - t21 in
  let t18 := (g2e 2%nat) - (g2s 2%nat) in
  let t24 := d2 * t18 in
  let t19 := (g0s 2%nat) - (g2s 2%nat) + t9 - t24 in
  let t26 := (g0s 2%nat) + t9 in
  let t27 := (g0s 1%nat) + t5 in
  let t28 := (g0s 0%nat) + t4 in
  [
   (0%nat, 0%nat, t26 * (t3 * t8 - t3 * t11 - t2 * t13 + t2 * t17) * (-1 / 6) + t27 * (t6 * t8 - t2 * t15 - t6
      * t11 + t2 * t19) * (1 / 6) + t28 * (t3 * t15 - t6 * t13 - t3 * t19 + t6 * t17) * (1 / 6) + t6 * (t11 *
      t13 - t8 * t17) * (1 / 6) - t3 * (t11 * t15 - t8 * t19) * (1 / 6) - t2 * (t13 * t19 - t15 * t17) * (1 /
      6));
   (0%nat, 1%nat, t26 * (t11 * t12 - t7 * t17) * (-1 / 6) + t27 * (t11 * t14 - t7 * t19) * (1 / 6) + t28 *
      (t12 * t19 - t14 * t17) * (1 / 6));
   (0%nat, 2%nat, t26 * (t10 * t13 - t8 * t16) * (-1 / 6) + t27 * (t10 * t15 - t8 * t18) * (1 / 6) + t28 *
      (t13 * t18 - t15 * t16) * (1 / 6))
  ].

(** src/rsvs/RSVSmath_automatic.cpp 83-162 *)
Definition Volume2_ddf (d0 : R) (d1 : R) (d2 : R) (g0s : vec) (g1s : vec) (g2s : vec) (g0e : vec) (g1e : vec)
    (g2e : vec) : list (nat * nat * R) :=
  let t2 := (g0e 0%nat) - (g0s 0%nat) in
  let t3 := (g0e 1%nat) - (g0s 1%nat) in
  let t4 := d0 * t2 in
  let t5 := d0 * t3 in
  let t6 := (g0e 2%nat) - (g0s 2%nat) in
  let t7 := (g1e 0%nat) - (g1s 0%nat) in
  let t23 := d1 * t7 in
  let t8 := (g0s 0%nat) - (g1s 0%nat) + t4 - t23 in
  let t9 := (g2e 0%nat) - (g2s 0%nat) in
  let t20 := d2 * t9 in
  let t10 := (g0s 0%nat) - (g2s 0%nat) + t4 - t20 in
  let t11 := d0 * t6 in
  let t12 := (g1e 1%nat) - (g1s 1%nat) in
  let t24 := d1 * t12 in
  let t13 := (g0s 1%nat) - (g1s 1%nat) + t5 - t24 in
  let t14 := (g1e 2%nat) - (g1s 2%nat) in
  let t25 := d1 * t14 in
  let t15 := (g0s 2%nat) - (g1s 2%nat) + t11 - t25 in
  let t16 := (g2e 1%nat) - (g2s 1%nat) in
  let t21 := d2 * t16 in
  let t17 := (g0s 1%nat) - (g2s 1%nat) + t5 - t21 in
  let t18 := (g2e 2%nat) - (g2s 2%nat) in
  let t22 := d2 * t18 in
  let t19 := (g0s 2%nat) - (g2s 2%nat) + t11 - t22 in
  let t26 := (g0s 2%nat) + t11 in
  let t27 := (g0s 1%nat) + t5 in
  let t28 := (g0s 0%nat) + t4 in
  let t29 := t10 * t12 in
  let t30 := t29 - t7 * t17 in
  let t31 := t10 * t14 in
  let t32 := t31 - t7 * t19 in
  let t33 := t3 * t32 * (1 / 6) in
  let t34 := t12 * t19 in
  let t35 := t2 * (t34 - t14 * t17) * (1 / 6) in
  let t36 := t3 * t7 in
  let t37 := t26 * (t36 - t2 * t12) * (1 / 6) in
  let t38 := t6 * t7 in
  let t39 := t38 - t2 * t14 in
  let t40 := t3 * t14 in
  let t41 := t40 - t6 * t12 in
  let t42 := t33 + t35 + t37 - t6 * t30 * (1 / 6) - t27 * t39 * (1 / 6) - t28 * t41 * (1 / 6) in
  let t43 := t9 * t13 in
  let t44 := t43 - t8 * t16 in
  let t45 := t9 * t15 in
  let t46 := t3 * (t45 - t8 * t18) * (1 / 6) in
  let t47 := t13 * t18 in
  let t48 := t47 - t15 * t16 in
  let t49 := t2 * t48 * (1 / 6) in
  let t50 := t3 * t9 in
  let t51 := t50 - t2 * t16 in
  let t52 := t6 * t9 in
  let t53 := t27 * (t52 - t2 * t18) * (1 / 6) in
  let t54 := t3 * t18 in
  let t55 := t54 - t6 * t16 in
  let t56 := t28 * t55 * (1 / 6) in
  let t57 := t46 + t49 + t53 + t56 - t6 * t44 * (1 / 6) - t26 * t51 * (1 / 6) in
  let t58 := t9 * t12 in
  let t59 := t26 * (t58 - t7 * t16) * (1 / 6) in
  let t60 := t9 * t14 in
  let t61 := t60 - t7 * t18 in
  let t62 := t12 * t18 in
  let t63 := t62 - t14 * t16 in
  let t64 := t59 - t27 * t61 * (1 / 6) - t28 * t63 * (1 / 6) in
  [
   (0%nat, 0%nat, t6 * (t3 * t8 - t3 * t10 - t2 * t13 + t2 * t17) * (-1 / 3) + t3 * (t6 * t8 - t6 * t10 - t2 *
      t15 + t2 * t19) * (1 / 3) + t2 * (t3 * t15 - t6 * t13 - t3 * t19 + t6 * t17) * (1 / 3));
   (0%nat, 1%nat, t42);
   (0%nat, 2%nat, t57);
   (1%nat, 0%nat, t42);
   (1%nat, 2%nat, t64);
   (2%nat, 0%nat, t57);
   (2%nat, 1%nat, t64)
  ].

(** src/rsvs/RSVSmath_automatic.cpp 333-344 *)
Definition Volume_f (p0 : vec) (p1 : vec) (p2 : vec) : R :=
  let t2 := (p0 0%nat) - (p1 0%nat) in
  let t3 := (p0 0%nat) - (p2 0%nat) in
  let t4 := (p0 1%nat) - (p1 1%nat) in
  let t5 := (p0 2%nat) - (p2 2%nat) in
  let t6 := (p0 2%nat) - (p1 2%nat) in
  let t7 := (p0 1%nat) - (p2 1%nat) in
  (p0 1%nat) * (t2 * t5 - t3 * t6) * (1 / 6) + (p0 2%nat) * (t3 * t4 - t2 * t7) * (1 / 6) - (p0 0%nat) * (t4 *
      t5 - t6 * t7) * (1 / 6).

(** src/rsvs/RSVSmath_automatic.cpp 346-367 *)
Definition Volume_df (p0 : vec) (p1 : vec) (p2 : vec) : list (nat * nat * R) :=
  let t2 := (p1 2%nat) - (p2 2%nat) in
  let t3 := (p0 2%nat) - (p2 2%nat) in
  let t4 := (p0 2%nat) - (p1 2%nat) in
  let t5 := (p1 0%nat) - (p2 0%nat) in
  let t6 := (p1 1%nat) - (p2 1%nat) in
  let t7 := (p0 0%nat) - (p1 0%nat) in
  let t8 := (p0 1%nat) - (p2 1%nat) in
  let t9 := (p0 1%nat) - (p1 1%nat) in
  let t10 := (p0 0%nat) - (p2 0%nat) in
  [
   (0%nat, 0%nat, (p0 1%nat) * t2 * (1 / 6) - (p0 2%nat) * t6 * (1 / 6) - t3 * t9 * (1 / 6) + t4 * t8 * (1 /
      6));
   (0%nat, 1%nat, (p0 0%nat) * t2 * (-1 / 6) + (p0 2%nat) * t5 * (1 / 6) + t3 * t7 * (1 / 6) - t4 * t10 * (1 /
      6));
   (0%nat, 2%nat, (p0 0%nat) * t6 * (1 / 6) - (p0 1%nat) * t5 * (1 / 6) - t7 * t8 * (1 / 6) + t9 * t10 * (1 /
      6));
   (0%nat, 3%nat, (p0 1%nat) * t3 * (-1 / 6) + (p0 2%nat) * t8 * (1 / 6));
   (0%nat, 4%nat, (p0 0%nat) * t3 * (1 / 6) - (p0 2%nat) * t10 * (1 / 6));
   (0%nat, 5%nat, (p0 0%nat) * t8 * (-1 / 6) + (p0 1%nat) * t10 * (1 / 6));
   (0%nat, 6%nat, (p0 1%nat) * t4 * (1 / 6) - (p0 2%nat) * t9 * (1 / 6));
   (0%nat, 7%nat, (p0 0%nat) * t4 * (-1 / 6) + (p0 2%nat) * t7 * (1 / 6));
   (0%nat, 8%nat, (p0 1%nat) * t7 * (-1 / 6) + (p0 0%nat) * t9 * (1 / 6))
  ].

(** src/rsvs/RSVSmath_automatic.cpp 369-417 *)
Definition Volume_ddf (p0 : vec) (p1 : vec) (p2 : vec) : list (nat * nat * R) :=
  let t2 := (p1 2%nat) * (1 / 6) in
  let t3 := (p2 1%nat) * (1 / 6) in
  let t4 := (p1 0%nat) * (1 / 6) in
  let t5 := (p2 2%nat) * (1 / 6) in
  let t6 := (p2 0%nat) * (1 / 6) in
  let t7 := (p0 1%nat) * (1 / 6) in
  let t8 := (p1 1%nat) * (1 / 6) in
  let t9 := (p0 2%nat) * (1 / 6) in
  let t10 := (p0 0%nat) * (1 / 6) in
  [
   (0%nat, 4%nat, (p2 2%nat) * (-1 / 6));
   (0%nat, 5%nat, t3);
   (0%nat, 7%nat, t2);
   (0%nat, 8%nat, (p1 1%nat) * (-1 / 6));
   (1%nat, 3%nat, t5);
   (1%nat, 5%nat, (p2 0%nat) * (-1 / 6));
   (1%nat, 6%nat, -t2);
   (1%nat, 8%nat, t4);
   (2%nat, 3%nat, -t3);
   (2%nat, 4%nat, t6);
   (2%nat, 6%nat, t8);
   (2%nat, 7%nat, -t4);
   (3%nat, 1%nat, t5);
   (3%nat, 2%nat, -t3);
   (3%nat, 7%nat, (p0 2%nat) * (-1 / 6));
   (3%nat, 8%nat, t7);
   (4%nat, 0%nat, -t5);
   (4%nat, 2%nat, t6);
   (4%nat, 6%nat, t9);
   (4%nat, 8%nat, (p0 0%nat) * (-1 / 6));
   (5%nat, 0%nat, t3);
   (5%nat, 1%nat, -t6);
   (5%nat, 6%nat, -t7);
   (5%nat, 7%nat, t10);
   (6%nat, 1%nat, -t2);
   (6%nat, 2%nat, t8);
   (6%nat, 4%nat, t9);
   (6%nat, 5%nat, -t7);
   (7%nat, 0%nat, t2);
   (7%nat, 2%nat, -t4);
   (7%nat, 3%nat, -t9);
   (7%nat, 5%nat, t10);
   (8%nat, 0%nat, -t8);
   (8%nat, 1%nat, t4);
   (8%nat, 3%nat, t7);
   (8%nat, 4%nat, -t10)
  ].

(** src/rsvs/RSVSmath_automatic.cpp 419-433 *)
Definition Area_f (p0 : vec) (p1 : vec) (p2 : vec) (eps : R) : R :=
  let t3 := (p0 0%nat) - (p1 0%nat) in
  let t4 := (p0 0%nat) - (p2 0%nat) in
  let t6 := (p0 1%nat) - (p1 1%nat) in
  let t9 := (p0 1%nat) - (p2 1%nat) in
  let t2 := -t4 * t6 + t3 * t9 in
  let t7 := (p0 2%nat) - (p2 2%nat) in
  let t8 := (p0 2%nat) - (p1 2%nat) in
  let t5 := -t3 * t7 + t4 * t8 in
  let t10 := t6 * t7 - t8 * t9 in
  sqrt (t2 * t2 + t5 * t5 + t10 * t10 + eps) * (1 / 2).

(** src/rsvs/RSVSmath_automatic.cpp 435-474 *)
Definition Area_df (p0 : vec) (p1 : vec) (p2 : vec) (eps : R) : list (nat * nat * R) :=
  let t2 := (p0 0%nat) - (p1 0%nat) in
  let t3 := (p0 0%nat) - (p2 0%nat) in
  let t4 := (p0 1%nat) - (p2 1%nat) in
  let t5 := t2 * t4 in
  let t6 := (p0 1%nat) - (p1 1%nat) in
  let t13 := t3 * t6 in
  let t7 := t5 - t13 in
  let t8 := (p0 2%nat) - (p2 2%nat) in
  let t9 := t2 * t8 in
  let t10 := (p0 2%nat) - (p1 2%nat) in
  let t18 := t3 * t10 in
  let t11 := t9 - t18 in
  let t14 := t6 * t8 in
  let t15 := t4 * t10 in
  let t12 := -t14 + t15 in
  let t16 := (p1 2%nat) - (p2 2%nat) in
  let t17 := t7 * t7 in
  let t19 := t11 * t11 in
  let t20 := t14 - t15 in
  let t21 := (p1 0%nat) - (p2 0%nat) in
  let t22 := (p1 1%nat) - (p2 1%nat) in
  let t23 := t20 * t20 in
  let t24 := t17 + t19 + t23 in
  let t25 := 1 / sqrt (t24 + eps) in
  [
   (0%nat, 0%nat, (t11 * t16 * 2 + t7 * t22 * 2) * 1 / sqrt (t17 + t19 + t12 * t12 + eps) * (1 / 4));
   (0%nat, 1%nat, t25 * (t7 * t21 * 2 - t16 * t20 * 2) * (-1 / 4));
   (0%nat, 2%nat, t25 * (t11 * t21 * 2 + t20 * t22 * 2) * (-1 / 4));
   (0%nat, 3%nat, t25 * (t4 * t7 * 2 + t8 * t11 * 2) * (-1 / 4));
   (0%nat, 4%nat, t25 * (t3 * t7 * 2 - t8 * t20 * 2) * (1 / 4));
   (0%nat, 5%nat, t25 * (t3 * t11 * 2 + t4 * t20 * 2) * (1 / 4));
   (0%nat, 6%nat, t25 * (t6 * t7 * 2 + t10 * t11 * 2) * (1 / 4));
   (0%nat, 7%nat, t25 * (t2 * t7 * 2 - t10 * t20 * 2) * (-1 / 4));
   (0%nat, 8%nat, t25 * (t2 * t11 * 2 + t6 * t20 * 2) * (-1 / 4))
  ].

(** src/rsvs/RSVSmath_automatic.cpp 476-745 *)
Definition Area_ddf (p0 : vec) (p1 : vec) (p2 : vec) (eps : R) : list (nat * nat * R) :=
  let t2 := (p1 1%nat) - (p2 1%nat) in
  let t3 := (p1 2%nat) - (p2 2%nat) in
  let t5 := (p0 0%nat) - (p1 0%nat) in
  let t6 := (p0 0%nat) - (p2 0%nat) in
  let t8 := (p0 1%nat) - (p1 1%nat) in
  let t11 := (p0 1%nat) - (p2 1%nat) in
  let t13 := t5 * t11 in
  let t14 := t6 * t8 in
  let t4 := t13 - t14 in
  let t9 := (p0 2%nat) - (p2 2%nat) in
  let t10 := (p0 2%nat) - (p1 2%nat) in
  let t15 := t5 * t9 in
  let t16 := t6 * t10 in
  let t7 := -t15 + t16 in
  let t20 := t8 * t9 in
  let t21 := t10 * t11 in
  let t12 := t20 - t21 in
  let t19 := t15 - t16 in
  let t23 := t2 * t4 * 2 in
  let t24 := t3 * t19 * 2 in
  let t17 := t23 + t24 in
  let t18 := t4 * t4 in
  let t22 := t12 * t12 in
  let t25 := t19 * t19 in
  let t26 := t18 + t22 + t25 in
  let t27 := 1 / pow32 (t26 + eps) in
  let t28 := (p1 0%nat) - (p2 0%nat) in
  let t29 := 1 / sqrt (t26 + eps) in
  let t30 := t5 * t11 * 2 in
  let t31 := t5 * t9 * 2 in
  let t32 := t3 * t12 * 2 in
  let t37 := t4 * t28 * 2 in
  let t33 := t32 - t37 in
  let t34 := t2 * t28 * t29 * (-1 / 2) - t17 * t27 * t33 * (1 / 8) in
  let t35 := t3 * t3 in
  let t36 := t35 * 2 in
  let t38 := t32 - t37 in
  let t39 := t19 * t28 * 2 in
  let t40 := t2 * t12 * 2 in
  let t41 := t39 + t40 in
  let t42 := t4 * t11 * 2 in
  let t43 := t9 * t19 * 2 in
  let t44 := t42 + t43 in
  let t45 := t3 * t9 * 2 in
  let t46 := t4 * t6 * 2 in
  let t70 := t9 * t12 * 2 in
  let t47 := t46 - t70 in
  let t48 := t6 * t19 * 2 in
  let t49 := t11 * t12 * 2 in
  let t50 := t48 + t49 in
  let t51 := t6 * t8 * 2 in
  let t52 := t4 * t8 * 2 in
  let t53 := t10 * t19 * 2 in
  let t54 := t52 + t53 in
  let t55 := t3 * t10 * 2 in
  let t56 := t4 * t5 * 2 in
  let t75 := t10 * t12 * 2 in
  let t57 := t56 - t75 in
  let t58 := t8 * t9 * 2 in
  let t59 := t5 * t19 * 2 in
  let t60 := t8 * t12 * 2 in
  let t61 := t59 + t60 in
  let t62 := t17 * t27 * t41 * (1 / 8) in
  let t63 := t62 - t3 * t28 * t29 * (1 / 2) in
  let t64 := t27 * t41 * (t32 - t37) * (1 / 8) in
  let t65 := t64 - t2 * t3 * t29 * (1 / 2) in
  let t66 := t28 * t28 in
  let t67 := t66 * 2 in
  let t68 := t2 * t2 in
  let t69 := t68 * 2 in
  let t71 := t6 * t28 * 2 in
  let t72 := t2 * t11 * 2 in
  let t73 := t6 * t10 * 2 in
  let t74 := t10 * t11 * 2 in
  let t76 := t5 * t28 * 2 in
  let t77 := t2 * t8 * 2 in
  let t78 := t45 + t72 in
  let t79 := t17 * t27 * t44 * (1 / 8) in
  let t80 := t79 - t29 * t78 * (1 / 4) in
  let t81 := t11 * t28 * 2 in
  let t82 := -t30 + t51 + t81 in
  let t83 := t29 * t82 * (1 / 4) in
  let t84 := t27 * t44 * (t32 - t37) * (1 / 8) in
  let t85 := t83 + t84 in
  let t86 := t9 * t28 * 2 in
  let t87 := -t31 + t73 + t86 in
  let t88 := t29 * t87 * (1 / 4) in
  let t89 := t88 - t27 * t41 * t44 * (1 / 8) in
  let t90 := t2 * t6 * 2 in
  let t91 := t45 + t71 in
  let t92 := t29 * t91 * (-1 / 4) - t27 * t33 * t47 * (1 / 8) in
  let t93 := t2 * t9 * 2 in
  let t94 := -t58 + t74 + t93 in
  let t95 := t29 * t94 * (1 / 4) in
  let t96 := t27 * t41 * t47 * (1 / 8) in
  let t97 := t95 + t96 in
  let t98 := t27 * t44 * t47 * (1 / 8) in
  let t99 := t98 - t6 * t11 * t29 * (1 / 2) in
  let t100 := t9 * t9 in
  let t101 := t100 * 2 in
  let t102 := t9 * t10 * 2 in
  let t103 := t3 * t6 * 2 in
  let t104 := t3 * t11 * 2 in
  let t105 := t71 + t72 in
  let t106 := t27 * t41 * t50 * (1 / 8) in
  let t107 := t106 - t29 * t105 * (1 / 4) in
  let t108 := t27 * t44 * t50 * (1 / 8) in
  let t109 := t108 - t6 * t9 * t29 * (1 / 2) in
  let t110 := t9 * t11 * t29 * (-1 / 2) - t27 * t47 * t50 * (1 / 8) in
  let t111 := t6 * t6 in
  let t112 := t111 * 2 in
  let t113 := t11 * t11 in
  let t114 := t113 * 2 in
  let t115 := t5 * t6 * 2 in
  let t116 := t8 * t11 * 2 in
  let t117 := t55 + t77 in
  let t118 := t29 * t117 * (1 / 4) in
  let t119 := t118 - t17 * t27 * t54 * (1 / 8) in
  let t120 := t8 * t28 * 2 in
  let t121 := -t30 + t51 + t120 in
  let t122 := t29 * t121 * (-1 / 4) - t27 * t33 * t54 * (1 / 8) in
  let t123 := t10 * t28 * 2 in
  let t124 := -t31 + t73 + t123 in
  let t125 := t27 * t41 * t54 * (1 / 8) in
  let t126 := t125 - t29 * t124 * (1 / 4) in
  let t127 := t102 + t116 in
  let t128 := t27 * t44 * t54 * (1 / 8) in
  let t129 := t128 - t29 * t127 * (1 / 4) in
  let t130 := t30 - t6 * t8 * 4 in
  let t131 := t29 * t130 * (-1 / 4) - t27 * t47 * t54 * (1 / 8) in
  let t132 := t31 - t6 * t10 * 4 in
  let t133 := t29 * t132 * (-1 / 4) - t27 * t50 * t54 * (1 / 8) in
  let t134 := t2 * t5 * 2 in
  let t135 := t17 * t27 * t57 * (1 / 8) in
  let t136 := t55 + t76 in
  let t137 := t29 * t136 * (1 / 4) in
  let t138 := t27 * t57 * (t32 - t37) * (1 / 8) in
  let t139 := t137 + t138 in
  let t140 := t2 * t10 * 2 in
  let t141 := -t58 + t74 + t140 in
  let t142 := t29 * t141 * (-1 / 4) - t27 * t41 * t57 * (1 / 8) in
  let t143 := t51 - t5 * t11 * 4 in
  let t144 := t29 * t143 * (-1 / 4) - t27 * t44 * t57 * (1 / 8) in
  let t145 := t102 + t115 in
  let t146 := t27 * t47 * t57 * (1 / 8) in
  let t147 := t146 - t29 * t145 * (1 / 4) in
  let t148 := t58 - t10 * t11 * 4 in
  let t149 := t27 * t50 * t57 * (1 / 8) in
  let t150 := t149 - t29 * t148 * (1 / 4) in
  let t151 := t27 * t54 * t57 * (1 / 8) in
  let t152 := t151 - t5 * t8 * t29 * (1 / 2) in
  let t153 := t10 * t10 in
  let t154 := t153 * 2 in
  let t155 := t3 * t5 * 2 in
  let t156 := t17 * t27 * t61 * (1 / 8) in
  let t157 := t3 * t8 * 2 in
  let t158 := t27 * t61 * (t32 - t37) * (1 / 8) in
  let t159 := t76 + t77 in
  let t160 := t29 * t159 * (1 / 4) in
  let t161 := t160 - t27 * t41 * t61 * (1 / 8) in
  let t162 := t73 - t5 * t9 * 4 in
  let t163 := t29 * t162 * (-1 / 4) - t27 * t44 * t61 * (1 / 8) in
  let t164 := t74 - t8 * t9 * 4 in
  let t165 := t27 * t47 * t61 * (1 / 8) in
  let t166 := t165 - t29 * t164 * (1 / 4) in
  let t167 := t115 + t116 in
  let t168 := t27 * t50 * t61 * (1 / 8) in
  let t169 := t168 - t29 * t167 * (1 / 4) in
  let t170 := t27 * t54 * t61 * (1 / 8) in
  let t171 := t170 - t5 * t10 * t29 * (1 / 2) in
  let t172 := t8 * t10 * t29 * (-1 / 2) - t27 * t57 * t61 * (1 / 8) in
  let t173 := t5 * t5 in
  let t174 := t173 * 2 in
  let t175 := t8 * t8 in
  let t176 := t175 * 2 in
  [
   (0%nat, 0%nat, (t36 + t69) * 1 / sqrt (t18 + t22 + t7 * t7 + eps) * (1 / 4) - (t17 * t17) * t27 * (1 / 8));
   (0%nat, 1%nat, t34);
   (0%nat, 2%nat, t63);
   (0%nat, 3%nat, t80);
   (0%nat, 4%nat, t29 * (t30 + t90 - t6 * t8 * 2) * (1 / 4) - t17 * t27 * t47 * (1 / 8));
   (0%nat, 5%nat, t29 * (t31 + t103 - t6 * t10 * 2) * (1 / 4) - t17 * t27 * t50 * (1 / 8));
   (0%nat, 6%nat, t119);
   (0%nat, 7%nat, t135 - t29 * (t30 + t134 - t6 * t8 * 2) * (1 / 4));
   (0%nat, 8%nat, t156 - t29 * (t31 + t155 - t6 * t10 * 2) * (1 / 4));
   (1%nat, 0%nat, t34);
   (1%nat, 1%nat, t29 * (t36 + t67) * (1 / 4) - t27 * (t38 * t38) * (1 / 8));
   (1%nat, 2%nat, t65);
   (1%nat, 3%nat, t85);
   (1%nat, 4%nat, t92);
   (1%nat, 5%nat, t29 * (t58 + t104 - t10 * t11 * 2) * (1 / 4) - t27 * t33 * t50 * (1 / 8));
   (1%nat, 6%nat, t122);
   (1%nat, 7%nat, t139);
   (1%nat, 8%nat, t158 - t29 * (t58 + t157 - t10 * t11 * 2) * (1 / 4));
   (2%nat, 0%nat, t63);
   (2%nat, 1%nat, t65);
   (2%nat, 2%nat, t29 * (t67 + t69) * (1 / 4) - t27 * (t41 * t41) * (1 / 8));
   (2%nat, 3%nat, t89);
   (2%nat, 4%nat, t97);
   (2%nat, 5%nat, t107);
   (2%nat, 6%nat, t126);
   (2%nat, 7%nat, t142);
   (2%nat, 8%nat, t161);
   (3%nat, 0%nat, t80);
   (3%nat, 1%nat, t85);
   (3%nat, 2%nat, t89);
   (3%nat, 3%nat, t29 * (t101 + t114) * (1 / 4) - t27 * (t44 * t44) * (1 / 8));
   (3%nat, 4%nat, t99);
   (3%nat, 5%nat, t109);
   (3%nat, 6%nat, t129);
   (3%nat, 7%nat, t144);
   (3%nat, 8%nat, t163);
   (4%nat, 0%nat, t29 * (t30 - t51 + t90) * (1 / 4) - t17 * t27 * t47 * (1 / 8));
   (4%nat, 1%nat, t92);
   (4%nat, 2%nat, t97);
   (4%nat, 3%nat, t99);
   (4%nat, 4%nat, t29 * (t101 + t112) * (1 / 4) - t27 * (t47 * t47) * (1 / 8));
   (4%nat, 5%nat, t110);
   (4%nat, 6%nat, t131);
   (4%nat, 7%nat, t147);
   (4%nat, 8%nat, t166);
   (5%nat, 0%nat, t29 * (t31 - t73 + t103) * (1 / 4) - t17 * t27 * t50 * (1 / 8));
   (5%nat, 1%nat, t29 * (t58 - t74 + t104) * (1 / 4) - t27 * t33 * t50 * (1 / 8));
   (5%nat, 2%nat, t107);
   (5%nat, 3%nat, t109);
   (5%nat, 4%nat, t110);
   (5%nat, 5%nat, t29 * (t112 + t114) * (1 / 4) - t27 * (t50 * t50) * (1 / 8));
   (5%nat, 6%nat, t133);
   (5%nat, 7%nat, t150);
   (5%nat, 8%nat, t169);
   (6%nat, 0%nat, t119);
   (6%nat, 1%nat, t122);
   (6%nat, 2%nat, t126);
   (6%nat, 3%nat, t129);
   (6%nat, 4%nat, t131);
   (6%nat, 5%nat, t133);
   (6%nat, 6%nat, t29 * (t154 + t176) * (1 / 4) - t27 * (t54 * t54) * (1 / 8));
   (6%nat, 7%nat, t152);
   (6%nat, 8%nat, t171);
   (7%nat, 0%nat, t135 - t29 * (t30 - t51 + t134) * (1 / 4));
   (7%nat, 1%nat, t139);
   (7%nat, 2%nat, t142);
   (7%nat, 3%nat, t144);
   (7%nat, 4%nat, t147);
   (7%nat, 5%nat, t150);
   (7%nat, 6%nat, t152);
   (7%nat, 7%nat, t29 * (t154 + t174) * (1 / 4) - t27 * (t57 * t57) * (1 / 8));
   (7%nat, 8%nat, t172);
   (8%nat, 0%nat, t156 - t29 * (t31 - t73 + t155) * (1 / 4));
   (8%nat, 1%nat, t158 - t29 * (t58 - t74 + t157) * (1 / 4));
   (8%nat, 2%nat, t161);
   (8%nat, 3%nat, t163);
   (8%nat, 4%nat, t166);
   (8%nat, 5%nat, t169);
   (8%nat, 6%nat, t171);
   (8%nat, 7%nat, t172);
   (8%nat, 8%nat, t29 * (t174 + t176) * (1 / 4) - t27 * (t61 * t61) * (1 / 8))
  ].

(** src/rsvs/RSVSmath_automatic.cpp 747-754 *)
Definition LengthEdge_f (p0 : vec) (p1 : vec) : R :=
  let t2 := (p0 0%nat) - (p1 0%nat) in
  let t3 := (p0 1%nat) - (p1 1%nat) in
  let t4 := (p0 2%nat) - (p1 2%nat) in
  sqrt (t2 * t2 + t3 * t3 + t4 * t4).

(** src/rsvs/RSVSmath_automatic.cpp 756-785 *)
Definition LengthEdge_df (p0 : vec) (p1 : vec) : list (nat * nat * R) :=
  let t2 := (p0 0%nat) - (p1 0%nat) in
  let t3 := (p0 1%nat) - (p1 1%nat) in
  let t4 := (p0 2%nat) - (p1 2%nat) in
  let t5 := t2 * t2 in
  let t6 := t3 * t3 in
  let t7 := t4 * t4 in
  let t8 := t5 + t6 + t7 in
  let t9 := 1 / sqrt (t8) in
  let t10 := (p0 0%nat) * 2 in
  let t11 := (p1 0%nat) * 2 in
  let t12 := t10 - t11 in
  let t13 := t9 * t12 * (1 / 2) in
  let t14 := (p0 1%nat) * 2 in
  let t15 := (p1 1%nat) * 2 in
  let t16 := t14 - t15 in
  let t17 := t9 * t16 * (1 / 2) in
  let t18 := (p0 2%nat) * 2 in
  let t19 := (p1 2%nat) * 2 in
  let t20 := t18 - t19 in
  let t21 := t9 * t20 * (1 / 2) in
  [
   (0%nat, 0%nat, t13);
   (0%nat, 1%nat, t17);
   (0%nat, 2%nat, t21);
   (0%nat, 3%nat, -t13);
   (0%nat, 4%nat, -t17);
   (0%nat, 5%nat, -t21)
  ].

(** src/rsvs/RSVSmath_automatic.cpp 787-857 *)
Definition LengthEdge_ddf (p0 : vec) (p1 : vec) : list (nat * nat * R) :=
  let t10 := (p0 0%nat) * 2 in
  let t11 := (p1 0%nat) * 2 in
  let t2 := t10 - t11 in
  let t3 := (p0 0%nat) - (p1 0%nat) in
  let t4 := (p0 1%nat) - (p1 1%nat) in
  let t5 := (p0 2%nat) - (p1 2%nat) in
  let t6 := t3 * t3 in
  let t7 := t4 * t4 in
  let t8 := t5 * t5 in
  let t9 := t6 + t7 + t8 in
  let t12 := 1 / pow32 (t9) in
  let t13 := t2 * t2 in
  let t14 := 1 / sqrt (t9) in
  let t15 := (p0 1%nat) * 2 in
  let t16 := (p1 1%nat) * 2 in
  let t17 := t15 - t16 in
  let t18 := (p0 2%nat) * 2 in
  let t19 := (p1 2%nat) * 2 in
  let t20 := t18 - t19 in
  let t21 := t2 * t12 * t17 * (1 / 4) in
  let t22 := t17 * t17 in
  let t23 := t2 * t12 * t20 * (1 / 4) in
  let t24 := t12 * t17 * t20 * (1 / 4) in
  let t25 := t20 * t20 in
  let t26 := t12 * t13 * (1 / 4) in
  let t27 := -t14 + t26 in
  let t28 := t12 * t22 * (1 / 4) in
  let t29 := -t14 + t28 in
  let t30 := t12 * t25 * (1 / 4) in
  let t31 := -t14 + t30 in
  [
   (0%nat, 0%nat, t14 - t12 * t13 * (1 / 4));
   (0%nat, 1%nat, t2 * t12 * t17 * (-1 / 4));
   (0%nat, 2%nat, t2 * t12 * t20 * (-1 / 4));
   (0%nat, 3%nat, t27);
   (0%nat, 4%nat, t21);
   (0%nat, 5%nat, t23);
   (1%nat, 0%nat, -t21);
   (1%nat, 1%nat, t14 - t12 * t22 * (1 / 4));
   (1%nat, 2%nat, t12 * t17 * t20 * (-1 / 4));
   (1%nat, 3%nat, t21);
   (1%nat, 4%nat, t29);
   (1%nat, 5%nat, t24);
   (2%nat, 0%nat, -t23);
   (2%nat, 1%nat, -t24);
   (2%nat, 2%nat, t14 - t12 * t25 * (1 / 4));
   (2%nat, 3%nat, t23);
   (2%nat, 4%nat, t24);
   (2%nat, 5%nat, t31);
   (3%nat, 0%nat, t27);
   (3%nat, 1%nat, t21);
   (3%nat, 2%nat, t23);
   (3%nat, 3%nat, t14 - t26);
   (3%nat, 4%nat, -t21);
   (3%nat, 5%nat, -t23);
   (4%nat, 0%nat, t21);
   (4%nat, 1%nat, t29);
   (4%nat, 2%nat, t24);
   (4%nat, 3%nat, -t21);
   (4%nat, 4%nat, t14 - t28);
   (4%nat, 5%nat, -t24);
   (5%nat, 0%nat, t23);
   (5%nat, 1%nat, t24);
   (5%nat, 2%nat, t31);
   (5%nat, 3%nat, -t23);
   (5%nat, 4%nat, -t24);
   (5%nat, 5%nat, t14 - t30)
  ].

(** src/rsvs/RSVSmath_automatic.cpp 1272-1458 *)
Definition SurfCentroid4_df (eps_centre eps_centre2 : R) (x : vec) (y : vec) (z : vec) (totD : R) (X_dot_d :
    R) (Y_dot_d : R) (Z_dot_d : R) : list (nat * nat * R) :=
  let t2 := (x 0%nat) - (x 1%nat) in
  let t3 := (y 0%nat) - (y 1%nat) in
  let t4 := (z 0%nat) - (z 1%nat) in
  let t5 := (x 0%nat) - (x 3%nat) in
  let t6 := (y 0%nat) - (y 3%nat) in
  let t7 := (z 0%nat) - (z 3%nat) in
  let t8 := t2 * t2 in
  let t9 := t3 * t3 in
  let t10 := t4 * t4 in
  let t11 := t8 + t9 + t10 + eps_centre2 in
  let t12 := (x 0%nat) * 2 in
  let t13 := (x 0%nat) * (1 / 2) in
  let t14 := t5 * t5 in
  let t15 := t6 * t6 in
  let t16 := t7 * t7 in
  let t17 := t14 + t15 + t16 + eps_centre2 in
  let t28 := (x 1%nat) * 2 in
  let t18 := t12 - t28 in
  let t19 := 1 / sqrt (eps_centre + t11) in
  let t49 := (x 3%nat) * 2 in
  let t20 := t12 - t49 in
  let t21 := 1 / sqrt (eps_centre + t17) in
  let t22 := 1 / totD in
  let t23 := sqrt (t11) in
  let t24 := t23 * (1 / 2) in
  let t25 := (x 1%nat) - (x 2%nat) in
  let t26 := (y 1%nat) - (y 2%nat) in
  let t27 := (z 1%nat) - (z 2%nat) in
  let t29 := (x 1%nat) * (1 / 2) in
  let t30 := t13 + t29 in
  let t31 := t18 * t19 * t30 * (1 / 2) in
  let t32 := t25 * t25 in
  let t33 := t26 * t26 in
  let t34 := t27 * t27 in
  let t35 := t32 + t33 + t34 + eps_centre2 in
  let t36 := 1 / (totD * totD) in
  let t37 := t18 * t19 * (1 / 2) in
  let t45 := (x 2%nat) * 2 in
  let t38 := t28 - t45 in
  let t39 := 1 / sqrt (eps_centre + t35) in
  let t40 := sqrt (t35) in
  let t41 := t40 * (1 / 2) in
  let t42 := (x 2%nat) - (x 3%nat) in
  let t43 := (y 2%nat) - (y 3%nat) in
  let t44 := (z 2%nat) - (z 3%nat) in
  let t46 := (x 2%nat) * (1 / 2) in
  let t47 := t29 + t46 in
  let t48 := t38 * t39 * t47 * (1 / 2) in
  let t50 := (x 3%nat) * (1 / 2) in
  let t51 := t42 * t42 in
  let t52 := t43 * t43 in
  let t53 := t44 * t44 in
  let t54 := t51 + t52 + t53 + eps_centre2 in
  let t55 := t45 - t49 in
  let t56 := 1 / sqrt (eps_centre + t54) in
  let t57 := sqrt (t17) in
  let t58 := t57 * (1 / 2) in
  let t59 := sqrt (t54) in
  let t60 := t59 * (1 / 2) in
  let t61 := t13 + t50 in
  let t62 := t20 * t21 * t61 * (1 / 2) in
  let t63 := t46 + t50 in
  let t64 := t55 * t56 * t63 * (1 / 2) in
  let t65 := t20 * t21 * (1 / 2) in
  let t66 := (y 0%nat) * 2 in
  let t69 := (y 1%nat) * 2 in
  let t67 := t66 - t69 in
  let t74 := (y 3%nat) * 2 in
  let t68 := t66 - t74 in
  let t70 := t19 * t30 * t67 * (1 / 2) in
  let t71 := t19 * t67 * (1 / 2) in
  let t73 := (y 2%nat) * 2 in
  let t72 := t69 - t73 in
  let t75 := t73 - t74 in
  let t76 := t21 * t61 * t68 * (1 / 2) in
  let t77 := t21 * t68 * (1 / 2) in
  let t78 := (z 0%nat) * 2 in
  let t81 := (z 1%nat) * 2 in
  let t79 := t78 - t81 in
  let t86 := (z 3%nat) * 2 in
  let t80 := t78 - t86 in
  let t82 := t19 * t30 * t79 * (1 / 2) in
  let t83 := t19 * t79 * (1 / 2) in
  let t85 := (z 2%nat) * 2 in
  let t84 := t81 - t85 in
  let t87 := t85 - t86 in
  let t88 := t21 * t61 * t80 * (1 / 2) in
  let t89 := t21 * t80 * (1 / 2) in
  let t90 := (y 0%nat) * (1 / 2) in
  let t91 := t37 + t65 in
  let t92 := (y 1%nat) * (1 / 2) in
  let t93 := t90 + t92 in
  let t94 := t18 * t19 * t93 * (1 / 2) in
  let t95 := t38 * t39 * (1 / 2) in
  let t96 := (y 2%nat) * (1 / 2) in
  let t97 := t92 + t96 in
  let t98 := (y 3%nat) * (1 / 2) in
  let t99 := t55 * t56 * (1 / 2) in
  let t100 := t90 + t98 in
  let t101 := t20 * t21 * t100 * (1 / 2) in
  let t102 := t96 + t98 in
  let t103 := t65 + t99 in
  let t104 := t71 + t77 in
  let t105 := t19 * t67 * t93 * (1 / 2) in
  let t106 := t39 * t72 * (1 / 2) in
  let t107 := t39 * t72 * t97 * (1 / 2) in
  let t108 := t56 * t75 * (1 / 2) in
  let t109 := t21 * t68 * t100 * (1 / 2) in
  let t110 := t56 * t75 * t102 * (1 / 2) in
  let t111 := t77 + t108 in
  let t112 := t83 + t89 in
  let t113 := t19 * t79 * t93 * (1 / 2) in
  let t114 := t39 * t84 * (1 / 2) in
  let t115 := t56 * t87 * (1 / 2) in
  let t116 := t21 * t80 * t100 * (1 / 2) in
  let t117 := t89 + t115 in
  let t118 := (z 0%nat) * (1 / 2) in
  let t119 := (z 1%nat) * (1 / 2) in
  let t120 := t118 + t119 in
  let t121 := t18 * t19 * t120 * (1 / 2) in
  let t122 := t37 - t95 in
  let t123 := (z 2%nat) * (1 / 2) in
  let t124 := t119 + t123 in
  let t125 := (z 3%nat) * (1 / 2) in
  let t126 := t95 - t99 in
  let t127 := t118 + t125 in
  let t128 := t20 * t21 * t127 * (1 / 2) in
  let t129 := t123 + t125 in
  let t130 := t19 * t67 * t120 * (1 / 2) in
  let t131 := t71 - t106 in
  let t132 := t106 - t108 in
  let t133 := t21 * t68 * t127 * (1 / 2) in
  let t134 := t19 * t79 * t120 * (1 / 2) in
  let t135 := t83 - t114 in
  let t136 := t39 * t84 * t124 * (1 / 2) in
  let t137 := t114 - t115 in
  let t138 := t21 * t80 * t127 * (1 / 2) in
  let t139 := t56 * t87 * t129 * (1 / 2) in
  [
   (0%nat, 0%nat, t22 * (t24 + t31 + t58 + t62) - X_dot_d * t36 * t91);
   (0%nat, 1%nat, t22 * (t24 - t31 + t41 + t48) + X_dot_d * t36 * (t37 - t38 * t39 * (1 / 2)));
   (0%nat, 2%nat, t22 * (t41 - t48 + t60 + t64) + X_dot_d * t36 * (t95 - t55 * t56 * (1 / 2)));
   (0%nat, 3%nat, t22 * (t58 + t60 - t62 - t64) + X_dot_d * t36 * t103);
   (0%nat, 4%nat, t22 * (t70 + t76) - X_dot_d * t36 * t104);
   (0%nat, 5%nat, -t22 * (t70 - t39 * t47 * t72 * (1 / 2)) + X_dot_d * t36 * (t71 - t39 * t72 * (1 / 2)));
   (0%nat, 6%nat, -t22 * (t39 * t47 * t72 * (1 / 2) - t56 * t63 * t75 * (1 / 2)) + X_dot_d * t36 * (t106 - t56
      * t75 * (1 / 2)));
   (0%nat, 7%nat, -t22 * (t76 + t56 * t63 * t75 * (1 / 2)) + X_dot_d * t36 * t111);
   (0%nat, 8%nat, t22 * (t82 + t88) - X_dot_d * t36 * t112);
   (0%nat, 9%nat, -t22 * (t82 - t39 * t47 * t84 * (1 / 2)) + X_dot_d * t36 * (t83 - t39 * t84 * (1 / 2)));
   (0%nat, 10%nat, -t22 * (t39 * t47 * t84 * (1 / 2) - t56 * t63 * t87 * (1 / 2)) + X_dot_d * t36 * (t114 -
      t56 * t87 * (1 / 2)));
   (0%nat, 11%nat, -t22 * (t88 + t56 * t63 * t87 * (1 / 2)) + X_dot_d * t36 * t117);
   (1%nat, 0%nat, t22 * (t94 + t101) - Y_dot_d * t36 * t91);
   (1%nat, 1%nat, -t22 * (t94 - t38 * t39 * t97 * (1 / 2)) + Y_dot_d * t36 * t122);
   (1%nat, 2%nat, -t22 * (t38 * t39 * t97 * (1 / 2) - t55 * t56 * t102 * (1 / 2)) + Y_dot_d * t36 * t126);
   (1%nat, 3%nat, -t22 * (t101 + t55 * t56 * t102 * (1 / 2)) + Y_dot_d * t36 * t103);
   (1%nat, 4%nat, t22 * (t24 + t58 + t105 + t109) - Y_dot_d * t36 * t104);
   (1%nat, 5%nat, t22 * (t24 + t41 - t105 + t107) + Y_dot_d * t36 * t131);
   (1%nat, 6%nat, t22 * (t41 + t60 - t107 + t110) + Y_dot_d * t36 * t132);
   (1%nat, 7%nat, t22 * (t58 + t60 - t109 - t110) + Y_dot_d * t36 * t111);
   (1%nat, 8%nat, t22 * (t113 + t116) - Y_dot_d * t36 * t112);
   (1%nat, 9%nat, -t22 * (t113 - t39 * t84 * t97 * (1 / 2)) + Y_dot_d * t36 * t135);
   (1%nat, 10%nat, -t22 * (t39 * t84 * t97 * (1 / 2) - t56 * t87 * t102 * (1 / 2)) + Y_dot_d * t36 * t137);
   (1%nat, 11%nat, -t22 * (t116 + t56 * t87 * t102 * (1 / 2)) + Y_dot_d * t36 * t117);
   (2%nat, 0%nat, t22 * (t121 + t128) - Z_dot_d * t36 * t91);
   (2%nat, 1%nat, -t22 * (t121 - t38 * t39 * t124 * (1 / 2)) + Z_dot_d * t36 * t122);
   (2%nat, 2%nat, -t22 * (t38 * t39 * t124 * (1 / 2) - t55 * t56 * t129 * (1 / 2)) + Z_dot_d * t36 * t126);
   (2%nat, 3%nat, -t22 * (t128 + t55 * t56 * t129 * (1 / 2)) + Z_dot_d * t36 * t103);
   (2%nat, 4%nat, t22 * (t130 + t133) - Z_dot_d * t36 * t104);
   (2%nat, 5%nat, -t22 * (t130 - t39 * t72 * t124 * (1 / 2)) + Z_dot_d * t36 * t131);
   (2%nat, 6%nat, -t22 * (t39 * t72 * t124 * (1 / 2) - t56 * t75 * t129 * (1 / 2)) + Z_dot_d * t36 * t132);
   (2%nat, 7%nat, -t22 * (t133 + t56 * t75 * t129 * (1 / 2)) + Z_dot_d * t36 * t111);
   (2%nat, 8%nat, t22 * (t24 + t58 + t134 + t138) - Z_dot_d * t36 * t112);
   (2%nat, 9%nat, t22 * (t24 + t41 - t134 + t136) + Z_dot_d * t36 * t135);
   (2%nat, 10%nat, t22 * (t41 + t60 - t136 + t139) + Z_dot_d * t36 * t137);
   (2%nat, 11%nat, t22 * (t58 + t60 - t138 - t139) + Z_dot_d * t36 * t117)
  ].

(** src/rsvs/RSVSmath_automatic.cpp 1470-1700 *)
Definition SurfCentroid5_df (eps_centre eps_centre2 : R) (x : vec) (y : vec) (z : vec) (totD : R) (X_dot_d :
    R) (Y_dot_d : R) (Z_dot_d : R) : list (nat * nat * R) :=
  let t2 := (x 0%nat) - (x 1%nat) in
  let t3 := (y 0%nat) - (y 1%nat) in
  let t4 := (z 0%nat) - (z 1%nat) in
  let t5 := (x 0%nat) - (x 4%nat) in
  let t6 := (y 0%nat) - (y 4%nat) in
  let t7 := (z 0%nat) - (z 4%nat) in
  let t8 := t2 * t2 in
  let t9 := t3 * t3 in
  let t10 := t4 * t4 in
  let t11 := t8 + t9 + t10 + eps_centre2 in
  let t12 := (x 0%nat) * 2 in
  let t13 := (x 0%nat) * (1 / 2) in
  let t14 := t5 * t5 in
  let t15 := t6 * t6 in
  let t16 := t7 * t7 in
  let t17 := t14 + t15 + t16 + eps_centre2 in
  let t28 := (x 1%nat) * 2 in
  let t18 := t12 - t28 in
  let t19 := 1 / sqrt (eps_centre + t11) in
  let t64 := (x 4%nat) * 2 in
  let t20 := t12 - t64 in
  let t21 := 1 / sqrt (eps_centre + t17) in
  let t22 := 1 / totD in
  let t23 := sqrt (t11) in
  let t24 := t23 * (1 / 2) in
  let t25 := (x 1%nat) - (x 2%nat) in
  let t26 := (y 1%nat) - (y 2%nat) in
  let t27 := (z 1%nat) - (z 2%nat) in
  let t29 := (x 1%nat) * (1 / 2) in
  let t30 := t13 + t29 in
  let t31 := t18 * t19 * t30 * (1 / 2) in
  let t32 := t25 * t25 in
  let t33 := t26 * t26 in
  let t34 := t27 * t27 in
  let t35 := t32 + t33 + t34 + eps_centre2 in
  let t36 := 1 / (totD * totD) in
  let t37 := t18 * t19 * (1 / 2) in
  let t45 := (x 2%nat) * 2 in
  let t38 := t28 - t45 in
  let t39 := 1 / sqrt (eps_centre + t35) in
  let t40 := sqrt (t35) in
  let t41 := t40 * (1 / 2) in
  let t42 := (x 2%nat) - (x 3%nat) in
  let t43 := (y 2%nat) - (y 3%nat) in
  let t44 := (z 2%nat) - (z 3%nat) in
  let t46 := (x 2%nat) * (1 / 2) in
  let t47 := t29 + t46 in
  let t48 := t38 * t39 * t47 * (1 / 2) in
  let t49 := t42 * t42 in
  let t50 := t43 * t43 in
  let t51 := t44 * t44 in
  let t52 := t49 + t50 + t51 + eps_centre2 in
  let t60 := (x 3%nat) * 2 in
  let t53 := t45 - t60 in
  let t54 := 1 / sqrt (eps_centre + t52) in
  let t55 := sqrt (t52) in
  let t56 := t55 * (1 / 2) in
  let t57 := (x 3%nat) - (x 4%nat) in
  let t58 := (y 3%nat) - (y 4%nat) in
  let t59 := (z 3%nat) - (z 4%nat) in
  let t61 := (x 3%nat) * (1 / 2) in
  let t62 := t46 + t61 in
  let t63 := t53 * t54 * t62 * (1 / 2) in
  let t65 := (x 4%nat) * (1 / 2) in
  let t66 := t57 * t57 in
  let t67 := t58 * t58 in
  let t68 := t59 * t59 in
  let t69 := t66 + t67 + t68 + eps_centre2 in
  let t70 := t60 - t64 in
  let t71 := 1 / sqrt (eps_centre + t69) in
  let t72 := sqrt (t17) in
  let t73 := t72 * (1 / 2) in
  let t74 := sqrt (t69) in
  let t75 := t74 * (1 / 2) in
  let t76 := t13 + t65 in
  let t77 := t20 * t21 * t76 * (1 / 2) in
  let t78 := t61 + t65 in
  let t79 := t70 * t71 * t78 * (1 / 2) in
  let t80 := t20 * t21 * (1 / 2) in
  let t81 := (y 0%nat) * 2 in
  let t84 := (y 1%nat) * 2 in
  let t82 := t81 - t84 in
  let t91 := (y 4%nat) * 2 in
  let t83 := t81 - t91 in
  let t85 := t19 * t30 * t82 * (1 / 2) in
  let t86 := t19 * t82 * (1 / 2) in
  let t88 := (y 2%nat) * 2 in
  let t87 := t84 - t88 in
  let t90 := (y 3%nat) * 2 in
  let t89 := t88 - t90 in
  let t92 := t90 - t91 in
  let t93 := t21 * t76 * t83 * (1 / 2) in
  let t94 := t21 * t83 * (1 / 2) in
  let t95 := (z 0%nat) * 2 in
  let t98 := (z 1%nat) * 2 in
  let t96 := t95 - t98 in
  let t105 := (z 4%nat) * 2 in
  let t97 := t95 - t105 in
  let t99 := t19 * t30 * t96 * (1 / 2) in
  let t100 := t19 * t96 * (1 / 2) in
  let t102 := (z 2%nat) * 2 in
  let t101 := t98 - t102 in
  let t104 := (z 3%nat) * 2 in
  let t103 := t102 - t104 in
  let t106 := t104 - t105 in
  let t107 := t21 * t76 * t97 * (1 / 2) in
  let t108 := t21 * t97 * (1 / 2) in
  let t109 := (y 0%nat) * (1 / 2) in
  let t110 := t37 + t80 in
  let t111 := (y 1%nat) * (1 / 2) in
  let t112 := t109 + t111 in
  let t113 := t18 * t19 * t112 * (1 / 2) in
  let t114 := t38 * t39 * (1 / 2) in
  let t115 := (y 2%nat) * (1 / 2) in
  let t116 := t111 + t115 in
  let t117 := t53 * t54 * (1 / 2) in
  let t118 := (y 3%nat) * (1 / 2) in
  let t119 := t115 + t118 in
  let t120 := (y 4%nat) * (1 / 2) in
  let t121 := t70 * t71 * (1 / 2) in
  let t122 := t109 + t120 in
  let t123 := t20 * t21 * t122 * (1 / 2) in
  let t124 := t118 + t120 in
  let t125 := t80 + t121 in
  let t126 := t86 + t94 in
  let t127 := t19 * t82 * t112 * (1 / 2) in
  let t128 := t39 * t87 * (1 / 2) in
  let t129 := t39 * t87 * t116 * (1 / 2) in
  let t130 := t54 * t89 * (1 / 2) in
  let t131 := t54 * t89 * t119 * (1 / 2) in
  let t132 := t71 * t92 * (1 / 2) in
  let t133 := t21 * t83 * t122 * (1 / 2) in
  let t134 := t71 * t92 * t124 * (1 / 2) in
  let t135 := t94 + t132 in
  let t136 := t100 + t108 in
  let t137 := t19 * t96 * t112 * (1 / 2) in
  let t138 := t39 * t101 * (1 / 2) in
  let t139 := t54 * t103 * (1 / 2) in
  let t140 := t71 * t106 * (1 / 2) in
  let t141 := t21 * t97 * t122 * (1 / 2) in
  let t142 := t108 + t140 in
  let t143 := (z 0%nat) * (1 / 2) in
  let t144 := (z 1%nat) * (1 / 2) in
  let t145 := t143 + t144 in
  let t146 := t18 * t19 * t145 * (1 / 2) in
  let t147 := t37 - t114 in
  let t148 := (z 2%nat) * (1 / 2) in
  let t149 := t144 + t148 in
  let t150 := t114 - t117 in
  let t151 := (z 3%nat) * (1 / 2) in
  let t152 := t148 + t151 in
  let t153 := (z 4%nat) * (1 / 2) in
  let t154 := t117 - t121 in
  let t155 := t143 + t153 in
  let t156 := t20 * t21 * t155 * (1 / 2) in
  let t157 := t151 + t153 in
  let t158 := t19 * t82 * t145 * (1 / 2) in
  let t159 := t86 - t128 in
  let t160 := t128 - t130 in
  let t161 := t130 - t132 in
  let t162 := t21 * t83 * t155 * (1 / 2) in
  let t163 := t19 * t96 * t145 * (1 / 2) in
  let t164 := t100 - t138 in
  let t165 := t39 * t101 * t149 * (1 / 2) in
  let t166 := t138 - t139 in
  let t167 := t54 * t103 * t152 * (1 / 2) in
  let t168 := t139 - t140 in
  let t169 := t21 * t97 * t155 * (1 / 2) in
  let t170 := t71 * t106 * t157 * (1 / 2) in
  [
   (0%nat, 0%nat, t22 * (t24 + t31 + t73 + t77) - X_dot_d * t36 * t110);
   (0%nat, 1%nat, t22 * (t24 - t31 + t41 + t48) + X_dot_d * t36 * (t37 - t38 * t39 * (1 / 2)));
   (0%nat, 2%nat, t22 * (t41 - t48 + t56 + t63) + X_dot_d * t36 * (t114 - t53 * t54 * (1 / 2)));
   (0%nat, 3%nat, t22 * (t56 - t63 + t75 + t79) + X_dot_d * t36 * (t117 - t70 * t71 * (1 / 2)));
   (0%nat, 4%nat, t22 * (t73 + t75 - t77 - t79) + X_dot_d * t36 * t125);
   (0%nat, 5%nat, t22 * (t85 + t93) - X_dot_d * t36 * t126);
   (0%nat, 6%nat, -t22 * (t85 - t39 * t47 * t87 * (1 / 2)) + X_dot_d * t36 * (t86 - t39 * t87 * (1 / 2)));
   (0%nat, 7%nat, -t22 * (t39 * t47 * t87 * (1 / 2) - t54 * t62 * t89 * (1 / 2)) + X_dot_d * t36 * (t128 - t54
      * t89 * (1 / 2)));
   (0%nat, 8%nat, -t22 * (t54 * t62 * t89 * (1 / 2) - t71 * t78 * t92 * (1 / 2)) + X_dot_d * t36 * (t130 - t71
      * t92 * (1 / 2)));
   (0%nat, 9%nat, -t22 * (t93 + t71 * t78 * t92 * (1 / 2)) + X_dot_d * t36 * t135);
   (0%nat, 10%nat, t22 * (t99 + t107) - X_dot_d * t36 * t136);
   (0%nat, 11%nat, -t22 * (t99 - t39 * t47 * t101 * (1 / 2)) + X_dot_d * t36 * (t100 - t39 * t101 * (1 / 2)));
   (0%nat, 12%nat, -t22 * (t39 * t47 * t101 * (1 / 2) - t54 * t62 * t103 * (1 / 2)) + X_dot_d * t36 * (t138 -
      t54 * t103 * (1 / 2)));
   (0%nat, 13%nat, -t22 * (t54 * t62 * t103 * (1 / 2) - t71 * t78 * t106 * (1 / 2)) + X_dot_d * t36 * (t139 -
      t71 * t106 * (1 / 2)));
   (0%nat, 14%nat, -t22 * (t107 + t71 * t78 * t106 * (1 / 2)) + X_dot_d * t36 * t142);
   (1%nat, 0%nat, t22 * (t113 + t123) - Y_dot_d * t36 * t110);
   (1%nat, 1%nat, -t22 * (t113 - t38 * t39 * t116 * (1 / 2)) + Y_dot_d * t36 * t147);
   (1%nat, 2%nat, -t22 * (t38 * t39 * t116 * (1 / 2) - t53 * t54 * t119 * (1 / 2)) + Y_dot_d * t36 * t150);
   (1%nat, 3%nat, -t22 * (t53 * t54 * t119 * (1 / 2) - t70 * t71 * t124 * (1 / 2)) + Y_dot_d * t36 * t154);
   (1%nat, 4%nat, -t22 * (t123 + t70 * t71 * t124 * (1 / 2)) + Y_dot_d * t36 * t125);
   (1%nat, 5%nat, t22 * (t24 + t73 + t127 + t133) - Y_dot_d * t36 * t126);
   (1%nat, 6%nat, t22 * (t24 + t41 - t127 + t129) + Y_dot_d * t36 * t159);
   (1%nat, 7%nat, t22 * (t41 + t56 - t129 + t131) + Y_dot_d * t36 * t160);
   (1%nat, 8%nat, t22 * (t56 + t75 - t131 + t134) + Y_dot_d * t36 * t161);
   (1%nat, 9%nat, t22 * (t73 + t75 - t133 - t134) + Y_dot_d * t36 * t135);
   (1%nat, 10%nat, t22 * (t137 + t141) - Y_dot_d * t36 * t136);
   (1%nat, 11%nat, -t22 * (t137 - t39 * t101 * t116 * (1 / 2)) + Y_dot_d * t36 * t164);
   (1%nat, 12%nat, -t22 * (t39 * t101 * t116 * (1 / 2) - t54 * t103 * t119 * (1 / 2)) + Y_dot_d * t36 * t166);
   (1%nat, 13%nat, -t22 * (t54 * t103 * t119 * (1 / 2) - t71 * t106 * t124 * (1 / 2)) + Y_dot_d * t36 * t168);
   (1%nat, 14%nat, -t22 * (t141 + t71 * t106 * t124 * (1 / 2)) + Y_dot_d * t36 * t142);
   (2%nat, 0%nat, t22 * (t146 + t156) - Z_dot_d * t36 * t110);
   (2%nat, 1%nat, -t22 * (t146 - t38 * t39 * t149 * (1 / 2)) + Z_dot_d * t36 * t147);
   (2%nat, 2%nat, -t22 * (t38 * t39 * t149 * (1 / 2) - t53 * t54 * t152 * (1 / 2)) + Z_dot_d * t36 * t150);
   (2%nat, 3%nat, -t22 * (t53 * t54 * t152 * (1 / 2) - t70 * t71 * t157 * (1 / 2)) + Z_dot_d * t36 * t154);
   (2%nat, 4%nat, -t22 * (t156 + t70 * t71 * t157 * (1 / 2)) + Z_dot_d * t36 * t125);
   (2%nat, 5%nat, t22 * (t158 + t162) - Z_dot_d * t36 * t126);
   (2%nat, 6%nat, -t22 * (t158 - t39 * t87 * t149 * (1 / 2)) + Z_dot_d * t36 * t159);
   (2%nat, 7%nat, -t22 * (t39 * t87 * t149 * (1 / 2) - t54 * t89 * t152 * (1 / 2)) + Z_dot_d * t36 * t160);
   (2%nat, 8%nat, -t22 * (t54 * t89 * t152 * (1 / 2) - t71 * t92 * t157 * (1 / 2)) + Z_dot_d * t36 * t161);
   (2%nat, 9%nat, -t22 * (t162 + t71 * t92 * t157 * (1 / 2)) + Z_dot_d * t36 * t135);
   (2%nat, 10%nat, t22 * (t24 + t73 + t163 + t169) - Z_dot_d * t36 * t136);
   (2%nat, 11%nat, t22 * (t24 + t41 - t163 + t165) + Z_dot_d * t36 * t164);
   (2%nat, 12%nat, t22 * (t41 + t56 - t165 + t167) + Z_dot_d * t36 * t166);
   (2%nat, 13%nat, t22 * (t56 + t75 - t167 + t170) + Z_dot_d * t36 * t168);
   (2%nat, 14%nat, t22 * (t73 + t75 - t169 - t170) + Z_dot_d * t36 * t142)
  ].

(** src/rsvs/RSVSmath_automatic.cpp 1712-1986 *)
Definition SurfCentroid6_df (eps_centre eps_centre2 : R) (x : vec) (y : vec) (z : vec) (totD : R) (X_dot_d :
    R) (Y_dot_d : R) (Z_dot_d : R) : list (nat * nat * R) :=
  let t2 := (x 0%nat) - (x 1%nat) in
  let t3 := (y 0%nat) - (y 1%nat) in
  let t4 := (z 0%nat) - (z 1%nat) in
  let t5 := (x 0%nat) - (x 5%nat) in
  let t6 := (y 0%nat) - (y 5%nat) in
  let t7 := (z 0%nat) - (z 5%nat) in
  let t8 := t2 * t2 in
  let t9 := t3 * t3 in
  let t10 := t4 * t4 in
  let t11 := t8 + t9 + t10 + eps_centre2 in
  let t12 := (x 0%nat) * 2 in
  let t13 := (x 0%nat) * (1 / 2) in
  let t14 := t5 * t5 in
  let t15 := t6 * t6 in
  let t16 := t7 * t7 in
  let t17 := t14 + t15 + t16 + eps_centre2 in
  let t28 := (x 1%nat) * 2 in
  let t18 := t12 - t28 in
  let t19 := 1 / sqrt (eps_centre + t11) in
  let t79 := (x 5%nat) * 2 in
  let t20 := t12 - t79 in
  let t21 := 1 / sqrt (eps_centre + t17) in
  let t22 := 1 / totD in
  let t23 := sqrt (t11) in
  let t24 := t23 * (1 / 2) in
  let t25 := (x 1%nat) - (x 2%nat) in
  let t26 := (y 1%nat) - (y 2%nat) in
  let t27 := (z 1%nat) - (z 2%nat) in
  let t29 := (x 1%nat) * (1 / 2) in
  let t30 := t13 + t29 in
  let t31 := t18 * t19 * t30 * (1 / 2) in
  let t32 := t25 * t25 in
  let t33 := t26 * t26 in
  let t34 := t27 * t27 in
  let t35 := t32 + t33 + t34 + eps_centre2 in
  let t36 := 1 / (totD * totD) in
  let t37 := t18 * t19 * (1 / 2) in
  let t45 := (x 2%nat) * 2 in
  let t38 := t28 - t45 in
  let t39 := 1 / sqrt (eps_centre + t35) in
  let t40 := sqrt (t35) in
  let t41 := t40 * (1 / 2) in
  let t42 := (x 2%nat) - (x 3%nat) in
  let t43 := (y 2%nat) - (y 3%nat) in
  let t44 := (z 2%nat) - (z 3%nat) in
  let t46 := (x 2%nat) * (1 / 2) in
  let t47 := t29 + t46 in
  let t48 := t38 * t39 * t47 * (1 / 2) in
  let t49 := t42 * t42 in
  let t50 := t43 * t43 in
  let t51 := t44 * t44 in
  let t52 := t49 + t50 + t51 + eps_centre2 in
  let t60 := (x 3%nat) * 2 in
  let t53 := t45 - t60 in
  let t54 := 1 / sqrt (eps_centre + t52) in
  let t55 := sqrt (t52) in
  let t56 := t55 * (1 / 2) in
  let t57 := (x 3%nat) - (x 4%nat) in
  let t58 := (y 3%nat) - (y 4%nat) in
  let t59 := (z 3%nat) - (z 4%nat) in
  let t61 := (x 3%nat) * (1 / 2) in
  let t62 := t46 + t61 in
  let t63 := t53 * t54 * t62 * (1 / 2) in
  let t64 := t57 * t57 in
  let t65 := t58 * t58 in
  let t66 := t59 * t59 in
  let t67 := t64 + t65 + t66 + eps_centre2 in
  let t75 := (x 4%nat) * 2 in
  let t68 := t60 - t75 in
  let t69 := 1 / sqrt (eps_centre + t67) in
  let t70 := sqrt (t67) in
  let t71 := t70 * (1 / 2) in
  let t72 := (x 4%nat) - (x 5%nat) in
  let t73 := (y 4%nat) - (y 5%nat) in
  let t74 := (z 4%nat) - (z 5%nat) in
  let t76 := (x 4%nat) * (1 / 2) in
  let t77 := t61 + t76 in
  let t78 := t68 * t69 * t77 * (1 / 2) in
  let t80 := (x 5%nat) * (1 / 2) in
  let t81 := t72 * t72 in
  let t82 := t73 * t73 in
  let t83 := t74 * t74 in
  let t84 := t81 + t82 + t83 + eps_centre2 in
  let t85 := t75 - t79 in
  let t86 := 1 / sqrt (eps_centre + t84) in
  let t87 := sqrt (t17) in
  let t88 := t87 * (1 / 2) in
  let t89 := sqrt (t84) in
  let t90 := t89 * (1 / 2) in
  let t91 := t13 + t80 in
  let t92 := t20 * t21 * t91 * (1 / 2) in
  let t93 := t76 + t80 in
  let t94 := t85 * t86 * t93 * (1 / 2) in
  let t95 := t20 * t21 * (1 / 2) in
  let t96 := (y 0%nat) * 2 in
  let t99 := (y 1%nat) * 2 in
  let t97 := t96 - t99 in
  let t108 := (y 5%nat) * 2 in
  let t98 := t96 - t108 in
  let t100 := t19 * t30 * t97 * (1 / 2) in
  let t101 := t19 * t97 * (1 / 2) in
  let t103 := (y 2%nat) * 2 in
  let t102 := t99 - t103 in
  let t105 := (y 3%nat) * 2 in
  let t104 := t103 - t105 in
  let t107 := (y 4%nat) * 2 in
  let t106 := t105 - t107 in
  let t109 := t107 - t108 in
  let t110 := t21 * t91 * t98 * (1 / 2) in
  let t111 := t21 * t98 * (1 / 2) in
  let t112 := (z 0%nat) * 2 in
  let t115 := (z 1%nat) * 2 in
  let t113 := t112 - t115 in
  let t124 := (z 5%nat) * 2 in
  let t114 := t112 - t124 in
  let t116 := t19 * t30 * t113 * (1 / 2) in
  let t117 := t19 * t113 * (1 / 2) in
  let t119 := (z 2%nat) * 2 in
  let t118 := t115 - t119 in
  let t121 := (z 3%nat) * 2 in
  let t120 := t119 - t121 in
  let t123 := (z 4%nat) * 2 in
  let t122 := t121 - t123 in
  let t125 := t123 - t124 in
  let t126 := t21 * t91 * t114 * (1 / 2) in
  let t127 := t21 * t114 * (1 / 2) in
  let t128 := (y 0%nat) * (1 / 2) in
  let t129 := t37 + t95 in
  let t130 := (y 1%nat) * (1 / 2) in
  let t131 := t128 + t130 in
  let t132 := t18 * t19 * t131 * (1 / 2) in
  let t133 := t38 * t39 * (1 / 2) in
  let t134 := (y 2%nat) * (1 / 2) in
  let t135 := t130 + t134 in
  let t136 := t53 * t54 * (1 / 2) in
  let t137 := (y 3%nat) * (1 / 2) in
  let t138 := t134 + t137 in
  let t139 := t68 * t69 * (1 / 2) in
  let t140 := (y 4%nat) * (1 / 2) in
  let t141 := t137 + t140 in
  let t142 := (y 5%nat) * (1 / 2) in
  let t143 := t85 * t86 * (1 / 2) in
  let t144 := t128 + t142 in
  let t145 := t20 * t21 * t144 * (1 / 2) in
  let t146 := t140 + t142 in
  let t147 := t95 + t143 in
  let t148 := t101 + t111 in
  let t149 := t19 * t97 * t131 * (1 / 2) in
  let t150 := t39 * t102 * (1 / 2) in
  let t151 := t39 * t102 * t135 * (1 / 2) in
  let t152 := t54 * t104 * (1 / 2) in
  let t153 := t54 * t104 * t138 * (1 / 2) in
  let t154 := t69 * t106 * (1 / 2) in
  let t155 := t69 * t106 * t141 * (1 / 2) in
  let t156 := t86 * t109 * (1 / 2) in
  let t157 := t21 * t98 * t144 * (1 / 2) in
  let t158 := t86 * t109 * t146 * (1 / 2) in
  let t159 := t111 + t156 in
  let t160 := t117 + t127 in
  let t161 := t19 * t113 * t131 * (1 / 2) in
  let t162 := t39 * t118 * (1 / 2) in
  let t163 := t54 * t120 * (1 / 2) in
  let t164 := t69 * t122 * (1 / 2) in
  let t165 := t86 * t125 * (1 / 2) in
  let t166 := t21 * t114 * t144 * (1 / 2) in
  let t167 := t127 + t165 in
  let t168 := (z 0%nat) * (1 / 2) in
  let t169 := (z 1%nat) * (1 / 2) in
  let t170 := t168 + t169 in
  let t171 := t18 * t19 * t170 * (1 / 2) in
  let t172 := t37 - t133 in
  let t173 := (z 2%nat) * (1 / 2) in
  let t174 := t169 + t173 in
  let t175 := t133 - t136 in
  let t176 := (z 3%nat) * (1 / 2) in
  let t177 := t173 + t176 in
  let t178 := t136 - t139 in
  let t179 := (z 4%nat) * (1 / 2) in
  let t180 := t176 + t179 in
  let t181 := (z 5%nat) * (1 / 2) in
  let t182 := t139 - t143 in
  let t183 := t168 + t181 in
  let t184 := t20 * t21 * t183 * (1 / 2) in
  let t185 := t179 + t181 in
  let t186 := t19 * t97 * t170 * (1 / 2) in
  let t187 := t101 - t150 in
  let t188 := t150 - t152 in
  let t189 := t152 - t154 in
  let t190 := t154 - t156 in
  let t191 := t21 * t98 * t183 * (1 / 2) in
  let t192 := t19 * t113 * t170 * (1 / 2) in
  let t193 := t117 - t162 in
  let t194 := t39 * t118 * t174 * (1 / 2) in
  let t195 := t162 - t163 in
  let t196 := t54 * t120 * t177 * (1 / 2) in
  let t197 := t163 - t164 in
  let t198 := t69 * t122 * t180 * (1 / 2) in
  let t199 := t164 - t165 in
  let t200 := t21 * t114 * t183 * (1 / 2) in
  let t201 := t86 * t125 * t185 * (1 / 2) in
  [
   (0%nat, 0%nat, t22 * (t24 + t31 + t88 + t92) - X_dot_d * t36 * t129);
   (0%nat, 1%nat, t22 * (t24 - t31 + t41 + t48) + X_dot_d * t36 * (t37 - t38 * t39 * (1 / 2)));
   (0%nat, 2%nat, t22 * (t41 - t48 + t56 + t63) + X_dot_d * t36 * (t133 - t53 * t54 * (1 / 2)));
   (0%nat, 3%nat, t22 * (t56 - t63 + t71 + t78) + X_dot_d * t36 * (t136 - t68 * t69 * (1 / 2)));
   (0%nat, 4%nat, t22 * (t71 - t78 + t90 + t94) + X_dot_d * t36 * (t139 - t85 * t86 * (1 / 2)));
   (0%nat, 5%nat, t22 * (t88 + t90 - t92 - t94) + X_dot_d * t36 * t147);
   (0%nat, 6%nat, t22 * (t100 + t110) - X_dot_d * t36 * t148);
   (0%nat, 7%nat, -t22 * (t100 - t39 * t47 * t102 * (1 / 2)) + X_dot_d * t36 * (t101 - t39 * t102 * (1 / 2)));
   (0%nat, 8%nat, -t22 * (t39 * t47 * t102 * (1 / 2) - t54 * t62 * t104 * (1 / 2)) + X_dot_d * t36 * (t150 -
      t54 * t104 * (1 / 2)));
   (0%nat, 9%nat, -t22 * (t54 * t62 * t104 * (1 / 2) - t69 * t77 * t106 * (1 / 2)) + X_dot_d * t36 * (t152 -
      t69 * t106 * (1 / 2)));
   (0%nat, 10%nat, -t22 * (t69 * t77 * t106 * (1 / 2) - t86 * t93 * t109 * (1 / 2)) + X_dot_d * t36 * (t154 -
      t86 * t109 * (1 / 2)));
   (0%nat, 11%nat, -t22 * (t110 + t86 * t93 * t109 * (1 / 2)) + X_dot_d * t36 * t159);
   (0%nat, 12%nat, t22 * (t116 + t126) - X_dot_d * t36 * t160);
   (0%nat, 13%nat, -t22 * (t116 - t39 * t47 * t118 * (1 / 2)) + X_dot_d * t36 * (t117 - t39 * t118 * (1 /
      2)));
   (0%nat, 14%nat, -t22 * (t39 * t47 * t118 * (1 / 2) - t54 * t62 * t120 * (1 / 2)) + X_dot_d * t36 * (t162 -
      t54 * t120 * (1 / 2)));
   (0%nat, 15%nat, -t22 * (t54 * t62 * t120 * (1 / 2) - t69 * t77 * t122 * (1 / 2)) + X_dot_d * t36 * (t163 -
      t69 * t122 * (1 / 2)));
   (0%nat, 16%nat, -t22 * (t69 * t77 * t122 * (1 / 2) - t86 * t93 * t125 * (1 / 2)) + X_dot_d * t36 * (t164 -
      t86 * t125 * (1 / 2)));
   (0%nat, 17%nat, -t22 * (t126 + t86 * t93 * t125 * (1 / 2)) + X_dot_d * t36 * t167);
   (1%nat, 0%nat, t22 * (t132 + t145) - Y_dot_d * t36 * t129);
   (1%nat, 1%nat, -t22 * (t132 - t38 * t39 * t135 * (1 / 2)) + Y_dot_d * t36 * t172);
   (1%nat, 2%nat, -t22 * (t38 * t39 * t135 * (1 / 2) - t53 * t54 * t138 * (1 / 2)) + Y_dot_d * t36 * t175);
   (1%nat, 3%nat, -t22 * (t53 * t54 * t138 * (1 / 2) - t68 * t69 * t141 * (1 / 2)) + Y_dot_d * t36 * t178);
   (1%nat, 4%nat, -t22 * (t68 * t69 * t141 * (1 / 2) - t85 * t86 * t146 * (1 / 2)) + Y_dot_d * t36 * t182);
   (1%nat, 5%nat, -t22 * (t145 + t85 * t86 * t146 * (1 / 2)) + Y_dot_d * t36 * t147);
   (1%nat, 6%nat, t22 * (t24 + t88 + t149 + t157) - Y_dot_d * t36 * t148);
   (1%nat, 7%nat, t22 * (t24 + t41 - t149 + t151) + Y_dot_d * t36 * t187);
   (1%nat, 8%nat, t22 * (t41 + t56 - t151 + t153) + Y_dot_d * t36 * t188);
   (1%nat, 9%nat, t22 * (t56 + t71 - t153 + t155) + Y_dot_d * t36 * t189);
   (1%nat, 10%nat, t22 * (t71 + t90 - t155 + t158) + Y_dot_d * t36 * t190);
   (1%nat, 11%nat, t22 * (t88 + t90 - t157 - t158) + Y_dot_d * t36 * t159);
   (1%nat, 12%nat, t22 * (t161 + t166) - Y_dot_d * t36 * t160);
   (1%nat, 13%nat, -t22 * (t161 - t39 * t118 * t135 * (1 / 2)) + Y_dot_d * t36 * t193);
   (1%nat, 14%nat, -t22 * (t39 * t118 * t135 * (1 / 2) - t54 * t120 * t138 * (1 / 2)) + Y_dot_d * t36 * t195);
   (1%nat, 15%nat, -t22 * (t54 * t120 * t138 * (1 / 2) - t69 * t122 * t141 * (1 / 2)) + Y_dot_d * t36 * t197);
   (1%nat, 16%nat, -t22 * (t69 * t122 * t141 * (1 / 2) - t86 * t125 * t146 * (1 / 2)) + Y_dot_d * t36 * t199);
   (1%nat, 17%nat, -t22 * (t166 + t86 * t125 * t146 * (1 / 2)) + Y_dot_d * t36 * t167);
   (2%nat, 0%nat, t22 * (t171 + t184) - Z_dot_d * t36 * t129);
   (2%nat, 1%nat, -t22 * (t171 - t38 * t39 * t174 * (1 / 2)) + Z_dot_d * t36 * t172);
   (2%nat, 2%nat, -t22 * (t38 * t39 * t174 * (1 / 2) - t53 * t54 * t177 * (1 / 2)) + Z_dot_d * t36 * t175);
   (2%nat, 3%nat, -t22 * (t53 * t54 * t177 * (1 / 2) - t68 * t69 * t180 * (1 / 2)) + Z_dot_d * t36 * t178);
   (2%nat, 4%nat, -t22 * (t68 * t69 * t180 * (1 / 2) - t85 * t86 * t185 * (1 / 2)) + Z_dot_d * t36 * t182);
   (2%nat, 5%nat, -t22 * (t184 + t85 * t86 * t185 * (1 / 2)) + Z_dot_d * t36 * t147);
   (2%nat, 6%nat, t22 * (t186 + t191) - Z_dot_d * t36 * t148);
   (2%nat, 7%nat, -t22 * (t186 - t39 * t102 * t174 * (1 / 2)) + Z_dot_d * t36 * t187);
   (2%nat, 8%nat, -t22 * (t39 * t102 * t174 * (1 / 2) - t54 * t104 * t177 * (1 / 2)) + Z_dot_d * t36 * t188);
   (2%nat, 9%nat, -t22 * (t54 * t104 * t177 * (1 / 2) - t69 * t106 * t180 * (1 / 2)) + Z_dot_d * t36 * t189);
   (2%nat, 10%nat, -t22 * (t69 * t106 * t180 * (1 / 2) - t86 * t109 * t185 * (1 / 2)) + Z_dot_d * t36 * t190);
   (2%nat, 11%nat, -t22 * (t191 + t86 * t109 * t185 * (1 / 2)) + Z_dot_d * t36 * t159);
   (2%nat, 12%nat, t22 * (t24 + t88 + t192 + t200) - Z_dot_d * t36 * t160);
   (2%nat, 13%nat, t22 * (t24 + t41 - t192 + t194) + Z_dot_d * t36 * t193);
   (2%nat, 14%nat, t22 * (t41 + t56 - t194 + t196) + Z_dot_d * t36 * t195);
   (2%nat, 15%nat, t22 * (t56 + t71 - t196 + t198) + Z_dot_d * t36 * t197);
   (2%nat, 16%nat, t22 * (t71 + t90 - t198 + t201) + Z_dot_d * t36 * t199);
   (2%nat, 17%nat, t22 * (t88 + t90 - t200 - t201) + Z_dot_d * t36 * t167)
  ].

(** src/rsvs/RSVSmath_automatic.cpp 3036-3115 *)
Definition SurfCentroidSelf_df (eps_centre eps_centre2 : R) (x : vec) (y : vec) (z : vec) (totD : R) (X_dot_d
    : R) (Y_dot_d : R) (Z_dot_d : R) : list (nat * nat * R) :=
  let t2 := (x 0%nat) - (x 1%nat) in
  let t3 := (y 0%nat) - (y 1%nat) in
  let t4 := (z 0%nat) - (z 1%nat) in
  let t5 := (x 1%nat) - (x 2%nat) in
  let t6 := (y 1%nat) - (y 2%nat) in
  let t7 := (z 1%nat) - (z 2%nat) in
  let t8 := t2 * t2 in
  let t9 := t3 * t3 in
  let t10 := t4 * t4 in
  let t11 := t8 + t9 + t10 in
  let t12 := (x 1%nat) * (1 / 2) in
  let t13 := t5 * t5 in
  let t14 := t6 * t6 in
  let t15 := t7 * t7 in
  let t16 := t13 + t14 + t15 in
  let t17 := (x 0%nat) * 2 in
  let t18 := (x 1%nat) * 2 in
  let t19 := 1 / sqrt (eps_centre + t11) in
  let t35 := (x 2%nat) * 2 in
  let t20 := t18 - t35 in
  let t21 := 1 / sqrt (eps_centre + t16) in
  let t22 := 1 / totD in
  let t23 := (x 0%nat) * (1 / 2) in
  let t24 := t12 + t23 in
  let t25 := (x 2%nat) * (1 / 2) in
  let t26 := t12 + t25 in
  let t27 := 1 / (totD * totD) in
  let t28 := (y 0%nat) * 2 in
  let t29 := (y 1%nat) * 2 in
  let t46 := (y 2%nat) * 2 in
  let t30 := t29 - t46 in
  let t31 := (z 0%nat) * 2 in
  let t32 := (z 1%nat) * 2 in
  let t52 := (z 2%nat) * 2 in
  let t33 := t32 - t52 in
  let t34 := t17 - t18 in
  let t36 := (y 1%nat) * (1 / 2) in
  let t37 := t20 * t21 * (1 / 2) in
  let t56 := t19 * t34 * (1 / 2) in
  let t38 := t37 - t56 in
  let t39 := sqrt (t11) in
  let t40 := t39 * (1 / 2) in
  let t41 := sqrt (t16) in
  let t42 := t41 * (1 / 2) in
  let t43 := t28 - t29 in
  let t44 := (y 0%nat) * (1 / 2) in
  let t45 := t36 + t44 in
  let t47 := (y 2%nat) * (1 / 2) in
  let t48 := t36 + t47 in
  let t49 := t21 * t30 * (1 / 2) in
  let t61 := t19 * t43 * (1 / 2) in
  let t50 := t49 - t61 in
  let t51 := t31 - t32 in
  let t53 := t21 * t33 * (1 / 2) in
  let t62 := t19 * t51 * (1 / 2) in
  let t54 := t53 - t62 in
  let t55 := (z 1%nat) * (1 / 2) in
  let t57 := (z 0%nat) * (1 / 2) in
  let t58 := t55 + t57 in
  let t59 := (z 2%nat) * (1 / 2) in
  let t60 := t55 + t59 in
  [
   (0%nat, 0%nat, t22 * (t40 + t42 + t20 * t21 * t26 * (1 / 2) - t19 * t24 * (t17 - (x 1%nat) * 2) * (1 / 2))
      - X_dot_d * t27 * t38);
   (0%nat, 1%nat, t22 * (t21 * t26 * t30 * (1 / 2) - t19 * t24 * (t28 - (y 1%nat) * 2) * (1 / 2)) - X_dot_d *
      t27 * t50);
   (0%nat, 2%nat, t22 * (t21 * t26 * t33 * (1 / 2) - t19 * t24 * (t31 - (z 1%nat) * 2) * (1 / 2)) - X_dot_d *
      t27 * t54);
   (1%nat, 0%nat, t22 * (t20 * t21 * t48 * (1 / 2) - t19 * t34 * t45 * (1 / 2)) - Y_dot_d * t27 * t38);
   (1%nat, 1%nat, t22 * (t40 + t42 + t21 * t30 * t48 * (1 / 2) - t19 * t43 * t45 * (1 / 2)) - Y_dot_d * t27 *
      t50);
   (1%nat, 2%nat, t22 * (t21 * t33 * t48 * (1 / 2) - t19 * t45 * t51 * (1 / 2)) - Y_dot_d * t27 * t54);
   (2%nat, 0%nat, t22 * (t20 * t21 * t60 * (1 / 2) - t19 * t34 * t58 * (1 / 2)) - Z_dot_d * t27 * t38);
   (2%nat, 1%nat, t22 * (t21 * t30 * t60 * (1 / 2) - t19 * t43 * t58 * (1 / 2)) - Z_dot_d * t27 * t50);
   (2%nat, 2%nat, t22 * (t40 + t42 + t21 * t33 * t60 * (1 / 2) - t19 * t51 * t58 * (1 / 2)) - Z_dot_d * t27 *
      t54)
  ].

(** src/rsvs/RSVSmath_automatic.cpp 3117-3352 *)
Definition SurfCentroidSelf_ddf (eps_centre eps_centre2 : R) (x : vec) (y : vec) (z : vec) (totD : R) (X_dot_d
    : R) (Y_dot_d : R) (Z_dot_d : R) : list (nat * nat * R) :=
  let t2 := (x 0%nat) - (x 1%nat) in
  let t3 := (y 0%nat) - (y 1%nat) in
  let t4 := (z 0%nat) - (z 1%nat) in
  let t5 := t2 * t2 in
  let t6 := t3 * t3 in
  let t7 := t4 * t4 in
  let t8 := t5 + t6 + t7 in
  let t9 := 1 / sqrt (eps_centre + t8) in
  let t10 := (x 1%nat) - (x 2%nat) in
  let t11 := (y 1%nat) - (y 2%nat) in
  let t12 := (z 1%nat) - (z 2%nat) in
  let t13 := (x 1%nat) * (1 / 2) in
  let t14 := t10 * t10 in
  let t15 := t11 * t11 in
  let t16 := t12 * t12 in
  let t17 := t14 + t15 + t16 in
  let t18 := 1 / sqrt (eps_centre + t17) in
  let t19 := (x 0%nat) * 2 in
  let t20 := (x 1%nat) * 2 in
  let t21 := t19 - t20 in
  let t22 := (x 0%nat) * (1 / 2) in
  let t23 := t13 + t22 in
  let t27 := (x 2%nat) * 2 in
  let t24 := t20 - t27 in
  let t25 := (x 2%nat) * (1 / 2) in
  let t26 := t13 + t25 in
  let t28 := t18 * t24 * (1 / 2) in
  let t35 := t9 * t21 * (1 / 2) in
  let t29 := t28 - t35 in
  let t30 := t21 * t21 in
  let t31 := 1 / pow32 (t8) in
  let t32 := t24 * t24 in
  let t33 := 1 / pow32 (t17) in
  let t34 := 1 / (totD * totD) in
  let t36 := 1 / totD in
  let t37 := (y 0%nat) * 2 in
  let t38 := (y 1%nat) * 2 in
  let t41 := (y 2%nat) * 2 in
  let t39 := t38 - t41 in
  let t40 := t37 - t38 in
  let t42 := sqrt (t8) in
  let t43 := t42 * (1 / 2) in
  let t44 := sqrt (t17) in
  let t45 := t44 * (1 / 2) in
  let t46 := t18 * t24 * t26 * (1 / 2) in
  let t56 := t9 * t21 * t23 * (1 / 2) in
  let t47 := t43 + t45 + t46 - t56 in
  let t48 := 1 / (totD * totD * totD) in
  let t49 := t9 * t40 * (1 / 2) in
  let t66 := t18 * t39 * (1 / 2) in
  let t50 := t49 - t66 in
  let t51 := (z 0%nat) * 2 in
  let t52 := (z 1%nat) * 2 in
  let t55 := (z 2%nat) * 2 in
  let t53 := t52 - t55 in
  let t54 := t51 - t52 in
  let t57 := t9 * t54 * (1 / 2) in
  let t72 := t18 * t53 * (1 / 2) in
  let t58 := t57 - t72 in
  let t59 := (y 1%nat) * (1 / 2) in
  let t60 := (y 0%nat) * (1 / 2) in
  let t61 := t59 + t60 in
  let t62 := (y 2%nat) * (1 / 2) in
  let t63 := t59 + t62 in
  let t64 := t28 - t35 in
  let t83 := t30 * t31 * (1 / 4) in
  let t84 := t32 * t33 * (1 / 4) in
  let t65 := t9 + t18 - t83 - t84 in
  let t67 := t9 * t21 * t61 * (1 / 2) in
  let t73 := t18 * t24 * t63 * (1 / 2) in
  let t68 := t67 - t73 in
  let t69 := t21 * t31 * t40 * (1 / 4) in
  let t70 := t24 * t33 * t39 * (1 / 4) in
  let t71 := t69 + t70 in
  let t74 := t21 * t31 * t54 * (1 / 4) in
  let t75 := t24 * t33 * t53 * (1 / 4) in
  let t76 := t74 + t75 in
  let t77 := (z 1%nat) * (1 / 2) in
  let t78 := (z 0%nat) * (1 / 2) in
  let t79 := t77 + t78 in
  let t80 := (z 2%nat) * (1 / 2) in
  let t81 := t77 + t80 in
  let t82 := t28 - t35 in
  let t85 := t9 * t21 * t79 * (1 / 2) in
  let t88 := t18 * t24 * t81 * (1 / 2) in
  let t86 := t85 - t88 in
  let t87 := t9 * t21 * (1 / 4) in
  let t89 := t9 * t40 * (1 / 4) in
  let t90 := t21 * t23 * t31 * t40 * (1 / 4) in
  let t91 := t24 * t26 * t33 * t39 * (1 / 4) in
  let t137 := t18 * t39 * (1 / 4) in
  let t92 := t89 + t90 + t91 - t137 in
  let t93 := t34 * t47 * t50 in
  let t94 := t9 * t23 * t40 * (1 / 2) in
  let t103 := t18 * t26 * t39 * (1 / 2) in
  let t95 := t94 - t103 in
  let t96 := t34 * t95 * (t28 - t35) in
  let t97 := X_dot_d * t34 * t71 in
  let t98 := t93 + t96 + t97 - t36 * t92 - X_dot_d * t29 * t48 * t50 * 2 in
  let t99 := t9 * t23 in
  let t100 := t18 * t26 in
  let t101 := t40 * t40 in
  let t102 := t39 * t39 in
  let t104 := t9 * t23 * t54 * (1 / 2) in
  let t144 := t18 * t26 * t53 * (1 / 2) in
  let t105 := t104 - t144 in
  let t106 := t21 * t31 * t40 * t61 * (1 / 4) in
  let t107 := t24 * t33 * t39 * t63 * (1 / 4) in
  let t171 := t18 * t24 * (1 / 4) in
  let t108 := t87 + t106 + t107 - t171 in
  let t109 := t18 * t39 * t63 * (1 / 2) in
  let t117 := t9 * t40 * t61 * (1 / 2) in
  let t110 := t43 + t45 + t109 - t117 in
  let t111 := Y_dot_d * t34 * t71 in
  let t112 := t111 - t36 * t108 - t34 * t50 * t68 - t29 * t34 * t110 - Y_dot_d * t29 * t48 * t50 * 2 in
  let t113 := t9 * t61 in
  let t114 := t18 * t63 in
  let t115 := t50 * t50 in
  let t134 := t31 * t101 * (1 / 4) in
  let t135 := t33 * t102 * (1 / 4) in
  let t116 := t9 + t18 - t134 - t135 in
  let t118 := t9 * t54 * (1 / 4) in
  let t119 := t9 * t54 * t61 * (1 / 2) in
  let t159 := t18 * t53 * t63 * (1 / 2) in
  let t120 := t119 - t159 in
  let t121 := t31 * t40 * t54 * (1 / 4) in
  let t122 := t33 * t39 * t53 * (1 / 4) in
  let t123 := t121 + t122 in
  let t124 := t21 * t31 * t40 * t79 * (1 / 4) in
  let t125 := t24 * t33 * t39 * t81 * (1 / 4) in
  let t126 := t124 + t125 in
  let t127 := t9 * t40 * t79 * (1 / 2) in
  let t136 := t18 * t39 * t81 * (1 / 2) in
  let t128 := t127 - t136 in
  let t129 := t34 * t128 * (t28 - t35) in
  let t130 := Z_dot_d * t34 * t71 in
  let t131 := t129 + t130 - t36 * t126 - t34 * t50 * t86 - Z_dot_d * t29 * t48 * t50 * 2 in
  let t132 := t9 * t79 in
  let t133 := t18 * t81 in
  let t138 := t18 * t53 * t81 * (1 / 2) in
  let t174 := t9 * t54 * t79 * (1 / 2) in
  let t139 := t43 + t45 + t138 - t174 in
  let t140 := t21 * t23 * t31 * t54 * (1 / 4) in
  let t141 := t24 * t26 * t33 * t53 * (1 / 4) in
  let t163 := t18 * t53 * (1 / 4) in
  let t142 := t118 + t140 + t141 - t163 in
  let t143 := t34 * t47 * t58 in
  let t145 := t34 * t105 * (t28 - t35) in
  let t146 := X_dot_d * t34 * t76 in
  let t147 := t143 + t145 + t146 - t36 * t142 - X_dot_d * t29 * t48 * t58 * 2 in
  let t148 := t23 * t31 * t40 * t54 * (1 / 4) in
  let t149 := t26 * t33 * t39 * t53 * (1 / 4) in
  let t150 := t148 + t149 in
  let t151 := X_dot_d * t34 * t123 in
  let t152 := X_dot_d * t48 * t50 * t58 * 2 in
  let t153 := t151 + t152 - t36 * t150 - t34 * t58 * t95 - t34 * t50 * t105 in
  let t154 := t54 * t54 in
  let t155 := t53 * t53 in
  let t156 := t21 * t31 * t54 * t61 * (1 / 4) in
  let t157 := t24 * t33 * t53 * t63 * (1 / 4) in
  let t158 := t156 + t157 in
  let t160 := t34 * t120 * (t28 - t35) in
  let t161 := Y_dot_d * t34 * t76 in
  let t162 := t160 + t161 - t36 * t158 - t34 * t58 * t68 - Y_dot_d * t29 * t48 * t58 * 2 in
  let t164 := t31 * t40 * t54 * t61 * (1 / 4) in
  let t165 := t33 * t39 * t53 * t63 * (1 / 4) in
  let t166 := t34 * t58 * t110 in
  let t167 := Y_dot_d * t34 * t123 in
  let t168 := Y_dot_d * t48 * t50 * t58 * 2 in
  let t169 := t58 * t58 in
  let t183 := t31 * t154 * (1 / 4) in
  let t184 := t33 * t155 * (1 / 4) in
  let t170 := t9 + t18 - t183 - t184 in
  let t172 := t21 * t31 * t54 * t79 * (1 / 4) in
  let t173 := t24 * t33 * t53 * t81 * (1 / 4) in
  let t175 := Z_dot_d * t34 * t76 in
  let t176 := t31 * t40 * t54 * t79 * (1 / 4) in
  let t177 := t33 * t39 * t53 * t81 * (1 / 4) in
  let t178 := t89 - t137 + t176 + t177 in
  let t179 := t34 * t50 * t139 in
  let t180 := Z_dot_d * t34 * t123 in
  let t181 := Z_dot_d * t48 * t50 * t58 * 2 in
  let t182 := t179 + t180 + t181 - t36 * t178 - t34 * t58 * t128 in
  [
   (0%nat, 0%nat, t36 * (t28 + t99 + t100 - t9 * (t19 - (x 1%nat) * 2) * (1 / 2) - t23 * t30 * t31 * (1 / 4) -
      t26 * t32 * t33 * (1 / 4)) - X_dot_d * t34 * t65 - t29 * t34 * t47 * 2 + X_dot_d * (t29 * t29) * t48 *
      2);
   (0%nat, 1%nat, t98);
   (0%nat, 2%nat, t147);
   (0%nat, 3%nat, t36 * (t113 + t114 - t30 * t31 * t61 * (1 / 4) - t32 * t33 * t63 * (1 / 4)) + Y_dot_d * t48
      * (t64 * t64) * 2 - Y_dot_d * t34 * t65 + t34 * t68 * (t28 - t35) * 2);
   (0%nat, 4%nat, t112);
   (0%nat, 5%nat, t162);
   (0%nat, 6%nat, t36 * (t132 + t133 - t30 * t31 * t79 * (1 / 4) - t32 * t33 * t81 * (1 / 4)) + Z_dot_d * t48
      * (t82 * t82) * 2 - Z_dot_d * t34 * t65 + t34 * t86 * (t28 - t35) * 2);
   (0%nat, 7%nat, t131);
   (0%nat, 8%nat, t175 - t36 * (t87 + t172 + t173 - t18 * t24 * (1 / 4)) - t34 * t58 * t86 - t29 * t34 * t139
      - Z_dot_d * t29 * t48 * t58 * 2);
   (1%nat, 0%nat, t98);
   (1%nat, 1%nat, t36 * (t99 + t100 - t23 * t31 * t101 * (1 / 4) - t26 * t33 * t102 * (1 / 4)) - X_dot_d * t34
      * t116 + X_dot_d * t48 * t115 * 2 - t34 * t50 * t95 * 2);
   (1%nat, 2%nat, t153);
   (1%nat, 3%nat, t112);
   (1%nat, 4%nat, -t36 * (t49 - t66 - t113 - t114 + t31 * t61 * t101 * (1 / 4) + t33 * t63 * t102 * (1 / 4)) -
      Y_dot_d * t34 * t116 + Y_dot_d * t48 * t115 * 2 + t34 * t50 * t110 * 2);
   (1%nat, 5%nat, t166 + t167 + t168 - t36 * (t118 + t164 + t165 - t18 * t53 * (1 / 4)) - t34 * t50 * t120);
   (1%nat, 6%nat, t131);
   (1%nat, 7%nat, t36 * (t132 + t133 - t31 * t79 * t101 * (1 / 4) - t33 * t81 * t102 * (1 / 4)) - Z_dot_d *
      t34 * t116 + Z_dot_d * t48 * t115 * 2 - t34 * t50 * t128 * 2);
   (1%nat, 8%nat, t182);
   (2%nat, 0%nat, t147);
   (2%nat, 1%nat, t153);
   (2%nat, 2%nat, t36 * (t99 + t100 - t23 * t31 * t154 * (1 / 4) - t26 * t33 * t155 * (1 / 4)) - X_dot_d * t34
      * t170 + X_dot_d * t48 * t169 * 2 - t34 * t58 * t105 * 2);
   (2%nat, 3%nat, t162);
   (2%nat, 4%nat, t166 + t167 + t168 - t36 * (t118 - t163 + t164 + t165) - t34 * t50 * t120);
   (2%nat, 5%nat, t36 * (t113 + t114 - t31 * t61 * t154 * (1 / 4) - t33 * t63 * t155 * (1 / 4)) - Y_dot_d *
      t34 * t170 + Y_dot_d * t48 * t169 * 2 - t34 * t58 * t120 * 2);
   (2%nat, 6%nat, t175 - t36 * (t87 - t171 + t172 + t173) - t34 * t58 * t86 - t29 * t34 * t139 - Z_dot_d * t29
      * t48 * t58 * 2);
   (2%nat, 7%nat, t182);
   (2%nat, 8%nat, -t36 * (t57 - t72 - t132 - t133 + t31 * t79 * t154 * (1 / 4) + t33 * t81 * t155 * (1 / 4)) -
      Z_dot_d * t34 * t170 + Z_dot_d * t48 * t169 * 2 + t34 * t58 * t139 * 2)
  ].

(** src/rsvs/RSVSmath_automatic.cpp 2124-2482 *)
Definition SurfCentroidConnec_ddf (eps_centre eps_centre2 : R) (x : vec) (y : vec) (z : vec) (totD : R)
    (X_dot_d : R) (Y_dot_d : R) (Z_dot_d : R) : list (nat * nat * R) :=
  let t2 := (x 1%nat) - (x 2%nat) in
  let t3 := (y 1%nat) - (y 2%nat) in
  let t4 := (z 1%nat) - (z 2%nat) in
  let t5 := (y 1%nat) * 2 in
  let t11 := (y 2%nat) * 2 in
  let t6 := t5 - t11 in
  let t7 := t2 * t2 in
  let t8 := t3 * t3 in
  let t9 := t4 * t4 in
  let t10 := t7 + t8 + t9 + eps_centre2 in
  let t12 := 1 / sqrt (eps_centre + t10) in
  let t13 := (x 2%nat) - (x 3%nat) in
  let t14 := (y 2%nat) - (y 3%nat) in
  let t15 := (z 2%nat) - (z 3%nat) in
  let t16 := (x 0%nat) - (x 1%nat) in
  let t17 := (y 0%nat) - (y 1%nat) in
  let t18 := (z 0%nat) - (z 1%nat) in
  let t19 := (x 1%nat) * 2 in
  let t20 := (x 1%nat) * (1 / 2) in
  let t21 := t16 * t16 in
  let t22 := t17 * t17 in
  let t23 := t18 * t18 in
  let t24 := t21 + t22 + t23 + eps_centre2 in
  let t31 := (x 2%nat) * 2 in
  let t25 := t19 - t31 in
  let t26 := (x 2%nat) * (1 / 2) in
  let t27 := t20 + t26 in
  let t28 := 1 / (totD * totD) in
  let t29 := 1 / sqrt (eps_centre + t24) in
  let t38 := (x 0%nat) * 2 in
  let t30 := t19 - t38 in
  let t42 := (y 3%nat) * 2 in
  let t32 := t11 - t42 in
  let t33 := t13 * t13 in
  let t34 := t14 * t14 in
  let t35 := t15 * t15 in
  let t36 := t33 + t34 + t35 + eps_centre2 in
  let t37 := 1 / sqrt (eps_centre + t36) in
  let t39 := t29 * t30 * (1 / 2) in
  let t40 := t12 * t25 * (1 / 2) in
  let t41 := t6 * t12 * (1 / 2) in
  let t74 := t32 * t37 * (1 / 2) in
  let t43 := t41 - t74 in
  let t44 := t39 + t40 in
  let t45 := 1 / pow32 (t10) in
  let t46 := 1 / totD in
  let t47 := (x 0%nat) * (1 / 2) in
  let t48 := t20 + t47 in
  let t49 := (z 0%nat) * 2 in
  let t50 := (z 1%nat) * 2 in
  let t53 := (z 2%nat) * 2 in
  let t51 := t50 - t53 in
  let t52 := t49 - t50 in
  let t54 := sqrt (t24) in
  let t55 := t54 * (1 / 2) in
  let t56 := sqrt (t10) in
  let t57 := t56 * (1 / 2) in
  let t58 := t12 * t25 * t27 * (1 / 2) in
  let t59 := t29 * t30 * t48 * (1 / 2) in
  let t60 := t55 + t57 + t58 + t59 in
  let t61 := 1 / pow32 (t24) in
  let t62 := 1 / (totD * totD * totD) in
  let t63 := t12 * t51 * (1 / 2) in
  let t64 := t12 * t51 * (1 / 4) in
  let t65 := t12 * t27 * t51 * (1 / 2) in
  let t66 := (x 3%nat) * (1 / 2) in
  let t67 := t26 + t66 in
  let t69 := (z 3%nat) * 2 in
  let t68 := t53 - t69 in
  let t84 := t37 * t68 * (1 / 2) in
  let t70 := t63 - t84 in
  let t71 := (y 1%nat) * (1 / 2) in
  let t72 := (y 2%nat) * (1 / 2) in
  let t73 := t71 + t72 in
  let t75 := (y 0%nat) * (1 / 2) in
  let t76 := t71 + t75 in
  let t77 := t29 * t30 * t76 * (1 / 2) in
  let t78 := t12 * t25 * t73 * (1 / 2) in
  let t83 := t29 * t52 * (1 / 2) in
  let t79 := t63 - t83 in
  let t80 := t77 + t78 in
  let t81 := t25 * t45 * t51 * (1 / 4) in
  let t97 := t30 * t52 * t61 * (1 / 4) in
  let t82 := t81 - t97 in
  let t85 := t12 * t51 * t73 * (1 / 2) in
  let t86 := (y 3%nat) * (1 / 2) in
  let t87 := t72 + t86 in
  let t88 := (z 1%nat) * (1 / 2) in
  let t89 := (z 2%nat) * (1 / 2) in
  let t90 := t88 + t89 in
  let t91 := t12 * t25 * (1 / 4) in
  let t92 := (z 0%nat) * (1 / 2) in
  let t93 := t88 + t92 in
  let t94 := t29 * t30 * t93 * (1 / 2) in
  let t95 := t12 * t25 * t90 * (1 / 2) in
  let t96 := t94 + t95 in
  let t98 := sqrt (t36) in
  let t99 := t98 * (1 / 2) in
  let t100 := t12 * t51 * t90 * (1 / 2) in
  let t101 := (z 3%nat) * (1 / 2) in
  let t102 := t89 + t101 in
  let t103 := t6 * t12 * (1 / 4) in
  let t105 := (x 3%nat) * 2 in
  let t104 := t31 - t105 in
  let t106 := t6 * t12 * t27 * (1 / 2) in
  let t137 := t32 * t37 * t67 * (1 / 2) in
  let t107 := t106 - t137 in
  let t108 := 1 / pow32 (t36) in
  let t112 := t37 * t104 * (1 / 2) in
  let t109 := t40 - t112 in
  let t110 := t37 * t67 * t104 * (1 / 2) in
  let t111 := t57 - t58 + t99 + t110 in
  let t113 := t25 * t27 * t45 * t51 * (1 / 4) in
  let t145 := t37 * t67 * t68 * (1 / 2) in
  let t114 := t65 - t145 in
  let t115 := t6 * t25 * t45 * t73 * (1 / 4) in
  let t116 := t32 * t37 * t87 * (1 / 2) in
  let t146 := t6 * t12 * t73 * (1 / 2) in
  let t117 := t57 + t99 + t116 - t146 in
  let t118 := t6 * t25 * t45 * (1 / 4) in
  let t119 := t32 * t104 * t108 * (1 / 4) in
  let t120 := t118 + t119 in
  let t125 := t37 * t87 * t104 * (1 / 2) in
  let t121 := t78 - t125 in
  let t122 := t25 * t45 * t46 * t51 * t73 * (1 / 4) in
  let t123 := t25 * t45 * t51 * t73 * (1 / 4) in
  let t152 := t37 * t68 * t87 * (1 / 2) in
  let t124 := t85 - t152 in
  let t126 := t68 * t104 * t108 * (1 / 4) in
  let t127 := t81 + t126 in
  let t128 := t6 * t12 * t90 * (1 / 2) in
  let t153 := t32 * t37 * t102 * (1 / 2) in
  let t129 := t128 - t153 in
  let t130 := t25 * t45 * t51 * t90 * (1 / 4) in
  let t154 := t29 * t52 * t93 * (1 / 2) in
  let t131 := t55 + t57 + t100 - t154 in
  let t135 := t37 * t102 * t104 * (1 / 2) in
  let t132 := t95 - t135 in
  let t133 := t37 * t68 * t102 * (1 / 2) in
  let t134 := t57 + t99 - t100 + t133 in
  let t139 := (y 0%nat) * 2 in
  let t136 := t5 - t139 in
  let t138 := t6 * t6 in
  let t140 := t29 * t136 * (1 / 2) in
  let t141 := t41 + t140 in
  let t194 := t29 * t48 * t52 * (1 / 2) in
  let t142 := t65 - t194 in
  let t143 := t29 * t48 * t136 * (1 / 2) in
  let t144 := t106 + t143 in
  let t147 := t29 * t76 * (t5 - t139) * (1 / 2) in
  let t148 := t55 + t57 + t146 + t147 in
  let t204 := t29 * t52 * t76 * (1 / 2) in
  let t149 := t85 - t204 in
  let t150 := t6 * t45 * t51 * (1 / 4) in
  let t157 := t52 * t61 * t136 * (1 / 4) in
  let t151 := t150 - t157 in
  let t155 := t29 * t93 * t136 * (1 / 2) in
  let t156 := t128 + t155 in
  let t158 := t6 * t25 * t27 * t45 * (1 / 4) in
  let t159 := t29 * t48 * (t19 - t38) * (1 / 2) in
  let t160 := t55 + t57 + t58 + t159 in
  let t161 := t32 * t67 * t104 * t108 * (1 / 4) in
  let t162 := t103 + t158 + t161 - t32 * t37 * (1 / 4) in
  let t163 := t28 * t43 * t111 in
  let t164 := X_dot_d * t28 * t120 in
  let t165 := X_dot_d * t43 * t62 * t109 * 2 in
  let t166 := t163 + t164 + t165 - t46 * t162 - t28 * t107 * t109 in
  let t167 := t12 * t27 in
  let t168 := t167 - t27 * t45 * t138 * (1 / 4) in
  let t181 := t45 * t138 * (1 / 4) in
  let t169 := X_dot_d * t28 * (t12 - t181) in
  let t170 := t91 + t115 in
  let t171 := t46 * t170 in
  let t172 := t32 * t87 * t104 * t108 * (1 / 4) in
  let t254 := t37 * t104 * (1 / 4) in
  let t173 := t91 + t115 + t172 - t254 in
  let t174 := t28 * t109 * t117 in
  let t175 := Y_dot_d * t28 * t120 in
  let t176 := Y_dot_d * t43 * t62 * t109 * 2 in
  let t177 := t174 + t175 + t176 - t46 * t173 - t28 * t43 * t121 in
  let t178 := t12 * t73 in
  let t179 := t178 - t45 * t73 * t138 * (1 / 4) in
  let t180 := t28 * t43 * t148 in
  let t182 := t28 * t129 * (t39 + t40) in
  let t183 := t6 * t25 * t45 * t46 * t90 * (1 / 4) in
  let t184 := t6 * t25 * t45 * t90 * (1 / 4) in
  let t185 := t32 * t102 * t104 * t108 * (1 / 4) in
  let t186 := t184 + t185 in
  let t187 := Z_dot_d * t28 * t120 in
  let t188 := Z_dot_d * t43 * t62 * t109 * 2 in
  let t189 := t187 + t188 - t46 * t186 - t28 * t43 * t132 - t28 * t109 * t129 in
  let t190 := t12 * t90 in
  let t191 := t190 - t45 * t90 * t138 * (1 / 4) in
  let t192 := t28 * t129 * (t41 + t140) in
  let t193 := t30 * t48 * t52 * t61 * (1 / 4) in
  let t195 := X_dot_d * t28 * t82 in
  let t196 := t64 + t113 in
  let t197 := t46 * t196 in
  let t198 := t6 * t27 * t45 * t51 * (1 / 4) in
  let t199 := t198 - t48 * t52 * t61 * t136 * (1 / 4) in
  let t200 := X_dot_d * t28 * t151 in
  let t201 := X_dot_d * t62 * (t41 + t140) * (t63 - t83) * 2 in
  let t202 := t200 + t201 - t46 * t199 - t28 * t79 * t144 - t28 * t141 * t142 in
  let t203 := t123 - t30 * t52 * t61 * t76 * (1 / 4) in
  let t205 := Y_dot_d * t28 * t82 in
  let t206 := Y_dot_d * t62 * (t39 + t40) * (t63 - t83) * 2 in
  let t207 := t205 + t206 - t46 * t203 - t28 * t79 * t80 - t28 * t44 * t149 in
  let t208 := t28 * t121 * (t63 - t83) in
  let t209 := t52 * t61 * t76 * t136 * (1 / 4) in
  let t247 := t6 * t45 * t51 * t73 * (1 / 4) in
  let t210 := t46 * (t64 + t209 - t247 - t29 * t52 * (1 / 4)) in
  let t211 := Y_dot_d * t28 * t151 in
  let t212 := Y_dot_d * t62 * (t41 + t140) * (t63 - t83) * 2 in
  let t213 := t210 + t211 + t212 - t28 * t79 * t148 - t28 * t141 * t149 in
  let t214 := t29 * t30 * (1 / 4) in
  let t215 := t30 * t52 * t61 * t93 * (1 / 4) in
  let t216 := Z_dot_d * t28 * t82 in
  let t217 := Z_dot_d * t62 * (t39 + t40) * (t63 - t83) * 2 in
  let t218 := t91 - t130 in
  let t219 := t28 * t109 * t131 in
  let t220 := t28 * t132 * (t63 - t83) in
  let t253 := Z_dot_d * t25 * t28 * t45 * t51 * (1 / 4) in
  let t221 := t219 + t220 - t253 - t46 * t218 - Z_dot_d * t62 * t79 * t109 * 2 in
  let t222 := t29 * t136 * (1 / 4) in
  let t223 := t52 * t61 * t93 * t136 * (1 / 4) in
  let t224 := t6 * t45 * t51 * t90 * (1 / 4) in
  let t225 := Z_dot_d * t28 * t151 in
  let t226 := Z_dot_d * t62 * (t41 + t140) * (t63 - t83) * 2 in
  let t227 := t28 * t70 * t160 in
  let t228 := t28 * t114 * (t39 + t40) in
  let t229 := t67 * t68 * t104 * t108 * (1 / 4) in
  let t230 := t64 + t113 + t229 - t37 * t68 * (1 / 4) in
  let t231 := t28 * t70 * t111 in
  let t232 := X_dot_d * t28 * t127 in
  let t233 := X_dot_d * t62 * t70 * t109 * 2 in
  let t234 := t231 + t232 + t233 - t46 * t230 - t28 * t109 * t114 in
  let t235 := t28 * t70 * (t106 + t143) in
  let t236 := t28 * t114 * (t41 + t140) in
  let t237 := t6 * t27 * t45 * t46 * t51 * (1 / 4) in
  let t238 := t235 + t236 + t237 - X_dot_d * t62 * t70 * t141 * 2 - X_dot_d * t6 * t28 * t45 * t51 * (1 / 4)
      in
  let t239 := t28 * t70 * (t77 + t78) in
  let t240 := t28 * t124 * (t39 + t40) in
  let t241 := t122 + t239 + t240 - Y_dot_d * t44 * t62 * t70 * 2 - Y_dot_d * t25 * t28 * t45 * t51 * (1 / 4)
      in
  let t242 := t68 * t87 * t104 * t108 * (1 / 4) in
  let t243 := t123 + t242 in
  let t244 := Y_dot_d * t28 * t127 in
  let t245 := Y_dot_d * t62 * t70 * t109 * 2 in
  let t246 := t244 + t245 - t46 * t243 - t28 * t70 * t121 - t28 * t109 * t124 in
  let t248 := t28 * t70 * t148 in
  let t249 := t28 * t124 * (t41 + t140) in
  let t250 := t91 + t130 in
  let t251 := t46 * t250 in
  let t252 := t28 * t70 * (t94 + t95) in
  let t255 := t68 * t102 * t104 * t108 * (1 / 4) in
  let t256 := t28 * t109 * t134 in
  let t257 := Z_dot_d * t28 * t127 in
  let t258 := Z_dot_d * t62 * t70 * t109 * 2 in
  let t259 := t103 + t224 in
  let t260 := t46 * t259 in
  let t261 := t28 * t70 * (t128 + t155) in
  let t262 := t260 + t261 - t28 * t134 * t141 - Z_dot_d * t62 * t70 * t141 * 2 - Z_dot_d * t6 * t28 * t45 *
      t51 * (1 / 4) in
  [
   (0%nat, 3%nat, -t46 * (t103 - t6 * t25 * t27 * t45 * (1 / 4)) + t28 * t43 * t60 + t28 * t44 * t107 -
      X_dot_d * t43 * t44 * t62 * 2 - X_dot_d * t6 * t25 * t28 * t45 * (1 / 4));
   (0%nat, 4%nat, t195 + t46 * (t64 + t193 - t29 * (t49 - (z 1%nat) * 2) * (1 / 4) - t25 * t27 * t45 * t51 *
      (1 / 4)) - t28 * t60 * t79 - t28 * t44 * t142 + X_dot_d * t62 * t79 * (t39 + t40) * 2);
   (0%nat, 5%nat, t227 + t228 - t46 * (t64 - t25 * t27 * t45 * t51 * (1 / 4)) - X_dot_d * t44 * t62 * t70 * 2
      - X_dot_d * t25 * t28 * t45 * t51 * (1 / 4));
   (0%nat, 9%nat, t171 + t28 * t43 * t80 - t28 * t44 * t117 - Y_dot_d * t43 * t44 * t62 * 2 - Y_dot_d * t6 *
      t25 * t28 * t45 * (1 / 4));
   (0%nat, 10%nat, t207);
   (0%nat, 11%nat, t241);
   (0%nat, 15%nat, t182 + t183 + t28 * t43 * t96 - Z_dot_d * t43 * t44 * t62 * 2 - Z_dot_d * t6 * t25 * t28 *
      t45 * (1 / 4));
   (0%nat, 16%nat, t216 + t217 + t46 * (t91 + t214 + t215 - t25 * t45 * t51 * t90 * (1 / 4)) - t28 * t44 *
      t131 - t28 * t79 * t96);
   (0%nat, 17%nat, t251 + t252 - t28 * t44 * t134 - Z_dot_d * t44 * t62 * t70 * 2 - Z_dot_d * t25 * t28 * t45
      * t51 * (1 / 4));
   (1%nat, 3%nat, t166);
   (1%nat, 4%nat, t197 - t28 * t79 * t111 + t28 * t109 * t142 - X_dot_d * t62 * t79 * t109 * 2 - X_dot_d * t25
      * t28 * t45 * t51 * (1 / 4));
   (1%nat, 5%nat, t234);
   (1%nat, 9%nat, t177);
   (1%nat, 10%nat, t122 + t208 + t28 * t109 * t149 - Y_dot_d * t62 * t79 * t109 * 2 - Y_dot_d * t25 * t28 *
      t45 * t51 * (1 / 4));
   (1%nat, 11%nat, t246);
   (1%nat, 15%nat, t189);
   (1%nat, 16%nat, t221);
   (1%nat, 17%nat, t256 + t257 + t258 - t46 * (t91 + t130 + t255 - t37 * t104 * (1 / 4)) - t28 * t70 * t132);
   (2%nat, 3%nat, t169 - t46 * t168 + t28 * t43 * t144 + t28 * t107 * t141 - X_dot_d * t43 * t62 * t141 * 2);
   (2%nat, 4%nat, t202);
   (2%nat, 5%nat, t238);
   (2%nat, 9%nat, t180 - t46 * t179 + Y_dot_d * t28 * (t12 - t45 * t138 * (1 / 4)) - t28 * t117 * t141 -
      Y_dot_d * t43 * t62 * t141 * 2);
   (2%nat, 10%nat, t213);
   (2%nat, 11%nat, t248 + t249 - t46 * (t64 - t6 * t45 * t51 * t73 * (1 / 4)) - Y_dot_d * t62 * t70 * t141 * 2
      - Y_dot_d * t6 * t28 * t45 * t51 * (1 / 4));
   (2%nat, 15%nat, t192 - t46 * t191 + Z_dot_d * t28 * (t12 - t45 * t138 * (1 / 4)) + t28 * t43 * t156 -
      Z_dot_d * t43 * t62 * t141 * 2);
   (2%nat, 16%nat, t225 + t226 + t46 * (t103 + t222 + t223 - t6 * t45 * t51 * t90 * (1 / 4)) - t28 * t79 *
      t156 - t28 * t131 * t141);
   (2%nat, 17%nat, t262);
   (3%nat, 0%nat, -t46 * (t103 - t158) + t28 * t107 * (t39 + t40) + t28 * t43 * t160 - X_dot_d * t43 * t44 *
      t62 * 2 - X_dot_d * t6 * t25 * t28 * t45 * (1 / 4));
   (3%nat, 1%nat, t166);
   (3%nat, 2%nat, t169 - t46 * t168 + t28 * t107 * (t41 + t140) + t28 * t43 * (t106 + t143) - X_dot_d * t43 *
      t62 * t141 * 2);
   (3%nat, 6%nat, t171 + t28 * t43 * (t77 + t78) - t28 * t44 * t117 - Y_dot_d * t43 * t44 * t62 * 2 - Y_dot_d
      * t6 * t25 * t28 * t45 * (1 / 4));
   (3%nat, 7%nat, t177);
   (3%nat, 8%nat, t180 - t46 * t179 - t28 * t117 * t141 + Y_dot_d * t28 * (t12 - t181) - Y_dot_d * t43 * t62 *
      t141 * 2);
   (3%nat, 12%nat, t182 + t183 + t28 * t43 * (t94 + t95) - Z_dot_d * t43 * t44 * t62 * 2 - Z_dot_d * t6 * t25
      * t28 * t45 * (1 / 4));
   (3%nat, 13%nat, t189);
   (3%nat, 14%nat, t192 - t46 * t191 + t28 * t43 * (t128 + t155) + Z_dot_d * t28 * (t12 - t181) - Z_dot_d *
      t43 * t62 * t141 * 2);
   (4%nat, 0%nat, t195 + t46 * (t64 - t113 + t193 - t29 * t52 * (1 / 4)) - t28 * t44 * t142 - t28 * t79 * t160
      + X_dot_d * t62 * (t39 + t40) * (t63 - t83) * 2);
   (4%nat, 1%nat, t197 - t28 * t79 * t111 + t28 * t109 * (t65 - t194) - X_dot_d * t62 * t79 * t109 * 2 -
      X_dot_d * t25 * t28 * t45 * t51 * (1 / 4));
   (4%nat, 2%nat, t202);
   (4%nat, 6%nat, t207);
   (4%nat, 7%nat, t122 + t208 + t28 * t109 * (t85 - t204) - Y_dot_d * t62 * t79 * t109 * 2 - Y_dot_d * t25 *
      t28 * t45 * t51 * (1 / 4));
   (4%nat, 8%nat, t213);
   (4%nat, 12%nat, t216 + t217 + t46 * (t91 - t130 + t214 + t215) - t28 * t44 * t131 - t28 * t79 * t96);
   (4%nat, 13%nat, t221);
   (4%nat, 14%nat, t225 + t226 + t46 * (t103 + t222 + t223 - t224) - t28 * t79 * t156 - t28 * t131 * t141);
   (5%nat, 0%nat, t227 + t228 - t46 * (t64 - t113) - X_dot_d * t44 * t62 * t70 * 2 - X_dot_d * t25 * t28 * t45
      * t51 * (1 / 4));
   (5%nat, 1%nat, t234);
   (5%nat, 2%nat, t238);
   (5%nat, 6%nat, t241);
   (5%nat, 7%nat, t246);
   (5%nat, 8%nat, t248 + t249 - t46 * (t64 - t247) - Y_dot_d * t62 * t70 * t141 * 2 - Y_dot_d * t6 * t28 * t45
      * t51 * (1 / 4));
   (5%nat, 12%nat, t251 + t252 - t253 - t28 * t44 * t134 - Z_dot_d * t44 * t62 * t70 * 2);
   (5%nat, 13%nat, t256 + t257 + t258 - t46 * (t91 + t130 - t254 + t255) - t28 * t70 * t132);
   (5%nat, 14%nat, t262)
  ].

(** src/rsvs/RSVSmath_automatic.cpp 2653-3024 *)
Definition SurfCentroidNoConnec_ddf (eps_centre eps_centre2 : R) (x : vec) (y : vec) (z : vec) (totD : R)
    (X_dot_d : R) (Y_dot_d : R) (Z_dot_d : R) : list (nat * nat * R) :=
  let t2 := (x 4%nat) - (x 5%nat) in
  let t3 := (y 4%nat) - (y 5%nat) in
  let t4 := (z 4%nat) - (z 5%nat) in
  let t5 := (x 5%nat) - (x 6%nat) in
  let t6 := (y 5%nat) - (y 6%nat) in
  let t7 := (z 5%nat) - (z 6%nat) in
  let t8 := (x 0%nat) - (x 1%nat) in
  let t9 := (y 0%nat) - (y 1%nat) in
  let t10 := (z 0%nat) - (z 1%nat) in
  let t11 := (x 1%nat) - (x 2%nat) in
  let t12 := (y 1%nat) - (y 2%nat) in
  let t13 := (z 1%nat) - (z 2%nat) in
  let t14 := t8 * t8 in
  let t15 := t9 * t9 in
  let t16 := t10 * t10 in
  let t17 := t14 + t15 + t16 in
  let t18 := (x 1%nat) * (1 / 2) in
  let t19 := t11 * t11 in
  let t20 := t12 * t12 in
  let t21 := t13 * t13 in
  let t22 := t19 + t20 + t21 in
  let t23 := 1 / (totD * totD) in
  let t24 := (x 0%nat) * 2 in
  let t25 := (x 1%nat) * 2 in
  let t26 := 1 / sqrt (eps_centre + t17) in
  let t44 := (x 2%nat) * 2 in
  let t27 := t25 - t44 in
  let t28 := 1 / sqrt (eps_centre + t22) in
  let t29 := (y 4%nat) * 2 in
  let t30 := (y 5%nat) * 2 in
  let t31 := t2 * t2 in
  let t32 := t3 * t3 in
  let t33 := t4 * t4 in
  let t34 := t31 + t32 + t33 in
  let t35 := 1 / sqrt (eps_centre + t34) in
  let t36 := (x 5%nat) * (1 / 2) in
  let t47 := (y 6%nat) * 2 in
  let t37 := t30 - t47 in
  let t38 := t5 * t5 in
  let t39 := t6 * t6 in
  let t40 := t7 * t7 in
  let t41 := t38 + t39 + t40 in
  let t42 := 1 / sqrt (eps_centre + t41) in
  let t43 := t24 - t25 in
  let t45 := t27 * t28 * (1 / 2) in
  let t46 := t29 - t30 in
  let t48 := t37 * t42 * (1 / 2) in
  let t49 := (x 0%nat) * (1 / 2) in
  let t50 := t18 + t49 in
  let t51 := (z 0%nat) * 2 in
  let t52 := (z 1%nat) * 2 in
  let t53 := (x 2%nat) * (1 / 2) in
  let t54 := t18 + t53 in
  let t57 := (z 2%nat) * 2 in
  let t55 := t52 - t57 in
  let t56 := t51 - t52 in
  let t58 := sqrt (t17) in
  let t59 := t58 * (1 / 2) in
  let t60 := sqrt (t22) in
  let t61 := t60 * (1 / 2) in
  let t62 := t27 * t28 * t54 * (1 / 2) in
  let t63 := 1 / pow32 (t17) in
  let t64 := 1 / pow32 (t22) in
  let t65 := 1 / (totD * totD * totD) in
  let t66 := t26 * t56 * (1 / 2) in
  let t90 := t28 * t55 * (1 / 2) in
  let t67 := t66 - t90 in
  let t70 := t26 * t43 * (1 / 2) in
  let t68 := t45 - t70 in
  let t191 := t26 * t43 * t50 * (1 / 2) in
  let t69 := t59 + t61 + t62 - t191 in
  let t71 := (x 4%nat) * (1 / 2) in
  let t72 := t36 + t71 in
  let t73 := (z 4%nat) * 2 in
  let t74 := (z 5%nat) * 2 in
  let t75 := (x 6%nat) * (1 / 2) in
  let t76 := t36 + t75 in
  let t79 := (z 6%nat) * 2 in
  let t77 := t74 - t79 in
  let t78 := t73 - t74 in
  let t80 := t42 * t77 * (1 / 2) in
  let t81 := (y 5%nat) * (1 / 2) in
  let t82 := (y 1%nat) * (1 / 2) in
  let t84 := t35 * t46 * (1 / 2) in
  let t83 := t48 - t84 in
  let t85 := 1 / totD in
  let t86 := (y 0%nat) * (1 / 2) in
  let t87 := t82 + t86 in
  let t88 := (y 2%nat) * (1 / 2) in
  let t89 := t82 + t88 in
  let t91 := t27 * t28 * t89 * (1 / 2) in
  let t92 := t43 * t56 * t63 * (1 / 4) in
  let t93 := t27 * t55 * t64 * (1 / 4) in
  let t94 := t92 + t93 in
  let t101 := t35 * t78 * (1 / 2) in
  let t95 := t80 - t101 in
  let t196 := t26 * t43 * t87 * (1 / 2) in
  let t96 := t91 - t196 in
  let t97 := (y 4%nat) * (1 / 2) in
  let t98 := t81 + t97 in
  let t99 := (y 6%nat) * (1 / 2) in
  let t100 := t81 + t99 in
  let t102 := (z 1%nat) * (1 / 2) in
  let t103 := (z 5%nat) * (1 / 2) in
  let t104 := (z 0%nat) * (1 / 2) in
  let t105 := t102 + t104 in
  let t106 := (z 2%nat) * (1 / 2) in
  let t107 := t102 + t106 in
  let t108 := t27 * t28 * t107 * (1 / 2) in
  let t109 := sqrt (t34) in
  let t110 := t109 * (1 / 2) in
  let t111 := sqrt (t41) in
  let t112 := t111 * (1 / 2) in
  let t113 := (z 4%nat) * (1 / 2) in
  let t114 := t103 + t113 in
  let t115 := (z 6%nat) * (1 / 2) in
  let t116 := t103 + t115 in
  let t208 := t26 * t43 * t105 * (1 / 2) in
  let t117 := t108 - t208 in
  let t118 := (x 4%nat) * 2 in
  let t119 := (x 5%nat) * 2 in
  let t122 := (x 6%nat) * 2 in
  let t120 := t119 - t122 in
  let t121 := t118 - t119 in
  let t123 := t35 * t46 * t72 * (1 / 2) in
  let t165 := t37 * t42 * t76 * (1 / 2) in
  let t124 := t123 - t165 in
  let t125 := 1 / pow32 (t34) in
  let t126 := 1 / pow32 (t41) in
  let t127 := t35 * t121 * (1 / 2) in
  let t131 := t42 * t120 * (1 / 2) in
  let t128 := t127 - t131 in
  let t129 := t42 * t76 * t120 * (1 / 2) in
  let t134 := t35 * t72 * t121 * (1 / 2) in
  let t130 := t110 + t112 + t129 - t134 in
  let t132 := t26 * t50 * t56 * (1 / 2) in
  let t171 := t28 * t54 * t55 * (1 / 2) in
  let t133 := t132 - t171 in
  let t135 := t35 * t72 * t78 * (1 / 2) in
  let t174 := t42 * t76 * t77 * (1 / 2) in
  let t136 := t135 - t174 in
  let t137 := t37 * t42 * t100 * (1 / 2) in
  let t175 := t35 * t46 * t98 * (1 / 2) in
  let t138 := t110 + t112 + t137 - t175 in
  let t139 := t46 * t121 * t125 * (1 / 4) in
  let t140 := t37 * t120 * t126 * (1 / 4) in
  let t141 := t139 + t140 in
  let t142 := t26 * t56 * t87 * (1 / 2) in
  let t179 := t28 * t55 * t89 * (1 / 2) in
  let t143 := t142 - t179 in
  let t144 := t35 * t98 * t121 * (1 / 2) in
  let t148 := t42 * t100 * t120 * (1 / 2) in
  let t145 := t144 - t148 in
  let t146 := t35 * t78 * t98 * (1 / 2) in
  let t184 := t42 * t77 * t100 * (1 / 2) in
  let t147 := t146 - t184 in
  let t149 := t78 * t121 * t125 * (1 / 4) in
  let t150 := t77 * t120 * t126 * (1 / 4) in
  let t151 := t149 + t150 in
  let t152 := t35 * t46 * t114 * (1 / 2) in
  let t185 := t37 * t42 * t116 * (1 / 2) in
  let t153 := t152 - t185 in
  let t154 := t28 * t55 * t107 * (1 / 2) in
  let t186 := t26 * t56 * t105 * (1 / 2) in
  let t155 := t59 + t61 + t154 - t186 in
  let t156 := t35 * t114 * t121 * (1 / 2) in
  let t161 := t42 * t116 * t120 * (1 / 2) in
  let t157 := t156 - t161 in
  let t158 := t35 * t121 * (1 / 4) in
  let t159 := t42 * t77 * t116 * (1 / 2) in
  let t189 := t35 * t78 * t114 * (1 / 2) in
  let t160 := t110 + t112 + t159 - t189 in
  let t162 := (y 0%nat) * 2 in
  let t163 := (y 1%nat) * 2 in
  let t168 := (y 2%nat) * 2 in
  let t164 := t163 - t168 in
  let t166 := t162 - t163 in
  let t167 := t26 * t166 * (1 / 2) in
  let t170 := t28 * t164 * (1 / 2) in
  let t169 := t167 - t170 in
  let t172 := t28 * t54 * t164 * (1 / 2) in
  let t195 := t26 * t50 * t166 * (1 / 2) in
  let t173 := t172 - t195 in
  let t176 := t26 * t56 * (1 / 4) in
  let t177 := t28 * t89 * t164 * (1 / 2) in
  let t183 := t26 * t87 * t166 * (1 / 2) in
  let t178 := t59 + t61 + t177 - t183 in
  let t180 := t56 * t63 * t166 * (1 / 4) in
  let t181 := t55 * t64 * t164 * (1 / 4) in
  let t182 := t180 + t181 in
  let t187 := t26 * t105 * t166 * (1 / 2) in
  let t190 := t28 * t107 * t164 * (1 / 2) in
  let t188 := t187 - t190 in
  let t192 := t35 * t46 * (1 / 4) in
  let t193 := t37 * t76 * t120 * t126 * (1 / 4) in
  let t194 := X_dot_d * t23 * t141 in
  let t197 := Y_dot_d * t65 * (t45 - t70) * (t48 - t84) * 2 in
  let t198 := t197 - t23 * t83 * t96 - t23 * t68 * t138 in
  let t199 := t46 * t98 * t121 * t125 * (1 / 4) in
  let t200 := t37 * t100 * t120 * t126 * (1 / 4) in
  let t281 := t42 * t120 * (1 / 4) in
  let t201 := t158 + t199 + t200 - t281 in
  let t202 := t23 * t128 * t138 in
  let t203 := t23 * t145 * (t48 - t84) in
  let t204 := Y_dot_d * t23 * t141 in
  let t205 := t202 + t203 + t204 - t85 * t201 - Y_dot_d * t65 * t83 * t128 * 2 in
  let t206 := t23 * t138 * t169 in
  let t207 := t206 - t23 * t83 * t178 - Y_dot_d * t65 * t83 * t169 * 2 in
  let t209 := t23 * t153 * (t45 - t70) in
  let t210 := Z_dot_d * t65 * (t45 - t70) * (t48 - t84) * 2 in
  let t211 := t209 + t210 - t23 * t83 * t117 in
  let t212 := t46 * t114 * t121 * t125 * (1 / 4) in
  let t213 := t37 * t116 * t120 * t126 * (1 / 4) in
  let t214 := t212 + t213 in
  let t215 := t23 * t157 * (t48 - t84) in
  let t216 := Z_dot_d * t23 * t141 in
  let t217 := t215 + t216 - t85 * t214 - t23 * t128 * t153 - Z_dot_d * t65 * t83 * t128 * 2 in
  let t218 := t23 * t188 * (t48 - t84) in
  let t219 := t218 - t23 * t153 * t169 - Z_dot_d * t65 * t83 * t169 * 2 in
  let t220 := t43 * t50 * t56 * t63 * (1 / 4) in
  let t221 := t27 * t54 * t55 * t64 * (1 / 4) in
  let t240 := t28 * t55 * (1 / 4) in
  let t222 := t176 + t220 + t221 - t240 in
  let t223 := t23 * t67 * t69 in
  let t224 := X_dot_d * t23 * t94 in
  let t225 := t23 * t67 * t130 in
  let t226 := X_dot_d * t65 * t67 * t128 * 2 in
  let t227 := t225 + t226 - t23 * t128 * t133 in
  let t228 := t50 * t56 * t63 * t166 * (1 / 4) in
  let t229 := t54 * t55 * t64 * t164 * (1 / 4) in
  let t230 := t228 + t229 in
  let t231 := X_dot_d * t23 * t182 in
  let t232 := X_dot_d * t65 * t67 * t169 * 2 in
  let t233 := t43 * t56 * t63 * t87 * (1 / 4) in
  let t234 := t27 * t55 * t64 * t89 * (1 / 4) in
  let t235 := t233 + t234 in
  let t236 := t23 * t143 * (t45 - t70) in
  let t237 := Y_dot_d * t23 * t94 in
  let t238 := Y_dot_d * t65 * t67 * t128 * 2 in
  let t239 := t238 - t23 * t67 * t145 - t23 * t128 * t143 in
  let t241 := t56 * t63 * t87 * t166 * (1 / 4) in
  let t242 := t55 * t64 * t89 * t164 * (1 / 4) in
  let t243 := t23 * t67 * t178 in
  let t244 := Y_dot_d * t23 * t182 in
  let t245 := Y_dot_d * t65 * t67 * t169 * 2 in
  let t246 := t26 * t43 * (1 / 4) in
  let t247 := t43 * t56 * t63 * t105 * (1 / 4) in
  let t248 := t27 * t55 * t64 * t107 * (1 / 4) in
  let t249 := t246 + t247 + t248 - t27 * t28 * (1 / 4) in
  let t250 := Z_dot_d * t23 * t94 in
  let t251 := t23 * t128 * t155 in
  let t252 := Z_dot_d * t65 * t67 * t128 * 2 in
  let t253 := t251 + t252 - t23 * t67 * t157 in
  let t254 := t26 * t166 * (1 / 4) in
  let t255 := t56 * t63 * t105 * t166 * (1 / 4) in
  let t256 := t55 * t64 * t107 * t164 * (1 / 4) in
  let t257 := t254 + t255 + t256 - t28 * t164 * (1 / 4) in
  let t258 := t23 * t155 * t169 in
  let t259 := Z_dot_d * t23 * t182 in
  let t260 := Z_dot_d * t65 * t67 * t169 * 2 in
  let t261 := t258 + t259 + t260 - t85 * t257 - t23 * t67 * t188 in
  let t262 := t35 * t78 * (1 / 4) in
  let t263 := t72 * t78 * t121 * t125 * (1 / 4) in
  let t264 := t76 * t77 * t120 * t126 * (1 / 4) in
  let t265 := t262 + t263 + t264 - t42 * t77 * (1 / 4) in
  let t266 := X_dot_d * t23 * t151 in
  let t267 := t266 - t85 * t265 - t23 * t95 * t130 - t23 * t128 * t136 - X_dot_d * t65 * t95 * t128 * 2 in
  let t268 := -t23 * t95 * t173 - t23 * t136 * t169 - X_dot_d * t65 * t95 * t169 * 2 in
  let t269 := t23 * t147 * (t45 - t70) in
  let t270 := Y_dot_d * t65 * (t45 - t70) * (t80 - t101) * 2 in
  let t271 := t269 + t270 - t23 * t95 * t96 in
  let t272 := t78 * t98 * t121 * t125 * (1 / 4) in
  let t273 := t77 * t100 * t120 * t126 * (1 / 4) in
  let t274 := t272 + t273 in
  let t275 := t23 * t145 * (t80 - t101) in
  let t276 := Y_dot_d * t23 * t151 in
  let t277 := t275 + t276 - t85 * t274 - t23 * t128 * t147 - Y_dot_d * t65 * t95 * t128 * 2 in
  let t278 := -t23 * t95 * t178 - t23 * t147 * t169 - Y_dot_d * t65 * t95 * t169 * 2 in
  let t279 := Z_dot_d * t65 * (t45 - t70) * (t80 - t101) * 2 in
  let t280 := t279 - t23 * t95 * t117 - t23 * t68 * t160 in
  let t282 := t78 * t114 * t121 * t125 * (1 / 4) in
  let t283 := t77 * t116 * t120 * t126 * (1 / 4) in
  let t284 := t23 * t128 * t160 in
  let t285 := t23 * t157 * (t80 - t101) in
  let t286 := Z_dot_d * t23 * t151 in
  let t287 := t23 * t160 * t169 in
  let t288 := t23 * t188 * (t80 - t101) in
  let t289 := t287 + t288 - Z_dot_d * t65 * t95 * t169 * 2 in
  [
   (0%nat, 3%nat, t23 * t68 * t124 - t23 * (t48 - t35 * (t29 - (y 5%nat) * 2) * (1 / 2)) * (t59 + t61 + t62 -
      t26 * t50 * (t24 - (x 1%nat) * 2) * (1 / 2)) + X_dot_d * t65 * t68 * t83 * 2);
   (0%nat, 4%nat, t223 + t224 - t85 * t222 + t23 * t68 * t133 - X_dot_d * t65 * t67 * t68 * 2);
   (0%nat, 5%nat, -t23 * t69 * (t80 - t35 * (t73 - (z 5%nat) * 2) * (1 / 2)) + t23 * t68 * t136 + X_dot_d *
      t65 * t95 * (t45 - t70) * 2);
   (0%nat, 9%nat, t198);
   (0%nat, 10%nat, t236 + t237 - t85 * t235 + t23 * t67 * t96 - Y_dot_d * t65 * t67 * t68 * 2);
   (0%nat, 11%nat, t271);
   (0%nat, 15%nat, t211);
   (0%nat, 16%nat, t250 - t85 * t249 + t23 * t67 * t117 - t23 * t68 * t155 - Z_dot_d * t65 * t67 * t68 * 2);
   (0%nat, 17%nat, t280);
   (1%nat, 3%nat, t194 - t85 * (t192 + t193 - t37 * t42 * (1 / 4) + t46 * t72 * t125 * (t118 - (x 5%nat) * 2)
      * (1 / 4)) - t23 * t83 * t130 - t23 * t124 * t128 - X_dot_d * t65 * t83 * t128 * 2);
   (1%nat, 4%nat, t227);
   (1%nat, 5%nat, t267);
   (1%nat, 9%nat, t205);
   (1%nat, 10%nat, t239);
   (1%nat, 11%nat, t277);
   (1%nat, 15%nat, t217);
   (1%nat, 16%nat, t253);
   (1%nat, 17%nat, t284 + t285 + t286 - t85 * (t158 + t282 + t283 - t42 * t120 * (1 / 4)) - Z_dot_d * t65 *
      t95 * t128 * 2);
   (2%nat, 3%nat, -t23 * (t48 - t84) * (t172 - t26 * t50 * (t162 - (y 1%nat) * 2) * (1 / 2)) - t23 * t124 *
      t169 - X_dot_d * t65 * t83 * t169 * 2);
   (2%nat, 4%nat, t231 + t232 - t85 * t230 + t23 * t67 * t173 - t23 * t133 * t169);
   (2%nat, 5%nat, t268);
   (2%nat, 9%nat, t207);
   (2%nat, 10%nat, t243 + t244 + t245 - t85 * (t176 + t241 + t242 - t28 * t55 * (1 / 4)) - t23 * t143 * t169);
   (2%nat, 11%nat, t278);
   (2%nat, 15%nat, t219);
   (2%nat, 16%nat, t261);
   (2%nat, 17%nat, t289);
   (3%nat, 0%nat, -t23 * t69 * t83 + t23 * t124 * (t45 - t70) + X_dot_d * t65 * (t45 - t70) * (t48 - t84) *
      2);
   (3%nat, 1%nat, t194 - t85 * (t192 + t193 - t37 * t42 * (1 / 4) + t46 * t72 * t121 * t125 * (1 / 4)) - t23 *
      t83 * t130 - t23 * t124 * t128 - X_dot_d * t65 * t83 * t128 * 2);
   (3%nat, 2%nat, -t23 * t83 * t173 - t23 * t124 * t169 - X_dot_d * t65 * t83 * t169 * 2);
   (3%nat, 6%nat, t198);
   (3%nat, 7%nat, t205);
   (3%nat, 8%nat, t207);
   (3%nat, 12%nat, t211);
   (3%nat, 13%nat, t217);
   (3%nat, 14%nat, t219);
   (4%nat, 0%nat, t223 + t224 - t85 * t222 + t23 * t133 * (t45 - t70) - X_dot_d * t65 * t67 * t68 * 2);
   (4%nat, 1%nat, t227);
   (4%nat, 2%nat, t231 + t232 - t85 * t230 - t23 * t133 * t169 + t23 * t67 * (t172 - t195));
   (4%nat, 6%nat, t236 + t237 - t85 * t235 + t23 * t67 * (t91 - t196) - Y_dot_d * t65 * t67 * t68 * 2);
   (4%nat, 7%nat, t239);
   (4%nat, 8%nat, t243 + t244 + t245 - t85 * (t176 - t240 + t241 + t242) - t23 * t143 * t169);
   (4%nat, 12%nat, t250 - t85 * t249 - t23 * t68 * t155 + t23 * t67 * (t108 - t208) - Z_dot_d * t65 * t67 *
      t68 * 2);
   (4%nat, 13%nat, t253);
   (4%nat, 14%nat, t261);
   (5%nat, 0%nat, -t23 * t69 * t95 + t23 * t136 * (t45 - t70) + X_dot_d * t65 * (t45 - t70) * (t80 - t101) *
      2);
   (5%nat, 1%nat, t267);
   (5%nat, 2%nat, t268);
   (5%nat, 6%nat, t271);
   (5%nat, 7%nat, t277);
   (5%nat, 8%nat, t278);
   (5%nat, 12%nat, t280);
   (5%nat, 13%nat, t284 + t285 + t286 - t85 * (t158 - t281 + t282 + t283) - Z_dot_d * t65 * t95 * t128 * 2);
   (5%nat, 14%nat, t289)
  ].
(** incl/RSVSmath_automatic.hpp 11-15.  The variables are declared [static] in a
    header, so every source file has its own copy: [_m] is the copy of
    RSVSmath.cpp and [_a] that of RSVSmath_automatic.cpp. *)
Record statics := mkStatics { surf_m : R; centre_m : R; centre2_m : R; centre_a : R; centre2_a : R }.
(** RSVSmath_automatic.hpp 12-15. *)
Definition statics0 : statics :=
  let e := / 10000000000 in mkStatics e e e e e.
(** param::dev::rsvseps, the fields that are read. *)
Record rsvseps := mkEps { e_surf : R; e_centre : R; e_centre2 : R }.
(** RSVSmath.cpp 770-777. *)
Definition set_environment (c : rsvseps) (s : statics) : statics :=
  mkStatics (e_surf c) (e_centre c) (e_centre2 c) (centre_a s) (centre2_a s).

(** ** Volume, Area, LengthEdge and Volume2 *)
(** RSVSmath.hpp 37-84 (TriFunc) and 86-168 (CoordFunc): the points (NULL until
    assigned), the value, the Jacobian and the Hessian. *)
Record func := mkFunc { f_pts : list (option vec); f_fun : R; f_jac : mat; f_hes : mat }.
(** RSVSmath.hpp 170-229. *)
Inductive kind := KVolume | KArea | KLength | KVolume2.
(** Number of points: RSVSmath.hpp 40-42, 211, 226. *)
Definition npoints (k : kind) : nat := match k with KVolume | KArea => 3 | KLength => 2 | KVolume2 => 7 end%nat.
(** RSVSmath.hpp 66-74; RSVSmath.cpp 288-300. *)
Definition func0 (k : kind) : func := mkFunc (repeat None (npoints k)) 0 zero_mat zero_mat.
(** RSVSmath.cpp 340-342, 431-433 (the default arguments are those of
    RSVSmath_automatic.hpp 34-40, evaluated in RSVSmath.cpp), 444-446, 761-766. *)
Definition evaluate (s : statics) (k : kind) (p : list vec) : outcome (R * list (nat * nat * R) * list (nat * nat * R)) :=
  match k, p with
  | KVolume, [p0; p1; p2] => Ok (Volume_f p0 p1 p2, Volume_df p0 p1 p2, Volume_ddf p0 p1 p2)
  | KArea, [p0; p1; p2] => Ok (Area_f p0 p1 p2 0, Area_df p0 p1 p2 (surf_m s), Area_ddf p0 p1 p2 (surf_m s))
  | KLength, [p0; p1] => Ok (LengthEdge_f p0 p1, LengthEdge_df p0 p1, LengthEdge_ddf p0 p1)
  | KVolume2, [d; g0; g1; g2; h0; h1; h2] =>
      Ok (Volume2_f (d 0%nat) (d 1%nat) (d 2%nat) g0 g1 g2 h0 h1 h2,
          Volume2_df (d 0%nat) (d 1%nat) (d 2%nat) g0 g1 g2 h0 h1 h2,
          Volume2_ddf (d 0%nat) (d 1%nat) (d 2%nat) g0 g1 g2 h0 h1 h2)
  | _, _ => UB
  end.
(** The vectors behind the pointers; reading through NULL is undefined. *)
Fixpoint read_points (l : list (option vec)) : outcome (list vec) :=
  match l with
  | [] => Ok []
  | None :: _ => UB
  | Some v :: r => do t <- read_points r ; Ok (v :: t)
  end.
(** Calc: RSVSmath.cpp 311-344, 402-448, 754-768.  isCalc is never set, so every
    call computes. *)
Definition calc (s : statics) (k : kind) (f : func) : outcome func :=
  do p <- read_points (f_pts f) ;
  do r <- evaluate s k p ;
  let '(v, j, h) := r in
  Ok (mkFunc (f_pts f) v (put_all j (f_jac f)) (put_all h (f_hes f))).
(** Moves coordinate [j] of point [i] of a list of points. *)
Fixpoint shift_point (l : list vec) (i j : nat) (h : R) : list vec :=
  match l, i with
  | [], _ => []
  | v :: r, O => (fun a => if Nat.eqb a j then v a + h else v a) :: r
  | v :: r, S i => v :: shift_point r i j h
  end.
(** A loop that collects results and stops at the first failure. *)
Fixpoint omap_all {A B} (f : A -> outcome B) (l : list A) : outcome (list B) :=
  match l with [] => Ok [] | a :: r => do b <- f a ; do t <- omap_all f r ; Ok (b :: t) end.
(** RSVSmath.cpp 373. *)
Definition fd_step : R := / 1000000.
(** Volume::CalcFD, RSVSmath.cpp 346-400: the two nested loops write entry
    3*ii+jj of the Jacobian.  (x + h) - h is x over the reals. *)
Definition calc_fd (s : statics) (f : func) : outcome func :=
  do f1 <- calc s KVolume f ;
  do p <- read_points (f_pts f1) ;
  do ws <- omap_all (fun ij : nat * nat =>
      let (i, j) := ij in
      do r <- evaluate s KVolume (shift_point p i j fd_step) ;
      Ok (0%nat, (i * 3 + j)%nat, (fst (fst r) - f_fun f1) / fd_step))
    (list_prod (seq 0 3) (seq 0 3)) ;
  Ok (mkFunc (f_pts f1) (f_fun f1) (put_all ws (f_jac f1)) (f_hes f1)).
(** The calls on one object, and SetEnvironmentEpsilon.
    assign: RSVSmath.cpp 91-126 and 217-245.  A list of another size than the
    number of points is left out; a position out of range throws (CoordFunc) or
    is ignored (TriFunc). *)
Inductive op := Assign (l : list vec) | AssignOne (i : nat) (v : vec) | Calc | CalcFD | SetEpsilons (c : rsvseps).
(** The classes derived from TriFunc (RSVSmath.hpp). *)
Definition is_tri (k : kind) : bool := match k with KVolume | KArea => true | _ => false end.
(** One call, RSVSmath.cpp 91-126 and 217-245, or a calculation above. *)
Definition step (k : kind) (st : statics * func) (o : op) : outcome (statics * func) :=
  let (s, f) := st in
  match o with
  | Assign l => if Nat.eqb (length l) (npoints k) then Ok (s, mkFunc (map Some l) (f_fun f) (f_jac f) (f_hes f)) else UB
  | AssignOne i v =>
      if Nat.ltb i (npoints k) then Ok (s, mkFunc (firstn i (f_pts f) ++ Some v :: skipn (S i) (f_pts f)) (f_fun f) (f_jac f) (f_hes f))
      else if is_tri k then Ok st else Throw
  | Calc => do f' <- calc s k f ; Ok (s, f')
  | CalcFD => match k with KVolume => do f' <- calc_fd s f ; Ok (s, f') | _ => UB end
  | SetEpsilons c => Ok (set_environment c s, f)
  end.
(** Any sequence of such calls. *)
Fixpoint run (k : kind) (st : statics * func) (l : list op) : outcome (statics * func) :=
  match l with [] => Ok st | o :: r => do st' <- step k st o ; run k st' r end.

(** ** SurfCentroid *)
(** RSVSmath.hpp 231-269. *)
Record centroid := mkCentroid { c_pts : list vec; c_fun : vec; c_jac : mat; c_hes : mat; c_deriv : bool }.
(** Coordinate [k] of point [i]. *)
Definition pt (p : list vec) (i : nat) : vec := nth i p (fun _ => 0).
(** The point after [i] points, modulo the number of points: coords[(jj + ii) % nCoord]. *)
Definition ptm (p : list vec) (i : nat) : vec := pt p (Nat.modulo i (length p)).
(** RSVSmath.cpp 519-530: the sum of the lengths, and the sum of length times
    the middle of the edge. *)
Definition edge_sums (p : list vec) : R * vec :=
  fold_left (fun acc jj =>
      let e := LengthEdge_f (ptm p jj) (ptm p (jj + 1)) in
      (fst acc + e, fun k => snd acc k + e * (ptm p jj k + ptm p (jj + 1) k) / 2))
    (seq 0 (length p)) (0, fun _ => 0).
(** RSVSmath.cpp 531-546: the value, and the length used below. *)
Definition centroid_value (p : list vec) : vec * R :=
  let (len, cen) := edge_sums p in
  if Rlt_dec len (/ 1000000000000000) then (pt p 0, / 10000000) else (fun k => cen k / len, len).
(** Columns of the coordinates, for the generated functions: 561-566, 597-602,
    639-644, 670-675, 705-717. *)
Definition column (q : list vec) (k : nat) : vec := fun i => pt q i k.
(** RSVSmath.cpp 551-615: the assignments to the Jacobian. *)
Definition centroid_jac (s : statics) (p : list vec) (len : R) (cen : vec) : outcome (list (nat * nat * R)) :=
  let n := length p in
  let x := column p 0 in let y := column p 1 in let z := column p 2 in
  if Nat.ltb n 4 then Throw
  else match n with
  | 4%nat => Ok (SurfCentroid4_df (centre_a s) (centre2_a s) x y z len (cen 0%nat) (cen 1%nat) (cen 2%nat))
  | 5%nat => Ok (SurfCentroid5_df (centre_a s) (centre2_a s) x y z len (cen 0%nat) (cen 1%nat) (cen 2%nat))
  | 6%nat => Ok (SurfCentroid6_df (centre_a s) (centre2_a s) x y z len (cen 0%nat) (cen 1%nat) (cen 2%nat))
  | _ => Ok (flat_map (fun jj =>
      let q := map (ptm p) [jj; jj + 1; jj + 2]%nat in
      let temp := put_all (SurfCentroidSelf_df (centre_a s) (centre2_a s) (column q 0) (column q 1) (column q 2)
                    len (cen 0%nat) (cen 1%nat) (cen 2%nat)) zero_mat in
      let ind := Nat.modulo (jj + 1) n in
      map (fun ii : nat * nat => (fst ii, (ind + snd ii * n)%nat, temp (fst ii) (snd ii))) (list_prod (seq 0 3) (seq 0 3)))
    (seq 0 n))
  end.
(** RSVSmath.cpp 631-660: the blocks of one vertex with itself. *)
Definition hes_self (s : statics) (p : list vec) (len : R) (cen : vec) : list (nat * nat * R) :=
  let n := length p in
  flat_map (fun jj =>
      let q := map (ptm p) [jj; jj + 1; jj + 2]%nat in
      let temp := put_all (SurfCentroidSelf_ddf (centre_a s) (centre2_a s) (column q 0) (column q 1) (column q 2)
                    len (cen 0%nat) (cen 1%nat) (cen 2%nat)) zero_mat in
      let ind := Nat.modulo (jj + 1) n in
      flat_map (fun ii : nat * nat => map (fun f =>
          ((ind + fst ii * n)%nat, (ind + snd ii * n + f * 3 * n)%nat, temp (fst ii) (snd ii + 3 * f)%nat)) (seq 0 3))
        (list_prod (seq 0 3) (seq 0 3)))
    (seq 0 n).
(** RSVSmath.cpp 681-693 and 723-735: the assignments to the two blocks of a
    pair of vertices, from the six rows of the temporary array. *)
Definition hes_pair (n ind ind2 : nat) (temp : mat) : list (nat * nat * R) :=
  flat_map (fun ii : nat * nat => flat_map (fun f =>
      [((ind + fst ii * n)%nat, (ind2 + snd ii * n + f * 3 * n)%nat, temp (fst ii) (3 + snd ii + 3 * f)%nat);
       ((ind2 + fst ii * n)%nat, (ind + snd ii * n + f * 3 * n)%nat, temp (fst ii + 3)%nat (snd ii + 3 * f)%nat)]) (seq 0 3))
    (list_prod (seq 0 3) (seq 0 3)).
(** RSVSmath.cpp 662-694.  The temporary array is cleared only once, before the
    loop; the same entries are assigned in every turn. *)
Definition hes_connected (s : statics) (p : list vec) (len : R) (cen : vec) : list (nat * nat * R) :=
  let n := length p in
  flat_map (fun jj =>
      let q := map (ptm p) [jj; jj + 1; jj + 2; jj + 3]%nat in
      let temp := put_all (SurfCentroidConnec_ddf (centre_a s) (centre2_a s) (column q 0) (column q 1) (column q 2)
                    len (cen 0%nat) (cen 1%nat) (cen 2%nat)) zero_mat in
      hes_pair n (Nat.modulo (jj + 1) n) (Nat.modulo (Nat.modulo (jj + 1) n + 1) n) temp)
    (seq 0 n).
(** RSVSmath.cpp 696-737.  Positions 3 and 7 of the coordinates are 0. *)
Definition hes_apart (s : statics) (p : list vec) (len : R) (cen : vec) : list (nat * nat * R) :=
  let n := length p in
  flat_map (fun jj => flat_map (fun jj2 =>
      let q := map (ptm p) [jj; jj + 1; jj + 2]%nat ++ (fun _ => 0) :: map (ptm p) [jj2; jj2 + 1; jj2 + 2]%nat in
      let temp := put_all (SurfCentroidNoConnec_ddf (centre_a s) (centre2_a s) (column q 0) (column q 1) (column q 2)
                    len (cen 0%nat) (cen 1%nat) (cen 2%nat)) zero_mat in
      hes_pair n (Nat.modulo (jj + 1) n) (Nat.modulo (jj2 + 1) n) temp)
    (seq (jj + 2) (n - (jj + 2))))
  (seq 0 n).
(** SurfCentroid::Calc, RSVSmath.cpp 483-739. *)
Definition centroid_calc (s : statics) (c : centroid) : outcome centroid :=
  let p := c_pts c in
  match p with
  | [] => UB
  | _ =>
    let (v, len) := centroid_value p in
    let cen := snd (edge_sums p) in
    if negb (c_deriv c) then Ok (mkCentroid p v (c_jac c) (c_hes c) false)
    else do j <- centroid_jac s p len cen ;
      Ok (mkCentroid p v (put_all j (c_jac c))
            (put_all (hes_self s p len cen ++ hes_connected s p len cen ++ hes_apart s p len cen) (c_hes c)) true)
  end.
(** SurfCentroid::CalcFD, RSVSmath.cpp 454-481: calcDeriv is not set back, and
    the value left behind is that of the last shifted polygon. *)
Definition centroid_calc_fd (s : statics) (c : centroid) : outcome centroid :=
  do c1 <- centroid_calc s c ;
  let p := c_pts c1 in let n := length p in
  let ws := flat_map (fun ij : nat * nat => map (fun k =>
      (k, (fst ij + n * snd ij)%nat, (fst (centroid_value (shift_point p (fst ij) (snd ij) fd_step)) k - c_fun c1 k) / fd_step)) (seq 0 3))
    (list_prod (seq 0 n) (seq 0 3)) in
  Ok (mkCentroid p (fst (centroid_value (shift_point p (n - 1) 2 fd_step))) (put_all ws zero_mat) (c_hes c1) false).
(** CoordFunc::assign with a list, RSVSmath.cpp 217-230, 288-300: another number
    of points starts with arrays of zeros. *)
Definition centroid_assign (p : list vec) (c : centroid) : centroid :=
  if Nat.eqb (length p) (length (c_pts c)) then mkCentroid p (c_fun c) (c_jac c) (c_hes c) (c_deriv c)
  else mkCentroid p (fun _ => 0) zero_mat zero_mat (c_deriv c).
(** RSVSmath.hpp 260-263, followed by the first assign of points. *)
Definition centroid_new (p : list vec) : centroid := mkCentroid p (fun _ => 0) zero_mat zero_mat true.
