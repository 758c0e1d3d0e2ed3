(** Model of the step of the optimisation: src/rsvs/RSVScalc_SQP.cpp, incl/SQPstep.hpp,
    src/rsvs/SQPstep.cpp and the parts of src/rsvs/RSVScalc.cpp that hand the result back.

    A double is a real number, an infinity or not a number; rounding, overflow and the
    sign of zero are left out.  The linear solvers of Eigen are unknown functions: they
    are variables of the section.  Console output, dLag (written, never read) and the
    condition number that is printed are left out. *)
From Coq Require Import Reals List ZArith Bool.
From Verif Require Import Base RsvsMath Calc.
From Verif Require Geom Mesh.
Import ListNotations.
Set Implicit Arguments.
Open Scope R_scope.

(** ** Doubles: IEEE 754 without rounding. *)
Inductive dbl := Num (x : R) | Inf (neg : bool) | NaN.
(** The opposite. *)
Definition dopp (a : dbl) : dbl := match a with Num x => Num (- x) | Inf s => Inf (negb s) | NaN => NaN end.
(** The sum; infinities of opposite signs give NaN. *)
Definition dadd (a b : dbl) : dbl :=
  match a, b with
  | Num x, Num y => Num (x + y)
  | NaN, _ | _, NaN => NaN
  | Inf s, Inf t => if eqb s t then Inf s else NaN
  | Inf s, Num _ | Num _, Inf s => Inf s
  end.
(** The sign of a number. *)
Definition neg_b (x : R) : bool := if Rlt_dec x 0 then true else false.
(** The product; zero times infinity is NaN. *)
Definition dmul (a b : dbl) : dbl :=
  match a, b with
  | Num x, Num y => Num (x * y)
  | NaN, _ | _, NaN => NaN
  | Inf s, Inf t => Inf (xorb s t)
  | Inf s, Num x | Num x, Inf s => if Req_EM_T x 0 then NaN else Inf (xorb s (neg_b x))
  end.
(** The comparison <; false when one side is NaN. *)
Definition dlt (a b : dbl) : bool :=
  match a, b with
  | Num x, Num y => if Rlt_dec x y then true else false
  | NaN, _ | _, NaN => false
  | Inf s, Inf t => s && negb t
  | Inf s, Num _ => s
  | Num _, Inf t => negb t
  end.
(** std::isnan. *)
Definition is_nan (a : dbl) : bool := match a with NaN => true | _ => false end.
(** Eigen vectors and matrices: functions of the position, with the sizes beside them. *)
Definition dvec := nat -> dbl.
(** As [dvec], in two dimensions. *)
Definition dmat := nat -> nat -> dbl.
(** Row times column. *)
Definition ddot (n : nat) (a b : dvec) : dbl := fold_right dadd (Num 0) (map (fun i => dmul (a i) (b i)) (seq 0 n)).
(** Matrices of numbers. *)
Definition nums (v : vec) : dvec := fun i => Num (v i).
(** As [nums], in two dimensions. *)
Definition numm (m : mat) : dmat := fun i j => Num (m i j).

(** ResizeLagrangianMultiplier, SQPstep.cpp 8-39: the multipliers, isLarge and isNan. *)
Fixpoint resize (lim : dbl) (l : list dbl) : list dbl * bool * bool :=
  match l with
  | [] => ([], false, false)
  | x :: r =>
      let '(r', large, nan) := resize lim r in
      if dlt x (dopp lim) then (dopp lim :: r', true, nan)
      else if dlt lim x then (lim :: r', true, nan)
      else if is_nan x then (Num 0 :: r', large, true)
      else (x :: r', large, nan)
  end.

(** The classes of Eigen used, SQPstep.hpp 52-54. *)
Inductive solver := Householder | ColPivHouseholder | Cholesky | PartialPivLU.
(** The positions of the flags that are set, RSVScalc_SQP.cpp 35-57. *)
Definition chosen_flags (n : nat) (f : nat -> bool) : list nat := filter f (seq 0 n).
(** The position of an active variable or constraint in that list,
    RSVScalc_SQP.cpp 35-57. *)
Fixpoint pos_of (k : nat) (l : list nat) : option nat :=
  match l with [] => None | x :: r => if Nat.eqb x k then Some 0%nat else match pos_of k r with Some i => Some (S i) | None => None end end.

(** What SQPstep leaves behind. *)
Record step := mkStep { s_lag : list dbl; s_delta : dvec; s_large : bool; s_nan : bool }.
(** What CheckAndCompute leaves behind: deltaDV, lagMult and sensDv (with its numbers of
    rows and columns; a matrix without size until it is first computed). *)
Record solved := mkSolved { v_delta : dvec; v_lag : dvec; v_sens : nat * nat * dmat }.

Section Solvers.
(** A decomposition of a square matrix and its solve(), for one right-hand side. *)
Variable solve : solver -> nat -> dmat -> dvec -> dvec.
(** bdcSvd(...).solve, SQPstep.hpp 179: rows, columns, matrix, right-hand side. *)
Variable least_squares : nat -> nat -> dmat -> dvec -> dvec.
(** SparseLU: compute() and solve(), or None if info() is not Success. *)
Variable factorise : nat -> dmat -> option (dvec -> dvec).
(** SparseQR, SQPstep.hpp 230-232. *)
Variable sparse_qr : nat -> nat -> dmat -> dvec -> dvec.

(** The right-hand sides and the system of the multipliers, SQPstep.hpp 161-166 and
    205-217; [sol] solves with the Hessian, of size [n]; there are [m] constraints. *)
Definition lag_matrix (sol : dvec -> dvec) (n : nat) (dC : dmat) : dmat :=
  fun a b => ddot n (dC a) (sol (fun j => dC b j)).
(** SQPstep.hpp 161-166 and 205-217. *)
Definition lag_rhs (sol : dvec -> dvec) (n : nat) (dC : dmat) (g c : dvec) : dvec :=
  fun a => dadd (c a) (dopp (ddot n (dC a) (sol g))).
(** SQPstep.hpp 168-185 and 219-238, after the multipliers [lag0] were found. *)
Definition finish_step (sol : dvec -> dvec) (fallback : dvec -> dvec) (lim : dbl) (m : nat) (dC : dmat) (g c : dvec)
    (only : bool) (delta : dvec) (lag0 : dvec) : step :=
  let '(lag, _, nan) := resize lim (map lag0 (seq 0 m)) in
  if andb (negb only) nan then mkStep lag delta false nan
  else if nan then mkStep lag (fun i => dopp (fallback c i)) false nan
  else mkStep lag (fun i => dopp (sol (fun j => dadd (g j) (ddot m (fun k => dC k j) (fun k => nth k lag (Num 0)))) i)) false nan.
(** SQPstep, SQPstep.hpp 150-186. *)
Definition sqp_step (sv : solver) (lim : dbl) (n m : nat) (H dC : dmat) (g c : dvec) (only : bool) (delta : dvec) : step :=
  let sol := solve sv n H in
  finish_step sol (least_squares m n dC) lim m dC g c only delta
    (solve sv m (lag_matrix sol n dC) (lag_rhs sol n dC g c)).
(** SQPstep_sparse, SQPstep.hpp 188-239.  When a decomposition fails, isLarge, which
    nothing has set, is read (202, 215). *)
Definition sqp_step_sparse (lim : dbl) (n m : nat) (H dC : dmat) (g c : dvec) (only : bool) (delta : dvec) : outcome step :=
  match factorise n H with
  | None => UB
  | Some sol =>
      match factorise m (lag_matrix sol n dC) with
      | None => UB
      | Some sol2 => Ok (finish_step sol (sparse_qr m n dC) lim m dC g c only delta (sol2 (lag_rhs sol n dC g c)))
      end
  end.

(** The switch of ComputeSQPstep, RSVScalc_SQP.cpp 341-372, and of ComputeSQPsens,
    488-507. *)
Definition solver_of (method : Z) : option solver :=
  if Z.eqb method 1 then Some Householder else if Z.eqb method 2 then Some ColPivHouseholder
  else if Z.eqb method 3 then Some Cholesky else if Z.eqb method 4 then Some PartialPivLU else None.
(** The loop of ComputeSQPstep, 339-381. *)
Fixpoint rounds (fuel : nat) (method : Z) (only : bool) (lim : dbl) (n m : nat) (H dC : dmat) (g c : dvec) (delta : dvec) : outcome step :=
  match fuel with
  | O => OutOfFuel
  | S f =>
      match solver_of method with
      | Some sv =>
          let s := sqp_step sv lim n m H dC g c only delta in
          if andb (orb (s_large s) (s_nan s)) (negb only) then rounds f 0 only lim n m H dC g c (s_delta s) else Ok s
      | None => Ok (sqp_step ColPivHouseholder lim n m H dC g c true delta)
      end
  end.
(** 332-338: calcMethod and attemptConstrOnly. *)
Definition reduce_method (method : Z) : Z * bool :=
  if Z.eqb (Z.rem method 10) method then (method, false) else (Z.rem method 10, true).

(** PrepareMatricesForSQP, RSVScalc_SQP.cpp 28-85, with the matrices of 87-182.  The
    sparse version copies the stored entries one by one; both give the rows and columns
    of the active constraints and variables. *)
Definition act_dv (c : calc) : list nat := chosen_flags (nDv c) (dvAct c).
(** RSVScalc_SQP.cpp 35-57. *)
Definition act_constr (c : calc) : list nat := chosen_flags (nConstr c) (constrAct c).
(** 94-103. *)
Definition act_jac (c : calc) : mat := fun i j => dConstr c (nth i (act_constr c) 0%nat) (nth j (act_dv c) 0%nat).
(** 104-122: the Hessian of the Lagrangian. *)
Definition act_hes (c : calc) : mat := fun i j =>
  HObj c (nth i (act_dv c) 0%nat) (nth j (act_dv c) 0%nat) + HConstr c (nth i (act_dv c) 0%nat) (nth j (act_dv c) 0%nat).
(** 59-63. *)
Definition act_grad (c : calc) : vec := fun j => dObj c (nth j (act_dv c) 0%nat).
(** 64-68: the distance to the targets; constrTarg is read at the active positions. *)
Definition act_residual (c : calc) : outcome (list R) :=
  Mesh.omap_list (fun k => do t <- at_ (constrTarg c) (Z.of_nat k) ; Ok (constr c k - t)) (act_constr c).

(** RSVScalc_SQP.cpp 383-405 and 454-476.  With isLarge set, subConstrAct is read at all
    positions up to the number of constraints. *)
Definition write_back (c : calc) (s : step) (old : nat * nat * dmat) : outcome solved :=
  let delta := fun q => match pos_of q (act_dv c) with Some i => s_delta s i | None => Num (deltaDV c q) end in
  if s_large s then
    if Nat.ltb (length (act_constr c)) (nConstr c) then UB else Ok (mkSolved delta (fun _ => Num 0) old)
  else Ok (mkSolved delta (fun k => match pos_of k (act_constr c) with Some i => nth i (s_lag s) (Num 0) | None => Num 0 end) old).
(** ComputeSQPstep, RSVScalc_SQP.cpp 321-412 (full) and 414-483 (sparse, where the method
    is not used). *)
Definition compute_step (c : calc) (lim : dbl) (method : Z) (resid : list R) (old : nat * nat * dmat) : outcome solved :=
  let n := length (act_dv c) in let m := length (act_constr c) in
  let H := numm (act_hes c) in let dC := numm (act_jac c) in let g := nums (act_grad c) in
  let r := nums (fun k => nth k resid 0) in
  let zero := fun _ : nat => Num 0 in
  do s <- (if full_math c then
             let (method, only) := reduce_method method in rounds 3 method only lim n m H dC g r zero
           else sqp_step_sparse lim n m H dC g r true zero) ;
  write_back c s old.

(** PrepareMatricesForSQPSensitivity, RSVScalc_SQP.cpp 197-208 and 228-257: the matrix and
    the right-hand sides. *)
Definition sens_matrix (n : nat) (H dC : mat) : mat := fun i j =>
  if Nat.ltb i n then (if Nat.ltb j n then H i j else dC (j - n)%nat i)
  else if Nat.ltb j n then dC (i - n)%nat j else 0.
(** RSVScalc_SQP.cpp 228-257. *)
Definition sens_rhs (c : calc) (n : nat) (lag : dvec) (j : nat) : dvec := fun i =>
  if Nat.eqb i (n + j) then lag (nth j (act_constr c) 0%nat) else Num 0.
(** ComputeSQPsens, 485-520 and 538-559, with SQPsens and SQPsens_sparse, SQPstep.hpp
    247-269: when the decomposition fails the result stays zero.  The method is not
    reduced modulo 10 here. *)
Definition compute_sens (c : calc) (method : Z) (lag : dvec) : nat * nat * dmat :=
  let n := length (act_dv c) in let m := length (act_constr c) in
  let K := numm (sens_matrix n (act_hes c) (act_jac c)) in
  let res : nat -> nat -> dbl :=
    if full_math c then
      let sv := match solver_of method with Some sv => sv | None => ColPivHouseholder end in
      fun i j => dopp (solve sv (n + m) K (sens_rhs c n lag j) i)
    else match factorise (n + m) K with
         | Some sol => fun i j => dopp (sol (sens_rhs c n lag j) i)
         | None => fun _ _ => Num 0
         end in
  (nDv c, nConstr c, fun q k =>
     match pos_of q (act_dv c), pos_of k (act_constr c) with Some i, Some j => res i j | _, _ => Num 0 end).

(** CheckAndCompute, RSVScalc_SQP.cpp 264-319. *)
Definition check_and_compute (c : calc) (lim : dbl) (method : Z) (sensCalc : bool) (old : nat * nat * dmat) : outcome solved :=
  do resid <- act_residual c ;
  do v <- (match act_dv c with
           | [] => Ok (mkSolved (fun _ => Num 0) (nums (lagMult c)) old)
           | _ => compute_step c lim method resid old
           end) ;
  if sensCalc then
    match act_dv c, act_constr c with
    | _ :: _, _ :: _ => Ok (mkSolved (v_delta v) (v_lag v) (compute_sens c method (v_lag v)))
    | _, _ => Ok v
    end
  else Ok v.
End Solvers.

(** ** Handing the results back *)
(** SignedLogScale, warning.cpp 40-58, on doubles: the sign of NaN is 0. *)
Definition scale (a : dbl) : dbl :=
  match a with Num x => Num (Geom.signed_log_scale x) | Inf s => Inf s | NaN => Num 0 end.
(** TOSENSVEC, RSVScalc.cpp 24, over the snaxels: the value is only read for snaxels that
    are variables. *)
Definition to_sens (c : calc) (l : list snaxel) (value : nat -> outcome dbl) : outcome (list dbl) :=
  Mesh.omap_list (fun x => match index_of (x_index x) (dvMap c) with Some q => do a <- value q ; Ok (scale a) | None => Ok (scale (Num 0)) end) l.
(** An entry of a matrix with its size: outside it the read is undefined. *)
Definition entry (s : nat * nat * dmat) (i : nat) (j : Z) : outcome dbl :=
  let '(r, k, m) := s in
  if andb (Nat.ltb i r) (andb (Z.leb 0 j) (Z.ltb j (Z.of_nat k))) then Ok (m i (Z.to_nat j)) else UB.
(** ReturnSensitivities, RSVScalc.cpp 156-171. *)
Definition return_sensitivities (c : calc) (v : solved) (l : list snaxel) (num : Z) : outcome (list dbl) :=
  if Z.leb (Z.of_nat (nConstr c)) num then Throw else to_sens c l (fun q => entry (v_sens v) q num).
(** ReturnGradient, RSVScalc.cpp 173-292; -1 gives the zeros of 190 with sparse
    mathematics (277-279).  [v] holds lagMult and deltaDV.  With sparse mathematics the dense
    dConstr read here is the copy made in RSVScalc_SQP.cpp 179. *)
Definition return_gradient (c : calc) (v : solved) (l : list snaxel) (num : Z) : outcome (list dbl) :=
  if orb (Z.leb (Z.of_nat (nConstr c)) num) (Z.ltb num (-6)) then Throw
  else if Z.eqb num (-6) then to_sens c l (fun q => Ok (Num (dObj c q)))
  else if Z.eqb num (-5) then
    to_sens c l (fun q => Ok (dadd (Num (dObj c q)) (ddot (nConstr c) (v_lag v) (fun k => Num (dConstr c k q)))))
  else if Z.eqb num (-4) then to_sens c l (fun q => Ok (Num (HObj c q q)))
  else if Z.eqb num (-3) then to_sens c l (fun q => Ok (Num (HConstr c q q)))
  else if Z.eqb num (-2) then to_sens c l (fun q => Ok (Num (HConstr c q q + HObj c q q)))
  else if Z.eqb num (-1) then
    if full_math c then to_sens c l (fun q => Ok (v_delta v q)) else Ok (map (fun _ => Num 0) l)
  else to_sens c l (fun q => Ok (Num (dConstr c (Z.to_nat num) q))).
(** ReturnVelocities, RSVScalc.cpp 143-154: the velocity of each snaxel. *)
Definition velocities (c : calc) (v : solved) (l : list snaxel) : list dbl :=
  map (fun x => match index_of (x_index x) (dvMap c) with Some q => v_delta v q | None => Num 0 end) l.
(** ReturnConstrToMesh, RSVScalc.cpp 400-427: the fills and the errors handed to
    MapVolu2Parent (C46). *)
Definition fills (c : calc) : list R := map (constr c) (seq 0 (nConstr c)).
(** RSVScalc.cpp 400-427. *)
Definition errors (c : calc) : outcome (list R) :=
  Mesh.omap_list (fun k => do t <- at_ (constrTarg c) (Z.of_nat k) ;
      let x := Rabs (t - constr c k) in
      Ok (if Rlt_dec (/ 10000000000000000) x then Geom.log10 x else -16)) (seq 0 (nConstr c)).
(** CalculateVelocities, RSVScalc.cpp 593-608: the problem, its solution and the
    velocities. *)
Definition calculate_velocities solve least_squares factorise sparse_qr (st : statics) (e : tri_env) (conn : list (list (Z * Z)))
    (m : list (Z * Z)) (targ : list R) (n : nat) (deriv : Z) (c : calc) (lim : dbl) (method : Z) (sensCalc : bool)
    (old : nat * nat * dmat) : outcome (calc * solved * list dbl) :=
  do c1 <- calculate_triangulation st e conn m targ n deriv c ;
  do v <- check_and_compute solve least_squares factorise sparse_qr c1 lim method sensCalc old ;
  Ok (c1, v, velocities c1 v (snaxs e)).
