(** Vocabulary for the statements about the step of the optimisation: what a solver that
    works does, the equations of a step, and limits on multipliers. *)
From Coq Require Import Reals List ZArith Bool.
From Verif Require Import Base RsvsMath SpecRsvs Calc Sqp.
Set Implicit Arguments.
Open Scope R_scope.

(** Matrix times vector. *)
Definition apply (n : nat) (M : mat) (x : vec) : vec := fun i => sum_to n (fun j => M i j * x j).
(** A square system that has a solution for each right-hand side, and only one. *)
Definition regular (n : nat) (M : mat) : Prop :=
  (forall v, exists x, forall i, (i < n)%nat -> apply n M x i = v i) /\
  (forall x, (forall i, (i < n)%nat -> apply n M x i = 0) -> forall i, (i < n)%nat -> x i = 0).
Definition symmetric (n : nat) (M : mat) : Prop := forall i j, (i < n)%nat -> (j < n)%nat -> M i j = M j i.
(** x M y. *)
Definition form (n : nat) (M : mat) (x y : vec) : R := sum_to n (fun i => x i * apply n M y i).
Definition positive (n : nat) (M : mat) : Prop :=
  symmetric n M /\ forall x, (exists i, (i < n)%nat /\ x i <> 0) -> 0 < form n M x x.
(** The systems a decomposition is meant for. *)
Definition suits (sv : solver) (n : nat) (M : mat) : Prop :=
  match sv with Cholesky => positive n M | _ => regular n M end.
(** The entries of [A] and [b] that are read are the numbers of [M] and [v]. *)
Definition reads2 (r k : nat) (A : dmat) (M : mat) : Prop := forall i j, (i < r)%nat -> (j < k)%nat -> A i j = Num (M i j).
Definition reads1 (n : nat) (b : dvec) (v : vec) : Prop := forall i, (i < n)%nat -> b i = Num (v i).
(** [s] gives solutions of the system [M]. *)
Definition solves (n : nat) (M : mat) (s : dvec -> dvec) : Prop :=
  forall b v, reads1 n b v -> exists x, reads1 n (s b) x /\ forall i, (i < n)%nat -> apply n M x i = v i.
(** A decomposition that works on systems of size [n]. *)
Definition exact (solve : solver -> nat -> dmat -> dvec -> dvec) (sv : solver) (n : nat) : Prop :=
  forall A M, reads2 n n A M -> suits sv n M -> solves n M (solve sv n A).
Definition exact_sparse (factorise : nat -> dmat -> option (dvec -> dvec)) (n : nat) : Prop :=
  forall A M, reads2 n n A M -> regular n M -> exists s, factorise n A = Some s /\ solves n M s.
(** The sum of the squares of what is left of a system of [r] rows and [k] columns. *)
Definition misfit (r k : nat) (M : mat) (x v : vec) : R := sum_to r (fun i => (apply k M x i - v i) * (apply k M x i - v i)).
Definition exact_fit (fit : nat -> nat -> dmat -> dvec -> dvec) (r k : nat) : Prop :=
  forall A M b v, reads2 r k A M -> reads1 r b v ->
  exists x, reads1 k (fit r k A b) x /\ forall y, misfit r k M x v <= misfit r k M y v.

(** Sums over the variables, or constraints, that are active. *)
Definition sum_on (n : nat) (f : nat -> bool) (g : nat -> R) : R := sum_to n (fun i => if f i then g i else 0).
Definition is_active (n : nat) (f : nat -> bool) (i : nat) : Prop := (i < n)%nat /\ f i = true.
(** Hessian of the Lagrangian. *)
Definition hessian (c : calc) (q r : nat) : R := HObj c q r + HConstr c q r.
Definition target (c : calc) (k : nat) : R := nth k (constrTarg c) 0.
(** The equations of a step, for the residuals [g] and [r]: over the active variables
    the gradient of the model of the Lagrangian is [g]; the change of each active
    constraint to first order is [r]. *)
Definition equations (c : calc) (g r : vec) (delta lam : vec) : Prop :=
  (forall q, is_active (nDv c) (dvAct c) q ->
     sum_on (nDv c) (dvAct c) (fun p => hessian c q p * delta p) + sum_on (nConstr c) (constrAct c) (fun k => dConstr c k q * lam k) = g q) /\
  (forall k, is_active (nConstr c) (constrAct c) k ->
     sum_on (nDv c) (dvAct c) (fun p => dConstr c k p * delta p) = r k).
(** Each right-hand side has a solution; on the active positions it is the only one. *)
Definition well_posed (c : calc) : Prop :=
  (forall g r, exists delta lam, equations c g r delta lam) /\
  (forall delta lam, equations c (fun _ => 0) (fun _ => 0) delta lam ->
     (forall q, is_active (nDv c) (dvAct c) q -> delta q = 0) /\ (forall k, is_active (nConstr c) (constrAct c) k -> lam k = 0)).
(** The Hessian alone: each right-hand side has a solution, and only one. *)
Definition curved (c : calc) : Prop :=
  (forall g, exists delta, forall q, is_active (nDv c) (dvAct c) q -> sum_on (nDv c) (dvAct c) (fun p => hessian c q p * delta p) = g q) /\
  (forall delta, (forall q, is_active (nDv c) (dvAct c) q -> sum_on (nDv c) (dvAct c) (fun p => hessian c q p * delta p) = 0) ->
     forall q, is_active (nDv c) (dvAct c) q -> delta q = 0).
Definition symmetric_hessian (c : calc) : Prop := forall q r, hessian c q r = hessian c r q.
Definition bend (c : calc) (x : vec) : R := sum_on (nDv c) (dvAct c) (fun q => x q * sum_on (nDv c) (dvAct c) (fun p => hessian c q p * x p)).
(** The Hessian is positive definite, and the constraints are independent. *)
Definition convex (c : calc) : Prop :=
  symmetric_hessian c /\ (forall x, (exists q, is_active (nDv c) (dvAct c) q /\ x q <> 0) -> 0 < bend c x) /\
  (forall y, (forall q, is_active (nDv c) (dvAct c) q -> sum_on (nConstr c) (constrAct c) (fun k => dConstr c k q * y k) = 0) ->
     forall k, is_active (nConstr c) (constrAct c) k -> y k = 0).
(** The model that a step minimises. *)
Definition model_change (c : calc) (x : vec) : R := sum_on (nDv c) (dvAct c) (fun q => dObj c q * x q) + bend c x / 2.
(** What is left of the constraints to first order after moving by [x]. *)
Definition remaining (c : calc) (x : vec) : R :=
  sum_on (nConstr c) (constrAct c) (fun k =>
    let y := constr c k + sum_on (nDv c) (dvAct c) (fun p => dConstr c k p * x p) - target c k in y * y).

(** The limit on multipliers. *)
Definition within (lim : dbl) (x : R) : Prop :=
  match lim with Num l => Rabs x <= l | Inf false => True | _ => False end.
(** A multiplier brought within a limit: NaN becomes 0. *)
Definition limited (l : R) (a : dbl) : R :=
  match a with Num x => Rmax (- l) (Rmin x l) | Inf neg => if neg then - l else l | NaN => 0 end.
(** The decomposition a method stands for; [None] is the default of the switch. *)
Definition named (method : Z) : solver :=
  if Z.eqb method 1 then Householder else if Z.eqb method 3 then Cholesky
  else if Z.eqb method 4 then PartialPivLU else ColPivHouseholder.
(** The system suits the decomposition. *)
Definition suitable (c : calc) (sv : solver) : Prop :=
  match sv with Cholesky => convex c | _ => curved c /\ well_posed c end.
(** Sizes of the reduced problem. *)
Definition n_act (n : nat) (f : nat -> bool) : nat := length (filter f (seq 0 n)).
(** Targets exist for all constraints. *)
Definition has_targets (c : calc) : Prop := (nConstr c <= length (constrTarg c))%nat.
