(** A small problem with three variables, one of them not active, and two constraints, one
    of them not active; and solvers that work on systems of one and two unknowns. *)
From Coq Require Import Reals List ZArith Bool Lia Lra.
From Verif Require Import Base RsvsMath SpecRsvs Calc Sqp SpecSqp.
From Verif Require Import RsvsCentreProofs CalcCentre CalcPlaceProofs SqpProofs SqpStepProofs.
Import ListNotations.
Set Implicit Arguments.
Open Scope R_scope.

(** Cramer's rule. *)
Definition cramer (n : nat) (A : mat) (b : vec) : vec :=
  match n with
  | 1%nat => fun _ => b 0%nat / A 0%nat 0%nat
  | 2%nat => fun i => let d := A 0%nat 0%nat * A 1%nat 1%nat - A 0%nat 1%nat * A 1%nat 0%nat in
      if Nat.eqb i 0 then (b 0%nat * A 1%nat 1%nat - A 0%nat 1%nat * b 1%nat) / d else (A 0%nat 0%nat * b 1%nat - b 0%nat * A 1%nat 0%nat) / d
  | _ => fun _ => 0
  end.
Definition ex_solve (_ : solver) (n : nat) (A : dmat) (b : dvec) : dvec := nums (cramer n (fun i j => val (A i j)) (fun i => val (b i))).
Definition ex_fac (n : nat) (A : dmat) : option (dvec -> dvec) := Some (ex_solve Householder n A).
Definition ex_fit (_ n : nat) (_ : dmat) (_ : dvec) : dvec := fun _ => Num 0.

Lemma sum1 f : sum_to 1 f = f 0%nat. Proof. unfold sum_to; cbn; ring. Qed.
Lemma sum2 f : sum_to 2 f = f 0%nat + f 1%nat. Proof. unfold sum_to; cbn; ring. Qed.
Lemma cramer_1 M b : injective 1 M -> apply 1 M (cramer 1 M b) 0%nat = b 0%nat.
Proof.
  intros H. unfold apply. rewrite sum1. cbn. field. intros E.
  assert (K : 1 = 0); [|lra]. refine (H (fun _ => 1) _ 0%nat ltac:(lia)). intros i Hi. replace i with 0%nat by lia. unfold apply. rewrite sum1, E. ring.
Qed.
Lemma det2_nonzero M : injective 2 M -> M 0%nat 0%nat * M 1%nat 1%nat - M 0%nat 1%nat * M 1%nat 0%nat <> 0.
Proof.
  intros H E.
  assert (K : forall x y, M 0%nat 0%nat * x + M 0%nat 1%nat * y = 0 -> M 1%nat 0%nat * x + M 1%nat 1%nat * y = 0 -> x = 0 /\ y = 0).
  { intros x y E0 E1. set (u := fun i => if Nat.eqb i 0 then x else y).
    assert (U : forall i, (i < 2)%nat -> u i = 0).
    { apply H. intros i Hi. unfold apply. rewrite sum2. unfold u. cbn. destruct i as [|[|i]]; [exact E0|exact E1|lia]. }
    split; [exact (U 0%nat ltac:(lia))|exact (U 1%nat ltac:(lia))]. }
  destruct (K (- M 0%nat 1%nat) (M 0%nat 0%nat)) as [A B]; [ring|lra|].
  destruct (K (M 1%nat 1%nat) (- M 1%nat 0%nat)) as [C D]; [lra|ring|].
  destruct (K 1 0); lra.
Qed.
Lemma cramer_2 M b i : injective 2 M -> (i < 2)%nat -> apply 2 M (cramer 2 M b) i = b i.
Proof.
  intros H Hi. pose proof (det2_nonzero H). unfold apply. rewrite sum2. cbn. destruct i as [|[|i]]; [field; auto|field; auto|lia].
Qed.
Lemma cramer_ext n M M' b b' i : (n = 1 \/ n = 2)%nat -> (i < n)%nat -> (forall a j, (a < n)%nat -> (j < n)%nat -> M a j = M' a j) ->
  (forall a, (a < n)%nat -> b a = b' a) -> cramer n M b i = cramer n M' b' i.
Proof. intros [->| ->] Hi HM Hb; cbn; rewrite !HM, !Hb by lia; reflexivity. Qed.
Lemma ex_exact sv n : (n = 1 \/ n = 2)%nat -> exact ex_solve sv n.
Proof.
  intros Hn A M HA HS b v Hb. apply suits_injective in HS. exists (cramer n M v). split.
  - intros i Hi. unfold ex_solve, nums. f_equal. apply cramer_ext; auto.
    + intros a j Ha Hj. rewrite HA by auto. reflexivity.
    + intros a Ha. rewrite Hb by auto. reflexivity.
  - intros i Hi. destruct Hn as [->| ->]; [replace i with 0%nat by lia; apply cramer_1; auto|apply cramer_2; auto].
Qed.
Lemma ex_exact_sparse n : (n = 1 \/ n = 2)%nat -> exact_sparse ex_fac n.
Proof. intros Hn A M HA HR. eexists. split; [reflexivity|]. apply (@ex_exact Householder n Hn A M HA HR). Qed.

(** Minimise x - y + x^2 + 2 y^2 with x + y = 2; full mathematics if the cutoff is above 3. *)
Definition ex_c (cut : Z) : calc :=
  {| nDv := 3; nConstr := 2; falseaccess := 0; cutoff := cut; useCentre := false; useHessian := true;
     obj := 0; constr := fun k => if Nat.eqb k 0 then 3 else 7; dObj := fun q => if Nat.eqb q 0 then 1 else if Nat.eqb q 1 then -1 else 0;
     dConstr := fun k q => if andb (Nat.eqb k 0) (Nat.ltb q 2) then 1 else 0;
     HConstr := fun q r => if andb (Nat.eqb q 1) (Nat.eqb r 1) then 3 else 0;
     HObj := fun q r => if Nat.eqb q r then (if Nat.eqb q 0 then 2 else 1) else 0;
     lagMult := fun _ => 0; nLag := 2; constrTarg := [5; 6]; deltaDV := fun _ => 0;
     dvAct := fun q => Nat.ltb q 2; constrAct := fun k => Nat.eqb k 0; dvMap := [4; 6; 9]%Z; constrMap := [] |}.
Lemma ex_equations cut g r delta lam : equations (ex_c cut) g r delta lam <->
  2 * delta 0%nat + lam 0%nat = g 0%nat /\ 4 * delta 1%nat + lam 0%nat = g 1%nat /\ delta 0%nat + delta 1%nat = r 0%nat.
Proof.
  split.
  - intros [E1 E2]. assert (A0 : is_active 3 (fun q => Nat.ltb q 2) 0%nat) by (split; [lia|reflexivity]).
    assert (A1 : is_active 3 (fun q => Nat.ltb q 2) 1%nat) by (split; [lia|reflexivity]).
    assert (K0 : is_active 2 (fun k => Nat.eqb k 0) 0%nat) by (split; [lia|reflexivity]).
    pose proof (E1 0%nat A0) as F0. pose proof (E1 1%nat A1) as F1. pose proof (E2 0%nat K0) as F2.
    unfold sum_on, sum_to, hessian in *. cbn in F0, F1, F2. lra.
  - intros [F0 [F1 F2]]. split.
    + intros q [Hq Aq]. cbn in Hq, Aq. destruct q as [|[|q]]; [| |destruct q as [|q]; [discriminate|lia]]; unfold sum_on, sum_to, hessian; cbn; lra.
    + intros k [Hk Ak]. cbn in Hk, Ak. destruct k as [|k]; [|discriminate]. unfold sum_on, sum_to; cbn; lra.
Qed.
Definition two (x y : R) : vec := fun q => if Nat.eqb q 0 then x else y.
Lemma ex_well_posed cut : well_posed (ex_c cut).
Proof.
  split.
  - intros g r. set (l := (2 * g 0%nat + g 1%nat - 4 * r 0%nat) / 3). exists (two ((g 0%nat - l) / 2) ((g 1%nat - l) / 4)), (fun _ => l).
    apply ex_equations. unfold two, l. cbn. repeat split; field.
  - intros delta lam E. apply ex_equations in E. split.
    + intros q [Hq Aq]. cbn in Hq, Aq. destruct q as [|[|q]]; [lra|lra|destruct q; [discriminate|lia]].
    + intros k [Hk Ak]. cbn in Hk, Ak. destruct k as [|k]; [lra|discriminate].
Qed.
Lemma ex_row cut delta q : (q < 2)%nat -> sum_on (nDv (ex_c cut)) (dvAct (ex_c cut)) (fun p => hessian (ex_c cut) q p * delta p) = (if Nat.eqb q 0 then 2 else 4) * delta q.
Proof. intros H. destruct q as [|[|q]]; [| |lia]; unfold sum_on, sum_to, hessian; cbn; ring. Qed.
Lemma ex_active cut q : is_active (nDv (ex_c cut)) (dvAct (ex_c cut)) q <-> (q < 2)%nat.
Proof. unfold is_active. change (dvAct (ex_c cut) q) with (Nat.ltb q 2). change (nDv (ex_c cut)) with 3%nat. rewrite Nat.ltb_lt. lia. Qed.
Lemma ex_curved cut : curved (ex_c cut).
Proof.
  split.
  - intros g. exists (two (g 0%nat / 2) (g 1%nat / 4)). intros q Hq. apply ex_active in Hq. rewrite ex_row by auto.
    unfold two. destruct q as [|[|q]]; [cbn; field|cbn; field|lia].
  - intros delta E q Hq. specialize (E q Hq). apply ex_active in Hq. rewrite ex_row in E by auto. destruct (Nat.eqb q 0); lra.
Qed.
Lemma ex_bend cut x : bend (ex_c cut) x = 2 * (x 0%nat * x 0%nat) + 4 * (x 1%nat * x 1%nat).
Proof. unfold bend, sum_on, sum_to, hessian; cbn; ring. Qed.
Lemma ex_symmetric cut : symmetric_hessian (ex_c cut).
Proof.
  intros q r. unfold hessian. cbn. rewrite (Nat.eqb_sym q r), (andb_comm (Nat.eqb q 1)). destruct (Nat.eqb_spec r q) as [->|]; reflexivity.
Qed.
Lemma ex_convex cut : convex (ex_c cut).
Proof.
  split; [apply ex_symmetric|split].
  - intros x [q [Hq N]]. rewrite ex_bend. apply ex_active in Hq.
    pose proof (Rle_0_sqr (x 0%nat)) as S0. pose proof (Rle_0_sqr (x 1%nat)) as S1. unfold Rsqr in *.
    destruct q as [|[|q]]; [| |lia]; pose proof (Rsqr_pos_lt _ N) as P; unfold Rsqr in P; lra.
  - intros y E k [Hk Ak]. cbn in Hk, Ak. destruct k as [|k]; [|discriminate].
    assert (A : is_active (nDv (ex_c cut)) (dvAct (ex_c cut)) 0%nat) by (apply ex_active; lia). specialize (E 0%nat A).
    unfold sum_on, sum_to in E; cbn in E; lra.
Qed.
Lemma ex_sizes cut : n_act (nDv (ex_c cut)) (dvAct (ex_c cut)) = 2%nat /\ n_act (nConstr (ex_c cut)) (constrAct (ex_c cut)) = 1%nat.
Proof. split; reflexivity. Qed.
Lemma ex_suitable cut sv : suitable (ex_c cut) sv.
Proof. destruct sv; cbn; try (split; [apply ex_curved|apply ex_well_posed]). apply ex_convex. Qed.

(** One variable and one constraint: minimise x^2 with 2 x = 6. *)
Definition ex_1 (cut : Z) : calc :=
  {| nDv := 1; nConstr := 1; falseaccess := 0; cutoff := cut; useCentre := false; useHessian := true;
     obj := 0; constr := fun _ => 1; dObj := fun _ => 0; dConstr := fun _ _ => 2; HConstr := fun _ _ => 1; HObj := fun _ _ => 1;
     lagMult := fun _ => 0; nLag := 1; constrTarg := [7]; deltaDV := fun _ => 0;
     dvAct := fun _ => true; constrAct := fun _ => true; dvMap := [4]%Z; constrMap := [] |}.
Lemma ex1_equations cut g r delta lam : equations (ex_1 cut) g r delta lam <->
  2 * delta 0%nat + 2 * lam 0%nat = g 0%nat /\ 2 * delta 0%nat = r 0%nat.
Proof.
  split.
  - intros [E1 E2]. assert (A0 : is_active 1 (fun _ => true) 0%nat) by (split; [lia|reflexivity]).
    pose proof (E1 0%nat A0) as F0. pose proof (E2 0%nat A0) as F2.
    unfold sum_on, sum_to, hessian in *. cbn in F0, F2. lra.
  - intros [F0 F2]. split; intros q [Hq _]; cbn in Hq; replace q with 0%nat by lia; unfold sum_on, sum_to, hessian; cbn; lra.
Qed.
Lemma ex1_active q : is_active 1 (fun _ => true) q <-> q = 0%nat.
Proof. unfold is_active. intuition lia. Qed.
Lemma ex1_well_posed cut : well_posed (ex_1 cut).
Proof.
  split.
  - intros g r. exists (fun _ => r 0%nat / 2), (fun _ => (g 0%nat - r 0%nat) / 2). apply ex1_equations. split; field.
  - intros delta lam E. apply ex1_equations in E. split; intros q Hq; apply ex1_active in Hq; subst; lra.
Qed.
Lemma ex1_curved cut : curved (ex_1 cut).
Proof.
  split.
  - intros g. exists (fun _ => g 0%nat / 2). intros q Hq. apply ex1_active in Hq. subst. unfold sum_on, sum_to, hessian; cbn; field.
  - intros delta E q Hq. specialize (E q Hq). apply ex1_active in Hq. subst. unfold sum_on, sum_to, hessian in E; cbn in E. lra.
Qed.
