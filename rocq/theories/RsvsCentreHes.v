(** Lemmas about the generated Hessian of the centroid of an outline. *)
From Coq Require Import Reals List Lia Lra.
From Verif Require Import Base RsvsMath SpecRsvs RsvsCentreProofs.
Set Implicit Arguments.
Open Scope R_scope.

Definition written (i j : nat) (l : list (nat * nat)) : bool :=
  existsb (fun w => andb (Nat.eqb (fst w) i) (Nat.eqb (snd w) j)) l.
Lemma put_all_unwritten ws m i j : written i j (map fst ws) = false -> put_all ws m i j = m i j.
Proof.
  unfold put_all. revert m. induction ws as [|w r IH]; intros m H; cbn [fold_left]; auto.
  cbn [map written existsb] in H. apply Bool.orb_false_iff in H. destruct H as [A B]. rewrite IH by exact B.
  unfold put. rewrite (Nat.eqb_sym i), (Nat.eqb_sym j), A. reflexivity.
Qed.
Lemma put_all_zero ws m i j : m i j = 0 -> (forall w, In w ws -> fst w = (i, j) -> snd w = 0) -> put_all ws m i j = 0.
Proof.
  unfold put_all. revert m. induction ws as [|w r IH]; intros m H A; cbn [fold_left]; auto.
  apply IH; [|intros; apply A; [right; auto|auto]]. unfold put.
  destruct (Nat.eqb_spec i (fst (fst w))), (Nat.eqb_spec j (snd (fst w))); cbn [andb]; auto.
  apply A; [left; auto|]. destruct w as [[a b] x]. cbn in *. subst. reflexivity.
Qed.

(** The entries read for the second function are not written by the generated code. *)
Definition gap (T : mat) : Prop := forall a b, (a < 3)%nat -> (b < 3)%nat -> T a (6 + b)%nat = 0 /\ T (3 + a)%nat (3 + b)%nat = 0.
Lemma connec_gap e1 e2 x y z L X Y Z : gap (put_all (SurfCentroidConnec_ddf e1 e2 x y z L X Y Z) zero_mat).
Proof.
  intros a b Ha Hb. destruct a as [|[|[|a]]]; [| | |lia]; (destruct b as [|[|[|b]]]; [| | |lia]);
    split; apply (put_all_unwritten (SurfCentroidConnec_ddf e1 e2 x y z L X Y Z) zero_mat); reflexivity.
Qed.
Lemma noconnec_gap e1 e2 x y z L X Y Z : gap (put_all (SurfCentroidNoConnec_ddf e1 e2 x y z L X Y Z) zero_mat).
Proof.
  intros a b Ha Hb. destruct a as [|[|[|a]]]; [| | |lia]; (destruct b as [|[|[|b]]]; [| | |lia]);
    split; apply (put_all_unwritten (SurfCentroidNoConnec_ddf e1 e2 x y z L X Y Z) zero_mat); reflexivity.
Qed.

Lemma decode3 n i b f v m f' : (i < n)%nat -> (b < 3)%nat -> (v < n)%nat -> (m < 3)%nat ->
  (i + b * n + f * 3 * n)%nat = (v + m * n + f' * 3 * n)%nat -> i = v /\ b = m /\ f = f'.
Proof.
  intros Hi Hb Hv Hm E. assert (K : i = v /\ (b + 3 * f)%nat = (m + 3 * f')%nat).
  { apply (@decode n); auto. lia. }
  lia.
Qed.

(** A pair of corners writes zeros for the second function. *)
Lemma pair_zero n a b (T : mat) v m v2 m2 w : gap T -> (a < n)%nat -> (b < n)%nat -> (v < n)%nat -> (v2 < n)%nat -> (m < 3)%nat -> (m2 < 3)%nat ->
  In w (hes_pair n a b T) -> fst w = ((v + m * n)%nat, (v2 + m2 * n + 1 * 3 * n)%nat) -> snd w = 0.
Proof.
  intros G Ha Hb Hv Hv2 Hm Hm2 Hw E. unfold hes_pair in Hw. apply in_flat_map in Hw. destruct Hw as [[x y] [Hxy Hw]].
  apply in_prod_iff in Hxy. destruct Hxy as [Hx Hy]. apply in_seq in Hx. apply in_seq in Hy.
  apply in_flat_map in Hw. destruct Hw as [f [_ Hw]]. cbn [fst snd In] in Hw.
  assert (D : forall i, (i < n)%nat -> (i + y * n + f * 3 * n)%nat = (v2 + m2 * n + 1 * 3 * n)%nat -> f = 1%nat).
  { intros i Hi Ec. apply decode3 in Ec; try lia. }
  destruct Hw as [<-|[<-|[]]]; cbn [snd]; apply (f_equal snd) in E; [apply (D b) in E|apply (D a) in E]; auto; subst f.
  - replace (3 + y + 3 * 1)%nat with (6 + y)%nat by lia. apply G; lia.
  - replace (x + 3)%nat with (3 + x)%nat by lia. replace (y + 3 * 1)%nat with (3 + y)%nat by lia. apply G; lia.
Qed.

(** All cross terms of the second coordinate of the centre are zero. *)
Lemma cross_zero s p L S H v m v2 m2 : (v < length p)%nat -> (v2 < length p)%nat -> v <> v2 -> (m < 3)%nat -> (m2 < 3)%nat ->
  let n := length p in H (v + m * n)%nat (v2 + m2 * n + 1 * 3 * n)%nat = 0 ->
  put_all (hes_self s p L S ++ hes_connected s p L S ++ hes_apart s p L S) H (v + m * n)%nat (v2 + m2 * n + 1 * 3 * n)%nat = 0.
Proof.
  intros Hv Hv2 Ne Hm Hm2 n Z. apply put_all_zero; auto. intros w Hw E.
  apply in_app_iff in Hw. destruct Hw as [Hw|Hw]; [|apply in_app_iff in Hw; destruct Hw as [Hw|Hw]].
  - exfalso. unfold hes_self in Hw. apply in_flat_map in Hw. destruct Hw as [jj [_ Hw]].
    generalize dependent (put_all (SurfCentroidSelf_ddf (centre_a s) (centre2_a s) (column (map (ptm p) [jj; jj + 1; jj + 2]%nat) 0)
      (column (map (ptm p) [jj; jj + 1; jj + 2]%nat) 1) (column (map (ptm p) [jj; jj + 1; jj + 2]%nat) 2) L (S 0%nat) (S 1%nat) (S 2%nat)) zero_mat).
    intros T Hw. cbv zeta in Hw. apply in_flat_map in Hw. destruct Hw as [[x y] [Hxy Hw]].
    apply in_prod_iff in Hxy. destruct Hxy as [Hx Hy]. apply in_seq in Hx. apply in_seq in Hy.
    apply in_map_iff in Hw. destruct Hw as [f [<- _]]. pose proof (f_equal fst E : ((jj + 1) mod n + x * n)%nat = (v + m * n)%nat) as Er.
    pose proof (f_equal snd E : ((jj + 1) mod n + y * n + f * 3 * n)%nat = (v2 + m2 * n + 1 * 3 * n)%nat) as Ec.
    assert (Hi : ((jj + 1) mod n < n)%nat) by (apply Nat.mod_upper_bound; unfold n; lia).
    apply decode3 in Ec; auto; try lia. destruct Ec as (Ec & _). apply decode in Er; auto. destruct Er as [Er _]. congruence.
  - unfold hes_connected in Hw. apply in_flat_map in Hw. destruct Hw as [jj [_ Hw]]. cbv zeta in Hw.
    eapply pair_zero; [apply connec_gap|apply Nat.mod_upper_bound|apply Nat.mod_upper_bound|exact Hv|exact Hv2|exact Hm|exact Hm2|exact Hw|exact E]; lia.
  - unfold hes_apart in Hw. apply in_flat_map in Hw. destruct Hw as [jj [_ Hw]]. cbv zeta in Hw.
    apply in_flat_map in Hw. destruct Hw as [j2 [_ Hw]].
    eapply pair_zero; [apply noconnec_gap|apply Nat.mod_upper_bound|apply Nat.mod_upper_bound|exact Hv|exact Hv2|exact Hm|exact Hm2|exact Hw|exact E]; lia.
Qed.
