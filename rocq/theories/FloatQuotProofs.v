(** When the floating-point quotients are exact. *)
From Coq Require Import ZArith Reals Lia Lra Psatz.
From Flocq Require Import Core IEEE754.BinarySingleNaN Relative.
From Verif Require Import FloatQuot.
Open Scope Z_scope.

Section Quot.
Variables prec emax : Z.
Context (Hp : Prec_gt_0 prec) (He : Prec_lt_emax prec emax).
Hypothesis wide : prec + 2 <= emax.
Notation fexp := (SpecFloat.fexp prec emax).
Notation emin := (SpecFloat.emin prec emax).
Lemma fexp_flt : fexp = FLT_exp emin prec.
Proof. reflexivity. Qed.
Lemma int_format z : 0 <= z <= 2 ^ prec -> generic_format radix2 fexp (IZR z).
Proof.
  intros Hz. rewrite fexp_flt. pose proof Hp as P. unfold Prec_gt_0 in P.
  destruct (Z.eq_dec z (2 ^ prec)) as [E|E].
  - rewrite E. change 2 with (radix_val radix2). rewrite IZR_Zpower by lia. apply generic_format_bpow.
    unfold FLT_exp, SpecFloat.emin. lia.
  - apply generic_format_FLT. apply (FLT_spec _ _ _ _ (Float radix2 z 0)).
    + unfold F2R. simpl. lra.
    + simpl. rewrite Z.abs_eq by lia. change (Z.pow_pos 2) with (fun p => 2 ^ Zpos p). lia.
    + unfold SpecFloat.emin. cbn [Fexp]. lia.
Qed.
Lemma int_exact z : 0 <= z <= 2 ^ prec ->
  let f := binary_normalize prec emax Hp He mode_NE z 0 false in B2R f = IZR z /\ is_finite f = true.
Proof.
  intros Hz. cbn zeta. pose proof (binary_normalize_correct prec emax Hp He mode_NE z 0 false) as H. cbn zeta in H.
  assert (E : F2R (Float radix2 z 0) = IZR z) by (unfold F2R; simpl; lra).
  rewrite E in H. rewrite round_generic in H; [|apply valid_rnd_round_mode|apply int_format; auto].
  rewrite Rlt_bool_true in H.
  - tauto.
  - rewrite Rabs_pos_eq by (apply IZR_le; lia).
    apply Rle_lt_trans with (IZR (2 ^ prec)); [apply IZR_le; lia|].
    change 2 with (radix_val radix2). rewrite IZR_Zpower; [apply bpow_lt; lia|]. pose proof Hp. unfold Prec_gt_0 in *. lia.
Qed.

Lemma quot_exact a b : 0 <= a -> 0 < b -> a + b <= 2 ^ prec -> quot_of prec emax a b = a / b.
Proof.
  intros Ha Hb Hab. unfold quot_of. pose proof Hp as P. unfold Prec_gt_0 in P.
  destruct (int_exact a) as [Ea Fa]; [lia|]. destruct (int_exact b) as [Eb Fb]; [lia|].
  set (fa := binary_normalize prec emax Hp He mode_NE a 0 false) in *.
  set (fb := binary_normalize prec emax Hp He mode_NE b 0 false) in *.
  set (k := a / b).
  assert (Hk0 : 0 <= k) by (apply Z.div_pos; lia).
  assert (Hk1 : k * b <= a) by (unfold k; rewrite Z.mul_comm; apply Z.mul_div_le; lia).
  assert (Hk2 : a < (k + 1) * b) by (unfold k; pose proof (Z.mul_succ_div_gt a b Hb); lia).
  assert (HbR : (0 < IZR b)%R) by (apply IZR_lt; lia).
  set (x := (IZR a / IZR b)%R).
  assert (Hx0 : (IZR k <= x)%R).
  { unfold x. apply Rmult_le_reg_r with (IZR b); auto. unfold Rdiv. rewrite Rmult_assoc, Rinv_l, Rmult_1_r by lra.
    rewrite <- mult_IZR. apply IZR_le. lia. }
  assert (Hx1 : (x + / IZR b <= IZR (k + 1))%R).
  { unfold x. apply Rmult_le_reg_r with (IZR b); auto. unfold Rdiv. rewrite Rmult_plus_distr_r, Rmult_assoc, Rinv_l by lra.
    rewrite Rmult_1_r, <- mult_IZR, <- (plus_IZR a 1). apply IZR_le. lia. }
  assert (Hkb : k + 1 <= 2 ^ prec) by nia.
  set (r := round radix2 fexp (round_mode mode_NE) x).
  assert (Hr0 : (IZR k <= r)%R).
  { unfold r. rewrite <- (round_generic radix2 fexp (round_mode mode_NE) (IZR k)); [|apply int_format; lia].
    apply round_le; [apply fexp_correct; auto|apply valid_rnd_round_mode|auto]. }
  assert (Hr1 : (r < IZR (k + 1))%R).
  { destruct (Z.eq_dec a 0) as [E0|E0].
    - assert (x = 0%R) by (unfold x; rewrite E0; unfold Rdiv; ring).
      unfold r. rewrite H, round_0 by apply valid_rnd_round_mode. apply IZR_lt. lia.
    - assert (Hxpos : (/ IZR b <= x)%R).
      { unfold x, Rdiv. rewrite <- (Rmult_1_l (/ IZR b)) at 1. apply Rmult_le_compat_r; [left; apply Rinv_0_lt_compat; auto|].
        apply IZR_le. lia. }
      assert (Hib : (0 < / IZR b)%R) by (apply Rinv_0_lt_compat; auto).
      assert (Hbig : (bpow radix2 (emin + prec - 1) <= Rabs x)%R).
      { rewrite Rabs_pos_eq by lra. apply Rle_trans with (/ IZR b)%R; auto.
        apply Rle_trans with (bpow radix2 (- prec)).
        - apply bpow_le. unfold SpecFloat.emin. lia.
        - rewrite bpow_opp. apply Rinv_le; auto. rewrite <- IZR_Zpower by lia. apply IZR_le. change (radix_val radix2) with 2. lia. }
      pose proof (relative_error_N_FLT radix2 emin prec P (fun x => negb (Z.even x)) x Hbig) as Hrel.
      rewrite <- fexp_flt in Hrel. change (Znearest (fun x0 : Z => negb (Z.even x0))) with (round_mode mode_NE) in Hrel. fold r in Hrel.
      assert (Hrx : (r - x <= / 2 * bpow radix2 (- prec + 1) * x)%R).
      { rewrite (Rabs_pos_eq x) in Hrel by lra. eapply Rle_trans; [apply Rle_abs|exact Hrel]. }
      replace (/ 2 * bpow radix2 (- prec + 1))%R with (bpow radix2 (- prec)) in Hrx.
      2:{ rewrite bpow_plus. simpl. lra. }
      assert (Hlt : (bpow radix2 (- prec) * x < / IZR b)%R).
      { apply Rlt_le_trans with (bpow radix2 (- prec) * IZR (k + 1))%R.
        - apply Rmult_lt_compat_l; [apply bpow_gt_0|]. lra.
        - rewrite bpow_opp. apply Rmult_le_reg_l with (bpow radix2 prec); [apply bpow_gt_0|].
          rewrite <- Rmult_assoc, Rinv_r, Rmult_1_l by (apply Rgt_not_eq, bpow_gt_0).
          apply Rmult_le_reg_r with (IZR b); auto. rewrite Rmult_assoc, Rinv_l, Rmult_1_r by lra.
          rewrite <- mult_IZR, <- IZR_Zpower by lia. apply IZR_le. change (radix_val radix2) with 2. lia. }
      lra. }
  pose proof (Bdiv_correct prec emax Hp He mode_NE fa fb) as HB. rewrite Ea, Eb in HB.
  specialize (HB (Rgt_not_eq _ _ HbR)). fold x in HB. fold r in HB.
  rewrite Rlt_bool_true in HB.
  - destruct HB as [HB _]. pose proof (Btrunc_correct prec emax He (Bdiv mode_NE fa fb)) as HT.
    rewrite HB in HT. apply eq_IZR. rewrite HT. unfold round, F2R, scaled_mantissa, cexp, FIX_exp. simpl.
    rewrite !Rmult_1_r. rewrite Ztrunc_floor by (apply Rle_trans with (IZR k); auto; apply IZR_le; lia).
    f_equal. apply Zfloor_imp. split; auto.
  - rewrite Rabs_pos_eq by (apply Rle_trans with (IZR k); auto; apply IZR_le; lia).
    apply Rlt_le_trans with (1 := Hr1). apply Rle_trans with (IZR (2 ^ prec)); [apply IZR_le; lia|].
    change 2 with (radix_val radix2). rewrite IZR_Zpower by lia. apply bpow_le. lia.
Qed.
End Quot.

Lemma quot32_exact a b : 0 <= a -> 0 < b -> a + b <= 2 ^ 24 -> quot32 a b = a / b.
Proof. intros. apply quot_exact; auto. lia. Qed.
Lemma quot64_exact a b : 0 <= a -> 0 < b -> a + b <= 2 ^ 53 -> quot64 a b = a / b.
Proof. intros. apply quot_exact; auto. lia. Qed.
