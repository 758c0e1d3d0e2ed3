(** How close a double is to itself printed with a fixed number of decimals and read
    again. *)
From Coq Require Import Reals Lia Lra.
From Flocq Require Import Core.
From Verif Require Import Base Codec SpecCodec CodecProofs.
Open Scope R_scope.

#[local] Instance fmt_valid : Valid_exp fmt.
Proof. unfold fmt. apply FLT_exp_valid. reflexivity. Qed.
#[local] Instance fmt_mono : Monotone_exp fmt.
Proof. unfold fmt. apply FLT_exp_monotone. Qed.
Notation rnd := (round radix2 fmt ZnearestE).

(** From 2^t upwards the doubles are multiples of 2^(t-52). *)
Lemma on_grid t u : (-1022 <= t)%Z -> is_double u -> bpow radix2 t <= u ->
  exists m : Z, u = IZR m * bpow radix2 (t - 52).
Proof.
  intros Ht F L. unfold is_double in F. fold fmt in F. unfold generic_format in F. unfold F2R in F. cbn [Fnum Fexp] in F.
  set (e := cexp radix2 fmt u) in *. set (m := Ztrunc (scaled_mantissa radix2 fmt u)) in *.
  assert (E : (t - 52 <= e)%Z).
  { unfold e, cexp, fmt, FLT_exp. assert (t + 1 <= mag radix2 u)%Z by (apply mag_ge_bpow; rewrite Rabs_pos_eq; [now replace (t + 1 - 1)%Z with t by ring|eapply Rle_trans; [apply bpow_ge_0|exact L]]). lia. }
  exists (m * 2 ^ (e - (t - 52)))%Z. rewrite F at 1. rewrite mult_IZR.
  replace (IZR (2 ^ (e - (t - 52)))) with (bpow radix2 (e - (t - 52))).
  - rewrite Rmult_assoc, <- bpow_plus. f_equal. f_equal. ring.
  - rewrite <- IZR_Zpower by lia. reflexivity.
Qed.
Lemma grid_gap t u v : (-1022 <= t)%Z -> is_double u -> is_double v -> bpow radix2 t <= u -> u < v ->
  bpow radix2 (t - 52) <= v - u.
Proof.
  intros Ht Fu Fv L UV. destruct (on_grid t u Ht Fu L) as [m Em].
  destruct (on_grid t v Ht Fv) as [n En]; [lra|]. rewrite Em, En in *.
  set (q := bpow radix2 (t - 52)) in *. assert (Q : 0 < q) by apply bpow_gt_0.
  assert (m < n)%Z by (apply lt_IZR; nra). assert (1 <= n - m)%Z by lia.
  assert (H1 : 1 <= IZR (n - m)) by now apply IZR_le. rewrite minus_IZR in H1. nra.
Qed.

Section Decimals.
Variables (k t : Z).
Hypothesis K : (0 <= k)%Z.
Hypothesis T0 : (-1021 <= t <= 1023)%Z.
Let p := bpow ten k.
Let T := bpow radix2 t.
Hypothesis above : / p < bpow radix2 (t - 52).
Hypothesis below : bpow radix2 (t - 53) < / p.
Variable Tp : Z.
Hypothesis T_int : IZR Tp = T * p.

Definition printed (a : R) : Z := ZnearestE (a * p).
Definition again (a : R) : R := rnd (IZR (printed a) * bpow ten (- k)).

Lemma p_pos : 0 < p. Proof. apply bpow_gt_0. Qed.
Lemma p_inv : bpow ten (- k) = / p. Proof. apply bpow_opp. Qed.
Lemma printed_close a : Rabs (IZR (printed a) * bpow ten (- k) - a) <= / 2 * / p.
Proof.
  rewrite p_inv. assert (P := p_pos). unfold printed.
  assert (H := Znearest_half (fun x => negb (Z.even x)) (a * p)).
  replace (IZR (ZnearestE (a * p)) * / p - a) with ((IZR (ZnearestE (a * p)) - a * p) * / p) by (field; lra).
  rewrite Rabs_mult, (Rabs_pos_eq (/ p)) by (apply Rlt_le, Rinv_0_lt_compat, P).
  apply Rmult_le_compat_r; [apply Rlt_le, Rinv_0_lt_compat, P|]. rewrite Rabs_minus_sym. exact H.
Qed.
Lemma printed_exact a (n : Z) : a * p = IZR n -> IZR (printed a) * bpow ten (- k) = a.
Proof.
  intros E. unfold printed. rewrite E, (Zrnd_IZR ZnearestE), <- E, p_inv. field. apply Rgt_not_eq, p_pos.
Qed.
Lemma printed_mono a b : a <= b -> (printed a <= printed b)%Z.
Proof. intros H. unfold printed. apply Zrnd_le; [apply valid_rnd_N|]. apply Rmult_le_compat_r; [apply Rlt_le, p_pos|exact H]. Qed.
(** Printing stays on the same side of a number that is printed exactly. *)
Lemma printed_le a b (n : Z) : b * p = IZR n -> a <= b -> IZR (printed a) * bpow ten (- k) <= b.
Proof.
  intros E L. rewrite <- (printed_exact b n E) at 1. apply Rmult_le_compat_r; [apply bpow_ge_0|].
  apply IZR_le. now apply printed_mono.
Qed.
Lemma printed_ge a b (n : Z) : b * p = IZR n -> b <= a -> b <= IZR (printed a) * bpow ten (- k).
Proof.
  intros E L. rewrite <- (printed_exact b n E) at 1. apply Rmult_le_compat_r; [apply bpow_ge_0|].
  apply IZR_le. now apply printed_mono.
Qed.
Lemma again_exact a (n : Z) : is_double a -> a * p = IZR n -> again a = a.
Proof. intros F E. unfold again. rewrite (printed_exact a n E). apply round_generic; [apply valid_rnd_N|exact F]. Qed.
Lemma T_double : is_double T.
Proof.
  apply generic_format_bpow. unfold fmt, FLT_exp. destruct T0. lia.
Qed.

Lemma again_big a : is_double a -> T <= a -> again a = a.
Proof.
  intros F L. destruct (Req_dec a T) as [->|NE].
  { apply (again_exact T Tp T_double). now rewrite T_int. }
  assert (L' : T < a) by lra. assert (C := printed_close a). unfold again.
  set (b := IZR (printed a) * bpow ten (- k)) in *.
  assert (C' : Rabs (b - a) < / 2 * bpow radix2 (t - 52)) by lra.
  apply Rabs_def2 in C'. destruct C' as [C1 C2].
  assert (A0 : 0 < a) by (eapply Rlt_trans; [apply (bpow_gt_0 radix2 t)|exact L']).
  assert (Fp : is_double (pred radix2 fmt a)) by (apply generic_format_pred; [apply fmt_valid|exact F]).
  assert (Fs : is_double (succ radix2 fmt a)) by (apply generic_format_succ; [apply fmt_valid|exact F]).
  assert (Lp : T <= pred radix2 fmt a) by (apply pred_ge_gt; [apply fmt_valid|apply T_double|exact F|exact L']).
  assert (Hp : pred radix2 fmt a < a) by (apply pred_lt_id; lra).
  assert (Hs : a < succ radix2 fmt a) by (apply succ_gt_id; lra).
  assert (Gp := grid_gap t _ _ ltac:(lia) Fp F Lp Hp).
  assert (Gs := grid_gap t _ _ ltac:(lia) F Fs L Hs).
  apply Rle_antisym.
  - apply round_N_le_midp; [apply fmt_valid|exact F|lra].
  - apply round_N_ge_midp; [apply fmt_valid|exact F|lra].
Qed.

Lemma again_error a : 0 <= a <= T -> Rabs (again a - IZR (printed a) * bpow ten (- k)) <= / 2 * bpow radix2 (t - 53).
Proof.
  intros [A0 A1]. unfold again.
  assert (B1 : IZR (printed a) * bpow ten (- k) <= T) by (apply (printed_le a T Tp); [now rewrite T_int|exact A1]).
  assert (B0 : 0 <= IZR (printed a) * bpow ten (- k)) by (apply (printed_ge a 0 0); [ring|exact A0]).
  set (b := IZR (printed a) * bpow ten (- k)) in *.
  destruct (Req_dec b T) as [->|NE].
  { rewrite round_generic; [|apply valid_rnd_N|apply T_double]. rewrite Rminus_diag_eq, Rabs_R0 by easy.
    apply Rmult_le_pos; [lra|apply bpow_ge_0]. }
  destruct (Req_dec b 0) as [->|NZ].
  { rewrite round_0; [|apply valid_rnd_N]. rewrite Rminus_diag_eq, Rabs_R0 by easy.
    apply Rmult_le_pos; [lra|apply bpow_ge_0]. }
  eapply Rle_trans; [apply error_le_half_ulp; apply fmt_valid|].
  apply Rmult_le_compat_l; [lra|]. rewrite ulp_neq_0 by exact NZ. apply bpow_le.
  unfold cexp, fmt, FLT_exp. assert (mag radix2 b <= t)%Z.
  { apply mag_le_bpow; [exact NZ|]. rewrite Rabs_pos_eq by exact B0. fold T. lra. }
  lia.
Qed.
Lemma again_close a : is_double a -> 0 <= a -> Rabs (again a - a) <= / p /\ (T <= a -> again a = a).
Proof.
  intros F A. split; [|now apply again_big].
  destruct (Rle_dec T a) as [L|L].
  - rewrite (again_big a F L), Rminus_diag_eq, Rabs_R0 by easy. apply Rlt_le, Rinv_0_lt_compat, p_pos.
  - assert (E := again_error a ltac:(lra)). assert (C := printed_close a).
    set (b := IZR (printed a) * bpow ten (- k)) in *.
    replace (again a - a) with ((again a - b) + (b - a)) by ring.
    eapply Rle_trans; [apply Rabs_triang|]. lra.
Qed.
Lemma again_double a : is_double (again a).
Proof. apply generic_format_round; [apply fmt_valid|apply valid_rnd_N]. Qed.
Lemma again_pos a : 0 <= a -> 0 <= again a.
Proof.
  intros A. unfold again. apply round_ge_generic; [apply fmt_valid|apply valid_rnd_N|apply generic_format_0|].
  apply (printed_ge a 0 0); [ring|exact A].
Qed.
(** Printing a second time gives the same text. *)
Lemma again_stable a : is_double a -> 0 <= a -> printed (again a) = printed a.
Proof.
  intros F A. destruct (Rle_dec T a) as [L|L]; [now rewrite (again_big a F L)|].
  assert (E := again_error a ltac:(lra)). assert (P := p_pos). rewrite p_inv in E.
  unfold printed at 1. apply Znearest_imp.
  replace (again a * p - IZR (printed a)) with ((again a - IZR (printed a) * / p) * p) by (field; lra).
  rewrite Rabs_mult, (Rabs_pos_eq p) by lra.
  apply Rle_lt_trans with (/ 2 * bpow radix2 (t - 53) * p); [apply Rmult_le_compat_r; lra|].
  assert (bpow radix2 (t - 53) * p < 1); [|lra].
  replace 1 with (/ p * p) by (field; lra). apply Rmult_lt_compat_r; lra.
Qed.
Lemma again_below a b (n : Z) : is_double b -> b * p = IZR n -> a <= b -> again a <= b.
Proof.
  intros F E L. unfold again. apply round_le_generic; [apply fmt_valid|apply valid_rnd_N|exact F|].
  now apply (printed_le a b n).
Qed.
Lemma again_finite a : is_double a -> 0 <= a < bpow radix2 1024 -> again a < bpow radix2 1024.
Proof.
  intros F [A0 A1]. destruct (Rle_dec T a) as [L|L]; [now rewrite (again_big a F L)|].
  apply Rle_lt_trans with T.
  - apply (again_below a T Tp T_double); [now rewrite T_int|lra].
  - apply bpow_lt. lia.
Qed.
End Decimals.

(** ** The two formats of the files *)
Lemma reprint_fin k neg a : again (Z.of_nat k) a < bpow radix2 1024 ->
  reprint k (Fin neg a) = Fin neg (again (Z.of_nat k) a).
Proof.
  intros H. unfold reprint, to_dbl. fold (printed (Z.of_nat k) a). fold (again (Z.of_nat k) a).
  destruct (Rlt_dec (again (Z.of_nat k) a) (bpow radix2 1024)); [easy|contradiction].
Qed.
Lemma bpow_ten k : (0 <= k)%Z -> bpow ten k = IZR (10 ^ k).
Proof. intros H. now rewrite <- IZR_Zpower. Qed.
Lemma two_inv e : (0 <= e)%Z -> bpow radix2 (- e) = / IZR (2 ^ e).
Proof. intros H. rewrite bpow_opp. f_equal. now rewrite <- IZR_Zpower. Qed.

(** 16 decimals *)
Lemma above16 : / bpow ten 16 < bpow radix2 (-1 - 52).
Proof.
  rewrite bpow_ten by easy. change (-1 - 52)%Z with (- (53))%Z. rewrite two_inv by easy.
  apply Rinv_lt_contravar; [apply Rmult_lt_0_compat; apply IZR_lt; easy|apply IZR_lt; easy].
Qed.
Lemma below16 : bpow radix2 (-1 - 53) < / bpow ten 16.
Proof.
  rewrite bpow_ten by easy. change (-1 - 53)%Z with (- (54))%Z. rewrite two_inv by easy.
  apply Rinv_lt_contravar; [apply Rmult_lt_0_compat; apply IZR_lt; easy|apply IZR_lt; easy].
Qed.
Lemma int16 : IZR 5000000000000000 = bpow radix2 (-1) * bpow ten 16.
Proof.
  rewrite bpow_ten by easy. change (-1)%Z with (- (1))%Z. rewrite two_inv by easy.
  change (10 ^ 16)%Z with 10000000000000000%Z. change (2 ^ 1)%Z with 2%Z. lra.
Qed.
(** 6 decimals *)
Lemma above6 : / bpow ten 6 < bpow radix2 (33 - 52).
Proof.
  rewrite bpow_ten by easy. change (33 - 52)%Z with (- (19))%Z. rewrite two_inv by easy.
  apply Rinv_lt_contravar; [apply Rmult_lt_0_compat; apply IZR_lt; easy|apply IZR_lt; easy].
Qed.
Lemma below6 : bpow radix2 (33 - 53) < / bpow ten 6.
Proof.
  rewrite bpow_ten by easy. change (33 - 53)%Z with (- (20))%Z. rewrite two_inv by easy.
  apply Rinv_lt_contravar; [apply Rmult_lt_0_compat; apply IZR_lt; easy|apply IZR_lt; easy].
Qed.
Lemma int6 : IZR (2 ^ 33 * 1000000) = bpow radix2 33 * bpow ten 6.
Proof. rewrite bpow_ten by easy. rewrite mult_IZR. reflexivity. Qed.

Lemma finite16 a : is_double a -> 0 <= a < bpow radix2 1024 -> again 16 a < bpow radix2 1024.
Proof. apply (again_finite 16 (-1) ltac:(lia) above16 _ int16). Qed.
Lemma finite6 a : is_double a -> 0 <= a < bpow radix2 1024 -> again 6 a < bpow radix2 1024.
Proof. apply (again_finite 6 33 ltac:(lia) above6 _ int6). Qed.

Lemma pow16 : / 10 ^ 16 = / bpow ten 16.
Proof. rewrite bpow_ten by easy. f_equal. rewrite pow_IZR. reflexivity. Qed.
Lemma pow6 : / 10 ^ 6 = / bpow ten 6.
Proof. rewrite bpow_ten by easy. f_equal. rewrite pow_IZR. reflexivity. Qed.

Lemma reprint16_close x : double x -> close16 x (reprint 16 x).
Proof.
  destruct x as [neg a|neg|]; [|easy..]. intros [F A].
  exists (again 16 a). destruct (again_close 16 (-1) ltac:(lia) above16 below16 _ int16 a F ltac:(lra)) as [C E].
  repeat split.
  - apply reprint_fin. now apply finite16.
  - now rewrite pow16.
  - intros H. apply E. change (bpow radix2 (-1)) with (/ IZR 2). exact H.
Qed.
Lemma reprint6_close x : double x -> close6 x (reprint 6 x).
Proof.
  destruct x as [neg a|neg|]; [|easy..]. intros [F A].
  exists (again 6 a). destruct (again_close 6 33 ltac:(lia) above6 below6 _ int6 a F ltac:(lra)) as [C E].
  repeat split.
  - apply reprint_fin. now apply finite6.
  - now rewrite pow6.
  - intros H. apply E. rewrite pow_IZR in H. rewrite <- IZR_Zpower by easy. exact H.
Qed.
Lemma print_same k neg a b : printed (Z.of_nat k) a = printed (Z.of_nat k) b -> print_dbl k (Fin neg a) = print_dbl k (Fin neg b).
Proof. unfold printed. cbn [print_dbl]. intros ->. reflexivity. Qed.
Lemma reprint16_text x : double x -> print_dbl 16 (reprint 16 x) = print_dbl 16 x.
Proof.
  destruct x as [neg a|neg|]; [|easy..]. intros [F A].
  rewrite reprint_fin by now apply finite16. apply print_same.
  apply (again_stable 16 (-1) ltac:(lia) above16 below16 _ int16 a F). lra.
Qed.
Lemma reprint6_text x : double x -> print_dbl 6 (reprint 6 x) = print_dbl 6 x.
Proof.
  destruct x as [neg a|neg|]; [|easy..]. intros [F A].
  rewrite reprint_fin by now apply finite6. apply print_same.
  apply (again_stable 6 33 ltac:(lia) above6 below6 _ int6 a F). lra.
Qed.
(** Numbers with [k] decimals or less *)
Lemma reprint_exact k neg a (n : Z) : double (Fin neg a) -> a * bpow ten (Z.of_nat k) = IZR n -> reprint k (Fin neg a) = Fin neg a.
Proof.
  intros [F A] E. rewrite reprint_fin; rewrite (again_exact _ a n F E); [easy|lra].
Qed.
Lemma double_ok x : double x -> magnitude_ok x.
Proof. destruct x; [|easy..]. intros [_ H]. cbn. lra. Qed.
