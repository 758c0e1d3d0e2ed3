(** Property C48: target fills. *)
From Coq Require Import Reals Lra.
From Flocq Require Import Core.
From Verif Require Import Base Mesh MergeProofs Codec CodecProofs SpecCodec DecimalProofs Fill SpecFill.
Open Scope Z_scope.

Lemma blank_space c : blank c -> is_space c = true.
Proof.
  unfold blank, is_space. intros [->|H]; [easy|]. lia.
Qed.
Lemma skip_blanks b l : Forall blank b -> skip (b ++ l) = skip l.
Proof. induction 1 as [|c b B _ IH]; [easy|]. cbn [app skip]. now rewrite (blank_space c B). Qed.
Lemma skip_all b : Forall blank b -> skip b = [].
Proof. intros B. rewrite <- (app_nil_r b). now rewrite (skip_blanks b [] B). Qed.
Lemma value_number l : forall a, value l a = a * 10 ^ Z.of_nat (length l) + number (rev l).
Proof.
  induction l as [|c l IH] using rev_ind; intros a; [cbn; lia|].
  rewrite value_app, rev_unit, app_length, IH. cbn [value fold_left number length].
  rewrite Nat.add_1_r, Nat2Z.inj_succ, Z.pow_succ_r by lia. ring.
Qed.
(** What may follow a number: nothing, or white space *)
Definition clean (l : list Z) : Prop := match l with [] => True | c :: _ => blank c end.
Lemma clean_ends l : clean l -> ends l.
Proof. destruct l as [|c l]; [easy|]. cbn. unfold blank, is_digit. lia. Qed.
Lemma scan_exp_clean l : clean l -> scan_exp l = (0, l).
Proof.
  destruct l as [|c l]; [easy|]. cbn [clean scan_exp]. unfold blank. intros B.
  destruct (Z.eqb_spec c 101), (Z.eqb_spec c 69); try lia; easy.
Qed.
Lemma scan_power ex e rest : power ex e -> clean rest -> scan_exp (ex ++ rest) = (e, rest).
Proof.
  assert (L : forall c, c = 101 \/ c = 69 -> ((c =? 101) || (c =? 69))%bool = true) by (intros c [->| ->]; reflexivity).
  assert (Y : forall ds : list Z, ds <> [] -> (0 + Z.of_nat (length ds) =? 0) = false)
    by (intros [|d ds] NE; [easy|cbn [length]; destruct (Z.eqb_spec (0 + Z.of_nat (S (length ds))) 0); lia]).
  intros P C. destruct P as [|c ds K D NE|c ds K D NE|c ds K D NE]; [now apply scan_exp_clean|..]; cbn [app scan_exp]; rewrite (L c K).
  - destruct ds as [|d ds]; [easy|]. inversion D as [|? ? Dd _]; subst. cbn [app]. rewrite (sign_digit (ds ++ rest) Dd). cbv iota beta.
    change (d :: ds ++ rest) with ((d :: ds) ++ rest).
    rewrite (scan_digits_ok rest 0 0 D (clean_ends _ C)). cbv iota beta. rewrite (Y _ NE), value_number. now rewrite Z.mul_0_l.
  - change (scan_sign (43 :: ds ++ rest)) with (false, ds ++ rest). cbv iota beta. rewrite (scan_digits_ok rest 0 0 D (clean_ends _ C)). cbv iota beta. rewrite (Y _ NE), value_number. now rewrite Z.mul_0_l.
  - change (scan_sign (45 :: ds ++ rest)) with (true, ds ++ rest). cbv iota beta. rewrite (scan_digits_ok rest 0 0 D (clean_ends _ C)). cbv iota beta. rewrite (Y _ NE), value_number. now rewrite Z.mul_0_l.
Qed.
(** What follows the digits: no digit, and no point *)
Lemma power_ends ex e rest : power ex e -> clean rest ->
  ends (ex ++ rest) /\ forall (A : Type) (a b : A), match ex ++ rest with 46 :: r1 => a | _ => b end = b.
Proof.
  intros P C. destruct P as [|c ds [->| ->] D NE|c ds [->| ->] D NE|c ds [->| ->] D NE]; cbn [app];
    try (split; [cbn; unfold is_digit; lia|reflexivity]).
  split; [now apply clean_ends|]. intros A a b. destruct rest as [|c r]; [easy|]. cbn in C. unfold blank in C.
  assert (c = 32 \/ c = 9 \/ c = 10 \/ c = 11 \/ c = 12 \/ c = 13) as H by lia. decompose [or] H; subst c; reflexivity.
Qed.
Lemma scan_numeral neg ds fs ex e rest : Forall decimal_digit ds -> ds <> [] -> Forall decimal_digit fs -> power ex e -> clean rest ->
  scan_num (numeral neg ds fs ex ++ rest) = Some (stands_for neg ds fs e, rest).
Proof.
  intros D NE F P C. unfold scan_num, numeral. rewrite <- !app_assoc.
  destruct (power_ends ex e rest P C) as [En Pt].
  assert (S : scan_sign ((if neg then [45] else []) ++ ds ++ match fs with [] => [] | _ :: _ => 46 :: fs end ++ ex ++ rest) =
              (neg, ds ++ match fs with [] => [] | _ :: _ => 46 :: fs end ++ ex ++ rest)).
  { destruct neg; [easy|]. destruct ds as [|d ds]; [easy|]. inversion D; subst. now apply sign_digit. }
  rewrite S. clear S. cbv iota beta.
  assert (L : length ds <> 0%nat) by (destruct ds; [easy|cbn; lia]).
  assert (X : forall x : dbl, match rest with
     | [] => Some (x, rest)
     | c :: _ => if ((c =? 101) || (c =? 69))%bool then None else Some (x, rest)
     end = Some (x, rest)).
  { intros x. destruct rest as [|c r]; [easy|]. cbn in C. unfold blank in C.
    destruct (Z.eqb_spec c 101), (Z.eqb_spec c 69); try lia; easy. }
  destruct fs as [|f fs].
  - cbn [app]. rewrite (scan_digits_ok (ex ++ rest) 0 0 D En). cbv iota beta.
    assert (R : match ex ++ rest with 46 :: r1 => scan_digits 10 r1 (value ds 0) 0 | _ => (value ds 0, 0, ex ++ rest) end = (value ds 0, 0, ex ++ rest)).
    { clear - P C. destruct P as [|c ds' [->| ->] D NE|c ds' [->| ->] D NE|c ds' [->| ->] D NE]; try reflexivity.
      cbn [app]. destruct rest as [|c r]; [easy|]. cbn in C. unfold blank in C.
      assert (c = 32 \/ c = 9 \/ c = 10 \/ c = 11 \/ c = 12 \/ c = 13) as H by lia. decompose [or] H; subst c; reflexivity. }
    rewrite R. cbv iota beta.
    destruct (Z.eqb_spec (0 + Z.of_nat (length ds) + 0) 0); [lia|].
    rewrite (scan_power ex e rest P C), value_number, X. unfold stands_for. cbn [length Z.of_nat Z.opp]. now rewrite app_nil_r.
  - assert (E46 : ends ((46 :: f :: fs) ++ ex ++ rest)) by (cbn; unfold is_digit; lia).
    rewrite (scan_digits_ok _ 0 0 D E46). cbn [app]. cbv iota beta.
    change (f :: fs ++ ex ++ rest) with ((f :: fs) ++ ex ++ rest).
    rewrite (scan_digits_ok (ex ++ rest) (value ds 0) 0 F En).
    destruct (Z.eqb_spec (0 + Z.of_nat (length ds) + (0 + Z.of_nat (length (f :: fs)))) 0); [lia|].
    rewrite (scan_power ex e rest P C), <- value_app, value_number, X. unfold stands_for.
    change (0 + Z.of_nat (length (f :: fs))) with (Z.of_nat (length (f :: fs))). easy.
Qed.
Lemma numeral_start neg ds fs ex l : Forall decimal_digit ds -> ds <> [] ->
  exists c r, numeral neg ds fs ex ++ l = c :: r /\ is_space c = false.
Proof.
  intros D NE. destruct ds as [|d ds]; [easy|]. inversion D as [|? ? Dd _]; subst. unfold numeral. destruct neg; cbn [app].
  - now do 2 eexists.
  - do 2 eexists. split; [reflexivity|]. now apply digit_no_space.
Qed.
Lemma extract_number b neg ds fs ex e rest ft : Forall blank b -> Forall decimal_digit ds -> ds <> [] -> Forall decimal_digit fs ->
  power ex e -> (forall n, stands_for neg ds fs e <> Inf n) ->
  clean rest -> extract (opened (b ++ numeral neg ds fs ex ++ rest)) ft =
  (mkStream rest (match rest with [] => true | _ => false end) false, stands_for neg ds fs e).
Proof.
  intros B D NE F P I C. unfold extract, opened. cbn [s_eof s_fail s_rest orb]. rewrite (skip_blanks b _ B).
  assert (S := scan_numeral neg ds fs ex e rest D NE F P C).
  destruct (numeral_start neg ds fs ex rest D NE) as (c & r & E & Sp). rewrite E in *. cbn [skip]. rewrite Sp.
  rewrite S. destruct (stands_for neg ds fs e) as [|n|] eqn:Ev; try easy. now contradiction (I n).
Qed.
(** What the loop collects: the numbers, and the last one again if the file goes on
    after it. *)
Definition collected (xs : list dbl) (tail : list Z) : list dbl :=
  xs ++ match tail with [] => [] | _ => [last xs NaN] end.
Lemma load_file file xs tail : file_of file xs tail -> forall n ft, load n (opened file) ft = firstn n (collected xs tail).
Proof.
  induction 1 as [b neg ds fs ex e tail B D NE F P T I|b neg ds fs ex e c rest xs tail B D NE F P C I H IH]; intros [|n] ft; try easy;
    cbn [load]; change (s_eof (opened _)) with false; cbv iota.
  - rewrite (extract_number b neg ds fs ex e); auto.
    2:{ destruct T; cbn; auto. }
    destruct tail as [|t tail]; cbn [collected app firstn last]; f_equal.
    + destruct n; reflexivity.
    + destruct n as [|n]; [easy|]. cbn [load s_eof]. unfold extract. cbn [s_eof s_fail s_rest orb].
      rewrite (skip_all _ T). cbn [firstn]. f_equal. destruct n; reflexivity.
  - rewrite (extract_number b neg ds fs ex e); auto. fold (opened (c :: rest)). rewrite IH. cbn [firstn collected app].
    unfold collected. cbn [app firstn]. f_equal.
    assert (N : xs <> []) by (inversion H; easy).
    destruct tail; [easy|]. do 3 f_equal. destruct xs; easy.
Qed.
Lemma file_nonempty file xs tail : file_of file xs tail -> xs <> [].
Proof. intros H. inversion H; easy. Qed.

Lemma first_nth {A} (l : list A) n : forall i, (i < n)%nat -> nth_error (firstn n l) i = nth_error l i.
Proof.
  revert n. induction l as [|a l IH]; intros [|n] [|i] H; try lia; cbn; try easy. apply IH. lia.
Qed.
Lemma seq_nth n : forall a i, (i < n)%nat -> nth_error (seq a n) i = Some (a + i)%nat.
Proof.
  induction n as [|n IH]; intros a [|i] H; try lia; cbn [seq nth_error]; [f_equal; lia|]. rewrite IH by lia. f_equal. lia.
Qed.
Lemma load_cycle dim file xs tail garbage targets : file_of file xs tail -> dim = 2 \/ dim = 3 ->
  exists l, load_target_fill dim file garbage targets = Ok l /\ length l = length targets /\
  forall i, (i < length targets)%nat ->
    nth_error l i = nth_error (collected xs tail) (i mod length (collected xs tail)).
Proof.
  intros H Dm. unfold load_target_fill.
  assert (Dt : ((dim =? 3) || (dim =? 2))%bool = true) by (destruct Dm; subst; reflexivity). rewrite Dt.
  rewrite (load_file file xs tail H). set (n := length targets). set (ys := collected xs tail).
  assert (Y : (0 < length ys)%nat).
  { unfold ys, collected. rewrite app_length. apply file_nonempty in H. destruct xs; [easy|cbn; lia]. }
  set (vals := firstn n ys).
  assert (V : length vals = Nat.min n (length ys)) by apply firstn_length.
  assert (E : forall i, (i < n)%nat -> nth_error vals (i mod length vals) = nth_error ys (i mod length ys)).
  { intros i I. rewrite V. destruct (Nat.le_gt_cases n (length ys)) as [L|L].
    - rewrite Nat.min_l by easy. rewrite !Nat.mod_small by lia. unfold vals. now apply first_nth.
    - rewrite Nat.min_r by lia. unfold vals. rewrite firstn_all2 by lia. easy. }
  exists (map (fun i => nth (i mod length ys) ys NaN) (seq 0 n)). repeat split.
  - apply (@omap_list_Ok _ _ _ (fun i => nth (i mod length ys) ys NaN)). intros i I. apply in_seq in I. cbn in I. destruct I as [_ I].
    assert (Ei := E i I). destruct vals as [|v vs] eqn:Ev in |- *.
    { exfalso. rewrite Ev in V. change (length (@nil dbl)) with 0%nat in V. lia. }
    rewrite <- Ev. replace (Z.of_nat i mod Z.of_nat (length vals)) with (Z.of_nat (i mod length vals)) by (apply Nat2Z.inj_mod).
    apply at_Ok. split; [lia|]. rewrite Nat2Z.id, Ei. apply nth_error_nth'. apply Nat.mod_upper_bound. lia.
  - now rewrite map_length, seq_length.
  - intros i I. rewrite nth_error_map, seq_nth by easy. cbn [option_map].
    symmetry. apply nth_error_nth'. apply Nat.mod_upper_bound. lia.
Qed.

(** ** C48 *)
(** A file that ends right after its last number: cell [i] gets number [i mod k]. *)
Theorem C48_partial dim file xs garbage targets : file_of file xs [] -> dim = 2 \/ dim = 3 ->
  exists l, load_target_fill dim file garbage targets = Ok l /\ length l = length targets /\
  forall i, (i < length targets)%nat -> nth_error l i = nth_error xs (i mod length xs).
Proof.
  intros H D. destruct (load_cycle dim file xs [] garbage targets H D) as (l & E & L & N).
  unfold collected in N. rewrite app_nil_r in N. now exists l.
Qed.
Print Assumptions C48_partial.
(** A file that goes on with white space (a line end is enough): the last number counts
    twice, so that the cycle has [k+1] values.  The claim holds for the first [k] cells. *)
Theorem C48_trailing dim file xs c tail garbage targets : file_of file xs (c :: tail) -> dim = 2 \/ dim = 3 ->
  exists l, load_target_fill dim file garbage targets = Ok l /\ length l = length targets /\
  forall i, (i < length targets)%nat -> nth_error l i = nth_error (xs ++ [last xs NaN]) (i mod (length xs + 1)).
Proof.
  intros H D. destruct (load_cycle dim file xs _ garbage targets H D) as (l & E & L & N).
  unfold collected in N. rewrite app_length in N. now exists l.
Qed.
Print Assumptions C48_trailing.
(** Other dimensions throw. *)
Theorem C48_dimension dim file garbage targets : dim <> 2 -> dim <> 3 -> load_target_fill dim file garbage targets = Throw.
Proof. intros A B. unfold load_target_fill. destruct (Z.eqb_spec dim 3), (Z.eqb_spec dim 2); easy. Qed.
Print Assumptions C48_dimension.

(** The values 0.5 and 1 *)
Lemma value_half : stands_for false [53] [] (-1) = Fin false (/ 2).
Proof.
  unfold stands_for. replace (IZR (number (rev ([53] ++ []))%Z) * bpow ten (-1 - Z.of_nat (length (@nil Z))))%R with (/ 2)%R by (cbn; lra).
  assert (D : is_double (/ 2)).
  { unfold is_double. replace (/ 2)%R with (bpow radix2 (-1)) by (cbn; lra). apply generic_format_bpow. now compute. }
  unfold to_dbl. rewrite round_generic; [|apply valid_rnd_N|exact D].
  destruct (Rlt_dec (/ 2) (bpow radix2 1024)) as [_|N]; [easy|]. contradiction N.
  apply Rlt_le_trans with (bpow radix2 0); [cbn; lra|apply bpow_le; lia].
Qed.
Lemma value_one : stands_for false [49] [48] 0 = Fin false 1.
Proof.
  unfold stands_for. replace (IZR (number (rev ([49] ++ [48]))%Z) * bpow ten (0 - Z.of_nat (length [48%Z])))%R with 1%R by (cbn; lra).
  assert (D : is_double 1).
  { unfold is_double. change 1%R with (bpow radix2 0). apply generic_format_bpow. now compute. }
  unfold to_dbl. rewrite round_generic; [|apply valid_rnd_N|exact D].
  destruct (Rlt_dec 1 (bpow radix2 1024)) as [_|N]; [easy|]. contradiction N. change 1%R with (bpow radix2 0). now apply bpow_lt.
Qed.
(** The text "5e-01 1.0", and the same with a line end *)
Definition two_fills : list Z := [53; 101; 45; 48; 49; 32; 49; 46; 48].
Example two_fills_ok tail : Forall blank tail -> file_of (two_fills ++ tail) [Fin false (/ 2); Fin false 1] tail.
Proof.
  intros T. rewrite <- value_half, <- value_one.
  assert (D : forall c, 48 <= c <= 57 -> Forall decimal_digit [c]) by (intros; repeat constructor; lia).
  apply (file_more [] false [53] [] [101; 45; 48; 49] (-1) 32 (49 :: 46 :: 48 :: tail) [stands_for false [49] [48] 0] tail);
    [constructor|now apply D|easy|constructor| |now left|now rewrite value_half|].
  - apply (power_minus 101 [48; 49]); [now left| |easy]. constructor; [unfold decimal_digit; lia|now apply D].
  - apply (file_last [32] false [49] [48] [] 0 tail); [repeat constructor|now apply D|easy|now apply D|constructor|exact T|now rewrite value_one].
Qed.
Theorem C48_refuted : exists file xs tail garbage targets l i, file_of file xs tail /\
  load_target_fill 3 file garbage targets = Ok l /\ (i < length targets)%nat /\
  nth_error l i <> nth_error xs (i mod length xs).
Proof.
  set (targets := repeat (Fin false 1) 4).
  assert (T : Forall blank [10]) by (repeat constructor; unfold blank; lia).
  destruct (C48_trailing 3 _ _ 10 [] NaN targets (two_fills_ok [10] T) ltac:(auto)) as (l & E & L & N).
  exists (two_fills ++ [10]), [Fin false (/ 2); Fin false 1], [10], NaN, targets, l, 2%nat.
  split; [now apply two_fills_ok|]. split; [exact E|]. split; [cbn; lia|].
  rewrite N by (cbn; lia). cbn. intros X. injection X as X. lra.
Qed.
Print Assumptions C48_refuted.
(** A file without numbers gives every cell the uninitialised variable. *)
Theorem C48_blank file dim garbage targets : Forall blank file -> dim = 2 \/ dim = 3 ->
  load_target_fill dim file garbage targets = Ok (repeat garbage (length targets)).
Proof.
  intros B Dm. unfold load_target_fill.
  assert (Dt : ((dim =? 3) || (dim =? 2))%bool = true) by (destruct Dm; subst; reflexivity). rewrite Dt.
  destruct targets as [|t ts]; [easy|]. set (n := length (t :: ts)).
  assert (V : load n (opened file) garbage = [garbage]).
  { unfold n. cbn [length load]. change (s_eof (opened file)) with false. cbv iota.
    unfold extract, opened. cbn [s_eof s_fail s_rest orb]. rewrite (skip_all _ B). f_equal. destruct (length ts); reflexivity. }
  rewrite V. rewrite (@omap_list_Ok _ _ _ (fun _ => garbage)).
  - f_equal. assert (R : forall k a, map (fun _ : nat => garbage) (seq a k) = repeat garbage k)
      by (induction k as [|k IH]; intros a; cbn; [easy|now rewrite IH]). apply R.
  - intros i _. now rewrite Z.mod_1_r.
Qed.
Print Assumptions C48_blank.
Example C48_blank_example : Forall blank [32; 10].
Proof. repeat constructor; unfold blank; lia. Qed.
