(** Proofs about lengths at a vertex, the line and sphere intersection, the second
    derivative of a composition and the signed logarithmic scale. *)
From Coq Require Import Reals Lra Lia.
From Verif Require Import Base Containers Mesh MergeProofs Edit Geom SpecGeom CoordProofs GeomProofs CentreProofs.
Set Implicit Arguments.
Open Scope R_scope.

(** ** Lengths at a vertex *)
Lemma min_fold ls : forall x, exists m, fold_left (fun b l => if ext_lt (Fin l) b then Fin l else b) ls (Fin x) = Fin m /\
  m <= x /\ (m = x \/ In m ls) /\ forall l, In l ls -> m <= l.
Proof.
  induction ls as [|y ls IH]; intros x; cbn [fold_left].
  - exists x. repeat split; auto; try lra; contradiction.
  - change (ext_lt (Fin y) (Fin x)) with (if Rlt_dec y x then true else false). destruct (Rlt_dec y x) as [L|L].
    + destruct (IH y) as (m & -> & A & B & C). exists m. split; auto. split; [lra|]. split; [destruct B as [-> | B]; simpl; auto|].
      intros l [<- | I]; auto.
    + destruct (IH x) as (m & -> & A & B & C). exists m. split; auto. split; [lra|]. split; [destruct B as [-> | B]; simpl; auto|].
      intros l [<- | I]; auto. lra.
Qed.
Lemma max_fold ls : forall x, exists m, fold_left (fun b l => if ext_lt b (Fin l) then Fin l else b) ls (Fin x) = Fin m /\
  x <= m /\ (m = x \/ In m ls) /\ forall l, In l ls -> l <= m.
Proof.
  induction ls as [|y ls IH]; intros x; cbn [fold_left].
  - exists x. repeat split; auto; try lra; contradiction.
  - change (ext_lt (Fin x) (Fin y)) with (if Rlt_dec x y then true else false). destruct (Rlt_dec x y) as [L|L].
    + destruct (IH y) as (m & -> & A & B & C). exists m. split; auto. split; [lra|]. split; [destruct B as [-> | B]; simpl; auto|].
      intros l [<- | I]; auto.
    + destruct (IH x) as (m & -> & A & B & C). exists m. split; auto. split; [lra|]. split; [destruct B as [-> | B]; simpl; auto|].
      intros l [<- | I]; auto. lra.
Qed.
Lemma min_max_length ls : ls <> [] -> exists lo hi, min_length ls = Fin lo /\ max_length ls = Fin hi /\ extremes lo hi ls.
Proof.
  destruct ls as [|y ls]; [congruence|]. intros _. unfold min_length, max_length. cbn [fold_left].
  change (ext_lt (Fin y) PInf) with true. change (ext_lt MInf (Fin y)) with true. cbv iota.
  destruct (min_fold ls y) as (lo & E & A & B & C), (max_fold ls y) as (hi & E' & A' & B' & C').
  exists lo, hi. rewrite E, E'. split; auto. split; auto. unfold extremes. simpl. split; [destruct B as [-> | B]; auto|].
  split; [destruct B' as [-> | B']; auto|]. intros x [<- | I]; auto.
Qed.
Lemma mean_infinite ls : mean_length ls = PInf.
Proof.
  unfold mean_length. assert (fold_left (fun b l => ext_add b (Fin l)) ls PInf = PInf) as ->; [|reflexivity].
  induction ls; simpl; auto.
Qed.

(** ** Line and sphere *)
Definition along (o l : list R) (t : R) : list R := pplus o (pscale t l).
Lemma along_norm o l t : point3 o -> point3 l ->
  ip (along o l t) (along o l t) = ip l l * (t * t) + 2 * ip l o * t + ip o o.
Proof.
  intros O L. destruct (point3_inv O) as (a & b & c & ->), (point3_inv L) as (x & y & z & ->). unfold along, pscale. simpl. ring.
Qed.
Lemma sphere_value l o r : point3 l -> point3 o ->
  let a := ip l l in let b := 2 * ip l o in let det := b * b - 4 * a * (ip o o - r * r) in
  intersect_line_sphere l o r = Ok (
    if Rlt_dec det 0 then None
    else if aprox_equal det 0 then Some (- b * (1 / (2 * a)), - b * (1 / (2 * a)))
    else Some ((- b - sqrt det) * (1 / (2 * a)), (- b + sqrt det) * (1 / (2 * a)))).
Proof.
  intros L O a b det. unfold intersect_line_sphere. rewrite (dot_ok L L), (dot_ok L O), (dot_ok O O). cbn [bind].
  fold a b det. destruct (Rlt_dec det 0); [reflexivity|]. destruct (aprox_equal det 0); reflexivity.
Qed.
(** Completing the square. *)
Lemma square a b c t : a <> 0 -> a * (t * t) + b * t + c = ((2 * a * t + b) * (2 * a * t + b) - (b * b - 4 * a * c)) / (4 * a).
Proof. intros A. field. auto. Qed.

(** ** Chain rule *)
Definition sumf (n : nat) (f : nat -> R) : R := rsum (map f (seq 0 n)).
Definition ent (m : list (list R)) (i j : nat) : R := nth j (nth i m []) 0.
Definition shaped (nr nc : nat) (m : list (list R)) : Prop := length m = nr /\ Forall (fun r => length r = nc) m.
Lemma rsum_map_ext (f g : nat -> R) l : (forall x, In x l -> f x = g x) -> rsum (map f l) = rsum (map g l).
Proof. intros H. induction l; simpl; auto. rewrite H by (simpl; auto). rewrite IHl by (intros; apply H; simpl; auto). auto. Qed.
Lemma sumf_ext n f g : (forall k, (k < n)%nat -> f k = g k) -> sumf n f = sumf n g.
Proof. intros H. apply rsum_map_ext. intros x I. apply in_seq in I. apply H. lia. Qed.
Lemma rsum_map_plus (f g : nat -> R) l : rsum (map (fun k => f k + g k) l) = rsum (map f l) + rsum (map g l).
Proof. induction l; simpl; [ring|]. rewrite IHl. ring. Qed.
Lemma sumf_plus n f g : sumf n (fun k => f k + g k) = sumf n f + sumf n g.
Proof. apply rsum_map_plus. Qed.
Lemma rsum_map_scal c (f : nat -> R) l : rsum (map (fun k => c * f k) l) = c * rsum (map f l).
Proof. induction l; simpl; [ring|]. rewrite IHl. ring. Qed.
Lemma sumf_scal n c f : sumf n (fun k => c * f k) = c * sumf n f.
Proof. apply rsum_map_scal. Qed.
Lemma sumf_zero n : sumf n (fun _ => 0) = 0.
Proof. unfold sumf. induction (seq 0 n); simpl; lra. Qed.
Lemma rsum_swap (l l' : list nat) (f : nat -> nat -> R) :
  rsum (map (fun i => rsum (map (fun j => f i j) l')) l) = rsum (map (fun j => rsum (map (fun i => f i j) l)) l').
Proof.
  induction l as [|i l IH]; simpl.
  - induction l'; simpl; lra.
  - now rewrite IH, rsum_map_plus.
Qed.
Lemma sumf_swap n m (f : nat -> nat -> R) : sumf n (fun i => sumf m (fun j => f i j)) = sumf m (fun j => sumf n (fun i => f i j)).
Proof. apply rsum_swap. Qed.

Lemma entry_ok nr nc m i j : shaped nr nc m -> (i < nr)%nat -> (j < nc)%nat -> entry m i j = Ok (ent m i j).
Proof.
  intros (L & F) I J. unfold entry, ent.
  destruct (nth_error m i) as [r|] eqn:E; [|apply nth_error_None in E; lia].
  assert (at_ m (Z.of_nat i) = Ok r) as -> by (apply at_Ok; split; [lia|now rewrite Nat2Z.id]). cbn [bind].
  rewrite (nth_error_nth _ _ _ E). assert (length r = nc) by (rewrite Forall_forall in F; apply F; eapply nth_error_In; eauto).
  destruct (nth_error r j) as [x|] eqn:Ex; [|apply nth_error_None in Ex; lia].
  rewrite (nth_error_nth _ _ _ Ex). apply at_Ok. split; [lia|now rewrite Nat2Z.id].
Qed.
Lemma shaped_cols nr nc m : shaped nr nc m -> (0 < nr)%nat -> cols m = nc.
Proof. intros (L & F) N. destruct m; simpl in *; [lia|]. inversion F; auto. Qed.
Lemma build_ok nr nc f (h : nat -> nat -> R) : (forall i j, (i < nr)%nat -> (j < nc)%nat -> f i j = Ok (h i j)) ->
  exists m, build nr nc f = Ok m /\ shaped nr nc m /\ forall i j, (i < nr)%nat -> (j < nc)%nat -> ent m i j = h i j.
Proof.
  intros H. unfold build. exists (map (fun i => map (fun j => h i j) (seq 0 nc)) (seq 0 nr)). split; [|split].
  - apply omap_list_Ok. intros i I. apply in_seq in I. apply omap_list_Ok. intros j J. apply in_seq in J. apply H; lia.
  - split; [now rewrite map_length, seq_length|]. apply Forall_forall. intros r I. apply in_map_iff in I.
    destruct I as (i & <- & _). now rewrite map_length, seq_length.
  - intros i j I J. unfold ent.
    rewrite (nth_indep _ [] (map (fun j => h 0%nat j) (seq 0 nc))) by now rewrite map_length, seq_length.
    rewrite (map_nth (fun i => map (fun j => h i j) (seq 0 nc))), seq_nth by auto. simpl.
    rewrite (nth_indep _ 0 (h i 0%nat)) by now rewrite map_length, seq_length.
    rewrite (map_nth (fun j => h i j)), seq_nth by auto. reflexivity.
Qed.
Lemma sum_to_ok n f (h : nat -> R) : (forall k, (k < n)%nat -> f k = Ok (h k)) -> sum_to n f = Ok (sumf n h).
Proof.
  intros H. unfold sum_to, sumf.
  assert (X : forall l r, (forall k, In k l -> f k = Ok (h k)) -> for_each l (fun k r => do x <- f k; Ok (r + x)) r = Ok (r + rsum (map h l))).
  { induction l as [|k l IH]; intros r Hl; simpl; [f_equal; ring|]. rewrite Hl by (simpl; auto). cbn [bind].
    rewrite IH by (intros; apply Hl; simpl; auto). f_equal. ring. }
  rewrite X by (intros k I; apply in_seq in I; apply H; lia). f_equal. ring.
Qed.
Lemma mat_mul_ok nr nk nc a b : (0 < nr)%nat -> (0 < nk)%nat -> shaped nr nk a -> shaped nk nc b ->
  exists m, mat_mul a b = Ok m /\ shaped nr nc m /\
    forall i j, (i < nr)%nat -> (j < nc)%nat -> ent m i j = sumf nk (fun k => ent a i k * ent b k j).
Proof.
  intros N K A B. unfold mat_mul. rewrite (shaped_cols A N), (shaped_cols B K). pose proof A as (LA & _). pose proof B as (LB & _).
  rewrite LA, LB, Nat.eqb_refl. apply build_ok. intros i j I J. apply sum_to_ok. intros k Kk.
  rewrite (entry_ok A I Kk), (entry_ok B Kk J). reflexivity.
Qed.
Lemma mat_tr_ok nr nc a : (0 < nr)%nat -> shaped nr nc a ->
  exists m, mat_tr a = Ok m /\ shaped nc nr m /\ forall i j, (i < nc)%nat -> (j < nr)%nat -> ent m i j = ent a j i.
Proof.
  intros N A. unfold mat_tr. rewrite (shaped_cols A N). pose proof A as (LA & _). rewrite LA. apply build_ok.
  intros i j I J. now rewrite (entry_ok A J I).
Qed.
Lemma mat_add_ok nr nc a b : (0 < nr)%nat -> shaped nr nc a -> shaped nr nc b ->
  exists m, mat_add a b = Ok m /\ shaped nr nc m /\ forall i j, (i < nr)%nat -> (j < nc)%nat -> ent m i j = ent a i j + ent b i j.
Proof.
  intros N A B. unfold mat_add. rewrite (shaped_cols A N), (shaped_cols B N). pose proof A as (LA & _). pose proof B as (LB & _).
  rewrite LA, LB, !Nat.eqb_refl. cbn [andb]. apply build_ok. intros i j I J. now rewrite (entry_ok A I J), (entry_ok B I J).
Qed.
Lemma vec_by_ok n nv vec arr : (0 < n)%nat -> (0 < nv)%nat -> shaped 1 nv vec -> shaped n (n * nv) arr ->
  exists m, vec_by_3dim vec arr = Ok m /\ shaped n n m /\
    forall i j, (i < n)%nat -> (j < n)%nat -> ent m i j = sumf nv (fun k => ent arr i (j + k * n) * ent vec 0 k).
Proof.
  intros N V A B. unfold vec_by_3dim. rewrite (shaped_cols A) by lia. rewrite (shaped_cols B) by lia.
  replace (nv =? 0)%nat with false by (symmetry; apply Nat.eqb_neq; lia). rewrite Nat.div_mul by lia.
  pose proof B as (LB & _). rewrite LB. apply build_ok. intros i j I J. apply sum_to_ok. intros k K.
  rewrite (@entry_ok n (n * nv) arr i (j + k * n)); auto; [|nia]. rewrite (@entry_ok 1 nv vec 0 k) by (auto; lia). reflexivity.
Qed.

Section Chain.
Variables (n nv : nat) (n_pos : (0 < n)%nat) (nv_pos : (0 < nv)%nat).
Variables dSdc dcdd HSc Hcd : list (list R).
Hypotheses (A : shaped 1 nv dSdc) (B : shaped nv n dcdd) (C : shaped nv nv HSc) (D : shaped n (n * nv) Hcd).
Lemma deriv1_ok : exists m, deriv1 dSdc dcdd = Ok m /\ shaped 1 n m /\
  forall j, (j < n)%nat -> ent m 0 j = sumf nv (fun k => ent dSdc 0 k * ent dcdd k j).
Proof.
  unfold deriv1. destruct (@mat_mul_ok 1 nv n dSdc dcdd) as (m & E & S & H); auto. exists m. split; auto. 
Qed.
Lemma deriv2_ok : exists m, deriv2 dSdc dcdd HSc Hcd = Ok m /\ shaped n n m /\
  forall i j, (i < n)%nat -> (j < n)%nat -> ent m i j =
    sumf nv (fun k => ent Hcd i (j + k * n) * ent dSdc 0 k) +
    sumf nv (fun l => sumf nv (fun k => ent dcdd k i * ent HSc k l) * ent dcdd l j).
Proof.
  unfold deriv2. destruct (vec_by_ok n_pos nv_pos A D) as (h & -> & Sh & Hh). cbn [bind].
  destruct (mat_tr_ok nv_pos B) as (t & -> & St & Ht). cbn [bind].
  destruct (mat_mul_ok n_pos nv_pos St C) as (a & -> & Sa & Ha). cbn [bind].
  destruct (mat_mul_ok n_pos nv_pos Sa B) as (b & -> & Sb & Hb). cbn [bind].
  destruct (mat_add_ok n_pos Sh Sb) as (m & -> & Sm & Hm). exists m. split; auto. split; auto.
  intros i j I J. rewrite Hm, Hh, Hb by auto. f_equal. apply sumf_ext. intros l Ll. rewrite Ha by auto. f_equal.
  apply sumf_ext. intros k K. now rewrite Ht.
Qed.
(** The inner function along direction [d], and the outer function. *)
Variable d : nat -> R.
Definition inner1 (k : nat) : R := sumf n (fun j => ent dcdd k j * d j).
Definition inner2 (k : nat) : R := sumf n (fun i => sumf n (fun j => d i * ent Hcd i (j + k * n) * d j)).
Definition step_to (t : R) (k : nat) : R := t * inner1 k + t * t / 2 * inner2 k.
Definition outer (s0 : R) (u : nat -> R) : R :=
  s0 + sumf nv (fun k => ent dSdc 0 k * u k) + / 2 * sumf nv (fun k => sumf nv (fun l => ent HSc k l * u k * u l)).
Lemma quad_expand (x y : nat -> R) t :
  sumf nv (fun k => sumf nv (fun l => ent HSc k l * (t * x k + t * t / 2 * y k) * (t * x l + t * t / 2 * y l))) =
  t * t * sumf nv (fun k => sumf nv (fun l => ent HSc k l * x k * x l)) +
  t * t * t * (/ 2 * (sumf nv (fun k => sumf nv (fun l => ent HSc k l * x k * y l)) + sumf nv (fun k => sumf nv (fun l => ent HSc k l * y k * x l)))) +
  t * t * t * t * (/ 4 * sumf nv (fun k => sumf nv (fun l => ent HSc k l * y k * y l))).
Proof.
  rewrite <- sumf_plus, <- !sumf_scal, <- !sumf_plus. apply sumf_ext. intros k K.
  rewrite <- sumf_plus, <- !sumf_scal, <- !sumf_plus. apply sumf_ext. intros l L. field.
Qed.
Lemma chain s0 : exists g h r3 r4, deriv1 dSdc dcdd = Ok g /\ deriv2 dSdc dcdd HSc Hcd = Ok h /\
  forall t, outer s0 (step_to t) =
    s0 + t * sumf n (fun j => ent g 0 j * d j) + t * t / 2 * sumf n (fun i => sumf n (fun j => d i * ent h i j * d j)) +
    t * t * t * r3 + t * t * t * t * r4.
Proof.
  destruct deriv1_ok as (g & Eg & Sg & Hg), deriv2_ok as (h & Eh & Sh & Hh).
  exists g, h. do 2 eexists. split; auto. split; auto. intros t. unfold outer, step_to. rewrite quad_expand.
  assert (X1 : sumf n (fun j => ent g 0 j * d j) = sumf nv (fun k => ent dSdc 0 k * inner1 k)).
  { transitivity (sumf n (fun j => sumf nv (fun k => ent dSdc 0 k * (ent dcdd k j * d j)))).
    - apply sumf_ext. intros j J. rewrite Hg by auto. rewrite Rmult_comm, <- sumf_scal. apply sumf_ext. intros. ring.
    - rewrite sumf_swap. apply sumf_ext. intros k K. apply sumf_scal. }
  assert (X2 : sumf n (fun i => sumf n (fun j => d i * ent h i j * d j)) =
    sumf nv (fun k => ent dSdc 0 k * inner2 k) + sumf nv (fun k => sumf nv (fun l => ent HSc k l * inner1 k * inner1 l))).
  { transitivity (sumf n (fun i => sumf n (fun j => sumf nv (fun k => ent dSdc 0 k * (d i * ent Hcd i (j + k * n) * d j)))) +
                  sumf n (fun i => sumf n (fun j => sumf nv (fun k => sumf nv (fun l => ent HSc k l * (ent dcdd k i * d i) * (ent dcdd l j * d j)))))).
    - rewrite <- sumf_plus. apply sumf_ext. intros i I. rewrite <- sumf_plus. apply sumf_ext. intros j J. rewrite Hh by auto.
      replace (d i * (sumf nv (fun k => ent Hcd i (j + k * n) * ent dSdc 0 k) + sumf nv (fun l => sumf nv (fun k => ent dcdd k i * ent HSc k l) * ent dcdd l j)) * d j)
        with ((d i * d j) * sumf nv (fun k => ent Hcd i (j + k * n) * ent dSdc 0 k) + (d i * d j) * sumf nv (fun l => sumf nv (fun k => ent dcdd k i * ent HSc k l) * ent dcdd l j)) by ring.
      f_equal.
      + rewrite <- sumf_scal. apply sumf_ext. intros. ring.
      + rewrite <- sumf_scal, (sumf_swap nv nv). apply sumf_ext. intros l L.
        replace (d i * d j * (sumf nv (fun k => ent dcdd k i * ent HSc k l) * ent dcdd l j)) with ((d i * d j * ent dcdd l j) * sumf nv (fun k => ent dcdd k i * ent HSc k l)) by ring.
        rewrite <- sumf_scal. apply sumf_ext. intros. ring.
    - f_equal.
      + transitivity (sumf n (fun i => sumf nv (fun k => sumf n (fun j => ent dSdc 0 k * (d i * ent Hcd i (j + k * n) * d j))))).
        * apply sumf_ext. intros. apply sumf_swap.
        * rewrite sumf_swap. apply sumf_ext. intros k K. unfold inner2. rewrite <- sumf_scal. apply sumf_ext. intros. rewrite <- sumf_scal. apply sumf_ext. intros. ring.
      + transitivity (sumf n (fun i => sumf nv (fun k => sumf nv (fun l => ent HSc k l * (ent dcdd k i * d i) * inner1 l)))).
        * apply sumf_ext. intros i I. rewrite sumf_swap. apply sumf_ext. intros k K. rewrite sumf_swap. apply sumf_ext. intros l L.
          unfold inner1. now rewrite <- sumf_scal.
        * rewrite sumf_swap. apply sumf_ext. intros k K. rewrite sumf_swap. apply sumf_ext. intros l L.
          unfold inner1 at 2. rewrite (Rmult_comm (ent HSc k l)), Rmult_assoc, Rmult_comm, <- sumf_scal.
          apply sumf_ext. intros. ring. }
  assert (X3 : sumf nv (fun k => ent dSdc 0 k * (t * inner1 k + t * t / 2 * inner2 k)) =
     t * sumf nv (fun k => ent dSdc 0 k * inner1 k) + t * t / 2 * sumf nv (fun k => ent dSdc 0 k * inner2 k)).
  { rewrite <- !sumf_scal, <- sumf_plus. apply sumf_ext. intros. ring. }
  rewrite X1, X2, X3.
  set (q0 := sumf nv (fun k => sumf nv (fun l => ent HSc k l * inner1 k * inner1 l))).
  set (q1 := sumf nv (fun k => sumf nv (fun l => ent HSc k l * inner1 k * inner2 l))).
  set (q2 := sumf nv (fun k => sumf nv (fun l => ent HSc k l * inner2 k * inner1 l))).
  set (q3 := sumf nv (fun k => sumf nv (fun l => ent HSc k l * inner2 k * inner2 l))).
  instantiate (2 := / 4 * (sumf nv (fun k => sumf nv (fun l => ent HSc k l * inner1 k * inner2 l)) + sumf nv (fun k => sumf nv (fun l => ent HSc k l * inner2 k * inner1 l)))).
  instantiate (1 := / 8 * sumf nv (fun k => sumf nv (fun l => ent HSc k l * inner2 k * inner2 l))).
  fold q1 q2 q3. field.
Qed.
End Chain.

(** ** Signed logarithmic scale *)
Lemma ln10_pos : 0 < ln 10.
Proof. rewrite <- ln_1. apply ln_increasing; lra. Qed.
Lemma log10_lt x y : 0 < x -> x < y -> log10 x < log10 y.
Proof. intros X L. unfold log10. apply Rmult_lt_compat_r; [apply Rinv_0_lt_compat, ln10_pos|now apply ln_increasing]. Qed.
Lemma log10_pow (k : nat) : log10 (10 ^ k) = INR k.
Proof. unfold log10. rewrite ln_pow by lra. pose proof ln10_pos. field. lra. Qed.
Lemma log10_inv x : 0 < x -> log10 (/ x) = - log10 x.
Proof. intros X. unfold log10. rewrite ln_Rinv by auto. pose proof ln10_pos. field. lra. Qed.
