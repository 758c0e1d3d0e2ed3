(** Lemmas about the value and the Jacobian of the centroid of an outline. *)
From Coq Require Import Reals List Lia Lra.
From Coquelicot Require Import Coquelicot.
From Verif Require Import Base RsvsMath SpecRsvs SpecCentre RsvsCentreJac RsvsCentreJac4 RsvsCentreJac5 RsvsCentreJac6.
Set Implicit Arguments.
Open Scope R_scope.

(** *** Neighbours *)
Lemma next_mod n i : (i < n)%nat -> next n i = ((i + 1) mod n)%nat.
Proof.
  intros H. unfold next. destruct (Nat.eqb_spec (S i) n) as [E|E].
  - replace (i + 1)%nat with n by lia. rewrite Nat.mod_same; lia.
  - rewrite Nat.mod_small; lia.
Qed.
Lemma next_lt n i : (i < n)%nat -> (next n i < n)%nat.
Proof. intros H. unfold next. destruct (Nat.eqb_spec (S i) n); lia. Qed.
Lemma prev_lt n i : (i < n)%nat -> (prev n i < n)%nat.
Proof. intros H. unfold prev. destruct i; lia. Qed.
Lemma next_prev n i : (i < n)%nat -> next n (prev n i) = i.
Proof. intros H. unfold next, prev. destruct i as [|i]; [destruct (Nat.eqb_spec (S (n - 1)) n)|destruct (Nat.eqb_spec (S i) n)]; lia. Qed.
Lemma next_is n i v : (i < n)%nat -> (v < n)%nat -> next n i = v -> i = prev n v.
Proof. intros Hi Hv. unfold next, prev. destruct v as [|v]; destruct (Nat.eqb_spec (S i) n); lia. Qed.
Lemma next_neq n i : (2 <= n)%nat -> (i < n)%nat -> next n i <> i.
Proof. intros Hn H. unfold next. destruct (Nat.eqb_spec (S i) n); lia. Qed.
Lemma prev_neq n i : (2 <= n)%nat -> (i < n)%nat -> prev n i <> i.
Proof. intros Hn H. unfold prev. destruct i; lia. Qed.

(** *** Sums *)
Lemma sum_to_ext n f g : (forall i, (i < n)%nat -> f i = g i) -> sum_to n f = sum_to n g.
Proof. intros H. unfold sum_to. f_equal. apply map_ext_in. intros i Hi. apply in_seq in Hi. apply H. lia. Qed.
Lemma sum_to_S n f : sum_to (S n) f = sum_to n f + f n.
Proof.
  unfold sum_to. rewrite seq_S, map_app. cbn [Nat.add map app].
  generalize (map f (seq 0 n)). intros l. induction l as [|a r IH]; cbn [app fold_right]; lra.
Qed.
Lemma sum_to_plus n f g : sum_to n (fun i => f i + g i) = sum_to n f + sum_to n g.
Proof. induction n; [cbn; lra|]. rewrite !sum_to_S, IHn. lra. Qed.
Lemma sum_to_one n v x : (v < n)%nat -> sum_to n (fun i => if Nat.eqb i v then x else 0) = x.
Proof.
  assert (Z : forall n v, (n <= v)%nat -> sum_to n (fun i => if Nat.eqb i v then x else 0) = 0).
  { clear. induction n; intros v H; [reflexivity|]. rewrite sum_to_S, IHn by lia. destruct (Nat.eqb_spec n v); [lia|lra]. }
  induction n; intros H; [lia|]. rewrite sum_to_S. destruct (Nat.eqb_spec n v) as [->|E]; [rewrite Z by lia; lra|rewrite IHn by lia; lra].
Qed.
Lemma sum_to_derive n (f : R -> nat -> R) (d : nat -> R) x :
  (forall i, (i < n)%nat -> is_derive (fun t => f t i) x (d i)) -> is_derive (fun t => sum_to n (f t)) x (sum_to n d).
Proof.
  induction n; intros H.
  - cbn. apply (is_derive_const 0 x).
  - apply is_derive_ext with (f := fun t => sum_to n (f t) + f t n); [intros t; symmetry; apply sum_to_S|].
    rewrite sum_to_S. apply (is_derive_plus (fun t => sum_to n (f t)) (fun t => f t n)); [apply IHn; intros; apply H; lia|apply H; lia].
Qed.
Lemma sum_to_nonneg n f : (forall i, (i < n)%nat -> 0 <= f i) -> 0 <= sum_to n f.
Proof. induction n; intros H; [cbn; lra|]. rewrite sum_to_S. pose proof (H n ltac:(lia)). assert (0 <= sum_to n f) by (apply IHn; intros; apply H; lia). lra. Qed.
Lemma sum_to_ge n f v : (forall i, (i < n)%nat -> 0 <= f i) -> (v < n)%nat -> f v <= sum_to n f.
Proof.
  induction n; intros H Hv; [lia|]. rewrite sum_to_S. pose proof (H n ltac:(lia)).
  destruct (Nat.eq_dec v n) as [->|]; [pose proof (@sum_to_nonneg n f ltac:(intros; apply H; lia)); lra|].
  assert (f v <= sum_to n f) by (apply IHn; [intros; apply H; lia|lia]). lra.
Qed.

(** *** Lengths *)
Lemma dist_sym p q : dist p q = dist q p.
Proof. unfold dist. f_equal. unfold vdot, vsub. ring. Qed.
Lemma dist_nonneg p q : 0 <= dist p q.
Proof. apply sqrt_pos. Qed.
Lemma vdot_self_nonneg p : 0 <= vdot p p.
Proof. unfold vdot. pose proof (Rle_0_sqr (p 0%nat)). pose proof (Rle_0_sqr (p 1%nat)). pose proof (Rle_0_sqr (p 2%nat)). unfold Rsqr in *. lra. Qed.
Lemma dist_sq p q : dist p q * dist p q = vdot (vsub p q) (vsub p q).
Proof. apply sqrt_sqrt. apply vdot_self_nonneg. Qed.

Lemma dist_slope p q m : 0 < dist p q -> (m < 3)%nat ->
  is_derive (fun t => dist (set_at p m t) q) (p m) ((p m - q m) / dist p q).
Proof.
  intros H Hm. assert (P : 0 < vdot (vsub p q) (vsub p q)).
  { unfold dist in H. destruct (Rlt_le_dec 0 (vdot (vsub p q) (vsub p q))); auto. rewrite sqrt_neg_0 in H; lra. }
  unfold dist in *. remember (sqrt (vdot (vsub p q) (vsub p q))) as s eqn:E. revert P E.
  each m ltac:(cbv [vdot vsub set_at Nat.eqb]; intros P E; auto_derive;
    [eapply Rlt_le_trans; [exact P|]; right; ring
    |match goal with |- context [sqrt ?A] => replace (sqrt A) with s by (rewrite E; f_equal; ring) end; field; lra]).
Qed.

(** *** The slope of the centre *)
Section Slope.
Variables (n : nat) (c : nat -> nat -> R) (v m : nat).
Hypotheses (Hn : (3 <= n)%nat) (Hv : (v < n)%nat) (Hm : (m < 3)%nat).
Let u := prev n v.
Let w := next n v.
Hypotheses (Ha : 0 < side n c u) (Hb : 0 < side n c v).

Lemma moved_here t : forall k, move c v m t v k = set_at (c v) m t k.
Proof. intros k. unfold move, set_at. rewrite Nat.eqb_refl. reflexivity. Qed.
Lemma moved_other t i : i <> v -> forall k, move c v m t i k = c i k.
Proof. intros H k. unfold move. destruct (Nat.eqb_spec i v); [contradiction|]. reflexivity. Qed.
Lemma dist_ext p q p' q' : (forall k, p k = p' k) -> (forall k, q k = q' k) -> dist p q = dist p' q'.
Proof. intros E F. unfold dist, vdot, vsub. rewrite !E, !F. reflexivity. Qed.

Let da := (c v m - c u m) / side n c u.
Let db := (c v m - c w m) / side n c v.

Lemma wv : w <> v. Proof. apply next_neq; auto; lia. Qed.
Lemma uv : u <> v. Proof. apply prev_neq; auto; lia. Qed.
Lemma un : next n u = v. Proof. apply next_prev; auto. Qed.

Lemma side_slope i : (i < n)%nat ->
  is_derive (fun t => side n (move c v m t) i) (c v m) ((if Nat.eqb i u then da else 0) + (if Nat.eqb i v then db else 0)).
Proof.
  intros Hi. unfold side. destruct (Nat.eqb_spec i u) as [->|Nu].
  - destruct (Nat.eqb_spec u v) as [E|_]; [exfalso; apply uv; auto|]. rewrite un.
    apply is_derive_ext with (f := fun t => dist (set_at (c v) m t) (c u)).
    { intros t. rewrite dist_sym. apply dist_ext; intros k; symmetry; [apply moved_other, uv|apply moved_here]. }
    replace (da + 0) with ((c v m - c u m) / dist (c v) (c u)).
    2:{ unfold da, side. rewrite un, (dist_sym (c v)), Rplus_0_r. reflexivity. }
    apply dist_slope; auto. revert Ha. unfold side. rewrite un, dist_sym. auto.
  - destruct (Nat.eqb_spec i v) as [->|Nv].
    + apply is_derive_ext with (f := fun t => dist (set_at (c v) m t) (c w)).
      { intros t. apply dist_ext; intros k; symmetry; [apply moved_here|apply moved_other, wv]. }
      rewrite Rplus_0_l. apply dist_slope; auto.
    + rewrite Rplus_0_r. apply is_derive_ext with (f := fun _ => dist (c i) (c (next n i))).
      { intros t. apply dist_ext; intros k; symmetry; apply moved_other; auto. intros E. apply Nu. apply next_is; auto. }
      apply (is_derive_const (dist (c i) (c (next n i)))).
Qed.

Lemma middle_slope i k : (i < n)%nat ->
  is_derive (fun t => middle n (move c v m t) i k) (c v m)
    (if Nat.eqb k m then (if Nat.eqb i u then / 2 else 0) + (if Nat.eqb i v then / 2 else 0) else 0).
Proof.
  intros Hi. unfold middle. destruct (Nat.eqb_spec i u) as [->|Nu].
  - destruct (Nat.eqb_spec u v) as [E|_]; [exfalso; apply uv; auto|]. rewrite un.
    apply is_derive_ext with (f := fun t => (c u k + set_at (c v) m t k) / 2).
    { intros t. rewrite moved_here, moved_other; auto. apply uv. }
    unfold set_at. destruct (Nat.eqb_spec k m); auto_derive; auto; field.
  - destruct (Nat.eqb_spec i v) as [->|Nv].
    + apply is_derive_ext with (f := fun t => (set_at (c v) m t k + c w k) / 2).
      { intros t. rewrite moved_here, moved_other; auto. apply wv. }
      unfold set_at. destruct (Nat.eqb_spec k m); auto_derive; auto; field.
    + apply is_derive_ext with (f := fun _ => (c i k + c (next n i) k) / 2).
      { intros t. rewrite !moved_other; auto. intros E. apply Nu. apply next_is; auto. }
      assert (Z : 0 + 0 = 0) by lra. rewrite Z. destruct (Nat.eqb k m); apply (is_derive_const ((c i k + c (next n i) k) / 2)).
Qed.

Lemma move_id i k : move c v m (c v m) i k = c i k.
Proof. unfold move. destruct (Nat.eqb_spec i v), (Nat.eqb_spec k m); subst; auto. Qed.
Lemma side_id i : side n (move c v m (c v m)) i = side n c i.
Proof. apply dist_ext; intros k; apply move_id. Qed.
Lemma middle_id i k : middle n (move c v m (c v m)) i k = middle n c i k.
Proof. unfold middle. rewrite !move_id. reflexivity. Qed.

Lemma outline_slope : is_derive (fun t => outline n (move c v m t)) (c v m) (da + db).
Proof.
  unfold outline.
  replace (da + db) with (sum_to n (fun i => (if Nat.eqb i u then da else 0) + (if Nat.eqb i v then db else 0))).
  - apply sum_to_derive. intros i Hi. apply side_slope; auto.
  - rewrite sum_to_plus, !sum_to_one; auto. apply prev_lt; auto.
Qed.

Definition weighted k (c : nat -> nat -> R) := sum_to n (fun i => side n c i * middle n c i k).
Lemma weighted_slope k : is_derive (fun t => weighted k (move c v m t)) (c v m)
  ((if Nat.eqb k m then (side n c u + side n c v) / 2 else 0) + middle n c u k * da + middle n c v k * db).
Proof.
  unfold weighted.
  replace (_ + _ + _) with (sum_to n (fun i =>
    (if Nat.eqb i u then (if Nat.eqb k m then side n c u / 2 else 0) + middle n c u k * da else 0)
    + (if Nat.eqb i v then (if Nat.eqb k m then side n c v / 2 else 0) + middle n c v k * db else 0))).
  - apply sum_to_derive. intros i Hi.
    pose proof (is_derive_mult _ _ _ _ _ (@side_slope i Hi) (@middle_slope i k Hi) Rmult_comm) as K.
    match type of K with is_derive _ _ ?d => match goal with |- is_derive _ _ ?d' => replace d' with d; [exact K|] end end.
    rewrite side_id, middle_id. unfold plus, mult; cbn.
    clear K. destruct (Nat.eqb_spec i u) as [->|Nu].
    + destruct (Nat.eqb_spec u v) as [E|_]; [exfalso; apply uv; auto|]. destruct (Nat.eqb k m); field.
    + destruct (Nat.eqb_spec i v) as [->|_]; destruct (Nat.eqb k m); field.
  - rewrite sum_to_plus, !sum_to_one; auto; [|apply prev_lt; auto]. destruct (Nat.eqb k m); field.
Qed.

Lemma outline_pos : 0 < outline n c.
Proof.
  unfold outline. pose proof (@sum_to_ge n (side n c) v ltac:(intros; apply dist_nonneg) Hv). lra.
Qed.

Lemma centre_slope_is k : centre_slope n c k v m
  (((if Nat.eqb k m then (side n c u + side n c v) / 2 else 0) + middle n c u k * da + middle n c v k * db) / outline n c
   - weighted k c / (outline n c * outline n c) * (da + db)).
Proof.
  unfold centre_slope, wire_centre. apply is_derive_Reals.
  assert (E : outline n (move c v m (c v m)) = outline n c) by (apply sum_to_ext; intros; apply side_id).
  assert (E2 : weighted k (move c v m (c v m)) = weighted k c)
    by (apply sum_to_ext; intros; rewrite side_id, middle_id; reflexivity).
  pose proof outline_pos as P.
  assert (Nz : outline n (move c v m (c v m)) <> 0) by (rewrite E; lra).
  pose proof (is_derive_div _ _ _ _ _ (weighted_slope k) outline_slope Nz) as K.
  match type of K with is_derive _ _ ?d => match goal with |- is_derive _ _ ?d' => replace d' with d; [exact K|] end end.
  rewrite E, E2. field. lra.
Qed.
End Slope.

(** *** The value *)
Lemma ptm_here p i : (i < length p)%nat -> ptm p i = pt p i.
Proof. intros H. unfold ptm. rewrite Nat.mod_small; auto. Qed.
Lemma ptm_next p i : (i < length p)%nat -> ptm p (i + 1) = pt p (next (length p) i).
Proof. intros H. unfold ptm. rewrite next_mod; auto. Qed.

Lemma edge_sums_is p : fst (edge_sums p) = outline (length p) (pt p) /\
  forall k, snd (edge_sums p) k = weighted (length p) k (pt p).
Proof.
  unfold edge_sums, outline, weighted, sum_to.
  assert (G : forall l acc, (forall i, In i l -> (i < length p)%nat) ->
    let r := fold_left (fun acc jj => let e := LengthEdge_f (ptm p jj) (ptm p (jj + 1)) in
      (fst acc + e, fun k => snd acc k + e * (ptm p jj k + ptm p (jj + 1) k) / 2)) l acc in
    fst r = fst acc + fold_right Rplus 0 (map (side (length p) (pt p)) l) /\
    forall k, snd r k = snd acc k + fold_right Rplus 0 (map (fun i => side (length p) (pt p) i * middle (length p) (pt p) i k) l)).
  { induction l as [|i r IH]; intros acc H; cbn [fold_left map fold_right]; [cbn; split; intros; lra|].
    destruct (IH (fst acc + LengthEdge_f (ptm p i) (ptm p (i + 1)),
       fun k => snd acc k + LengthEdge_f (ptm p i) (ptm p (i + 1)) * (ptm p i k + ptm p (i + 1) k) / 2)) as [A B];
      [intros; apply H; right; auto|]. cbv zeta. cbv zeta in A, B. split.
    - rewrite A. cbn [fst]. rewrite ptm_here, ptm_next by (apply H; left; auto). unfold side.
      change (LengthEdge_f (pt p i) (pt p (next (length p) i))) with (dist (pt p i) (pt p (next (length p) i))). lra.
    - intros k. rewrite B. cbn [snd]. rewrite ptm_here, ptm_next by (apply H; left; auto). unfold side, middle.
      change (LengthEdge_f (pt p i) (pt p (next (length p) i))) with (dist (pt p i) (pt p (next (length p) i))). lra. }
  destruct (G (seq 0 (length p)) (0, fun _ => 0)) as [A B]; [intros i Hi; apply in_seq in Hi; lia|].
  cbv zeta in A, B. cbn [fst snd] in A, B. split; [etransitivity; [exact A|lra]|intros k; etransitivity; [exact (B k)|lra]].
Qed.

(** *** The Jacobian *)
Lemma pair_dec (a b : nat * nat) : {a = b} + {a <> b}.
Proof. decide equality; apply Nat.eq_dec. Defined.
Lemma put_all_value ws m i j x : (exists w, In w ws /\ fst w = (i, j)) ->
  (forall w, In w ws -> fst w = (i, j) -> snd w = x) -> put_all ws m i j = x.
Proof.
  unfold put_all. revert m. induction ws as [|w r IH]; intros m [w0 [Hw E]] A; [destruct Hw|]. cbn [fold_left].
  destruct (in_dec pair_dec (i, j) (map fst r)) as [I|I].
  - apply in_map_iff in I. destruct I as [w1 [E1 H1]]. apply IH; [eauto|]. intros; apply A; [right; auto|auto].
  - assert (w0 = w) as -> by (destruct Hw as [<-|Hw]; auto; exfalso; apply I; rewrite <- E; apply in_map; auto).
    assert (N : forall ws m, ~ In (i, j) (map fst ws) -> fold_left put ws m i j = m i j).
    { clear. induction ws as [|w r IH]; intros m H; cbn [fold_left]; auto. rewrite IH by (intros K; apply H; right; auto).
      unfold put. destruct (Nat.eqb_spec i (fst (fst w))), (Nat.eqb_spec j (snd (fst w))); cbn [andb]; auto.
      exfalso. apply H. left. destruct w as [[a b] x]. cbn in *. subst. reflexivity. }
    rewrite N by auto. unfold put. rewrite E. cbn [fst snd]. rewrite !Nat.eqb_refl. cbn [andb]. apply A; [left; auto|auto].
Qed.

Lemma decode n a b a' b' : (a < n)%nat -> (a' < n)%nat -> (a + b * n)%nat = (a' + b' * n)%nat -> a = a' /\ b = b'.
Proof.
  intros H H' E. assert (b = b') by nia. subst. split; lia.
Qed.

Lemma scatter (T : nat -> mat) n k v m J x : (k < 3)%nat -> (v < n)%nat -> (m < 3)%nat ->
  (forall jj, (jj < n)%nat -> next n jj = v -> T jj k m = x) ->
  put_all (flat_map (fun jj => map (fun ii : nat * nat => (fst ii, (Nat.modulo (jj + 1) n + snd ii * n)%nat, T jj (fst ii) (snd ii)))
    (list_prod (seq 0 3) (seq 0 3))) (seq 0 n)) J k (v + m * n)%nat = x.
Proof.
  intros Hk Hv Hm V. apply put_all_value.
  - exists (k, (v + m * n)%nat, x). split; [|reflexivity].
    apply in_flat_map. exists (prev n v). split; [apply in_seq; pose proof (@prev_lt n v Hv); lia|].
    apply in_map_iff. exists (k, m). cbn [fst snd]. split.
    + rewrite <- next_mod by (apply prev_lt; auto). rewrite next_prev by auto. rewrite V; auto; [apply prev_lt; auto|apply next_prev; auto].
    + apply in_prod; apply in_seq; lia.
  - intros w Hw Ew. apply in_flat_map in Hw. destruct Hw as [jj [Hj Hw]]. apply in_seq in Hj.
    apply in_map_iff in Hw. destruct Hw as [[a b] [<- Hab]]. cbn [fst snd] in *. injection Ew as -> Ec.
    apply decode in Ec; [|apply Nat.mod_upper_bound; lia|auto]. destruct Ec as [Ej ->].
    apply V; [lia|]. rewrite next_mod; auto. lia.
Qed.

Definition jac_eps (s : statics) (n : nat) : R * R :=
  if Nat.ltb n 7 then (centre_a s + centre2_a s, centre2_a s) else (centre_a s, 0).

Lemma jac_entry s p L S ws J k v m : centroid_jac s p L S = Ok ws ->
  (k < 3)%nat -> (v < length p)%nat -> (m < 3)%nat ->
  put_all ws J k (v + m * length p)%nat
  = slope_with (fst (jac_eps s (length p))) (snd (jac_eps s (length p)))
      (pt p (prev (length p) v)) (pt p v) (pt p (next (length p) v)) L S k m.
Proof.
  unfold centroid_jac, jac_eps. set (n := length p). intros H Hk Hv Hm.
  destruct (Nat.ltb_spec n 4) as [|H4]; [discriminate|].
  destruct (Nat.eq_dec n 4) as [E4|N4]; [rewrite E4 in H |- *; injection H as <-; cbn [Nat.ltb Nat.leb fst snd]; apply df4_is; auto; fold n; lia|].
  destruct (Nat.eq_dec n 5) as [E5|N5]; [rewrite E5 in H |- *; injection H as <-; cbn [Nat.ltb Nat.leb fst snd]; apply df5_is; auto; fold n; lia|].
  destruct (Nat.eq_dec n 6) as [E6|N6]; [rewrite E6 in H |- *; injection H as <-; cbn [Nat.ltb Nat.leb fst snd]; apply df6_is; auto; fold n; lia|].
  destruct (Nat.ltb_spec n 7) as [|H7]; [lia|]. cbn [fst snd].
  match type of H with _ = Ok ws => idtac end.
  assert (H' : Ok (flat_map (fun jj =>
      let q := map (ptm p) [jj; jj + 1; jj + 2]%nat in
      let temp := put_all (SurfCentroidSelf_df (centre_a s) (centre2_a s) (column q 0) (column q 1) (column q 2)
                    L (S 0%nat) (S 1%nat) (S 2%nat)) zero_mat in
      let ind := Nat.modulo (jj + 1) n in
      map (fun ii : nat * nat => (fst ii, (ind + snd ii * n)%nat, temp (fst ii) (snd ii))) (list_prod (seq 0 3) (seq 0 3)))
    (seq 0 n)) = Ok ws).
  { rewrite <- H. destruct n as [|[|[|[|[|[|[|n]]]]]]]; try lia. reflexivity. }
  clear H. injection H' as <-. 
  assert (V : forall jj, (jj < n)%nat -> next n jj = v ->
    put_all (SurfCentroidSelf_df (centre_a s) (centre2_a s) (column (map (ptm p) [jj; jj + 1; jj + 2]%nat) 0)
      (column (map (ptm p) [jj; jj + 1; jj + 2]%nat) 1) (column (map (ptm p) [jj; jj + 1; jj + 2]%nat) 2) L (S 0%nat) (S 1%nat) (S 2%nat)) zero_mat k m
    = slope_with (centre_a s) 0 (pt p (prev n v)) (pt p v) (pt p (next n v)) L S k m).
  { intros jj Hj E. cbn [map]. rewrite self_df_is by auto. rewrite <- (next_is Hj Hv E).
    rewrite ptm_here by auto. rewrite ptm_next by auto. fold n. rewrite E.
    replace (ptm p (jj + 2)) with (pt p (next n v)); auto. unfold ptm. fold n. f_equal. rewrite <- E. rewrite (next_mod (next_lt Hj)), (next_mod Hj).
    rewrite Nat.add_mod_idemp_l by lia. f_equal. lia. }
  apply (@scatter (fun jj => put_all (SurfCentroidSelf_df (centre_a s) (centre2_a s) (column (map (ptm p) [jj; jj + 1; jj + 2]%nat) 0)
      (column (map (ptm p) [jj; jj + 1; jj + 2]%nat) 1) (column (map (ptm p) [jj; jj + 1; jj + 2]%nat) 2) L (S 0%nat) (S 1%nat) (S 2%nat)) zero_mat)); auto.
Qed.

(** *** The distance from the slope *)
Lemma comp_le_dist p q m : (m < 3)%nat -> Rabs (p m - q m) <= dist p q.
Proof.
  intros H. unfold dist. rewrite <- (sqrt_Rsqr_abs (p m - q m)). apply sqrt_le_1_alt. unfold Rsqr, vdot, vsub.
  pose proof (Rle_0_sqr (p 0%nat - q 0%nat)). pose proof (Rle_0_sqr (p 1%nat - q 1%nat)). pose proof (Rle_0_sqr (p 2%nat - q 2%nat)).
  unfold Rsqr in *. destruct m as [|[|[|m]]]; [lra|lra|lra|lia].
Qed.

Lemma root_up A e : 0 < A -> 0 <= e -> 0 <= sqrt (A + e) - sqrt A <= e / (2 * sqrt A).
Proof.
  intros HA He. assert (Hu : 0 < sqrt A) by (apply sqrt_lt_R0; auto).
  assert (Eu : sqrt A * sqrt A = A) by (apply sqrt_sqrt; lra). assert (Ew : sqrt (A + e) * sqrt (A + e) = A + e) by (apply sqrt_sqrt; lra).
  assert (L : sqrt A <= sqrt (A + e)) by (apply sqrt_le_1_alt; lra). split; [lra|].
  set (u := sqrt A) in *. set (w := sqrt (A + e)) in *.
  apply Rmult_le_reg_r with (2 * u); [lra|]. replace (e / (2 * u) * (2 * u)) with e by (field; lra). nra.
Qed.

Lemma root_inv A e d : 0 < A -> 0 <= e -> Rabs d <= sqrt A -> Rabs (d * / sqrt (A + e) - d / sqrt A) <= e / (2 * A).
Proof.
  intros HA He Hd. assert (Hu : 0 < sqrt A) by (apply sqrt_lt_R0; auto). assert (Hw : 0 < sqrt (A + e)) by (apply sqrt_lt_R0; lra).
  assert (Eu : sqrt A * sqrt A = A) by (apply sqrt_sqrt; lra).
  destruct (root_up HA He) as [R1 R2].
  set (u := sqrt A) in *. set (w := sqrt (A + e)) in *.
  replace (d * / w - d / u) with (- (d / u * ((w - u) / w))) by (field; lra). rewrite Rabs_Ropp, Rabs_mult.
  assert (D1 : Rabs (d / u) <= 1).
  { unfold Rdiv. rewrite Rabs_mult, (Rabs_pos_eq (/ u)) by (apply Rlt_le, Rinv_0_lt_compat; auto).
    apply Rmult_le_reg_r with u; auto. rewrite Rmult_assoc, Rinv_l by lra. lra. }
  assert (D2 : 0 <= (w - u) / w) by (apply Rmult_le_pos; [lra|apply Rlt_le, Rinv_0_lt_compat; auto]).
  rewrite (Rabs_pos_eq _ D2). apply Rle_trans with ((w - u) / w).
  { rewrite <- (Rmult_1_l ((w - u) / w)) at 2. apply Rmult_le_compat_r; auto. }
  apply Rle_trans with ((w - u) / u).
  { apply Rmult_le_compat_l; [lra|]. apply Rinv_le_contravar; lra. }
  replace (e / (2 * A)) with (e / (2 * u) / u) by (rewrite <- Eu; field; lra).
  apply Rmult_le_compat_r; [apply Rlt_le, Rinv_0_lt_compat; auto|lra].
Qed.

Lemma slope_close n c v m k e e2 S D : (3 <= n)%nat -> (v < n)%nat -> (m < 3)%nat -> 0 <= e -> 0 <= e2 ->
  0 < side n c (prev n v) -> 0 < side n c v -> S k = weighted n k c -> centre_slope n c k v m D ->
  Rabs (slope_with e e2 (c (prev n v)) (c v) (c (next n v)) (outline n c) S k m - D) <= slope_error n c e e2 k v m.
Proof.
  intros Hn Hv Hm He He2 Ha Hb ES HD.
  pose proof (@centre_slope_is n c v m Hn Hv Hm Ha Hb k) as K.
  assert (D = _) as -> by (eapply uniqueness_limite; [exact HD|exact K]). clear HD K.
  pose proof (@outline_pos n c v Hv Hb) as HL. unfold slope_error, wire_centre. fold (weighted n k c).
  unfold slope_with. rewrite ES. set (u := prev n v) in *. set (w := next n v) in *.
  assert (Eu : next n u = v) by (apply next_prev; auto).
  assert (EA : vdot (vsub (c v) (c u)) (vsub (c v) (c u)) = side n c u * side n c u).
  { unfold side. rewrite Eu, (dist_sym (c u)), dist_sq. reflexivity. }
  assert (EB : vdot (vsub (c v) (c w)) (vsub (c v) (c w)) = side n c v * side n c v).
  { unfold side. fold w. rewrite dist_sq. reflexivity. }
  rewrite EA, EB. clear EA EB.
  assert (DA : Rabs (c v m - c u m) <= side n c u).
  { unfold side. rewrite Eu, dist_sym. apply comp_le_dist; auto. }
  assert (DB : Rabs (c v m - c w m) <= side n c v) by (apply comp_le_dist; auto).
  set (a := side n c u) in *. set (b := side n c v) in *. set (L := outline n c) in *. set (W := weighted n k c).
  assert (Sa : sqrt (a * a) = a) by (apply sqrt_square; lra). assert (Sb : sqrt (b * b) = b) by (apply sqrt_square; lra).
  assert (Pa : 0 < a * a) by (apply Rmult_lt_0_compat; auto). assert (Pb : 0 < b * b) by (apply Rmult_lt_0_compat; auto).
  pose proof (root_up Pa He2) as Ua. pose proof (root_up Pb He2) as Ub. rewrite Sa in Ua. rewrite Sb in Ub.
  pose proof (@root_inv (a * a) e (c v m - c u m) Pa He ltac:(rewrite Sa; auto)) as Ia.
  pose proof (@root_inv (b * b) e (c v m - c w m) Pb He ltac:(rewrite Sb; auto)) as Ib.
  rewrite Sa in Ia. rewrite Sb in Ib.
  assert (Mu : middle n c u k = (c u k + c v k) / 2) by (unfold middle; rewrite Eu; reflexivity).
  assert (Mv : middle n c v k = (c v k + c w k) / 2) by reflexivity.
  set (ra := (c v m - c u m) * / sqrt (a * a + e)) in *. set (rb := (c v m - c w m) * / sqrt (b * b + e)) in *.
  set (xa := (c v m - c u m) / a) in *. set (xb := (c v m - c w m) / b) in *.
  set (ha := sqrt (a * a + e2)) in *. set (hb := sqrt (b * b + e2)) in *.
  rewrite !(Rmult_assoc _ (c v m - _)). fold ra rb.
  match goal with |- Rabs ?X <= _ => replace X with
    (((if Nat.eqb k m then (ha - a) / 2 + (hb - b) / 2 else 0)
      + (middle n c u k - W / L) * (ra - xa) + (middle n c v k - W / L) * (rb - xb)) / L)
    by (rewrite Mu, Mv; destruct (Nat.eqb k m); field; lra) end.
  unfold Rdiv at 1. rewrite Rabs_mult, (Rabs_pos_eq (/ L)) by (apply Rlt_le, Rinv_0_lt_compat; auto).
  apply Rmult_le_compat_r; [apply Rlt_le, Rinv_0_lt_compat; auto|].
  eapply Rle_trans; [apply Rabs_triang|]. apply Rplus_le_compat.
  - eapply Rle_trans; [apply Rabs_triang|]. apply Rplus_le_compat.
    + destruct (Nat.eqb k m); [|rewrite Rabs_R0; lra].
      assert (e2 / (4 * a) = e2 / (2 * a) / 2) as -> by (field; lra). assert (e2 / (4 * b) = e2 / (2 * b) / 2) as -> by (field; lra).
      rewrite Rabs_pos_eq; lra.
    + rewrite Rabs_mult. apply Rmult_le_compat_l; [apply Rabs_pos|auto].
  - rewrite Rabs_mult. apply Rmult_le_compat_l; [apply Rabs_pos|auto].
Qed.
