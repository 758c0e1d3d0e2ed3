(** Proofs about coordvec and the plane functions of Geom.v. *)
From Coq Require Import Reals Lra Lia.
From Verif Require Import Base Containers Mesh Edit Geom SpecGeom.
Set Implicit Arguments.
Open Scope R_scope.

Lemma point3_inv p : point3 p -> exists a b c, p = [a; b; c].
Proof.
  unfold point3. destruct p as [|a [|b [|c [|d p]]]]; simpl; try discriminate. intros _. now exists a, b, c.
Qed.
Lemma at3 (a b c : R) : at_ [a; b; c] 0 = Ok a /\ at_ [a; b; c] 1 = Ok b /\ at_ [a; b; c] 2 = Ok c.
Proof. now repeat split. Qed.
Lemma ip_comm a : forall b, ip a b = ip b a.
Proof. induction a as [|x a IH]; intros [|y b]; simpl; auto. rewrite IH. ring. Qed.
Lemma ip_nonneg a : 0 <= ip a a.
Proof. induction a as [|x a IH]; simpl; [lra|]. pose proof (Rle_0_sqr x) as H. unfold Rsqr in H. lra. Qed.
Lemma ip3 a b c x y z : ip [a; b; c] [x; y; z] = a * x + b * y + c * z.
Proof. simpl. ring. Qed.
Lemma euclid3 a b c : euclid [a; b; c] = sqrt (a * a + b * b + c * c).
Proof. unfold euclid. now rewrite ip3. Qed.
Lemma ip_scale k a : ip (map (fun x => x * k) a) (map (fun x => x * k) a) = k * k * ip a a.
Proof. induction a as [|x a IH]; simpl; [ring|]. rewrite IH. ring. Qed.
Lemma euclid_scale k a : euclid (map (fun x => x * k) a) = Rabs k * euclid a.
Proof.
  unfold euclid. rewrite ip_scale, sqrt_mult by (try apply ip_nonneg; apply Rle_0_sqr).
  f_equal. apply sqrt_Rsqr_abs.
Qed.
Lemma each_length f : forall e v, length (each f e v) = length e.
Proof. induction e as [|a e IH]; intros [|b v]; simpl; auto. Qed.

(** ** The norm *)
Definition norm_ok (c : coordvec) : Prop := point3 (elems c) /\ (utd c = true -> norm c = euclid (elems c)).
Definition legal (o : cvop) (c : coordvec) : Prop :=
  match o with
  | OSet v => point3 v
  | OPut i _ => (0 <= i < 3)%Z
  | ONormalize => euclid (elems c) <> 0
  | OMul s => 0 <= s \/ utd c = false
  | ODiv s => s <> 0 /\ (0 < s \/ utd c = false)
  | ODivV v => Forall (fun x => x <> 0) v
  | _ => True
  end.
Lemma calc_norm_ok c : point3 (elems c) ->
  calc_norm c = Ok (mkCv (elems c) (euclid (elems c)) true).
Proof.
  intros H. destruct (point3_inv H) as (a & b & d & E). unfold calc_norm. rewrite E.
  destruct (at3 a b d) as (-> & -> & ->). simpl bind. now rewrite euclid3.
Qed.
Lemma get_norm_ok c : norm_ok c -> exists c', get_norm c = Ok c' /\ elems c' = elems c /\ utd c' = true /\ norm c' = euclid (elems c).
Proof.
  intros (H & N). unfold get_norm. destruct (utd c) eqn:U.
  - exists c. auto.
  - rewrite calc_norm_ok by auto. eexists. split; [reflexivity|]. auto.
Qed.
Lemma sqrt_div_self n : n <> 0 -> forall a b d, n = euclid [a; b; d] -> euclid [a / n; b / n; d / n] = 1.
Proof.
  intros Hn a b d E.
  assert (P : 0 <= n) by (rewrite E; apply sqrt_pos).
  assert (Q : n * n = a * a + b * b + d * d).
  { rewrite E, euclid3. apply sqrt_sqrt. pose proof (ip_nonneg [a; b; d]) as X. rewrite ip3 in X. lra. }
  rewrite euclid3. replace (a / n * (a / n) + b / n * (b / n) + d / n * (d / n)) with 1; [apply sqrt_1|].
  replace (a / n * (a / n) + b / n * (b / n) + d / n * (d / n)) with ((a * a + b * b + d * d) / (n * n)) by (field; auto).
  rewrite <- Q. field. auto.
Qed.
Lemma with_vec_ok f v c : point3 (elems c) -> norm_ok (with_vec f v c).
Proof. intros H. split; simpl; [unfold point3; now rewrite each_length|discriminate]. Qed.
Lemma cv_step_ok o c : norm_ok c -> legal o c -> exists c', cv_step o c = Ok c' /\ norm_ok c'.
Proof.
  intros N L. pose proof N as (H & U). destruct (point3_inv H) as (a & b & d & E).
  destruct o; simpl in L |- *; try (eexists; split; [reflexivity|]; now apply with_vec_ok).
  - unfold assign. rewrite E. rewrite calc_norm_ok by reflexivity. eexists. split; [reflexivity|]. split; simpl; auto. reflexivity.
  - eexists. split; [reflexivity|]. split; simpl; [auto|discriminate].
  - unfold put. rewrite E. assert (I : (i = 0 \/ i = 1 \/ i = 2)%Z) by lia.
    destruct I as [-> | [-> | ->]]; eexists; (split; [reflexivity|]); split; simpl; try discriminate; reflexivity.
  - unfold flipsign. rewrite E. simpl. eexists. split; [reflexivity|]. split; simpl; [reflexivity|].
    intros W. rewrite (U W), E, !euclid3. f_equal. ring.
  - unfold normalize. destruct (get_norm_ok N) as (c1 & -> & E1 & _ & N1). simpl. rewrite E1, E. simpl.
    eexists. split; [reflexivity|]. split; simpl; [reflexivity|]. intros _. rewrite N1, E.
    symmetry. apply sqrt_div_self; [rewrite E in L; exact L|reflexivity].
  - rewrite calc_norm_ok by auto. eexists. split; [reflexivity|]. split; simpl; auto.
  - destruct (get_norm_ok N) as (c1 & -> & E1 & U1 & N1). eexists. split; [reflexivity|]. split; rewrite E1; auto.
  - eexists. split; [reflexivity|]. split; simpl; [unfold point3 in *; now rewrite map_length|].
    intros W. rewrite (U W), euclid_scale. destruct L as [L|L]; [|congruence]. now rewrite Rabs_pos_eq.
  - destruct L as (S0 & L). eexists. split; [reflexivity|]. split; simpl; [unfold point3 in *; now rewrite map_length|].
    intros W. rewrite (U W), euclid_scale. destruct L as [L|L]; [|congruence].
    rewrite Rabs_pos_eq; auto. unfold Rdiv. rewrite Rmult_1_l. left. now apply Rinv_0_lt_compat.
Qed.
Fixpoint legal_all (os : list cvop) (c : coordvec) : Prop :=
  match os with
  | [] => True
  | o :: os' => legal o c /\ forall c', cv_step o c = Ok c' -> legal_all os' c'
  end.
Definition cv_run (os : list cvop) (c : coordvec) : outcome coordvec := for_each os cv_step c.
Lemma cv_run_ok : forall os c, norm_ok c -> legal_all os c -> exists c', cv_run os c = Ok c' /\ norm_ok c'.
Proof.
  induction os as [|o os IH]; intros c N L; simpl; [now exists c|].
  destruct L as (L1 & L2). destruct (@cv_step_ok o c N L1) as (c1 & E & N1). unfold cv_run. simpl. rewrite E. simpl.
  apply IH; auto.
Qed.

(** ** Vectors *)
Lemma cross3 a b c x y z : cross [a; b; c] [x; y; z] = Ok [b * z - c * y; c * x - a * z; a * y - b * x].
Proof. reflexivity. Qed.
Lemma dot3 a b c x y z : dot [a; b; c] [x; y; z] = Ok (ip [a; b; c] [x; y; z]).
Proof. rewrite ip3. unfold dot. simpl. f_equal. ring. Qed.
Lemma dot_ok p q : point3 p -> point3 q -> dot p q = Ok (ip p q).
Proof. intros P Q. destruct (point3_inv P) as (a & b & c & ->), (point3_inv Q) as (x & y & z & ->). apply dot3. Qed.
Lemma plane_normal3 a b c x y z u v w :
  plane_normal [a; b; c] [x; y; z] [u; v; w] =
  Ok (mkCv [(v - b) * (z - c) - (w - c) * (y - b); (w - c) * (x - a) - (u - a) * (z - c); (u - a) * (y - b) - (v - b) * (x - a)]
           (dist [x; y; z] [a; b; c]) false).
Proof.
  unfold plane_normal, dist. simpl pminus. rewrite euclid3. reflexivity.
Qed.
Lemma distance3 v1 v2 v3 p : point3 v1 -> point3 v2 -> point3 v3 -> point3 p ->
  exists n, plane_normal v1 v2 v3 = Ok n /\ point3 (elems n) /\
            vertex_distance_to_plane v1 v2 v3 p = Ok (ip (elems n) (pminus p v1), n).
Proof.
  intros H1 H2 H3 H4.
  destruct (point3_inv H1) as (a & b & c & ->), (point3_inv H2) as (x & y & z & ->),
    (point3_inv H3) as (u & v & w & ->), (point3_inv H4) as (p1 & p2 & p3 & ->).
  eexists. split; [apply plane_normal3|]. split; [reflexivity|].
  unfold vertex_distance_to_plane.
  replace (Z.of_nat (length [p1; p2; p3]) =? 3)%Z with true by reflexivity.
  rewrite plane_normal3. cbn [bind elems]. rewrite !dot3. cbn [bind]. f_equal. f_equal. simpl. ring.
Qed.
(** The span of two vectors, by their cross product. *)
Lemma span (a b c x y z p q r : R) :
  let n1 := b * z - c * y in let n2 := c * x - a * z in let n3 := a * y - b * x in
  n1 * n1 + n2 * n2 + n3 * n3 <> 0 -> n1 * p + n2 * q + n3 * r = 0 ->
  exists s t, p = s * a + t * x /\ q = s * b + t * y /\ r = s * c + t * z.
Proof.
  intros n1 n2 n3 N0 N.
  exists (((q * z - r * y) * n1 + (r * x - p * z) * n2 + (p * y - q * x) * n3) / (n1 * n1 + n2 * n2 + n3 * n3)),
    (((b * r - c * q) * n1 + (c * p - a * r) * n2 + (a * q - b * p) * n3) / (n1 * n1 + n2 * n2 + n3 * n3)).
  set (D := n1 * n1 + n2 * n2 + n3 * n3) in *.
  assert (X : forall u s a t x, D * u = s * a + t * x -> u = s / D * a + t / D * x).
  { intros u s a' t x' E. apply (Rmult_eq_reg_l D); auto. rewrite E. field. auto. }
  split; [|split]; apply X.
  - transitivity (D * p - n1 * (n1 * p + n2 * q + n3 * r)); [rewrite N; ring|]. unfold D, n1, n2, n3. ring.
  - transitivity (D * q - n2 * (n1 * p + n2 * q + n3 * r)); [rewrite N; ring|]. unfold D, n1, n2, n3. ring.
  - transitivity (D * r - n3 * (n1 * p + n2 * q + n3 * r)); [rewrite N; ring|]. unfold D, n1, n2, n3. ring.
Qed.
Lemma vertices_one v1 v2 v3 p : point3 v1 -> point3 v2 -> point3 v3 -> point3 p ->
  vertices_distance_to_plane v1 v2 v3 p = do d <- vertex_distance_to_plane v1 v2 v3 p; Ok [fst d].
Proof.
  intros H1 H2 H3 H4. destruct (@distance3 v1 v2 v3 p H1 H2 H3 H4) as (n & _ & Hn & E).
  destruct (point3_inv H4) as (a & b & c & ->). unfold vertices_distance_to_plane.
  replace (Z.of_nat (length [a; b; c]) mod 3 =? 0)%Z with true by reflexivity.
  replace (length [a; b; c] / 3)%nat with 1%nat by reflexivity.
  replace (slice [a; b; c] 0 3) with [a; b; c] by reflexivity. rewrite E. cbn [bind fst snd].
  rewrite (dot_ok Hn H1). reflexivity.
Qed.
Lemma dot_nil n : point3 n -> dot n [] = UB.
Proof. intros H. destruct (point3_inv H) as (a & b & c & ->). reflexivity. Qed.
Lemma vertices_more v1 v2 v3 ps : point3 v1 -> point3 v2 -> point3 v3 ->
  (length ps mod 3 = 0)%nat -> (6 <= length ps)%nat -> vertices_distance_to_plane v1 v2 v3 ps = UB.
Proof.
  intros H1 H2 H3 M L. unfold vertices_distance_to_plane.
  replace (Z.of_nat (length ps) mod 3 =? 0)%Z with true.
  2:{ symmetry. apply Z.eqb_eq. change 3%Z with (Z.of_nat 3). rewrite <- Nat2Z.inj_mod, M. reflexivity. }
  assert (Q : (2 <= length ps / 3)%nat) by (apply Nat.div_le_lower_bound; lia).
  destruct (length ps / 3)%nat as [|[|k]]; try lia.
  assert (S3 : point3 (slice ps 0 3)) by (unfold point3, slice; rewrite firstn_length, skipn_length; lia).
  destruct (@distance3 v1 v2 v3 _ H1 H2 H3 S3) as (n & _ & Hn & ->). cbn [bind fst snd].
  rewrite (dot_ok Hn H1). cbn [bind seq omap_list].
  replace (slice ps (3 * 1) (3 * 1)) with (@nil R) by (unfold slice; rewrite Nat.sub_diag; reflexivity).
  rewrite (dot_nil Hn). reflexivity.
Qed.
