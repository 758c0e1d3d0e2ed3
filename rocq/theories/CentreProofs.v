(** Proofs about CalcCentreVolu, CoordInVolume and the internal layers. *)
From Coq Require Import Reals Lra Lia.
From Verif Require Import Base Containers ContainersProofs Mesh MergeProofs Edit Geom SpecGeom CoordProofs GeomProofs.
Set Implicit Arguments.
Open Scope R_scope.

(** Existence of the result of a list of calls. *)
Lemma omap_ex (A B : Type) (f : A -> outcome B) (P : A -> B -> Prop) l :
  (forall x, In x l -> exists y, f x = Ok y /\ P x y) -> exists ys, omap_list f l = Ok ys /\ Forall2 P l ys.
Proof.
  induction l as [|x l IH]; intros H; simpl.
  - exists []. split; [reflexivity|constructor].
  - destruct (H x) as (y & -> & Py); [now left|]. destruct IH as (ys & E & F); [intros; apply H; now right|].
    simpl. rewrite E. simpl. exists (y :: ys). split; [reflexivity|now constructor].
Qed.
Lemma omap_in (A B : Type) (f : A -> outcome B) l ys : omap_list f l = Ok ys -> forall y, In y ys -> exists x, In x l /\ f x = Ok y.
Proof.
  revert ys. induction l as [|x l IH]; simpl; intros ys E y I.
  - injection E as <-. destruct I.
  - destruct (f x) eqn:Fx; simpl in E; try discriminate. destruct (omap_list f l) eqn:Fl; simpl in E; try discriminate.
    injection E as <-. destruct I as [<- | I]; [eauto|]. destruct (IH _ eq_refl y I) as (u & ? & ?). eauto.
Qed.

(** ** CalcCentreVolu *)
Definition all_mids (es : list (list (list R * list R))) : list (R * list R) := flat_map mids es.
Lemma wsum_app n a b : wsum n (a ++ b) = wsum n a + wsum n b.
Proof. unfold wsum. induction a as [|x a IH]; simpl; [ring|]. rewrite IH. ring. Qed.
Lemma weight_app a b : weight (a ++ b) = weight a + weight b.
Proof. unfold weight. induction a as [|x a IH]; simpl; [ring|]. rewrite IH. ring. Qed.

Definition centre_edge (g : gmesh) (ei : Z) (st : coordvec * R) : outcome (coordvec * R) :=
  do e <- isearch ed_index (edges (gtopo g)) ei;
  do t0 <- assign 0 0 0 cv_new;
  do i0 <- at_ (ed_vertind e) 0; do p0 <- coord_of g i0;
  do i1 <- at_ (ed_vertind e) 1; do p1 <- coord_of g i1;
  do t <- calc_norm (cv_sub p1 (cv_add p0 t0));
  let l := norm t in
  Ok (cv_add (elems (cv_mul l (cv_add p1 (cv_add p1 t)))) (fst st), snd st + l).
Lemma centre_edge_ok g ei pq st : edge_ends g ei pq -> point3 (elems (fst st)) ->
  exists c, centre_edge g ei st = Ok (c, snd st + dist (fst pq) (snd pq)) /\ point3 (elems c) /\
    forall n, point3 n -> ip n (elems c) = ip n (elems (fst st)) + 2 * (dist (fst pq) (snd pq) * ip n (mid (fst pq) (snd pq))).
Proof.
  destruct pq as [p q]. simpl fst. simpl snd. intros (e & i & j & F & E & Ei & Ej & P & Q) S. simpl in Ei, Ej, P, Q.
  unfold centre_edge. rewrite F. cbn [bind]. rewrite assign_new. cbn [bind]. rewrite E.
  replace (at_ [i; j] 0) with (Ok i) by reflexivity. replace (at_ [i; j] 1) with (Ok j) by reflexivity. cbn [bind].
  rewrite Ei. cbn [bind]. rewrite Ej. cbn [bind].
  destruct (point3_inv P) as (a & b & c & ->), (point3_inv Q) as (x & y & z & ->).
  rewrite calc_norm_ok by reflexivity. cbn [bind norm].
  assert (D : euclid (elems (cv_sub [x; y; z] (cv_add [a; b; c] (mkCv [0; 0; 0] (euclid [0; 0; 0]) true)))) = dist [a; b; c] [x; y; z]).
  { unfold dist. simpl pminus. simpl elems. rewrite !euclid3. f_equal. ring. }
  rewrite D. eexists. split; [reflexivity|]. split.
  - simpl. unfold point3. now rewrite each_length.
  - intros n N. simpl elems. rewrite ip_add by (auto; reflexivity). f_equal.
    rewrite (ip_mid N P Q). destruct (point3_inv N) as (n1 & n2 & n3 & ->). simpl. field.
Qed.
Lemma centre_surf_ok g l ends : Forall2 (edge_ends g) l ends -> forall st, point3 (elems (fst st)) ->
  exists c, for_each l (centre_edge g) st = Ok (c, snd st + weight (mids ends)) /\ point3 (elems c) /\
    forall n, point3 n -> ip n (elems c) = ip n (elems (fst st)) + 2 * wsum n (mids ends).
Proof.
  induction 1 as [|ei pq l ends H _ IH]; intros st S; cbn [for_each].
  - exists (fst st). unfold weight, wsum. simpl. split; [destruct st; simpl; now rewrite Rplus_0_r|]. split; auto. intros. ring.
  - destruct (centre_edge_ok st H S) as (c1 & -> & C1 & F1). cbn [bind].
    destruct (IH (c1, snd st + dist (fst pq) (snd pq)) C1) as (c & -> & C & F). exists c. split; [|split; auto].
    + f_equal. f_equal. unfold weight. simpl. ring.
    + intros n N. rewrite F by auto. simpl fst. rewrite F1 by auto. unfold wsum. simpl. ring.
Qed.
Lemma centre_loop_ok g l es : Forall2 (fun si ends => ends <> [] /\ exists s, isearch su_index (surfs (gtopo g)) si = Ok s /\ surf_ends g s ends) l es ->
  forall st, point3 (elems (fst st)) ->
  exists c, for_each l (fun si st => do s <- isearch su_index (surfs (gtopo g)) si; for_each (su_edgeind s) (centre_edge g) st) st
      = Ok (c, snd st + weight (all_mids es)) /\ point3 (elems c) /\
    forall n, point3 n -> ip n (elems c) = ip n (elems (fst st)) + 2 * wsum n (all_mids es).
Proof.
  induction 1 as [|si ends l es (NE & s & F & S) _ IH]; intros st P; cbn [for_each].
  - exists (fst st). unfold weight, wsum. simpl. split; [destruct st; simpl; now rewrite Rplus_0_r|]. split; auto. intros. ring.
  - rewrite F. cbn [bind]. destruct (centre_surf_ok S st P) as (c1 & -> & C1 & F1). cbn [bind].
    destruct (IH (c1, snd st + weight (mids ends)) C1) as (c & -> & C & Fc). exists c. split; [|split; auto].
    + f_equal. f_equal. simpl. rewrite weight_app. ring.
    + intros n N. rewrite Fc by auto. simpl fst. rewrite F1 by auto. simpl. rewrite wsum_app. ring.
Qed.
Lemma all_mids_bound g v es n c : volu_ends g v es -> point3 n -> (forall q, In q (volu_points es) -> ip n q <= c) ->
  Forall (fun wp => 0 <= fst wp /\ ip n (snd wp) <= c) (all_mids es).
Proof.
  intros V N. unfold volu_ends in V. induction V as [|si ends l es (NE & s & F & S) _ IH]; intros B; simpl; [constructor|].
  apply Forall_app. split.
  - apply (mids_bound S N). intros q I. apply B. unfold volu_points. simpl. apply in_or_app. auto.
  - apply IH. intros q I. apply B. unfold volu_points. simpl. apply in_or_app. auto.
Qed.
Lemma calc_centre_ok g i v es : isearch vo_index (volus (gtopo g)) i = Ok v -> volu_ends g v es ->
  0 < weight (all_mids es) ->
  exists c p, calc_centre_volu g i = Ok c /\ in_hull (volu_points es) p /\ elems c = pscale 2 p.
Proof.
  intros Fv V W. unfold calc_centre_volu. rewrite Fv. cbn [bind].
  fold (centre_edge g).
  change (for_each (vo_surfind v) _ (cv_new, 0)) with
    (for_each (vo_surfind v) (fun si st => do s <- isearch su_index (surfs (gtopo g)) si; for_each (su_edgeind s) (centre_edge g) st) (cv_new, 0)).
  destruct (centre_loop_ok V (cv_new, 0) eq_refl) as (c & -> & C & F). cbn [bind fst snd].
  rewrite Rplus_0_l. set (w := weight (all_mids es)) in *.
  destruct (point3_inv C) as (x & y & z & Ec).
  exists (cv_div w c), [x / (2 * w); y / (2 * w); z / (2 * w)]. split; [reflexivity|]. split.
  - split; [reflexivity|]. intros n d N B. pose proof (wsum_le n (all_mids_bound V N B)) as L. fold w in L.
    specialize (F n N). simpl fst in F. simpl elems in F. rewrite ip_zero in F by auto. rewrite Ec in F.
    destruct (point3_inv N) as (n1 & n2 & n3 & ->). simpl in F |- *.
    apply Rmult_le_reg_r with (2 * w); [lra|].
    replace ((n1 * (x / (2 * w)) + (n2 * (y / (2 * w)) + (n3 * (z / (2 * w)) + 0))) * (2 * w)) with (n1 * x + (n2 * y + (n3 * z + 0))) by (field; lra).
    lra.
  - simpl. rewrite Ec. unfold pscale. simpl. f_equal; [field; lra|f_equal; [field; lra|f_equal; field; lra]].
Qed.

(** ** The vertices of a volume *)
Definition at_points (g : gmesh) (vs : list Z) (ps : list (list R)) : Prop :=
  Forall2 (fun vi p => coord_of g vi = Ok p /\ point3 p) vs ps.
Lemma volu_verts_ok g v es : volu_ends g v es -> exists vs, volu_verts (gtopo g) v = Ok vs /\ at_points g vs (volu_points es).
Proof.
  unfold volu_ends, volu_verts. intros V.
  assert (X : exists sss, omap_list (fun si =>
    do s <- isearch su_index (surfs (gtopo g)) si;
    do es <- omap_list (fun ei => do e <- isearch ed_index (edges (gtopo g)) ei; Ok (ed_vertind e)) (su_edgeind s);
    Ok (concat es)) (vo_surfind v) = Ok sss /\ at_points g (concat sss) (volu_points es)).
  { induction V as [|si ends l es (NE & s & F & S) _ (sss & E & I)].
    - exists []. split; [reflexivity|constructor].
    - assert (Y : exists ll, omap_list (fun ei => do e <- isearch ed_index (edges (gtopo g)) ei; Ok (ed_vertind e)) (su_edgeind s) = Ok ll /\
                   at_points g (concat ll) (end_points ends)).
      { unfold surf_ends in S. clear - S. induction S as [|ei [p q] l ends (e & i & j & F & E & Ei & Ej & P & Q) _ (ll & El & Il)].
        - exists []. split; [reflexivity|constructor].
        - cbn [omap_list]. rewrite F. cbn [bind]. rewrite El. cbn [bind]. eexists. split; [reflexivity|].
          simpl. rewrite E. repeat constructor; auto. }
      destruct Y as (ll & El & Il). cbn [omap_list]. rewrite F. cbn [bind]. rewrite El. cbn [bind]. rewrite E. cbn [bind].
      eexists. split; [reflexivity|]. simpl. apply Forall2_app; auto. }
  destruct X as (sss & -> & I). exists (concat sss). split; [reflexivity|exact I].
Qed.

(** ** CoordInVolume *)
Lemma coord_sum g vs ps : at_points g vs ps -> forall a b c k,
  for_each vs (fun vi (st : R * R * R * Z) =>
    do p <- coord_of g vi;
    do x <- at_ p 0; do y <- at_ p 1; do z <- at_ p 2;
    let '(a, b, c, n) := st in Ok (a + x, b + y, c + z, (n + 3)%Z)) (a, b, c, k) =
  Ok (a + rsum (direction 0 ps), b + rsum (direction 1 ps), c + rsum (direction 2 ps), (k + 3 * Z.of_nat (length ps))%Z).
Proof.
  induction 1 as [|vi p vs ps (E & P) _ IH]; intros a b c k; cbn [for_each].
  - simpl. f_equal. f_equal; [f_equal; [f_equal|]|]; try ring.
  - rewrite E. cbn [bind]. destruct (point3_inv P) as (x & y & z & ->). destruct (at3 x y z) as (-> & -> & ->). cbn [bind].
    rewrite IH. f_equal. f_equal; [f_equal; [f_equal; simpl; ring|simpl; ring]|cbn [length]; lia].
Qed.
Definition average (ps : list (list R)) (j : nat) : R := rsum (direction j ps) / INR (length ps).
Lemma coord_in_volume_ok g v es : volu_ends g v es -> volu_points es <> [] ->
  coord_in_volume g v = Ok (pscale (/ 3) [average (volu_points es) 0; average (volu_points es) 1; average (volu_points es) 2]).
Proof.
  intros V NE. destruct (volu_verts_ok V) as (vs & E & I). unfold coord_in_volume. rewrite E. cbn [bind].
  rewrite (coord_sum I). cbn [bind]. f_equal. unfold average, pscale. simpl.
  set (k := length (volu_points es)).
  assert (K : INR k <> 0). { apply not_0_INR. unfold k. destruct (volu_points es); [congruence|simpl; lia]. }
  assert (Z3 : IZR (0 + 3 * Z.of_nat k) = 3 * INR k). { rewrite Z.add_0_l, mult_IZR, INR_IZR_INZ. reflexivity. }
  replace (match Z.of_nat k with 0 => 0 | Z.pos y' => Z.pos (y' + y'~0) | Z.neg y' => Z.neg (y' + y'~0) end)%Z with (0 + 3 * Z.of_nat k)%Z
    by (destruct (Z.of_nat k); reflexivity).
  rewrite Z3. f_equal; [field; auto|f_equal; [field; auto|f_equal; field; auto]].
Qed.

(** ** Layers *)
Lemma layer_in a b (l k : Z) : (0 <= k < l)%Z -> exists t, 0 <= t <= 1 /\
  a * (IZR (k + 1) / IZR (l + 1)) + b * (IZR (l - k) / IZR (l + 1)) = t * a + (1 - t) * b.
Proof.
  intros H. exists (IZR (k + 1) / IZR (l + 1)).
  assert (P : 0 < IZR (l + 1)) by (apply IZR_lt; lia). split; [split|].
  - apply Rmult_le_pos; [apply IZR_le; lia|left; now apply Rinv_0_lt_compat].
  - apply Rmult_le_reg_r with (IZR (l + 1)); auto. unfold Rdiv. rewrite Rmult_assoc, Rinv_l, Rmult_1_r, Rmult_1_l by lra. apply IZR_le. lia.
  - rewrite minus_IZR, !plus_IZR in *. field. lra.
Qed.
Lemma layer_points_ok l c p : (0 <= l)%Z -> point3 c -> point3 p -> exists ps, layer_points l c p = Ok ps /\
  length ps = Z.to_nat l /\
  forall k, (k < Z.to_nat l)%nat ->
    let t := INR (k + 1) / IZR (l + 1) in
    nth k ps [] = pplus (pscale t c) (pscale (1 - t) p).
Proof.
  intros L C P. unfold layer_points.
  set (F := fun j : Z => [nth 0 c 0 * (IZR (j + 1) / IZR (l + 1)) + nth 0 p 0 * (IZR (l - j) / IZR (l + 1));
                          nth 1 c 0 * (IZR (j + 1) / IZR (l + 1)) + nth 1 p 0 * (IZR (l - j) / IZR (l + 1));
                          nth 2 c 0 * (IZR (j + 1) / IZR (l + 1)) + nth 2 p 0 * (IZR (l - j) / IZR (l + 1))]).
  destruct (point3_inv C) as (x & y & z & ->), (point3_inv P) as (u & v & w & ->).
  exists (map F (map Z.of_nat (seq 0 (Z.to_nat l)))). split; [|split].
  - rewrite (omap_list_Ok _ F); auto.
  - now rewrite !map_length, seq_length.
  - intros k K. cbv zeta. rewrite (nth_indep _ [] (F 0%Z)) by now rewrite !map_length, seq_length.
    rewrite map_nth. rewrite (nth_indep _ 0%Z (Z.of_nat 0)) by now rewrite map_length, seq_length.
    rewrite map_nth, seq_nth by auto. rewrite Nat.add_0_l. unfold F.
    assert (P1 : IZR (l + 1) <> 0). { apply Rgt_not_eq. apply IZR_lt. lia. }
    rewrite INR_IZR_INZ, Nat2Z.inj_add. simpl (Z.of_nat 1).
    simpl nth. unfold pscale. simpl. rewrite minus_IZR, !plus_IZR in *.
    f_equal; [field; auto|f_equal; [field; auto|f_equal; field; auto]].
Qed.
Lemma hull_mem pts p : point3 p -> In p pts -> in_hull pts p.
Proof. intros P I. split; auto. Qed.
Lemma hull_between pts p q t : in_hull pts p -> in_hull pts q -> 0 <= t <= 1 -> in_hull pts (pplus (pscale t p) (pscale (1 - t) q)).
Proof.
  intros (P & HP) (Q & HQ) T. destruct (point3_inv P) as (a & b & c & ->), (point3_inv Q) as (x & y & z & ->). split; [reflexivity|].
  intros n d N B. specialize (HP n d N B). specialize (HQ n d N B). destruct (point3_inv N) as (n1 & n2 & n3 & ->). simpl in *.
  replace (n1 * (t * a + (1 - t) * x) + (n2 * (t * b + (1 - t) * y) + (n3 * (t * c + (1 - t) * z) + 0)))
    with (t * (n1 * a + (n2 * b + (n3 * c + 0))) + (1 - t) * (n1 * x + (n2 * y + (n3 * z + 0)))) by ring.
  replace d with (t * d + (1 - t) * d) by ring. apply Rplus_le_compat; apply Rmult_le_compat_l; lra.
Qed.
Lemma volume_layers_ok g v es l : volu_ends g v es -> es <> [] -> (0 <= l)%Z ->
  exists c vs pss, pseudo_volu g v = Ok c /\ volu_verts (gtopo g) v = Ok vs /\ volume_layers g l v = Ok (concat pss) /\
    Forall2 (fun vi ps => exists p, coord_of g vi = Ok p /\ point3 p /\ In p (volu_points es) /\ length ps = Z.to_nat l /\
       forall k, (k < Z.to_nat l)%nat -> let t := INR (k + 1) / IZR (l + 1) in
         nth k ps [] = pplus (pscale t (elems c)) (pscale (1 - t) p)) (tighten vs) pss.
Proof.
  intros V NE L. destruct (pseudo_volu_ok V NE) as (c & Ec & HC). destruct (volu_verts_ok V) as (vs & Ev & I).
  unfold volume_layers. replace (l <? 0)%Z with false by (symmetry; apply Z.ltb_ge; auto). rewrite Ec, Ev. cbn [bind].
  destruct (@omap_ex _ _ (fun vi => do p <- coord_of g vi; layer_points l (elems c) p)
    (fun vi ps => exists p, coord_of g vi = Ok p /\ point3 p /\ In p (volu_points es) /\ length ps = Z.to_nat l /\
       forall k, (k < Z.to_nat l)%nat -> let t := INR (k + 1) / IZR (l + 1) in
         nth k ps [] = pplus (pscale t (elems c)) (pscale (1 - t) p)) (tighten vs)) as (pss & E & H).
  { intros vi J. apply (proj1 (tighten_In _ _)) in J.
    assert (X : exists p, coord_of g vi = Ok p /\ point3 p /\ In p (volu_points es)).
    { unfold at_points in I. clear - I J. revert J. induction I as [|a p vs ps (A & B) _ IH]; intros J; [destruct J|]. destruct J as [-> | J].
      - exists p. simpl. auto.
      - destruct (IH J) as (q & ? & ? & ?). exists q. simpl. auto. }
    destruct X as (p & Ep & P & Ip). destruct HC as (C & _).
    destruct (@layer_points_ok l (elems c) p L C P) as (ps & E & Len & N). exists ps. rewrite Ep. cbn [bind]. split; auto.
    exists p. auto 6. }
  rewrite E. exists c, vs, pss. auto.
Qed.
