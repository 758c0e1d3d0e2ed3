(** Proofs about centroids, layers and lengths of Geom.v. *)
From Coq Require Import Reals Lra Lia.
From Verif Require Import Base Containers Mesh Edit Geom SpecGeom CoordProofs.
Set Implicit Arguments.
Open Scope R_scope.

Definition mid (p q : list R) : list R := pscale (/ 2) (pplus p q).
Lemma mid_point3 p q : point3 p -> point3 q -> point3 (mid p q).
Proof. intros P Q. destruct (point3_inv P) as (a & b & c & ->), (point3_inv Q) as (x & y & z & ->). reflexivity. Qed.
Lemma ip_mid n p q : point3 n -> point3 p -> point3 q -> ip n (mid p q) = (ip n p + ip n q) / 2.
Proof.
  intros N P Q. destruct (point3_inv N) as (n1 & n2 & n3 & ->), (point3_inv P) as (a & b & c & ->), (point3_inv Q) as (x & y & z & ->).
  simpl. field.
Qed.
Lemma ip_add n p q : point3 n -> point3 p -> point3 q -> ip n (each Rplus p q) = ip n p + ip n q.
Proof.
  intros N P Q. destruct (point3_inv N) as (n1 & n2 & n3 & ->), (point3_inv P) as (a & b & c & ->), (point3_inv Q) as (x & y & z & ->).
  simpl. ring.
Qed.
Lemma ip_times n p k : ip n (map (fun x => x * k) p) = k * ip n p.
Proof. revert n. induction p as [|x p IH]; intros [|y n]; simpl; try ring. rewrite IH. ring. Qed.
Lemma dist_nonneg p q : 0 <= dist p q.
Proof. apply sqrt_pos. Qed.

(** The ends of an edge given by its index. *)
Definition edge_ends (g : gmesh) (ei : Z) (pq : list R * list R) : Prop :=
  exists e i j, isearch ed_index (edges (gtopo g)) ei = Ok e /\ ed_vertind e = [i; j] /\
    coord_of g i = Ok (fst pq) /\ coord_of g j = Ok (snd pq) /\ point3 (fst pq) /\ point3 (snd pq).

Lemma assign_new : assign 0 0 0 cv_new = Ok (mkCv [0; 0; 0] (euclid [0; 0; 0]) true).
Proof. unfold assign. cbn [elems cv_new]. now rewrite calc_norm_ok by reflexivity. Qed.
Lemma geometric_properties_ok g e i j p q :
  ed_vertind e = [i; j] -> coord_of g i = Ok p -> coord_of g j = Ok q -> point3 p -> point3 q ->
  exists c, geometric_properties g e = Ok (c, dist p q) /\ elems c = mid p q.
Proof.
  intros E Ei Ej P Q. unfold geometric_properties. rewrite E.
  replace (at_ [i; j] 0) with (Ok i) by reflexivity. replace (at_ [i; j] 1) with (Ok j) by reflexivity.
  destruct (point3_inv P) as (a & b & c & ->), (point3_inv Q) as (x & y & z & ->).
  rewrite assign_new. cbn [bind]. rewrite Ei. cbn [bind]. rewrite Ej. cbn [bind].
  rewrite calc_norm_ok by reflexivity. cbn [bind]. eexists. split.
  - f_equal. f_equal. simpl. unfold dist. simpl pminus. rewrite !euclid3. f_equal. ring.
  - simpl. unfold mid, pscale. simpl. f_equal; [field|f_equal; [field|f_equal; field]].
Qed.

(** Sums of weighted points, seen through a linear form. *)
Definition wsum (n : list R) (l : list (R * list R)) : R := rsum (map (fun wp => fst wp * ip n (snd wp)) l).
Definition weight (l : list (R * list R)) : R := rsum (map fst l).
Lemma wsum_le n c l : Forall (fun wp => 0 <= fst wp /\ ip n (snd wp) <= c) l -> wsum n l <= c * weight l.
Proof.
  unfold wsum, weight. induction 1 as [|[w p] l (W & P) _ IH]; simpl in *; [lra|].
  pose proof (Rmult_le_compat_l w _ _ W P). lra.
Qed.
Lemma weight_nonneg l : Forall (fun wp : R * list R => 0 <= fst wp) l -> 0 <= weight l.
Proof. unfold weight. induction 1; simpl in *; lra. Qed.

(** A loop that accumulates weighted points. *)
Lemma wloop (X : Type) (props : X -> outcome (coordvec * R)) (xs : list X) (wps : list (R * list R)) :
  Forall2 (fun x wp => exists c, props x = Ok (c, fst wp) /\ elems c = snd wp /\ point3 (snd wp)) xs wps ->
  forall c0 l0, point3 (elems c0) ->
  exists c, for_each xs (fun x st =>
            do pl <- props x;
            Ok (cv_add (elems (cv_mul (snd pl) (fst pl))) (fst st), snd st + snd pl)) (c0, l0) = Ok (c, l0 + weight wps) /\
    point3 (elems c) /\ forall n, point3 n -> ip n (elems c) = ip n (elems c0) + wsum n wps.
Proof.
  unfold wsum, weight. induction 1 as [|x [w p] xs wps (c1 & E & Ep & P) H IH]; intros c0 l0 C0; cbn [for_each].
  - exists c0. rewrite Rplus_0_r. split; [reflexivity|]. split; auto. intros. simpl. ring.
  - simpl in E, Ep, P.
    rewrite E. cbn [bind fst snd]. set (c2 := cv_add (elems (cv_mul w c1)) c0).
    assert (C2 : point3 (elems c2)) by (unfold c2; simpl; unfold point3; now rewrite each_length).
    destruct (IH c2 (l0 + w) C2) as (c & -> & C & F). exists c. split; [|split; auto].
    + f_equal. f_equal. simpl. ring.
    + intros n N. rewrite F by auto. unfold c2. simpl elems. rewrite Ep, ip_add; auto.
      * rewrite ip_times. simpl. ring.
      * unfold point3 in *. now rewrite map_length.
Qed.
Lemma ip_zero n : point3 n -> ip n [0; 0; 0] = 0.
Proof. intros N. destruct (point3_inv N) as (a & b & c & ->). simpl. ring. Qed.

(** Perimeter and points of a surface. *)
Definition surf_ends (g : gmesh) (s : surf) (ends : list (list R * list R)) : Prop :=
  Forall2 (edge_ends g) (su_edgeind s) ends.
Definition end_points (ends : list (list R * list R)) : list (list R) := flat_map (fun pq => [fst pq; snd pq]) ends.
Definition perimeter (ends : list (list R * list R)) : R := rsum (map (fun pq => dist (fst pq) (snd pq)) ends).
Definition mids (ends : list (list R * list R)) : list (R * list R) :=
  map (fun pq => (dist (fst pq) (snd pq), mid (fst pq) (snd pq))) ends.
Lemma weight_mids ends : weight (mids ends) = perimeter ends.
Proof. unfold weight, mids, perimeter. now rewrite map_map. Qed.
Lemma perimeter_nonneg ends : 0 <= perimeter ends.
Proof.
  rewrite <- weight_mids. apply weight_nonneg. unfold mids. apply Forall_forall. intros x I.
  apply in_map_iff in I. destruct I as (pq & <- & _). apply dist_nonneg.
Qed.
Lemma surf_props g s ends : surf_ends g s ends ->
  Forall2 (fun ei wp => exists c, (do e <- isearch ed_index (edges (gtopo g)) ei; geometric_properties g e) = Ok (c, fst wp) /\
             elems c = snd wp /\ point3 (snd wp)) (su_edgeind s) (mids ends).
Proof.
  unfold surf_ends, mids. induction 1 as [|ei [p q] l ends (e & i & j & F & E & Ei & Ej & P & Q) H IH]; simpl; constructor; auto.
  simpl in *. destruct (@geometric_properties_ok g e i j p q E Ei Ej P Q) as (c & G & C). exists c.
  rewrite F. cbn [bind]. rewrite G. split; auto. split; auto. now apply mid_point3.
Qed.
Lemma ends_point3 g s ends : surf_ends g s ends -> Forall (fun pq => point3 (fst pq) /\ point3 (snd pq)) ends.
Proof. unfold surf_ends. induction 1 as [|ei pq l ends (e & i & j & F & E & Ei & Ej & P & Q) H IH]; constructor; auto. Qed.
Lemma mids_bound g s ends n c : surf_ends g s ends -> point3 n -> (forall q, In q (end_points ends) -> ip n q <= c) ->
  Forall (fun wp => 0 <= fst wp /\ ip n (snd wp) <= c) (mids ends).
Proof.
  intros S N B. pose proof (ends_point3 S) as P. unfold mids. apply Forall_forall. intros x I.
  apply in_map_iff in I. destruct I as ([p q] & <- & I). simpl. split; [apply dist_nonneg|].
  rewrite Forall_forall in P. destruct (P _ I) as (P1 & P2). simpl in *. rewrite ip_mid by auto.
  assert (B1 : ip n p <= c) by (apply B; unfold end_points; apply in_flat_map; exists (p, q); simpl; auto).
  assert (B2 : ip n q <= c) by (apply B; unfold end_points; apply in_flat_map; exists (p, q); simpl; auto).
  lra.
Qed.
Lemma dbl_eps_pos : 0 < dbl_eps.
Proof. unfold dbl_eps. apply Rinv_0_lt_compat. lra. Qed.
Lemma aprox_zero x : 0 <= x -> aprox_equal x 0 = true <-> x < dbl_eps.
Proof.
  intros X. unfold aprox_equal. rewrite Rminus_0_r, Rabs_pos_eq by auto.
  destruct (Rlt_dec x dbl_eps); split; intros; auto; try discriminate; contradiction.
Qed.
Lemma to_int_floor x : 0 <= x -> (0 <= to_int x)%Z /\ IZR (to_int x) <= x < IZR (to_int x) + 1.
Proof.
  intros X. unfold to_int. destruct (Rle_dec 0 x); [|lra]. destruct (base_Int_part x) as (A & B). split.
  - apply Z.lt_succ_r. apply lt_IZR. unfold Z.succ. rewrite plus_IZR. lra.
  - lra.
Qed.
Lemma isearch_det (A : Type) (x : outcome A) a b : x = Ok a -> x = Ok b -> a = b.
Proof. congruence. Qed.

Lemma pseudo_surf_ok g s ends : surf_ends g s ends -> ends <> [] ->
  exists c, pseudo_surf g s = Ok (c, to_int (perimeter ends)) /\ point3 (elems c) /\
    (perimeter ends < dbl_eps -> elems c = mid (fst (hd ([], []) ends)) (snd (hd ([], []) ends))) /\
    (dbl_eps <= perimeter ends -> forall n, point3 n -> ip n (elems c) = wsum n (mids ends) / perimeter ends).
Proof.
  intros S NE. unfold pseudo_surf. rewrite assign_new. cbn [bind].
  destruct (@wloop _ _ _ _ (surf_props S) (mkCv [0; 0; 0] (euclid [0; 0; 0]) true) 0 eq_refl) as (c & -> & C & F).
  cbn [bind fst snd]. rewrite weight_mids, Rplus_0_l.
  pose proof (perimeter_nonneg ends) as PN. pose proof (aprox_zero PN) as AZ.
  destruct (aprox_equal (perimeter ends) 0) eqn:A.
  - pose proof (proj1 AZ eq_refl) as L.
    destruct ends as [|[p q] ends]; [congruence|]. inversion S; subst.
    match goal with H : edge_ends _ _ _ |- _ => destruct H as (e & i & j & Fe & E & Ei & Ej & P & Q) end.
    rewrite Fe. cbn [bind]. simpl in Ei, Ej, P, Q.
    destruct (@geometric_properties_ok g e i j p q E Ei Ej P Q) as (c1 & -> & C1). cbn [bind fst snd].
    exists c1. split; [reflexivity|]. split; [rewrite C1; now apply mid_point3|]. split; [auto|].
    intros. simpl in *. lra.
  - exists (cv_div (perimeter ends) c). split; [reflexivity|]. split; [simpl; unfold point3 in *; now rewrite map_length|].
    split; [intros L; apply AZ in L; discriminate|].
    intros L n N. simpl elems. rewrite ip_times, F by auto. simpl elems. rewrite ip_zero by auto. field.
    pose proof dbl_eps_pos. lra.
Qed.
Lemma pseudo_surf_hull g s ends c k : surf_ends g s ends -> ends <> [] ->
  pseudo_surf g s = Ok (c, k) -> in_hull (end_points ends) (elems c).
Proof.
  intros S NE E. destruct (pseudo_surf_ok S NE) as (c' & E' & C & A & B). rewrite E in E'. injection E' as -> ->.
  split; auto. intros n d N H. pose proof (mids_bound S N H) as M. destruct (Rlt_dec (perimeter ends) dbl_eps) as [L|L].
  - rewrite (A L). destruct ends as [|[p q] ends]; [congruence|]. simpl. apply Forall_inv in M. apply M.
  - apply Rnot_lt_le in L. rewrite (B L n N). pose proof dbl_eps_pos. pose proof (wsum_le n M) as W. rewrite weight_mids in W.
    apply Rmult_le_reg_r with (perimeter ends); [lra|]. unfold Rdiv. rewrite Rmult_assoc, Rinv_l by lra. lra.
Qed.

(** A volume: the ends of the edges of each of its surfaces. *)
Definition volu_ends (g : gmesh) (v : volu) (es : list (list (list R * list R))) : Prop :=
  Forall2 (fun si ends => ends <> [] /\ exists s, isearch su_index (surfs (gtopo g)) si = Ok s /\ surf_ends g s ends) (vo_surfind v) es.
Definition volu_points (es : list (list (list R * list R))) : list (list R) := flat_map end_points es.
Lemma volu_props g v es : volu_ends g v es -> exists ps,
  Forall2 (fun si wp => exists c, (do s <- isearch su_index (surfs (gtopo g)) si; do pl <- pseudo_surf g s; Ok (fst pl, IZR (snd pl))) = Ok (c, fst wp) /\
             elems c = snd wp /\ point3 (snd wp)) (vo_surfind v) ps /\
  Forall2 (fun ends wp => fst wp = IZR (to_int (perimeter ends)) /\ in_hull (end_points ends) (snd wp)) es ps.
Proof.
  unfold volu_ends. induction 1 as [|si ends l es (NE & s & F & S) H (ps & I1 & I2)].
  - exists []. split; constructor.
  - destruct (pseudo_surf_ok S NE) as (c & E & C & _).
    exists ((IZR (to_int (perimeter ends)), elems c) :: ps). split; constructor; auto.
    + exists c. rewrite F. cbn [bind]. rewrite E. simpl. auto.
    + simpl. split; auto. apply (pseudo_surf_hull S NE E).
Qed.
Lemma for_each_ext (A S : Type) (f h : A -> S -> outcome S) l : (forall x s, f x s = h x s) -> forall s, for_each l f s = for_each l h s.
Proof. intros E. induction l as [|x l IH]; intros s; simpl; auto. rewrite E. destruct (h x s); simpl; auto. Qed.
Lemma bind_assoc (A B C : Type) (x : outcome A) (f : A -> outcome B) (h : B -> outcome C) :
  bind (bind x f) h = bind x (fun a => bind (f a) h).
Proof. destruct x; reflexivity. Qed.
Lemma hull_sub pts pts' p : (forall q, In q pts -> In q pts') -> in_hull pts p -> in_hull pts' p.
Proof. intros S (P & H). split; auto. Qed.
Lemma Forall2_in_r (A B : Type) (R : A -> B -> Prop) l l' : Forall2 R l l' -> forall y, In y l' -> exists x, In x l /\ R x y.
Proof. induction 1; simpl; [tauto|]. intros z [-> | I]; [eauto|]. destruct (IHForall2 z I) as (u & ? & ?). eauto. Qed.

Lemma pseudo_volu_ok g v es : volu_ends g v es -> es <> [] ->
  exists c, pseudo_volu g v = Ok c /\ in_hull (volu_points es) (elems c).
Proof.
  intros V NE. destruct (volu_props V) as (ps & H1 & H2).
  assert (HU : Forall (fun wp => 0 <= fst wp /\ in_hull (volu_points es) (snd wp)) ps).
  { apply Forall_forall. intros wp I. destruct (Forall2_in_r H2 _ I) as (ends & J & -> & Hh). split.
    - apply IZR_le. apply to_int_floor. apply perimeter_nonneg.
    - eapply hull_sub; [|exact Hh]. intros q Iq. unfold volu_points. apply in_flat_map. eauto. }
  unfold pseudo_volu. rewrite assign_new. cbn [bind].
  rewrite (@for_each_ext _ _ _ (fun si st =>
     do pl <- (do s <- isearch su_index (surfs (gtopo g)) si; do pl <- pseudo_surf g s; Ok (fst pl, IZR (snd pl)));
     Ok (cv_add (elems (cv_mul (snd pl) (fst pl))) (fst st), snd st + snd pl))).
  2:{ intros si st. rewrite !bind_assoc. destruct (isearch _ _ si); simpl; auto. destruct (pseudo_surf g a); reflexivity. }
  destruct (@wloop _ _ _ _ H1 (mkCv [0; 0; 0] (euclid [0; 0; 0]) true) 0 eq_refl) as (c & -> & C & F).
  cbn [bind fst snd]. rewrite Rplus_0_l.
  assert (WN : 0 <= weight ps) by (apply weight_nonneg; eapply Forall_impl; [|exact HU]; simpl; tauto).
  pose proof (aprox_zero WN) as AZ. destruct (aprox_equal (weight ps) 0).
  - destruct es as [|ends es]; [congruence|]. inversion V; subst. 
    match goal with H : _ /\ _ |- _ => destruct H as (NE1 & s & Fs & S) end. rewrite Fs. cbn [bind].
    destruct (pseudo_surf_ok S NE1) as (c1 & E & C1 & _). pose proof (pseudo_surf_hull S NE1 E) as HH. rewrite E. cbn [bind fst].
    eexists. split; [reflexivity|]. eapply hull_sub; [|exact HH]. intros q I. unfold volu_points. simpl. apply in_or_app. auto.
  - eexists. split; [reflexivity|]. split; [simpl; unfold point3 in *; now rewrite map_length|].
    intros n d N B. simpl elems. rewrite ip_times, F by auto. simpl elems. rewrite ip_zero by auto.
    assert (L : ~ weight ps < dbl_eps) by (intros L; apply AZ in L; discriminate).
    pose proof dbl_eps_pos as DE.
    assert (M : Forall (fun wp => 0 <= fst wp /\ ip n (snd wp) <= d) ps).
    { eapply Forall_impl; [|exact HU]. simpl. intros wp (W & _ & Hh). split; auto. }
    apply wsum_le in M. apply Rmult_le_reg_r with (weight ps); [lra|].
    replace (1 / weight ps * (0 + wsum n ps) * weight ps) with (wsum n ps) by (field; lra). lra.
Qed.
(** With perimeters below one the weights are all zero. *)
Lemma pseudo_volu_small g v ends es : volu_ends g v (ends :: es) ->
  Forall (fun e => perimeter e < 1) (ends :: es) ->
  exists si r s k c, vo_surfind v = si :: r /\ isearch su_index (surfs (gtopo g)) si = Ok s /\
    pseudo_surf g s = Ok (c, k) /\ pseudo_volu g v = Ok c.
Proof.
  intros V SM. destruct (volu_props V) as (ps & H1 & H2).
  assert (W0 : weight ps = 0).
  { clear V H1. unfold weight. revert SM H2. generalize (ends :: es). intros l SM H2. revert SM.
    induction H2 as [|e wp l ps (E & _) H IH]; intros SM; simpl; auto. inversion SM; subst. rewrite IH by auto. rewrite E.
    pose proof (to_int_floor (perimeter_nonneg e)) as (T0 & T1 & T2).
    assert (to_int (perimeter e) = 0)%Z as ->; [|lra].
    assert (IZR (to_int (perimeter e)) < 1) as L by lra. apply lt_IZR in L. lia. }
  unfold pseudo_volu. rewrite assign_new. cbn [bind].
  rewrite (@for_each_ext _ _ _ (fun si st =>
     do pl <- (do s <- isearch su_index (surfs (gtopo g)) si; do pl <- pseudo_surf g s; Ok (fst pl, IZR (snd pl)));
     Ok (cv_add (elems (cv_mul (snd pl) (fst pl))) (fst st), snd st + snd pl))).
  2:{ intros si st. rewrite !bind_assoc. destruct (isearch _ _ si); simpl; auto. destruct (pseudo_surf g a); reflexivity. }
  destruct (@wloop _ _ _ _ H1 (mkCv [0; 0; 0] (euclid [0; 0; 0]) true) 0 eq_refl) as (c & -> & C & F).
  cbn [bind fst snd]. rewrite Rplus_0_l, W0.
  replace (aprox_equal 0 0) with true by (symmetry; apply aprox_zero; [lra|apply dbl_eps_pos]).
  inversion V as [|si e l es' HH HT Evi]; subst. destruct HH as (NE1 & s & Fs & S).
  destruct (pseudo_surf_ok S NE1) as (c1 & E & C1 & _).
  exists si, l, s, (to_int (perimeter ends)), c1. rewrite Fs. cbn [bind]. rewrite E. auto.
Qed.
