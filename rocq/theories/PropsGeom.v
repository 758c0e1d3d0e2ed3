(** Geometry theorems: C29 to C33, C43, C49, C50, C56, C57, C62 to C65.  Doubles are
    real numbers. *)
From Coq Require Import Reals Lra Lia.
From Verif Require Import Base Containers Mesh Edit Voxel Geom SpecGeom CoordProofs GeomProofs CentreProofs ScaleProofs AnalysisProofs.
Set Implicit Arguments.
Open Scope R_scope.

(** ** A concrete cell *)
(** The block grid of one cell (see Voxel.v) with lowest corner (o, o, o) and side s. *)
Definition cube_topo : mesh := Eval vm_compute in block_grid Z.div Z.div (1, 1, 1)%Z.
Definition cube (o s : R) : gmesh :=
  mkG cube_topo [[o; o; o]; [o + s; o; o]; [o; o + s; o]; [o + s; o + s; o];
                 [o; o; o + s]; [o + s; o; o + s]; [o; o + s; o + s]; [o + s; o + s; o + s]].
Definition cube_volu : volu := hd (mkVolu 0 false []) (volus cube_topo).
Definition corner (o s : R) (i : Z) : list R := nth (Z.to_nat (i - 1)) (gcoord (cube o s)) [].
Definition cube_ends (o s : R) : list (list (list R * list R)) :=
  map (fun sf => map (fun ei => let e := nth (Z.to_nat (ei - 1)) (edges cube_topo) (mkEdge 0 false [] []) in
                      (corner o s (hd 0%Z (ed_vertind e)), corner o s (hd 0%Z (tl (ed_vertind e)))))
                     (su_edgeind (nth (Z.to_nat (sf - 1)) (surfs cube_topo) (mkSurf 0 false false [] [])))) (vo_surfind cube_volu).
Lemma cube_volu_ends o s : volu_ends (cube o s) cube_volu (cube_ends o s).
Proof.
  unfold volu_ends. cbv [cube_volu cube_topo cube_ends map hd volus vo_surfind].
  repeat (apply Forall2_cons || apply Forall2_nil).
  all: split; [discriminate|]; eexists; (split; [reflexivity|]); unfold surf_ends; cbv [su_edgeind];
    repeat (apply Forall2_cons || apply Forall2_nil); do 3 eexists; repeat split; reflexivity.
Qed.
Lemma dist_is p q d : 0 <= d -> ip (pminus p q) (pminus p q) = d * d -> dist p q = d.
Proof. intros D E. unfold dist, euclid. rewrite E. now apply sqrt_square. Qed.
Lemma cube_dist o s : 0 <= s -> Forall (Forall (fun pq => dist (fst pq) (snd pq) = s)) (cube_ends o s).
Proof.
  intros S. cbv [cube_volu cube_topo cube_ends map hd volus vo_surfind].
  repeat (apply Forall_cons || apply Forall_nil); (apply dist_is; [auto|simpl; ring]).
Qed.

(** ** C29 *)
(** BoundingBox returns the least and greatest coordinate in each direction. *)
Theorem C29_bounding_box : forall g, Forall point3 (gcoord g) -> gcoord g <> [] ->
  exists lx hx ly hy lz hz, bounding_box g = Ok (Some (lx, hx), Some (ly, hy), Some (lz, hz)) /\
    extremes lx hx (direction 0 (gcoord g)) /\ extremes ly hy (direction 1 (gcoord g)) /\ extremes lz hz (direction 2 (gcoord g)).
Proof.
  intros g F NE. unfold bounding_box.
  destruct (@box_dir_ok 0 _ ltac:(lia) F NE) as (l0 & h0 & E0 & X0).
  destruct (@box_dir_ok 1 _ ltac:(lia) F NE) as (l1 & h1 & E1 & X1).
  destruct (@box_dir_ok 2 _ ltac:(lia) F NE) as (l2 & h2 & E2 & X2).
  simpl Z.of_nat in E0, E1, E2. rewrite E0. cbn [bind]. rewrite E1. cbn [bind]. rewrite E2. cbn [bind].
  exists l0, h0, l1, h1, l2, h2. auto.
Qed.
Print Assumptions C29_bounding_box.
(** Scale keeps the connectivity; the transformation returned reproduces it; in a
    direction in which the points differ the new extremes are the limits asked for,
    in a flat direction every point is moved to the lower limit.  Each coordinate is
    moved by the same affine function. *)
Theorem C29_scale : forall d g, Forall point3 (gcoord g) -> gcoord g <> [] ->
  (forall j, (j < 3)%nat -> fst (ldir d j) <= snd (ldir d j)) ->
  exists g' t, scale d g = Ok (g', t) /\ gtopo g' = gtopo g /\ linear_transform t g = Ok g' /\
    length (gcoord g') = length (gcoord g) /\ Forall point3 (gcoord g') /\
    forall j, (j < 3)%nat -> exists lo hi a b, extremes lo hi (direction j (gcoord g)) /\
      (forall k, (k < length (gcoord g))%nat -> nth j (nth k (gcoord g') []) 0 = a * nth j (nth k (gcoord g) []) 0 + b) /\
      (lo < hi -> extremes (fst (ldir d j)) (snd (ldir d j)) (direction j (gcoord g'))) /\
      (lo = hi -> forall x, In x (direction j (gcoord g')) -> x = fst (ldir d j)).
Proof.
  intros d g F NE LB. destruct (scale_ok d g F NE) as (t & E & T).
  exists (mkG (gtopo g) (map (moved t) (gcoord g))), t. split; auto. split; [reflexivity|].
  split; [now apply linear_transform_ok|]. split; [simpl; apply map_length|]. split; [apply moved_point3|].
  intros j J. destruct (T j J) as (lo & hi & X & TD).
  set (k := if Req_EM_T (hi - lo) 0 then 1 else (snd (ldir d j) - fst (ldir d j)) / (hi - lo)) in *.
  exists lo, hi, k, (fst (ldir d j) - lo * k). split; auto. split; [|split].
  - intros i I. simpl gcoord. rewrite (nth_indep _ [] (moved t [])) by now rewrite map_length.
    rewrite map_nth, nth_moved by auto. rewrite TD. unfold move1. ring.
  - intros L. simpl gcoord. rewrite direction_moved, TD by auto. pose proof (LB j J) as LJ.
    assert (K0 : k = (snd (ldir d j) - fst (ldir d j)) / (hi - lo)) by (unfold k; destruct (Req_EM_T (hi - lo) 0); [lra|auto]).
    assert (K : 0 <= k). { rewrite K0. apply Rmult_le_pos; [lra|]. left. apply Rinv_0_lt_compat. lra. }
    pose proof (extremes_map (fst (ldir d j)) lo K X) as Y. unfold move1 at 1 2 in Y.
    replace (fst (ldir d j) + (lo - lo) * k) with (fst (ldir d j)) in Y by ring.
    replace (fst (ldir d j) + (hi - lo) * k) with (snd (ldir d j)) in Y; [exact Y|]. rewrite K0. field. lra.
  - intros L x I. simpl gcoord in I. rewrite direction_moved, TD in I by auto. apply in_map_iff in I. destruct I as (y & <- & I).
    destruct X as (_ & _ & X). apply X in I. unfold move1. assert (y = lo) as -> by lra. ring.
Qed.
Print Assumptions C29_scale.
Example C29_used : Forall point3 (gcoord (cube 2 (1 / 2))) /\ gcoord (cube 2 (1 / 2)) <> [] /\
  extremes 2 (2 + 1 / 2) (direction 0 (gcoord (cube 2 (1 / 2)))).
Proof.
  split; [repeat constructor|]. split; [discriminate|]. unfold extremes, direction. simpl.
  split; [auto|]. split; [auto|]. intros x I. repeat destruct I as [<- | I]; lra || contradiction.
Qed.

(** ** C30 *)
Definition lrun (os : list lop) (m : lmesh) : outcome lmesh := for_each os lstep m.
Fixpoint llegal_all (os : list lop) (m : lmesh) : Prop :=
  match os with
  | [] => True
  | o :: os' => llegal o m /\ forall m', lstep o m = Ok m' -> llegal_all os' m'
  end.
(** The length of every edge is the distance of its ends after any sequence of calls
    in which a transformation that changes distances only comes while no length is
    cached.  Missing: other transformations and scalings, see C30_refuted, and meshes
    of dimension below three that are not flat, see C30_planar_refuted. *)
Theorem C30_partial : forall os m, wf_geom (lg m) -> cache_ok m -> llegal_all os m ->
  exists m', lrun os m = Ok m' /\
    forall k e, nth_error (edges (gtopo (lg m'))) k = Some e ->
      exists i j p q, ed_vertind e = [i; j] /\ coord_of (lg m') i = Ok p /\ coord_of (lg m') j = Ok q /\
        edge_length m' (Z.of_nat k) = Ok (dist p q).
Proof.
  intros os m W C L. assert (X : exists m', lrun os m = Ok m' /\ wf_geom (lg m') /\ cache_ok m').
  { revert m W C L. induction os as [|o os IH]; intros m W C L; unfold lrun; simpl; [now exists m|].
    destruct L as (L1 & L2). destruct (@lstep_ok o m W C L1) as (m1 & E & W1 & C1). rewrite E. cbn [bind]. apply IH; auto. }
  destruct X as (m' & E & W' & C'). exists m'. split; auto. intros k e Ek.
  destruct (@edge_length_ok m' k e W' C' Ek) as (p & q & (i & j & E1 & E2 & E3 & _) & El). now exists i, j, p, q.
Qed.
Print Assumptions C30_partial.
(** When PrepareForUse comes last, the field length of every edge is that distance. *)
Lemma length_positive m p l : edge_length m p = Ok l -> 0 <= l.
Proof.
  unfold edge_length. destruct (at_ (llen m) p) as [x| | |]; cbn [bind]; try discriminate. unfold is_set. destruct (Rle_dec 0 x); [intros E; injection E as <-; auto|].
  destruct (at_ (edges (gtopo (lg m))) p); cbn [bind]; try discriminate. destruct (length_squared _ _); cbn [bind]; try discriminate. intros E. injection E as <-. apply sqrt_pos.
Qed.
Lemma prepared_positive m m' : prepare_lengths m = Ok m' -> (lset m = true -> Forall (fun l => 0 <= l) (llen m)) -> lset m' = true /\ Forall (fun l => 0 <= l) (llen m').
Proof.
  unfold prepare_lengths. destruct (lset m) eqn:E; [intros K; injection K as <-; auto|]. intros K _. unfold set_edge_lengths in K.
  destruct (omap_list _ _) as [ls| | |] eqn:Eo; cbn [bind] in K; try discriminate. injection K as <-. cbn [lset llen]. split; auto.
  revert ls Eo. generalize (map Z.of_nat (seq 0 (length (edges (gtopo (lg m)))))) as zs. induction zs as [|z zs IH]; cbn; intros ls Eo; [injection Eo as <-; auto|].
  destruct (edge_length m z) as [l| | |] eqn:El; cbn [bind] in Eo; try discriminate. destruct (omap_list _ zs) as [r| | |]; cbn [bind] in Eo; try discriminate. injection Eo as <-.
  constructor; auto. eapply length_positive; eauto.
Qed.
Lemma step_positive o m m' : lstep o m = Ok m' -> (lset m = true -> Forall (fun l => 0 <= l) (llen m)) -> lset m' = true -> Forall (fun l => 0 <= l) (llen m').
Proof.
  destruct o; cbn [lstep]; intros E H S.
  - destruct (linear_transform t (lg m)); cbn [bind] in E; try discriminate. injection E as <-. auto.
  - destruct (scale d (lg m)); cbn [bind] in E; try discriminate. injection E as <-. auto.
  - apply (@prepared_positive _ _ E H).
  - unfold invalidate_length in E. destruct (at_ _ _); cbn [bind] in E; try discriminate. injection E as <-. discriminate.
Qed.
Theorem C30_cached : forall os m, wf_geom (lg m) -> cache_ok m -> llegal_all os m -> (lset m = true -> Forall (fun l => 0 <= l) (llen m)) ->
  exists m', lrun (os ++ [LPrepare]) m = Ok m' /\
    forall k e, nth_error (edges (gtopo (lg m'))) k = Some e ->
      exists i j p q, ed_vertind e = [i; j] /\ coord_of (lg m') i = Ok p /\ coord_of (lg m') j = Ok q /\ nth_error (llen m') k = Some (dist p q).
Proof.
  intros os m W C L S. assert (X : exists m', lrun (os ++ [LPrepare]) m = Ok m' /\ wf_geom (lg m') /\ cache_ok m' /\ Forall (fun l => 0 <= l) (llen m')).
  { revert m W C L S. induction os as [|o os IH]; intros m W C L S; unfold lrun; cbn [app for_each].
    - destruct (@lstep_ok LPrepare m W C I) as (m1 & E & W1 & C1). rewrite E. cbn [bind]. exists m1. split; auto. split; auto. split; auto. apply (@prepared_positive _ _ E S).
    - destruct L as (L1 & L2). destruct (@lstep_ok o m W C L1) as (m1 & E & W1 & C1). rewrite E. cbn [bind]. apply IH; auto. eapply step_positive; eauto. }
  destruct X as (m' & E & W' & C' & P). exists m'. split; auto. intros k e Ek.
  destruct (@edge_length_ok m' k e W' C' Ek) as (p & q & EN & _). pose proof EN as (i & j & E1 & E2 & E3 & _). exists i, j, p, q. do 3 (split; [auto|]).
  destruct C' as (CL & C'). destruct (nth_error (llen m') k) as [l|] eqn:El; [|apply nth_error_None in El; assert (nth_error (edges (gtopo (lg m'))) k <> None) as N by congruence; apply nth_error_Some in N; lia].
  f_equal. eapply C'; eauto. rewrite Forall_forall in P. apply P. eapply nth_error_In; eauto.
Qed.
Print Assumptions C30_cached.
(** One edge along x of length one, not cached. *)
Definition one_edge (dim : Z) (p q : list R) (l : R) (s : bool) : lmesh :=
  mkL (mkG (mkMesh [] [] [mkEdge 1 false [] [1; 2]%Z] [mkVert 1 false [1]%Z; mkVert 2 false [1]%Z] dim) [p; q]) [l] s.
Definition double : transformation := ((0, 0, 2), (0, 0, 2), (0, 0, 2)).
Example C30_used : let m := one_edge 3 [0; 0; 0] [1; 0; 0] (-1) false in
  wf_geom (lg m) /\ cache_ok m /\ llegal_all [LTransform double; LPrepare; LInvalidate 1] m.
Proof.
  intros m. split; [|split].
  - split; [repeat constructor|]. split.
    + intros e [<- | []]. exists [0; 0; 0], [1; 0; 0], 1%Z, 2%Z. repeat split; reflexivity.
    + split; [simpl; lia|]. simpl. intros. lia.
  - split; [reflexivity|]. simpl. intros [|[|k]] e l p q E1 E2 L; simpl in *; try discriminate. injection E2 as <-. lra.
  - simpl. split; [right; repeat constructor; simpl; lra|]. intros m1 E1. split; auto. intros m2 E2. split; [|auto].
    injection E1 as <-. unfold prepare_lengths in E2. simpl in E2. unfold set_edge_lengths in E2.
    destruct (omap_list _ _); simpl in E2; try discriminate. injection E2 as <-. simpl. eexists. split; [left; reflexivity|reflexivity].
Qed.
(** A transformation after the lengths are cached leaves them as they were: the edge
    has length two and Length returns one, even after PrepareForUse. *)
Theorem C30_refuted : exists m m', wf_geom (lg m) /\ cache_ok m /\
  lrun [LPrepare; LTransform double; LPrepare] m = Ok m' /\
  edge_length m' 0 = Ok 1 /\ exists p q, coord_of (lg m') 1 = Ok p /\ coord_of (lg m') 2 = Ok q /\ dist p q = 2.
Proof.
  set (m := one_edge 3 [0; 0; 0] [1; 0; 0] (-1) false).
  exists m, (one_edge 3 [0; 0; 0] [2; 0; 0] 1 true).
  destruct C30_used as (A & B & _). split; [exact A|]. split; [exact B|]. split; [|split].
  - assert (E : set_edge_lengths m = Ok (mkL (lg m) [1] true)).
    { unfold set_edge_lengths, m. simpl. unfold edge_length. cbn [at_ one_edge llen lg]. unfold at_. simpl nth_error. simpl.
      unfold is_set. destruct (Rle_dec 0 (-1)); [lra|]. simpl.
      replace (0 + (0 - 1) * (0 - 1) + (0 - 0) * (0 - 0) + (0 - 0) * (0 - 0)) with 1 by ring. now rewrite sqrt_1. }
    unfold lrun. cbn [for_each lstep prepare_lengths]. unfold prepare_lengths at 1. simpl lset. cbv iota. rewrite E. cbn [bind].
    unfold linear_transform. simpl. unfold prepare_lengths, one_edge, double, move1. simpl.
    f_equal. f_equal. f_equal. f_equal; [f_equal; [ring|f_equal; [ring|f_equal; ring]]|f_equal; f_equal; [ring|f_equal; [ring|f_equal; ring]]].
  - unfold edge_length, one_edge. simpl. unfold is_set. destruct (Rle_dec 0 1); [reflexivity|lra].
  - exists [0; 0; 0], [2; 0; 0]. split; [reflexivity|]. split; [reflexivity|]. apply dist_is; [lra|simpl; ring].
Qed.
Print Assumptions C30_refuted.
(** In a mesh of dimension two a difference in z is left out. *)
Theorem C30_planar_refuted : exists m p q, coord_of (lg m) 1 = Ok p /\ coord_of (lg m) 2 = Ok q /\
  edge_length m 0 = Ok 3 /\ dist p q = 5.
Proof.
  exists (one_edge 2 [0; 0; 0] [3; 0; 4] (-1) false), [0; 0; 0], [3; 0; 4]. split; [reflexivity|]. split; [reflexivity|]. split.
  - unfold edge_length, one_edge, is_set. simpl. destruct (Rle_dec 0 (-1)); [lra|]. simpl.
    replace (0 + (0 - 3) * (0 - 3) + (0 - 0) * (0 - 0)) with (3 * 3) by ring. rewrite sqrt_square; [reflexivity|lra].
  - apply dist_is; [lra|simpl; ring].
Qed.
Print Assumptions C30_planar_refuted.

(** ** C31 *)
(** GetNorm gives the Euclidean length after any sequence of calls with three
    components, in which vectors are not multiplied by a negative number or divided
    by a negative one while the stored norm counts as current.  Missing: negative
    factors, see C31_negative_refuted. *)
Theorem C31_partial : forall os c, norm_ok c -> legal_all os c ->
  exists c' n, cv_run os c = Ok c' /\ get_norm c' = Ok n /\ norm n = euclid (elems c') /\ elems n = elems c' /\
    get_norm_const n = Ok (euclid (elems c')) /\ (forall x, get_norm_const c' = Ok x -> x = euclid (elems c')).
Proof.
  intros os c N L. destruct (cv_run_ok os N L) as (c' & E & N'). destruct (get_norm_ok N') as (n & En & A & B & C).
  exists c', n. repeat split; auto.
  - unfold get_norm_const. now rewrite B, C.
  - destruct N' as (_ & U). unfold get_norm_const. intros x. destruct (utd c'); [|discriminate]. intros X. injection X as <-. auto.
Qed.
Print Assumptions C31_partial.
(** What each call leaves in the vector is stated separately. *)
Theorem C31_elements : forall c, point3 (elems c) ->
  (forall v, point3 v -> elems (cv_add v c) = pplus (elems c) v /\ elems (cv_sub v c) = pminus (elems c) v /\
     elems (cv_subfrom v c) = pminus v (elems c)) /\
  (forall s, elems (cv_mul s c) = pscale s (elems c)) /\
  (forall s, s <> 0 -> pscale s (elems (cv_div s c)) = elems c) /\
  (exists f, flipsign c = Ok f /\ elems f = pscale (-1) (elems c)) /\
  (norm_ok c -> euclid (elems c) <> 0 -> exists n, normalize c = Ok n /\ pscale (euclid (elems c)) (elems n) = elems c /\ euclid (elems n) = 1).
Proof.
  intros c P. destruct (point3_inv P) as (x & y & z & E). split; [|split; [|split; [|split]]].
  - intros v V. destruct (point3_inv V) as (a & b & d & ->). simpl. rewrite E. auto.
  - intros s. simpl. rewrite E. unfold pscale. simpl. f_equal; [ring|f_equal; [ring|f_equal; ring]].
  - intros s S. simpl. rewrite E. unfold pscale. simpl. f_equal; [now field|f_equal; [now field|f_equal; now field]].
  - unfold flipsign. rewrite E. simpl. eexists. split; [reflexivity|]. unfold pscale. simpl. f_equal; [ring|f_equal; [ring|f_equal; ring]].
  - intros N0 NZ. destruct (@cv_step_ok ONormalize c N0 NZ) as (n & En & P1 & U). simpl in En. exists n. split; auto.
    unfold normalize in En. destruct (get_norm_ok N0) as (c1 & G & E1 & U1 & N1). rewrite G in En. cbn [bind] in En.
    rewrite E1, E in En. simpl in En. injection En as <-. simpl. rewrite N1. split.
    + unfold pscale. simpl. rewrite E in NZ |- *. f_equal; [now field|f_equal; [now field|f_equal; now field]].
    + simpl in U. rewrite N1 in U. symmetry. now apply U.
Qed.
Print Assumptions C31_elements.
(** The calls that take a vector work entry by entry, on vectors of any sizes; entries
    past the end of the shorter one stay as they were. *)
Theorem C31_entrywise : forall c v,
  (forall f c', In (f, c') [(Rmax, cv_max v c); (Rmin, cv_min v c); (Rplus, cv_add v c); (Rminus, cv_sub v c);
      (fun a b => b - a, cv_subfrom v c); (Rdiv, cv_divv v c); (Rmult, cv_mulv v c)] ->
    length (elems c') = length (elems c) /\ utd c' = false /\
    forall i a, nth_error (elems c) i = Some a ->
      nth_error (elems c') i = Some (match nth_error v i with Some b => f a b | None => a end)).
Proof.
  intros c v.
  assert (G : forall g f, (forall a b, g a b = f a b) ->
    length (elems (with_vec g v c)) = length (elems c) /\ utd (with_vec g v c) = false /\
    forall i a, nth_error (elems c) i = Some a ->
      nth_error (elems (with_vec g v c)) i = Some (match nth_error v i with Some b => f a b | None => a end)).
  { intros g f E. unfold with_vec. cbn [elems utd]. generalize (elems c). intros l. clear c.
    assert (K : length (each g l v) = length l /\ forall i a, nth_error l i = Some a ->
      nth_error (each g l v) i = Some (match nth_error v i with Some b => f a b | None => a end)).
    { revert v. induction l as [|x l IH]; intros [|y w].
      - split; [reflexivity|]. intros [|i] a H; discriminate.
      - split; [reflexivity|]. intros [|i] a H; discriminate.
      - split; [reflexivity|]. intros i a H. cbn [each]. rewrite H. destruct i; reflexivity.
      - destruct (IH w) as (L & N). split; [cbn [each length]; auto|]. intros [|i] a H; cbn [each nth_error] in *; auto.
        injection H as ->. now rewrite E. }
    destruct K. auto. }
  intros f c' H. cbn [In] in H.
  repeat (destruct H as [H|H]; [injection H as <- <-; apply G; auto; intros a b|]); [..|contradiction].
  unfold rmax, Rmax. destruct (Rle_dec b a), (Rle_dec a b); lra.
Qed.
Print Assumptions C31_entrywise.
Example C31_used : norm_ok cv_new /\ legal_all [OAssign 3 4 0; OMul 2; OAdd [1; 1; 1]; OGet; ODiv 3] cv_new.
Proof.
  split; [split; [reflexivity|discriminate]|]. simpl. split; auto. intros c1 _. split; [left; lra|]. intros c2 _. split; auto.
  intros c3 _. split; auto. intros c4 _. split; [split; [lra|left; lra]|auto].
Qed.
(** Multiplying the vector (3, 4, 0) by -1 makes its norm -5. *)
Theorem C31_negative_refuted : exists c n, cv_run [OAssign 3 4 0; OMul (-1)] cv_new = Ok c /\ get_norm c = Ok n /\
  norm n = -5 /\ euclid (elems c) = 5.
Proof.
  unfold cv_run. cbn [for_each cv_step]. unfold assign. cbn [elems cv_new]. rewrite calc_norm_ok by reflexivity. cbn [bind].
  assert (E : euclid [3; 4; 0] = 5).
  { unfold euclid. replace (ip [3; 4; 0] [3; 4; 0]) with (5 * 5) by (simpl; ring). apply sqrt_square. lra. }
  cbn [elems norm utd]. rewrite E. eexists. eexists. split; [reflexivity|]. split; [reflexivity|]. simpl. split; [ring|].
  unfold euclid. simpl. match goal with |- sqrt ?x = _ => replace x with (5 * 5) by ring end. apply sqrt_square. lra.
Qed.
Print Assumptions C31_negative_refuted.

(** ** C32 *)
Theorem C32_cross : forall a b, point3 a -> point3 b ->
  exists c, cross a b = Ok c /\ point3 c /\ cross b a = Ok (pscale (-1) c) /\
    ip a c = 0 /\ ip b c = 0 /\ ip c c + ip a b * ip a b = ip a a * ip b b /\
    dot a b = Ok (ip a b) /\ dot b a = dot a b.
Proof.
  intros a b P Q. rewrite !dot_ok by auto. rewrite (ip_comm b a).
  destruct (point3_inv P) as (a1 & a2 & a3 & ->), (point3_inv Q) as (b1 & b2 & b3 & ->).
  rewrite !cross3. eexists. split; [reflexivity|]. split; [reflexivity|]. split.
  - f_equal. unfold pscale. simpl. f_equal; [ring|f_equal; [ring|f_equal; ring]].
  - simpl. repeat split; ring.
Qed.
Print Assumptions C32_cross.
(** The cross product is the right handed one. *)
Theorem C32_orientation : cross [1; 0; 0] [0; 1; 0] = Ok [0; 0; 1] /\
  forall a b c, point3 a -> point3 b -> point3 c -> exists p q r, cross a b = Ok p /\ cross b c = Ok q /\ cross c a = Ok r /\
    ip p c = ip q a /\ ip q a = ip r b.
Proof.
  split; [rewrite cross3; f_equal; f_equal; [ring|f_equal; [ring|f_equal; ring]]|].
  intros a b c A B C. destruct (point3_inv A) as (a1 & a2 & a3 & ->), (point3_inv B) as (b1 & b2 & b3 & ->), (point3_inv C) as (c1 & c2 & c3 & ->).
  rewrite !cross3. do 3 eexists. repeat (split; [reflexivity|]). simpl. split; ring.
Qed.
Print Assumptions C32_orientation.
Definition on_plane (v1 v2 v3 p : list R) : Prop :=
  exists s t, p = pplus v1 (pplus (pscale s (pminus v2 v1)) (pscale t (pminus v3 v1))).
(** The normal of the plane through three points is orthogonal to it, has the length
    of twice the area of the triangle, and the value returned for a point is zero
    exactly on the plane. *)
Theorem C32_plane : forall v1 v2 v3 p, point3 v1 -> point3 v2 -> point3 v3 -> point3 p ->
  exists n d, plane_normal v1 v2 v3 = Ok n /\ vertex_distance_to_plane v1 v2 v3 p = Ok (d, n) /\ point3 (elems n) /\
    ip (elems n) (pminus v2 v1) = 0 /\ ip (elems n) (pminus v3 v1) = 0 /\
    ip (elems n) (elems n) = ip (pminus v2 v1) (pminus v2 v1) * ip (pminus v3 v1) (pminus v3 v1) - ip (pminus v2 v1) (pminus v3 v1) * ip (pminus v2 v1) (pminus v3 v1) /\
    (ip (elems n) (elems n) <> 0 -> (d = 0 <-> on_plane v1 v2 v3 p)).
Proof.
  intros v1 v2 v3 p H1 H2 H3 H4. destruct (@distance3 v1 v2 v3 p H1 H2 H3 H4) as (n & En & Pn & Ed).
  exists n, (ip (elems n) (pminus p v1)). split; auto. split; auto. split; auto.
  destruct (point3_inv H1) as (a & b & c & ->), (point3_inv H2) as (x & y & z & ->),
    (point3_inv H3) as (u & v & w & ->), (point3_inv H4) as (p1 & p2 & p3 & ->).
  rewrite plane_normal3 in En. injection En as <-. simpl elems.
  split; [simpl; ring|]. split; [simpl; ring|]. split; [simpl; ring|]. intros NZ. split.
  - intros D. simpl in D, NZ.
    destruct (@span (u - a) (v - b) (w - c) (x - a) (y - b) (z - c) (p1 - a) (p2 - b) (p3 - c)) as (s & t & E1 & E2 & E3).
    + lra.
    + lra.
    + exists t, s. unfold pscale. simpl.
      f_equal; [lra|f_equal; [lra|f_equal; lra]].
  - intros (s & t & E). unfold pscale in E. simpl in E. injection E as -> -> ->. simpl. ring.
Qed.
Print Assumptions C32_plane.
Example C32_used : exists n, plane_normal [0; 0; 0] [1; 0; 0] [0; 2; 0] = Ok n /\ ip (elems n) (elems n) <> 0.
Proof. rewrite plane_normal3. eexists. split; [reflexivity|]. simpl. lra. Qed.

(** ** C65 *)
(** The value of VertexDistanceToPlane is the distance to the plane multiplied by the
    length of the normal. *)
Theorem C65_scaled_distance : forall v1 v2 v3 p, point3 v1 -> point3 v2 -> point3 v3 -> point3 p ->
  exists n d, plane_normal v1 v2 v3 = Ok n /\ vertex_distance_to_plane v1 v2 v3 p = Ok (d, n) /\
    (ip (elems n) (elems n) <> 0 ->
     (forall q, on_plane v1 v2 v3 q -> d * d <= ip (elems n) (elems n) * (dist p q * dist p q)) /\
     (exists q, on_plane v1 v2 v3 q /\ d * d = ip (elems n) (elems n) * (dist p q * dist p q))).
Proof.
  intros v1 v2 v3 p H1 H2 H3 H4. destruct (@distance3 v1 v2 v3 p H1 H2 H3 H4) as (n & En & Pn & Ed).
  exists n, (ip (elems n) (pminus p v1)). split; auto. split; auto.
  assert (DS : forall q, dist p q * dist p q = ip (pminus p q) (pminus p q)) by (intros; apply sqrt_sqrt, ip_nonneg).
  intros NZ. split.
  - intros q (s & t & ->). rewrite DS. destruct (point3_inv H1) as (a & b & c & ->), (point3_inv H2) as (x & y & z & ->),
    (point3_inv H3) as (u & v & w & ->), (point3_inv H4) as (p1 & p2 & p3 & ->).
    rewrite plane_normal3 in En. injection En as <-. simpl elems. unfold pscale. simpl.
    set (n1 := (v - b) * (z - c) - (w - c) * (y - b)). set (n2 := (w - c) * (x - a) - (u - a) * (z - c)).
    set (n3 := (u - a) * (y - b) - (v - b) * (x - a)).
    set (q1 := p1 - (a + (s * (x - a) + t * (u - a)))). set (q2 := p2 - (b + (s * (y - b) + t * (v - b)))). set (q3 := p3 - (c + (s * (z - c) + t * (w - c)))).
    assert (EQ : n1 * (p1 - a) + (n2 * (p2 - b) + (n3 * (p3 - c) + 0)) = n1 * q1 + n2 * q2 + n3 * q3) by (unfold n1, n2, n3, q1, q2, q3; ring).
    rewrite EQ. clear.
    pose proof (Rle_0_sqr (n1 * q2 - n2 * q1)) as S1. pose proof (Rle_0_sqr (n2 * q3 - n3 * q2)) as S2. pose proof (Rle_0_sqr (n3 * q1 - n1 * q3)) as S3.
    unfold Rsqr in *.
    replace ((n1 * n1 + (n2 * n2 + (n3 * n3 + 0))) * (q1 * q1 + (q2 * q2 + (q3 * q3 + 0)))) with
      ((n1 * q1 + n2 * q2 + n3 * q3) * (n1 * q1 + n2 * q2 + n3 * q3) + (n1 * q2 - n2 * q1) * (n1 * q2 - n2 * q1) + (n2 * q3 - n3 * q2) * (n2 * q3 - n3 * q2) + (n3 * q1 - n1 * q3) * (n3 * q1 - n1 * q3)) by ring.
    lra.
  - set (N := ip (elems n) (elems n)) in *. set (d := ip (elems n) (pminus p v1)).
    set (q := pminus p (pscale (d / N) (elems n))).
    assert (Pq : point3 q) by (unfold q; destruct (point3_inv H4) as (? & ? & ? & ->), (point3_inv Pn) as (? & ? & ? & ->); reflexivity).
    exists q. split.
    + destruct (@C32_plane v1 v2 v3 q H1 H2 H3 Pq) as (n' & d' & En' & Ed' & _ & _ & _ & _ & Z).
      rewrite En in En'. injection En' as <-. apply Z; auto.
      destruct (@distance3 v1 v2 v3 q H1 H2 H3 Pq) as (n2 & En2 & _ & Ed2). rewrite En in En2. injection En2 as <-.
      rewrite Ed' in Ed2. injection Ed2 as ->.
      unfold q. destruct (point3_inv H1) as (a & b & c & ->), (point3_inv H4) as (p1 & p2 & p3 & ->), (point3_inv Pn) as (n1 & m2 & n3 & EE).
      unfold d, N in *. rewrite EE in *. unfold pscale. simpl in NZ |- *. field. intros X. apply NZ. lra.
    + rewrite DS. unfold q. destruct (point3_inv H4) as (p1 & p2 & p3 & Ep), (point3_inv Pn) as (n1 & m2 & n3 & EE).
      assert (NN : N = n1 * n1 + m2 * m2 + n3 * n3) by (unfold N; rewrite EE; simpl; ring).
      rewrite Ep, EE. unfold pscale. simpl.
      replace ((p1 - (p1 - d / N * n1)) * (p1 - (p1 - d / N * n1)) + ((p2 - (p2 - d / N * m2)) * (p2 - (p2 - d / N * m2)) + ((p3 - (p3 - d / N * n3)) * (p3 - (p3 - d / N * n3)) + 0)))
        with (d / N * (d / N) * N) by (rewrite NN at 3; ring). field. auto.
Qed.
Print Assumptions C65_scaled_distance.
(** The function documents a distance: above the triangle (0,0,0), (2,0,0), (0,2,0) at
    height one it returns -4. *)
Theorem C65_distance_refuted : exists n, vertex_distance_to_plane [0; 0; 0] [2; 0; 0] [0; 2; 0] [0; 0; 1] = Ok (-4, n).
Proof.
  destruct (@distance3 [0; 0; 0] [2; 0; 0] [0; 2; 0] [0; 0; 1]) as (n & En & _ & ->); try reflexivity.
  exists n. f_equal. f_equal. rewrite plane_normal3 in En. injection En as <-. simpl. ring.
Qed.
Print Assumptions C65_distance_refuted.

(** ** C33 *)
(** With no point or one point the list version agrees with the single one.
    Missing: two points or more, see C33_refuted. *)
Theorem C33_partial : forall v1 v2 v3, point3 v1 -> point3 v2 -> point3 v3 ->
  vertices_distance_to_plane v1 v2 v3 [] = Ok [] /\
  (forall p, point3 p -> exists d n, vertex_distance_to_plane v1 v2 v3 p = Ok (d, n) /\ vertices_distance_to_plane v1 v2 v3 p = Ok [d]) /\
  (forall ps, (length ps mod 3 <> 0)%nat -> vertices_distance_to_plane v1 v2 v3 ps = Throw).
Proof.
  intros v1 v2 v3 H1 H2 H3. split; [reflexivity|]. split.
  - intros p P. rewrite vertices_one by auto. destruct (@distance3 v1 v2 v3 p H1 H2 H3 P) as (n & _ & _ & ->).
    eexists. eexists. split; reflexivity.
  - intros ps M. unfold vertices_distance_to_plane. replace (Z.of_nat (length ps) mod 3 =? 0)%Z with false; [reflexivity|].
    symmetry. apply Z.eqb_neq. change 3%Z with (Z.of_nat 3). rewrite <- Nat2Z.inj_mod. lia.
Qed.
Print Assumptions C33_partial.
(** With two points or more it reads outside a vector, for every plane. *)
Theorem C33_refuted : forall v1 v2 v3 ps, point3 v1 -> point3 v2 -> point3 v3 ->
  (length ps mod 3 = 0)%nat -> (6 <= length ps)%nat -> vertices_distance_to_plane v1 v2 v3 ps = UB.
Proof. exact vertices_more. Qed.
Print Assumptions C33_refuted.
Example C33_used : vertices_distance_to_plane [0; 0; 0] [1; 0; 0] [0; 1; 0] [1; 1; 1; 2; 2; 2] = UB.
Proof. apply C33_refuted; reflexivity || simpl; lia. Qed.

(** ** C43 *)
(** The limits that ValidateEquilibrateD gets, pow(step, 0.5) and pow(step, 1.5) for a
    step between 0 and 1, are the wrong way round. *)
Theorem C43_limits_inverted : forall s, 0 < s < 1 -> Rpower s 1.5 < Rpower s 0.5.
Proof.
  intros s (S0 & S1). unfold Rpower. apply exp_increasing.
  assert (L : ln s < 0) by (rewrite <- ln_1; now apply ln_increasing).
  lra.
Qed.
Print Assumptions C43_limits_inverted.

(** ** C49 *)
(** The points VolumeInternalLayers adds for a cell: for each vertex of the cell the
    stated numbers of points, on the segment from the vertex to the pseudo centroid,
    equally spaced, ending at the centroid side; all in the convex hull of the
    vertices of the cell. *)
Theorem C49_layers : forall g v es l, volu_ends g v es -> es <> [] -> (0 <= l)%Z ->
  exists c vs pss, pseudo_volu g v = Ok c /\ volu_verts (gtopo g) v = Ok vs /\ volume_layers g l v = Ok (concat pss) /\
    in_hull (volu_points es) (elems c) /\
    (forall q, In q (concat pss) -> in_hull (volu_points es) q) /\
    Forall2 (fun vi ps => exists p, coord_of g vi = Ok p /\ length ps = Z.to_nat l /\
       forall k, (k < Z.to_nat l)%nat -> let t := INR (k + 1) / IZR (l + 1) in
         nth k ps [] = pplus (pscale t (elems c)) (pscale (1 - t) p)) (tighten vs) pss.
Proof.
  intros g v es l V NE L. destruct (pseudo_volu_ok V NE) as (c0 & E0 & HC).
  destruct (volume_layers_ok V NE L) as (c & vs & pss & Ec & Ev & El & F). rewrite Ec in E0. injection E0 as <-.
  exists c, vs, pss. split; auto. split; auto. split; auto. split; auto. split.
  - intros q I. apply in_concat in I. destruct I as (ps & I1 & I2).
    destruct (Forall2_in_r F _ I1) as (vi & _ & p & Ep & P & Ip & Len & N).
    apply (In_nth _ _ []) in I2. destruct I2 as (k & K & <-). rewrite Len in K. rewrite (N k K). apply hull_between; auto.
    + now apply hull_mem.
    + assert (P1 : 0 < IZR (l + 1)) by (apply IZR_lt; lia). assert (KL : INR (k + 1) <= IZR (l + 1)).
      { rewrite INR_IZR_INZ. apply IZR_le. lia. }
      split; [apply Rmult_le_pos; [apply pos_INR|left; now apply Rinv_0_lt_compat]|].
      apply Rmult_le_reg_r with (IZR (l + 1)); auto. unfold Rdiv. rewrite Rmult_assoc, Rinv_l, Rmult_1_r, Rmult_1_l by lra. auto.
  - clear - F. induction F as [|vi ps l1 l2 (p & A & _ & _ & B & C) _ IH]; constructor; auto. exists p. auto.
Qed.
Print Assumptions C49_layers.
Theorem C49_negative_layers : forall g v l, (l < 0)%Z -> volume_layers g l v = Throw.
Proof. intros g v l L. unfold volume_layers. apply Z.ltb_lt in L. now rewrite L. Qed.
Print Assumptions C49_negative_layers.
Example C49_used : volu_ends (cube 3 1) cube_volu (cube_ends 3 1) /\ cube_ends 3 1 <> [].
Proof. split; [apply cube_volu_ends|discriminate]. Qed.
(** CoordInVolume gives a third of the average of the vertices, each counted once for
    each edge of each face it is on. *)
Theorem C49_third : forall g v es, volu_ends g v es -> volu_points es <> [] ->
  coord_in_volume g v = Ok (pscale (/ 3) [average (volu_points es) 0; average (volu_points es) 1; average (volu_points es) 2]).
Proof. exact coord_in_volume_ok. Qed.
Print Assumptions C49_third.
(** The point is then outside the cell in general. *)
Theorem C49_inside_refuted : exists g v es p, volu_ends g v es /\ coord_in_volume g v = Ok p /\ ~ in_hull (volu_points es) p.
Proof.
  exists (cube 3 1), cube_volu, (cube_ends 3 1). eexists. split; [apply cube_volu_ends|].
  split; [apply coord_in_volume_ok; [apply cube_volu_ends|discriminate]|].
  intros (_ & H). specialize (H [-1; 0; 0] (-3) eq_refl).
  assert (X : ip [-1; 0; 0] (pscale (/ 3) [average (volu_points (cube_ends 3 1)) 0; average (volu_points (cube_ends 3 1)) 1; average (volu_points (cube_ends 3 1)) 2]) <= -3).
  { apply H. cbv [cube_volu cube_topo cube_ends map hd volus vo_surfind]. intros q I. simpl in I. repeat destruct I as [<- | I]; simpl; lra || contradiction. }
  assert (A : average (volu_points (cube_ends 3 1)) 0 <= 4).
  { unfold average. cbv [cube_volu cube_topo cube_ends map hd volus vo_surfind]. simpl. lra. }
  unfold pscale in X. cbn [ip map] in X. lra.
Qed.
Print Assumptions C49_inside_refuted.

(** ** C50 *)
(** Minimum and maximum over the edges of a vertex.  Missing: the mean, see
    C50_mean_refuted. *)
Theorem C50_min_max_partial : forall m v ls, lengths_at m v = Ok ls -> ls <> [] ->
  exists lo hi, min_length ls = Fin lo /\ max_length ls = Fin hi /\ extremes lo hi ls.
Proof. intros m v ls _. apply min_max_length. Qed.
Print Assumptions C50_min_max_partial.
(** The mean is infinite for every vertex. *)
Theorem C50_mean_refuted : forall m v ls, lengths_at m v = Ok ls -> mean_length ls = PInf.
Proof. intros m v ls _. apply mean_infinite. Qed.
Print Assumptions C50_mean_refuted.
Example C50_used : lengths_at (one_edge 3 [0; 0; 0] [1; 0; 0] 1 true) (mkVert 1 false [1]%Z) = Ok [1].
Proof. unfold lengths_at. simpl. unfold edge_length, one_edge, is_set. simpl. destruct (Rle_dec 0 1); [reflexivity|lra]. Qed.

(** ** C56 *)
(** [along o l t] is the point [o + t l]; the sphere has its centre at the origin.
    No intersection is reported exactly when the line misses the sphere.  Otherwise
    the parameters are ordered; when the discriminant is zero or at least
    DBL_EPSILON they are exactly the parameters of the points on the sphere.  In
    between, both parameters are that of the point of the line closest to the centre,
    see C56_refuted. *)
Theorem C56_partial : forall l o r, point3 l -> point3 o -> ip l l <> 0 ->
  let det := 4 * (ip l o * ip l o) - 4 * ip l l * (ip o o - r * r) in
  let on t := ip (along o l t) (along o l t) = r * r in
  exists res, intersect_line_sphere l o r = Ok res /\
    (res = None <-> forall t, ~ on t) /\
    (forall t1 t2, res = Some (t1, t2) -> t1 <= t2 /\
       ((det = 0 \/ dbl_eps <= det) -> forall t, on t <-> t = t1 \/ t = t2) /\
       (0 <= det < dbl_eps -> t1 = t2 /\ forall t, ip (along o l t1) (along o l t1) <= ip (along o l t) (along o l t))).
Proof.
  intros l o r L O NZ det on. rewrite (@sphere_value l o r L O). eexists. split; [reflexivity|].
  assert (A : 0 < ip l l) by (pose proof (ip_nonneg l); lra).
  set (a := ip l l) in *. set (b := 2 * ip l o). set (c := ip o o - r * r) in *.
  assert (DE : b * b - 4 * a * c = det) by (unfold det, b; ring).
  assert (ON : forall t, ip (along o l t) (along o l t) - r * r = ((2 * a * t + b) * (2 * a * t + b) - det) / (4 * a)).
  { intros t. rewrite along_norm by auto. fold a. rewrite <- DE, <- square by lra. unfold b, c. ring. }
  assert (ON' : forall t, on t <-> (2 * a * t + b) * (2 * a * t + b) = det).
  { intros t. unfold on. split; intros E.
    - pose proof (ON t) as X. rewrite E in X. assert (Y : (2 * a * t + b) * (2 * a * t + b) - det = (r * r - r * r) * (4 * a)) by (rewrite X; field; lra). lra.
    - pose proof (ON t) as X. rewrite E in X. replace ((det - det) / (4 * a)) with 0 in X by (field; lra). lra. }
  rewrite DE. destruct (Rlt_dec det 0) as [D|D].
  - split; [|discriminate]. split; auto. intros _ t T. apply ON' in T. pose proof (Rle_0_sqr (2 * a * t + b)) as S. unfold Rsqr in S. lra.
  - assert (SQ : sqrt det * sqrt det = det) by (apply sqrt_sqrt; lra). pose proof (sqrt_pos det) as SP.
    assert (IV : 0 < 1 / (2 * a)) by (unfold Rdiv; rewrite Rmult_1_l; apply Rinv_0_lt_compat; lra).
    assert (R1 : on ((- b - sqrt det) * (1 / (2 * a)))).
    { apply ON'. replace (2 * a * ((- b - sqrt det) * (1 / (2 * a))) + b) with (- sqrt det) by (field; lra). lra. }
    destruct (aprox_equal det 0) eqn:AP.
    + apply (aprox_zero (Rnot_lt_le _ _ D)) in AP. split.
      * split; [discriminate|]. intros N. exfalso. eapply N, R1.
      * intros t1 t2 E. injection E as <- <-. split; [lra|]. split.
        -- intros [DZ | DB]; [|lra]. intros t. rewrite ON', DZ. split.
           ++ intros T. assert (T0 : 2 * a * t + b = 0) by (apply Rmult_integral in T; lra). left. apply (Rmult_eq_reg_l (2 * a)); [|lra].
              replace (2 * a * (- b * (1 / (2 * a)))) with (- b) by (field; lra). lra.
           ++ assert (Z : 2 * a * (- b * (1 / (2 * a))) + b = 0) by (field; lra). intros [-> | ->]; rewrite Z; ring.
        -- intros _. split; auto. intros t. pose proof (ON t) as X. pose proof (ON (- b * (1 / (2 * a)))) as Y.
           replace (2 * a * (- b * (1 / (2 * a))) + b) with 0 in Y by (field; lra).
           pose proof (Rle_0_sqr (2 * a * t + b)) as S. unfold Rsqr in S.
           assert (W : (0 * 0 - det) / (4 * a) <= ((2 * a * t + b) * (2 * a * t + b) - det) / (4 * a)).
           { apply Rmult_le_compat_r; [left; apply Rinv_0_lt_compat; lra|lra]. }
           lra.
    + assert (DB : dbl_eps <= det). { apply Rnot_lt_le. intros X. apply (aprox_zero (Rnot_lt_le _ _ D)) in X. congruence. }
      split.
      * split; [discriminate|]. intros N. exfalso. eapply N, R1.
      * intros t1 t2 E. injection E as <- <-. split; [apply Rmult_le_compat_r; lra|]. split; [|lra].
        intros _ t. rewrite ON'. split.
        -- intros T. assert (F : (2 * a * t + b - sqrt det) * (2 * a * t + b + sqrt det) = 0) by (ring_simplify; ring_simplify in T; rewrite <- (Rsqr_pow2 (sqrt det)); unfold Rsqr; rewrite SQ; lra).
           apply Rmult_integral in F. destruct F as [F | F]; [right|left]; apply (Rmult_eq_reg_l (2 * a)); try lra.
           ++ replace (2 * a * ((- b + sqrt det) * (1 / (2 * a)))) with (- b + sqrt det) by (field; lra). lra.
           ++ replace (2 * a * ((- b - sqrt det) * (1 / (2 * a)))) with (- b - sqrt det) by (field; lra). lra.
        -- intros [-> | ->].
           ++ replace (2 * a * ((- b - sqrt det) * (1 / (2 * a))) + b) with (- sqrt det) by (field; lra). lra.
           ++ replace (2 * a * ((- b + sqrt det) * (1 / (2 * a))) + b) with (sqrt det) by (field; lra). lra.
Qed.
Print Assumptions C56_partial.
(** The version with a point and a centre is about the point relative to the centre. *)
Theorem C56_centre : forall l p c r, point3 p -> point3 c -> intersect_line_sphere_at l p c r = intersect_line_sphere l (pminus p c) r.
Proof. intros l p c r P C. destruct (point3_inv P) as (a & b & d & ->), (point3_inv C) as (x & y & z & ->). reflexivity. Qed.
Print Assumptions C56_centre.
(** A line through the centre of a sphere of radius 2^-10 with direction 2^-20 along x:
    the result is the centre, twice. *)
Theorem C56_refuted : exists l o r, point3 l /\ point3 o /\ ip l l <> 0 /\ 0 < r /\
  intersect_line_sphere l o r = Ok (Some (0, 0)) /\ along o l 0 = [0; 0; 0].
Proof.
  exists [/ 1048576; 0; 0], [0; 0; 0], (/ 1024). split; [reflexivity|]. split; [reflexivity|]. split; [simpl; lra|]. split; [lra|]. split.
  - rewrite sphere_value by reflexivity. simpl.
    match goal with |- Ok (if Rlt_dec ?d 0 then _ else _) = _ => assert (D : 0 <= d < dbl_eps) by (unfold dbl_eps; lra) end.
    match goal with |- Ok (if Rlt_dec ?d 0 then _ else _) = _ => destruct (Rlt_dec d 0); [lra|]; replace (aprox_equal d 0) with true by (symmetry; apply aprox_zero; lra) end.
    f_equal. f_equal. f_equal; ring.
  - unfold along, pscale. simpl. f_equal; [ring|f_equal; [ring|f_equal; ring]].
Qed.
Print Assumptions C56_refuted.

(** ** C57 *)
(** Let c be the quadratic function of the n variables d with Jacobian [dcdd] and
    Hessians [Hcd] (component k in columns k n to k n + n - 1), and S the quadratic
    function of c with gradient [dSdc] and Hessian [HSc].  Then along every direction
    the first and second order terms of S(c(d)) are those of Deriv1stChainScalar and
    Deriv2ndChainScalar. *)
Theorem C57_chain : forall n nv dSdc dcdd HSc Hcd, (0 < n)%nat -> (0 < nv)%nat ->
  shaped 1 nv dSdc -> shaped nv n dcdd -> shaped nv nv HSc -> shaped n (n * nv) Hcd ->
  exists g h, deriv1 dSdc dcdd = Ok g /\ deriv2 dSdc dcdd HSc Hcd = Ok h /\ shaped 1 n g /\ shaped n n h /\
    forall (d : nat -> R) s0,
      let c t k := t * sumf n (fun j => ent dcdd k j * d j) + t * t / 2 * sumf n (fun i => sumf n (fun j => d i * ent Hcd i (j + k * n) * d j)) in
      let S u := s0 + sumf nv (fun k => ent dSdc 0 k * u k) + / 2 * sumf nv (fun k => sumf nv (fun l => ent HSc k l * u k * u l)) in
      exists r3 r4, forall t, S (c t) =
        s0 + t * sumf n (fun j => ent g 0 j * d j) + t * t / 2 * sumf n (fun i => sumf n (fun j => d i * ent h i j * d j)) +
        t * t * t * r3 + t * t * t * t * r4.
Proof.
  intros n nv dSdc dcdd HSc Hcd N V A B C D.
  destruct (deriv1_ok V A B) as (g & Eg & Sg & _), (deriv2_ok N V A B C D) as (h & Eh & Sh & _).
  exists g, h. split; auto. split; auto. split; auto. split; auto. intros d s0.
  destruct (chain N V A B C D d s0) as (g' & h' & r3 & r4 & Eg' & Eh' & H). rewrite Eg in Eg'. rewrite Eh in Eh'.
  injection Eg' as <-. injection Eh' as <-. exists r3, r4. exact H.
Qed.
Print Assumptions C57_chain.
(** The Hessian is symmetric when those it is made of are. *)
Theorem C57_symmetric : forall n nv dSdc dcdd HSc Hcd, (0 < n)%nat -> (0 < nv)%nat ->
  shaped 1 nv dSdc -> shaped nv n dcdd -> shaped nv nv HSc -> shaped n (n * nv) Hcd ->
  (forall k l, (k < nv)%nat -> (l < nv)%nat -> ent HSc k l = ent HSc l k) ->
  (forall i j k, (i < n)%nat -> (j < n)%nat -> (k < nv)%nat -> ent Hcd i (j + k * n) = ent Hcd j (i + k * n)) ->
  exists h, deriv2 dSdc dcdd HSc Hcd = Ok h /\ forall i j, (i < n)%nat -> (j < n)%nat -> ent h i j = ent h j i.
Proof.
  intros n nv dSdc dcdd HSc Hcd N V A B C D SC SD. destruct (deriv2_ok N V A B C D) as (h & Eh & _ & H).
  exists h. split; auto. intros i j I J. rewrite !H by auto. f_equal.
  - apply sumf_ext. intros k K. now rewrite SD.
  - transitivity (sumf nv (fun l => sumf nv (fun k => ent dcdd k i * ent HSc k l * ent dcdd l j))).
    + apply sumf_ext. intros l L. rewrite Rmult_comm, <- sumf_scal. apply sumf_ext. intros. ring.
    + rewrite sumf_swap. apply sumf_ext. intros k K. rewrite Rmult_comm, <- sumf_scal. apply sumf_ext. intros l L. rewrite (SC k l) by auto. ring.
Qed.
Print Assumptions C57_symmetric.
Example C57_used : shaped 1 2 [[1; 2]] /\ shaped 2 2 [[1; 2]; [3; 4]] /\ shaped 2 (2 * 2) [[1; 0; 2; 0]; [0; 1; 0; 2]].
Proof. repeat split; repeat constructor. Qed.

(** ** C62 *)
(** CalcCentreVolu returns twice a point of the convex hull of the cell. *)
Theorem C62_doubled : forall g i v es, isearch vo_index (volus (gtopo g)) i = Ok v -> volu_ends g v es ->
  0 < weight (all_mids es) ->
  exists c p, calc_centre_volu g i = Ok c /\ in_hull (volu_points es) p /\ elems c = pscale 2 p.
Proof. exact calc_centre_ok. Qed.
Print Assumptions C62_doubled.
Lemma cube_weight : 0 < weight (all_mids (cube_ends 3 1)).
Proof.
  assert (X : forall es, Forall (Forall (fun pq => dist (fst pq) (snd pq) = 1)) es -> weight (all_mids es) = INR (length (concat es))).
  { induction 1 as [|ends es H _ IH]; [reflexivity|]. simpl. rewrite weight_app, IH, app_length, plus_INR. f_equal.
    clear IH. unfold weight, mids. induction H as [|pq ends E _ IH]; [reflexivity|]. simpl length. rewrite S_INR. simpl. simpl in IH. rewrite IH, E. ring. }
  rewrite X by (apply cube_dist; lra). simpl. lra.
Qed.
Theorem C62_centre_refuted : exists g i v es c, isearch vo_index (volus (gtopo g)) i = Ok v /\ volu_ends g v es /\
  calc_centre_volu g i = Ok c /\ ~ in_hull (volu_points es) (elems c).
Proof.
  destruct (@C62_doubled (cube 3 1) 1 cube_volu (cube_ends 3 1) eq_refl (cube_volu_ends 3 1) cube_weight) as (c & p & E & (P & HP) & EC).
  exists (cube 3 1), 1%Z, cube_volu, (cube_ends 3 1), c. split; [reflexivity|]. split; [apply cube_volu_ends|]. split; auto.
  rewrite EC. intros (_ & H). destruct (point3_inv P) as (x & y & z & ->).
  assert (A : ip [-1; 0; 0] [x; y; z] <= -3).
  { apply HP; [reflexivity|]. cbv [cube_volu cube_topo cube_ends map hd volus vo_surfind]. intros q I. simpl in I. repeat destruct I as [<- | I]; simpl; lra || contradiction. }
  assert (B : ip [1; 0; 0] (pscale 2 [x; y; z]) <= 4).
  { apply H; [reflexivity|]. cbv [cube_volu cube_topo cube_ends map hd volus vo_surfind]. intros q I. simpl in I. repeat destruct I as [<- | I]; simpl; lra || contradiction. }
  simpl in A, B. lra.
Qed.
Print Assumptions C62_centre_refuted.

(** ** C63 *)
(** The pseudo centroid of a surface lies in the convex hull of its vertices; when
    the perimeter is at least DBL_EPSILON it is the average of the midpoints of the
    edges weighted by their lengths.  The value returned is the perimeter rounded
    down. *)
Theorem C63_surface : forall g s ends, surf_ends g s ends -> ends <> [] ->
  exists c k, pseudo_surf g s = Ok (c, k) /\ in_hull (end_points ends) (elems c) /\
    IZR k <= perimeter ends < IZR k + 1 /\
    (dbl_eps <= perimeter ends -> forall n, point3 n ->
       ip n (elems c) * perimeter ends = rsum (map (fun pq => dist (fst pq) (snd pq) * ((ip n (fst pq) + ip n (snd pq)) / 2)) ends)).
Proof.
  intros g s ends S NE. destruct (pseudo_surf_ok S NE) as (c & E & P & _ & B). exists c, (to_int (perimeter ends)). split; auto.
  split; [apply (pseudo_surf_hull S NE E)|]. split; [apply to_int_floor, perimeter_nonneg|].
  intros L n N. rewrite (B L n N). pose proof dbl_eps_pos. unfold Rdiv at 1. rewrite Rmult_assoc, Rinv_l, Rmult_1_r by lra.
  unfold wsum, mids. rewrite map_map. f_equal. apply map_ext_in. intros [p q] I. simpl.
  pose proof (ends_point3 S) as PP. rewrite Forall_forall in PP. destruct (PP _ I) as (P1 & P2). simpl in *. now rewrite ip_mid.
Qed.
Print Assumptions C63_surface.
(** The pseudo centroid of a cell lies in the convex hull of its vertices. *)
Theorem C63_volume_hull : forall g v es, volu_ends g v es -> es <> [] ->
  exists c, pseudo_volu g v = Ok c /\ in_hull (volu_points es) (elems c).
Proof. exact pseudo_volu_ok. Qed.
Print Assumptions C63_volume_hull.
Example C63_used : exists s, surf_ends (cube 2 1) s (hd [] (cube_ends 2 1)) /\ hd [] (cube_ends 2 1) <> [].
Proof.
  pose proof (cube_volu_ends 2 1) as V. unfold volu_ends in V. remember (cube_ends 2 1) as es. destruct es as [|e es]; [discriminate|].
  inversion V; subst. destruct H2 as (NE & s & _ & S). exists s. simpl. auto.
Qed.
(** The perimeters used as weights are integers: when every face has a perimeter
    below one, the result is the pseudo centroid of the first face. *)
Theorem C63_small_cells : forall g v ends es, volu_ends g v (ends :: es) ->
  Forall (fun e => perimeter e < 1) (ends :: es) ->
  exists si r s k c, vo_surfind v = si :: r /\ isearch su_index (surfs (gtopo g)) si = Ok s /\
    pseudo_surf g s = Ok (c, k) /\ pseudo_volu g v = Ok c.
Proof. exact pseudo_volu_small. Qed.
Print Assumptions C63_small_cells.
(** So it is not the weighted average, and it is not inside the cell: for the cube
    with side 1/10 at the origin it lies on the face z = 0. *)
Theorem C63_volume_refuted : exists g v es c, volu_ends g v es /\ pseudo_volu g v = Ok c /\ nth 2 (elems c) 0 = 0 /\
  extremes 0 (0 + 1 / 10) (direction 2 (volu_points es)).
Proof.
  pose proof (cube_volu_ends 0 (1 / 10)) as V. pose proof (@cube_dist 0 (1 / 10) ltac:(lra)) as D.
  assert (SM : Forall (fun e => perimeter e < 1) (cube_ends 0 (1 / 10))).
  { assert (X : Forall (fun e : list (list R * list R) => length e = 4%nat) (cube_ends 0 (1 / 10))) by (repeat constructor).
    clear V. revert X D. generalize (cube_ends 0 (1 / 10)). intros l X. induction X as [|e l L _ IH]; intros D; constructor.
    - inversion D as [|? ? DE DL]; subst. unfold perimeter. destruct e as [|a [|b [|c [|d [|]]]]]; simpl in L; try discriminate.
      inversion DE as [|? ? E1 DE1]; inversion DE1 as [|? ? E2 DE2]; inversion DE2 as [|? ? E3 DE3]; inversion DE3 as [|? ? E4 _]; subst.
      simpl. rewrite E1, E2, E3, E4. lra.
    - apply IH. now inversion D. }
  assert (exists ends es, cube_ends 0 (1 / 10) = ends :: es) as (ends & es & EE) by (do 2 eexists; reflexivity).
  rewrite EE in V, SM. destruct (C63_small_cells V SM) as (si & r & s & k & c & E1 & E2 & E3 & E4).
  exists (cube 0 (1 / 10)), cube_volu, (ends :: es), c. split; auto. split; auto.
  unfold volu_ends in V. rewrite E1 in V. inversion V as [|? ? ? ? (NE & s' & E2' & S) _]; subst. rewrite E2 in E2'. injection E2' as <-.
  split.
  - destruct (pseudo_surf_ok S NE) as (c' & E3' & P & _ & B). rewrite E3 in E3'. injection E3' as <- _.
    assert (ED : Forall (fun pq => dist (fst pq) (snd pq) = 1 / 10) ends) by (rewrite EE in D; now inversion D).
    assert (EN : ends = hd [] (cube_ends 0 (1 / 10))) by (rewrite EE; reflexivity).
    assert (L : dbl_eps <= perimeter ends).
    { rewrite EN in ED |- *. unfold perimeter. remember (cube_ends 0 (1 / 10)) as ce. cbv [cube_ends cube_volu cube_topo map hd volus vo_surfind] in Heqce. subst ce. simpl hd in *. simpl in ED |- *.
      inversion ED as [|? ? A1 DE1]; inversion DE1 as [|? ? A2 DE2]; inversion DE2 as [|? ? A3 DE3]; inversion DE3 as [|? ? A4 _]; subst.
      simpl in A1, A2, A3, A4. rewrite A1, A2, A3, A4. unfold dbl_eps. lra. }
    pose proof (B L [0; 0; 1] eq_refl) as X. destruct (point3_inv P) as (x & y & z & EP). rewrite EP in X |- *. simpl in X |- *.
    assert (W : wsum [0; 0; 1] (mids ends) = 0).
    { rewrite EN. unfold wsum, mids. cbv [cube_ends cube_volu cube_topo map hd volus vo_surfind]. simpl. ring. }
    rewrite W in X. unfold Rdiv in X. rewrite Rmult_0_l in X. lra.
  - rewrite <- EE. cbv [cube_ends cube_volu cube_topo map hd volus vo_surfind]. unfold extremes, direction, volu_points. simpl.
    split; [repeat (first [left; reflexivity | right])|]. split; [repeat (first [left; reflexivity | right])|].
    intros x I. repeat destruct I as [<- | I]; lra || contradiction.
Qed.
Print Assumptions C63_volume_refuted.

(** ** C64 *)
(** SignedLogScale keeps zero, is odd, and above DBL_EPSILON keeps sign and order.
    Missing: numbers below DBL_EPSILON, see C64_order_refuted. *)
Theorem C64_partial : signed_log_scale 0 = 0 /\ (forall x, signed_log_scale (- x) = - signed_log_scale x) /\
  (forall x, dbl_eps < x -> 0 < signed_log_scale x) /\
  (forall x y, dbl_eps < x -> x < y -> signed_log_scale x < signed_log_scale y) /\
  (forall x y, dbl_eps < x -> y < - dbl_eps -> signed_log_scale y < signed_log_scale x).
Proof.
  assert (Z : signed_log_scale 0 = 0).
  { unfold signed_log_scale, rsign. destruct (Rlt_dec 0 0); [lra|]. destruct (Req_EM_T 0 0); [auto|lra]. }
  assert (ODD : forall x, signed_log_scale (- x) = - signed_log_scale x).
  { intros x. destruct (Req_EM_T x 0) as [-> | N]; [rewrite Ropp_0, Z; ring|]. unfold signed_log_scale, rsign. rewrite Rabs_Ropp.
    destruct (Rlt_dec 0 x), (Rlt_dec 0 (- x)); try lra.
    - destruct (Rlt_dec (- x) 0); [|lra]. destruct (Req_EM_T (-1) 0), (Req_EM_T 1 0); try lra. destruct (Rlt_dec dbl_eps (Rabs x)); unfold Rdiv; ring.
    - destruct (Rlt_dec x 0); [|lra]. destruct (Req_EM_T (-1) 0), (Req_EM_T 1 0); try lra. destruct (Rlt_dec dbl_eps (Rabs x)); unfold Rdiv; ring. }
  assert (VAL : forall x, dbl_eps < x -> signed_log_scale x = log10 x + 16).
  { intros x X. pose proof dbl_eps_pos. unfold signed_log_scale, rsign. rewrite Rabs_pos_eq by lra.
    destruct (Rlt_dec 0 x); [|lra]. destruct (Req_EM_T 1 0); [lra|]. destruct (Rlt_dec dbl_eps x); [ring|lra]. }
  assert (POS : forall x, dbl_eps < x -> 0 < signed_log_scale x).
  { intros x X. rewrite VAL by auto. assert (E : - (16) < log10 x); [|lra].
    replace (- (16)) with (log10 (/ 10 ^ 16)).
    - apply log10_lt; [apply Rinv_0_lt_compat; apply pow_lt; lra|]. eapply Rlt_trans; [|exact X]. unfold dbl_eps.
      apply Rinv_lt_contravar; [apply Rmult_lt_0_compat; [lra|apply pow_lt; lra]|]. simpl. lra.
    - rewrite log10_inv by (apply pow_lt; lra). rewrite log10_pow. simpl. ring. }
  split; auto. split; auto. split; auto. split.
  - intros x y X XY. rewrite !VAL by lra. pose proof dbl_eps_pos. pose proof (@log10_lt x y ltac:(lra) XY). lra.
  - intros x y X Y. pose proof (POS x X). pose proof (POS (- y) ltac:(lra)) as N. rewrite ODD in N. lra.
Qed.
Print Assumptions C64_partial.
(** Between 10^-16 and DBL_EPSILON the sign is reversed, so order is not kept. *)
Theorem C64_order_refuted : exists x y, 0 < x < y /\ signed_log_scale y < 0 /\ 0 < signed_log_scale x.
Proof.
  set (e17 := / 10 ^ 17). exists e17, (2 * / 10 ^ 16).
  assert (P16 : 0 < / 10 ^ 16) by (apply Rinv_0_lt_compat, pow_lt; lra).
  assert (P17 : 0 < e17) by (apply Rinv_0_lt_compat, pow_lt; lra).
  assert (E17 : e17 < / 10 ^ 16) by (unfold e17; apply Rinv_lt_contravar; [apply Rmult_lt_0_compat; apply pow_lt; lra|simpl; lra]).
  assert (V : forall x, 0 < x -> x <= dbl_eps -> signed_log_scale x = - (1 / (log10 x + 16))).
  { intros x X E. unfold signed_log_scale, rsign. rewrite Rabs_pos_eq by lra. destruct (Rlt_dec 0 x); [|lra].
    destruct (Req_EM_T 1 0); [lra|]. destruct (Rlt_dec dbl_eps x); [lra|]. replace (log10 x - -15 + 1) with (log10 x + 16) by ring. unfold Rdiv. ring. }
  assert (B : 2 * / 10 ^ 16 <= dbl_eps).
  { replace (2 * / 10 ^ 16) with (/ (10 ^ 16 / 2)) by (field; apply pow_nonzero; lra). unfold dbl_eps. apply Rinv_le_contravar; simpl; lra. }
  split; [lra|]. split.
  - rewrite V by lra. assert (L : log10 (/ 10 ^ 16) < log10 (2 * / 10 ^ 16)) by (apply log10_lt; lra).
    rewrite log10_inv, log10_pow in L by (apply pow_lt; lra). set (w := log10 (2 * / 10 ^ 16)) in *.
    replace (INR 16) with 16 in L by (simpl; ring).
    assert (0 < 1 / (w + 16)); [|lra]. unfold Rdiv. rewrite Rmult_1_l. apply Rinv_0_lt_compat. lra.
  - rewrite V by lra. unfold e17. rewrite log10_inv, log10_pow by (apply pow_lt; lra).
    assert (E1 : INR 17 = 17) by (simpl; ring). rewrite E1. match goal with |- 0 < ?x => assert (E2 : x = 1) by (field; lra); rewrite E2 end. lra.
Qed.
Print Assumptions C64_order_refuted.
