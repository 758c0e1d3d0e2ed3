(** Proofs about BoundingBox, Scale, LinearTransform and edge lengths. *)
From Coq Require Import Reals Lra Lia.
From Verif Require Import Base Containers Mesh MergeProofs FloodProofs Edit Geom SpecGeom CoordProofs GeomProofs CentreProofs.
Set Implicit Arguments.
Open Scope R_scope.

(** ** Bounding box *)
Lemma at_nth3 p (j : nat) : point3 p -> (j < 3)%nat -> at_ p (Z.of_nat j) = Ok (nth j p 0).
Proof.
  intros P J. destruct (point3_inv P) as (a & b & c & ->). destruct j as [|[|[|j]]]; try lia; reflexivity.
Qed.
Lemma box_loop (j : nat) ps : (j < 3)%nat -> Forall point3 ps -> forall lo hi,
  lo <= hi -> exists lo' hi', for_each ps (fun p (b : option (R * R)) =>
    do x <- at_ p (Z.of_nat j);
    match b with
    | None => Ok (Some (x, x))
    | Some (lo, hi) => Ok (Some (if Rle_dec lo x then lo else x, if Rle_dec x hi then hi else x))
    end) (Some (lo, hi)) = Ok (Some (lo', hi')) /\ lo' <= lo /\ hi <= hi' /\
    (lo' = lo \/ In lo' (direction j ps)) /\ (hi' = hi \/ In hi' (direction j ps)) /\
    forall x, In x (direction j ps) -> lo' <= x <= hi'.
Proof.
  intros J F. induction F as [|p ps P _ IH]; intros lo hi L; cbn [for_each].
  - exists lo, hi. simpl. repeat split; auto; try lra; contradiction.
  - rewrite (at_nth3 P J). cbn [bind]. set (x := nth j p 0).
    set (lo1 := if Rle_dec lo x then lo else x). set (hi1 := if Rle_dec x hi then hi else x).
    assert (B : lo1 <= lo /\ lo1 <= x /\ hi <= hi1 /\ x <= hi1).
    { unfold lo1, hi1. destruct (Rle_dec lo x), (Rle_dec x hi); lra. }
    destruct (IH lo1 hi1) as (lo' & hi' & E & A1 & A2 & A3 & A4 & A5); [lra|].
    exists lo', hi'. split; [exact E|]. split; [lra|]. split; [lra|]. fold x.
    assert (C1 : lo1 = lo \/ lo1 = x) by (unfold lo1; destruct (Rle_dec lo x); auto).
    assert (C2 : hi1 = hi \/ hi1 = x) by (unfold hi1; destruct (Rle_dec x hi); auto).
    simpl. fold x. split; [|split].
    + destruct A3 as [-> | A3]; [|auto]. destruct C1 as [-> | ->]; auto.
    + destruct A4 as [-> | A4]; [|auto]. destruct C2 as [-> | ->]; auto.
    + intros y [<- | I]; [lra|auto].
Qed.
Lemma box_dir_ok (j : nat) ps : (j < 3)%nat -> Forall point3 ps -> ps <> [] ->
  exists lo hi, box_dir (Z.of_nat j) ps = Ok (Some (lo, hi)) /\ extremes lo hi (direction j ps).
Proof.
  intros J F NE. destruct ps as [|p ps]; [congruence|]. inversion F as [|? ? P F']; subst.
  unfold box_dir. cbn [for_each]. rewrite (at_nth3 P J). cbn [bind].
  destruct (@box_loop j ps J F' (nth j p 0) (nth j p 0) (Rle_refl _)) as (lo & hi & E & A1 & A2 & A3 & A4 & A5).
  exists lo, hi. split; [exact E|]. unfold extremes. simpl. split; [|split].
  - destruct A3 as [-> | A3]; auto.
  - destruct A4 as [-> | A4]; auto.
  - intros x [<- | I]; [lra|auto].
Qed.
Lemma extremes_unique lo hi lo' hi' xs : extremes lo hi xs -> extremes lo' hi' xs -> lo = lo' /\ hi = hi'.
Proof. intros (A & B & C) (A' & B' & C'). pose proof (C _ A'). pose proof (C _ B'). pose proof (C' _ A). pose proof (C' _ B). lra. Qed.

(** ** Transformations *)
Definition tdir (t : transformation) (j : nat) : R * R * R :=
  let '(a, b, c) := t in match j with 0%nat => a | 1%nat => b | _ => c end.
Definition moved (t : transformation) (p : list R) : list R :=
  [move1 (tdir t 0) (nth 0 p 0); move1 (tdir t 1) (nth 1 p 0); move1 (tdir t 2) (nth 2 p 0)].
Lemma move_point_ok t p : point3 p -> move_point t p = Ok (moved t p).
Proof. intros P. destruct (point3_inv P) as (a & b & c & ->). destruct t as [[tx ty] tz]. reflexivity. Qed.
Lemma linear_transform_ok t g : Forall point3 (gcoord g) -> linear_transform t g = Ok (mkG (gtopo g) (map (moved t) (gcoord g))).
Proof.
  intros F. unfold linear_transform. rewrite (omap_list_Ok _ (moved t)); [reflexivity|].
  intros p I. apply move_point_ok. rewrite Forall_forall in F. auto.
Qed.
Lemma moved_point3 t ps : Forall point3 (map (moved t) ps).
Proof. apply Forall_forall. intros p I. apply in_map_iff in I. destruct I as (q & <- & _). reflexivity. Qed.
Lemma direction_moved t ps (j : nat) : (j < 3)%nat -> direction j (map (moved t) ps) = map (move1 (tdir t j)) (direction j ps).
Proof.
  intros J. unfold direction. rewrite !map_map. apply map_ext. intros p. destruct j as [|[|[|j]]]; try lia; reflexivity.
Qed.
Lemma extremes_map lo hi xs a b k : 0 <= k -> extremes lo hi xs ->
  extremes (move1 (a, b, k) lo) (move1 (a, b, k) hi) (map (move1 (a, b, k)) xs).
Proof.
  intros K (A & B & C). split; [now apply in_map|]. split; [now apply in_map|].
  intros y I. apply in_map_iff in I. destruct I as (x & <- & I). destruct (C x I). unfold move1.
  split; apply Rplus_le_compat_l; apply Rmult_le_compat_r; lra.
Qed.
Definition ldir (d : limits) (j : nat) : R * R :=
  let '(a, b, c) := d in match j with 0%nat => a | 1%nat => b | _ => c end.
Lemma scale_ok d g : Forall point3 (gcoord g) -> gcoord g <> [] ->
  exists t, scale d g = Ok (mkG (gtopo g) (map (moved t) (gcoord g)), t) /\
    forall j, (j < 3)%nat -> exists lo hi, extremes lo hi (direction j (gcoord g)) /\
      tdir t j = (fst (ldir d j), lo, if Req_EM_T (hi - lo) 0 then 1 else (snd (ldir d j) - fst (ldir d j)) / (hi - lo)).
Proof.
  intros F NE. unfold scale, bounding_box.
  destruct (@box_dir_ok 0 _ ltac:(lia) F NE) as (l0 & h0 & E0 & X0).
  destruct (@box_dir_ok 1 _ ltac:(lia) F NE) as (l1 & h1 & E1 & X1).
  destruct (@box_dir_ok 2 _ ltac:(lia) F NE) as (l2 & h2 & E2 & X2).
  simpl Z.of_nat in E0, E1, E2. rewrite E0. cbn [bind]. rewrite E1. cbn [bind]. rewrite E2. cbn [bind].
  destruct d as [[dx dy] dz]. rewrite linear_transform_ok by auto. cbn [bind].
  eexists. split; [reflexivity|]. intros j J. destruct j as [|[|[|j]]]; try lia; eexists; eexists; (split; [eassumption|reflexivity]).
Qed.

(** ** Lengths *)
Definition ends_of (g : gmesh) (e : edge) (p q : list R) : Prop :=
  exists i j, ed_vertind e = [i; j] /\ coord_of g i = Ok p /\ coord_of g j = Ok q /\ point3 p /\ point3 q.
(** The directions beyond the dimension of the mesh carry no difference. *)
Definition flat (g : gmesh) : Prop :=
  (0 <= meshDim (gtopo g) <= 3)%Z /\
  forall j p q, (meshDim (gtopo g) <= Z.of_nat j < 3)%Z -> In p (gcoord g) -> In q (gcoord g) -> nth j p 0 = nth j q 0.
Definition wf_geom (g : gmesh) : Prop :=
  Forall point3 (gcoord g) /\ (forall e, In e (edges (gtopo g)) -> exists p q, ends_of g e p q) /\ flat g.
Lemma coord_of_in g i p : coord_of g i = Ok p -> In p (gcoord g).
Proof. unfold coord_of. intros E. apply at_Ok in E. destruct E as (_ & E). eapply nth_error_In; eauto. Qed.
Lemma length_squared_ok g e p q : wf_geom g -> ends_of g e p q -> exists r, length_squared g e = Ok r /\ sqrt r = dist p q.
Proof.
  intros (_ & _ & D & FL) (i & j & E & Ei & Ej & P & Q). unfold length_squared. rewrite E.
  replace (at_ [i; j] 0) with (Ok i) by reflexivity. replace (at_ [i; j] 1) with (Ok j) by reflexivity. cbn [bind].
  rewrite Ei. cbn [bind]. rewrite Ej. cbn [bind].
  pose proof (coord_of_in _ _ Ei) as Ip. pose proof (coord_of_in _ _ Ej) as Iq.
  assert (X : forall k, (meshDim (gtopo g) <= Z.of_nat k < 3)%Z -> nth k p 0 = nth k q 0) by (intros; now apply FL).
  clear FL. unfold dist. destruct (point3_inv P) as (a & b & c & ->), (point3_inv Q) as (x & y & z & ->).
  simpl pminus. rewrite euclid3.
  assert (M : (meshDim (gtopo g) = 0 \/ meshDim (gtopo g) = 1 \/ meshDim (gtopo g) = 2 \/ meshDim (gtopo g) = 3)%Z) by lia.
  pose proof (X 0%nat) as X0. pose proof (X 1%nat) as X1. pose proof (X 2%nat) as X2. simpl nth in X0, X1, X2.
  destruct M as [M | [M | [M | M]]]; rewrite M in *; eexists; (split; [reflexivity|]); f_equal.
  - rewrite X0, X1, X2 by lia. ring.
  - rewrite X1, X2 by lia. ring.
  - rewrite X2 by lia. ring.
  - ring.
Qed.
(** Every length in the cache that counts as set is right. *)
Definition cache_ok (m : lmesh) : Prop :=
  length (llen m) = length (edges (gtopo (lg m))) /\
  forall k e l p q, nth_error (edges (gtopo (lg m))) k = Some e -> nth_error (llen m) k = Some l -> 0 <= l ->
    ends_of (lg m) e p q -> l = dist p q.
Lemma nth_at (A : Type) (l : list A) k x : nth_error l k = Some x -> at_ l (Z.of_nat k) = Ok x.
Proof. intros E. apply at_Ok. split; [lia|]. now rewrite Nat2Z.id. Qed.
Lemma edge_length_ok m k e : wf_geom (lg m) -> cache_ok m -> nth_error (edges (gtopo (lg m))) k = Some e ->
  exists p q, ends_of (lg m) e p q /\ edge_length m (Z.of_nat k) = Ok (dist p q).
Proof.
  intros W (L & C) E. destruct W as (W1 & W2 & W3). destruct (W2 e) as (p & q & EN); [eapply nth_error_In; eauto|].
  exists p, q. split; auto. unfold edge_length.
  destruct (nth_error (llen m) k) as [l|] eqn:El.
  2:{ apply nth_error_None in El. assert (k < length (edges (gtopo (lg m))))%nat by (apply nth_error_Some; congruence). lia. }
  rewrite (nth_at _ _ El). cbn [bind]. unfold is_set. destruct (Rle_dec 0 l) as [S|S].
  - f_equal. eapply C; eauto.
  - rewrite (nth_at _ _ E). cbn [bind]. destruct (length_squared_ok (conj W1 (conj W2 W3)) EN) as (r & -> & R0). cbn [bind]. now rewrite R0.
Qed.
Lemma set_edge_lengths_ok m : wf_geom (lg m) -> cache_ok m ->
  exists m', set_edge_lengths m = Ok m' /\ lg m' = lg m /\ cache_ok m'.
Proof.
  intros W C. unfold set_edge_lengths.
  destruct (@omap_ex _ _ (fun p => edge_length m p) (fun z l => exists k e p q, z = Z.of_nat k /\ nth_error (edges (gtopo (lg m))) k = Some e /\ ends_of (lg m) e p q /\ l = dist p q)
    (map Z.of_nat (seq 0 (length (edges (gtopo (lg m))))))) as (ls & E & F).
  { intros z I. apply in_map_iff in I. destruct I as (k & <- & I). apply in_seq in I.
    destruct (nth_error (edges (gtopo (lg m))) k) as [e|] eqn:Ek; [|apply nth_error_None in Ek; lia].
    destruct (@edge_length_ok m k e W C Ek) as (p & q & EN & EL). exists (dist p q). split; auto. exists k, e, p, q. auto. }
  rewrite E. cbn [bind]. eexists. split; [reflexivity|]. split; [reflexivity|]. split; simpl.
  - clear - F. assert (X : forall (A B : Type) (R : A -> B -> Prop) l l', Forall2 R l l' -> length l = length l') by (induction 1; simpl; auto). apply X in F. rewrite map_length, seq_length in F. auto.
  - intros k e l p q Ek El L0 EN.
    assert (X : exists z, nth_error (map Z.of_nat (seq 0 (length (edges (gtopo (lg m)))))) k = Some z /\
       exists k e p q, z = Z.of_nat k /\ nth_error (edges (gtopo (lg m))) k = Some e /\ ends_of (lg m) e p q /\ l = dist p q).
    { clear - F El. revert k El. induction F as [|z l' zs ls H _ IH]; intros [|k] El; simpl in El |- *; try discriminate.
      - injection El as <-. eauto.
      - apply IH. auto. }
    destruct X as (z & Hz & k' & e' & p' & q' & -> & Ek' & EN' & ->).
    rewrite nth_error_map in Hz. destruct (nth_error (seq 0 _) k) as [s|] eqn:Hs; simpl in Hz; [|discriminate]. injection Hz as Hz.
    assert (s = k)%nat. { assert (K : (k < length (edges (gtopo (lg m))))%nat) by (apply nth_error_Some; congruence).
      pose proof (nth_error_nth (seq 0 (length (edges (gtopo (lg m))))) k 0%nat Hs) as Y. rewrite seq_nth in Y by auto. lia. }
    assert (k' = k) by lia. subst k'. rewrite Ek in Ek'. injection Ek' as <-.
    destruct EN as (i & j & X1 & X2 & X3 & _), EN' as (i' & j' & Y1 & Y2 & Y3 & _). congruence.
Qed.
(** Transformations keep well formed meshes so. *)
Lemma coord_of_moved t g i p : coord_of g i = Ok p -> coord_of (mkG (gtopo g) (map (moved t) (gcoord g))) i = Ok (moved t p).
Proof.
  unfold coord_of. simpl. intros E. apply at_Ok in E. destruct E as (N & E). apply at_Ok. split; auto. now rewrite nth_error_map, E.
Qed.
Lemma ends_moved t g e p q : ends_of g e p q -> ends_of (mkG (gtopo g) (map (moved t) (gcoord g))) e (moved t p) (moved t q).
Proof.
  intros (i & j & E & Ei & Ej & P & Q). exists i, j. split; auto. split; [now apply coord_of_moved|]. split; [now apply coord_of_moved|].
  split; reflexivity.
Qed.
Lemma nth_moved t p (j : nat) : (j < 3)%nat -> nth j (moved t p) 0 = move1 (tdir t j) (nth j p 0).
Proof. intros J. destruct j as [|[|[|j]]]; try lia; reflexivity. Qed.
Lemma wf_moved t g : wf_geom g -> wf_geom (mkG (gtopo g) (map (moved t) (gcoord g))).
Proof.
  intros (W1 & W2 & D & FL). split; [apply moved_point3|]. split; [|split; auto].
  - intros e I. destruct (W2 e I) as (p & q & EN). exists (moved t p), (moved t q). now apply ends_moved.
  - simpl. intros j p q J Ip Iq. apply in_map_iff in Ip, Iq. destruct Ip as (p0 & <- & Ip), Iq as (q0 & <- & Iq).
    rewrite !nth_moved by lia. f_equal. now apply FL.
Qed.
Definition isometric (t : transformation) : Prop := forall j, (j < 3)%nat -> snd (tdir t j) * snd (tdir t j) = 1.
Lemma dist_moved t p q : isometric t -> point3 p -> point3 q -> dist (moved t p) (moved t q) = dist p q.
Proof.
  intros I P Q. unfold dist. destruct (point3_inv P) as (a & b & c & ->), (point3_inv Q) as (x & y & z & ->).
  unfold moved. simpl nth. simpl pminus. rewrite !euclid3. f_equal.
  pose proof (I 0%nat ltac:(lia)) as I0. pose proof (I 1%nat ltac:(lia)) as I1. pose proof (I 2%nat ltac:(lia)) as I2.
  destruct t as [[[[t1 t2] t3] [[u1 u2] u3]] [[w1 w2] w3]]. simpl in *.
  replace (t1 + (a - t2) * t3 - (t1 + (x - t2) * t3)) with ((a - x) * t3) by ring.
  replace (u1 + (b - u2) * u3 - (u1 + (y - u2) * u3)) with ((b - y) * u3) by ring.
  replace (w1 + (c - w2) * w3 - (w1 + (z - w2) * w3)) with ((c - z) * w3) by ring.
  replace ((a - x) * t3 * ((a - x) * t3)) with ((a - x) * (a - x) * (t3 * t3)) by ring.
  replace ((b - y) * u3 * ((b - y) * u3)) with ((b - y) * (b - y) * (u3 * u3)) by ring.
  replace ((c - z) * w3 * ((c - z) * w3)) with ((c - z) * (c - z) * (w3 * w3)) by ring.
  rewrite I0, I1, I2. ring.
Qed.
Definition none_set (m : lmesh) : Prop := Forall (fun l => l < 0) (llen m).
Lemma cache_moved t m : wf_geom (lg m) -> cache_ok m -> isometric t \/ none_set m ->
  cache_ok (mkL (mkG (gtopo (lg m)) (map (moved t) (gcoord (lg m)))) (llen m) (lset m)).
Proof.
  intros W (L & C) H. split; auto. simpl. intros k e l p q Ek El L0 EN. destruct H as [H|H].
  - destruct W as (_ & W2 & _). destruct (W2 e) as (p0 & q0 & EN0); [eapply nth_error_In; eauto|].
    pose proof (C _ _ _ _ _ Ek El L0 EN0) as ->. pose proof (ends_moved t EN0) as EN1.
    destruct EN as (i & j & X1 & X2 & X3 & _), EN1 as (i' & j' & Y1 & Y2 & Y3 & _).
    assert (p = moved t p0 /\ q = moved t q0) as (-> & ->) by (split; congruence).
    destruct EN0 as (_ & _ & _ & _ & _ & P & Q). symmetry. now apply dist_moved.
  - unfold none_set in H. rewrite Forall_forall in H. apply nth_error_In in El. apply H in El. lra.
Qed.
Definition llegal (o : lop) (m : lmesh) : Prop :=
  match o with
  | LTransform t => isometric t \/ none_set m
  | LScale _ => none_set m /\ gcoord (lg m) <> []
  | LPrepare => True
  | LInvalidate i => exists e, In e (edges (gtopo (lg m))) /\ ed_index e = i
  end.
Lemma lstep_ok o m : wf_geom (lg m) -> cache_ok m -> llegal o m -> exists m', lstep o m = Ok m' /\ wf_geom (lg m') /\ cache_ok m'.
Proof.
  intros W C L. pose proof W as (W1 & W2 & W3). destruct o; simpl in L |- *.
  - rewrite linear_transform_ok by auto. cbn [bind]. eexists. split; [reflexivity|]. split; [now apply wf_moved|now apply cache_moved].
  - destruct L as (L & NE). destruct (scale_ok d (lg m) W1 NE) as (t & -> & _). cbn [bind fst]. eexists. split; [reflexivity|].
    split; [now apply wf_moved|apply cache_moved; auto].
  - unfold prepare_lengths. destruct (lset m); [exists m; auto|].
    destruct (set_edge_lengths_ok W C) as (m' & -> & E & C'). exists m'. rewrite E. auto.
  - unfold invalidate_length. destruct (find_range _ _ L) as (k0 & FE & FR). destruct C as (CL & C). rewrite <- CL in FR.
    rewrite FE, Nat2Z.id.
    destruct (nth_error (llen m) k0) as [x|] eqn:Ex; [|apply nth_error_None in Ex; lia]. rewrite (nth_at _ _ Ex). cbn [bind]. eexists. split; [reflexivity|]. split; [auto|]. split; simpl.
    + now rewrite upd_length.
    + intros k e l p q Ek El L0 EN. destruct (Nat.eq_dec k k0) as [-> | N].
      * rewrite nth_error_upd_same in El. 2:{ apply nth_error_Some. congruence. }  injection El as <-. lra.
      * rewrite nth_error_upd_other in El by auto. eapply C; eauto.
Qed.
