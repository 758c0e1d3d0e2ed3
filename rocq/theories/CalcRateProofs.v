(** The derivatives of the volume and area of a triangle when a snaxel moves. *)
From Coq Require Import Reals List Lia Lra ZArith.
From Coquelicot Require Import Coquelicot.
From Verif Require Import Base RsvsMath SpecRsvs SpecCentre Calc SpecCalc RsvsProofs RsvsAreaProofs RsvsCentreProofs CalcProofs CalcTriProofs CalcChain CalcCentre CalcPlaceProofs.
Import ListNotations.
Set Implicit Arguments.
Open Scope R_scope.

Definition known (p : Z * Z) : Prop := fst p = t_mesh \/ fst p = t_snake \/ fst p = t_tri.

(** ** Moving points *)
Lemma corner_same e d i q k : corner_at e (slide d i (d i)) q k = corner_at e d q k.
Proof.
  unfold corner_at, along, slide. destruct (Z.eqb (fst q) t_mesh); auto. destruct (Z.eqb_spec (snd q) i) as [->|]; auto.
Qed.
Lemma corner_moves e d i q k : fst q = t_mesh \/ fst q = t_snake ->
  is_derive (fun t => corner_at e (slide d i t) q k) (d i) (pull e i q k).
Proof.
  intros T. unfold corner_at, pull, along, slide. destruct T as [->| ->]; cbn -[Z.eqb]; cbn [Z.eqb t_mesh t_snake Pos.eqb andb].
  - apply (is_derive_const (mesh_at e (snd q) k)).
  - destruct (Z.eqb_spec (snd q) i) as [->|N].
    + auto_derive; auto. ring.
    + auto_derive; auto.
Qed.
Lemma place_moves e d i p k : shaped e d p -> known p -> (k < 3)%nat ->
  is_derive (fun t => place e (slide d i t) p k) (d i) (speed e d i p k).
Proof.
  intros S T Lk. unfold place, speed. destruct (Z.eqb_spec (fst p) t_tri) as [Tt|Tt].
  - unfold shaped, is_centre in *. rewrite Tt in *. change (Z.eqb t_tri t_tri) with true in *. cbn [andb] in *.
    destruct (moving (tripoint_of e (snd p))).
    + destruct (S eq_refl) as (N4 & Ty & Ho & Hs). set (l := corners_of e (tripoint_of e (snd p))) in *. set (n := length l) in *.
      assert (X : forall v m, (v < n)%nat -> (m < 3)%nat -> polygon e (slide d i (d i)) l v m = polygon e d l v m)
        by (intros; apply corner_same).
      pose proof (@centre_moves n (fun t => polygon e (slide d i t) l) (fun v m => pull e i (nth v l (t_mesh, 0%Z)) m) (d i)) as K.
      cbv beta in K. specialize (K ltac:(lia)).
      assert (K1 : forall v k, (v < n)%nat -> (k < 3)%nat -> is_derive (fun t => polygon e (slide d i t) l v k) (d i) (pull e i (nth v l (t_mesh, 0%Z)) k)).
      { intros v m Lv Lm. apply corner_moves. apply Ty. apply nth_In. auto. }
      specialize (K K1). assert (K2 : forall v, (v < n)%nat -> 0 < side n (polygon e (slide d i (d i)) l) v).
      { intros v Lv. rewrite (@side_ext n _ _ X); auto. }
      specialize (K K2 k Lk). derive_is K. apply sum_to_ext. intros v Lv. apply sum_to_ext. intros m Lm. f_equal. apply (@slope_ext n _ _ X); auto.
    + unfold pull. rewrite Tt. cbn [Z.eqb t_tri t_snake Pos.eqb andb]. apply (is_derive_const (tp_coord (tripoint_of e (snd p)) k)).
  - unfold is_centre. destruct (Z.eqb_spec (fst p) t_tri) as [|_]; [contradiction|]. cbn [andb]. apply corner_moves.
    destruct T as [T|[T|T]]; auto. contradiction.
Qed.

(** A variable that none of the points depends on. *)
Lemma corner_silent e dvs i l : In i dvs ->
  ~ In i (map snd (filter (fun q => andb (Z.eqb (fst q) t_snake) (in_map dvs (snd q))) l)) ->
  forall q k, In q l -> pull e i q k = 0.
Proof.
  intros I N q k Hq. unfold pull. destruct (Z.eqb_spec (fst q) t_snake) as [T|]; auto. destruct (Z.eqb_spec (snd q) i) as [Ei|]; auto.
  exfalso. apply N. apply in_map_iff. exists q. split; auto. apply filter_In. split; auto. rewrite T, Ei. cbn. apply in_map_in. auto.
Qed.
Lemma silent st e d dvs centre p l i k : point_dvs e dvs centre p = Ok l -> In i dvs -> ~ In i l -> (centre = true \/ is_centre e p = false) ->
  known p -> speed e d i p k = 0 /\ place_error st e d i p k = 0.
Proof.
  intros H I N C T. unfold speed, place_error, point_dvs in *. destruct p as [t j]. cbn [fst snd] in *.
  assert (Q : is_centre e (t, j) = true -> forall cs, corners_of e (tripoint_of e j) = cs ->
     (forall q k, In q cs -> pull e i q k = 0) ->
     sum_to (length cs) (fun v => sum_to 3 (fun m => slope (length cs) (polygon e d cs) k v m * pull e i (nth v cs (t_mesh, 0%Z)) m)) = 0 /\
     sum_to (length cs) (fun v => sum_to 3 (fun m => slope_error (length cs) (polygon e d cs) (centre_a st + centre2_a st) (centre2_a st) k v m * Rabs (pull e i (nth v cs (t_mesh, 0%Z)) m))) = 0).
  { intros _ cs _ Z. split; (transitivity (sum_to (length cs) (fun _ => 0 * 0)); [apply sum_to_ext; intros v Lv|rewrite (sum_to_scale (length cs) (fun _ => 0) 0); ring]).
    - rewrite sum3, !Z by (apply nth_In; auto). ring.
    - rewrite sum3, !Z by (apply nth_In; auto). rewrite Rabs_R0. ring. }
  destruct T as [T|[T|T]]; cbn [fst] in T; subst t.
  - unfold is_centre, pull. cbn. auto.
  - change (Z.eqb t_snake t_snake) with true in H. unfold is_centre, pull. cbn [fst snd Z.eqb t_snake t_tri Pos.eqb andb].
    destruct (Z.eqb_spec j i) as [->|]; auto. exfalso. cbn [andb] in H. destruct (in_map dvs i) eqn:E.
    + injection H as <-. apply N. left. auto.
    + apply in_map_in in I. congruence.
  - change (Z.eqb t_tri t_snake) with false in H. change (Z.eqb t_tri t_tri) with true in H. cbn [andb] in H.
    destruct (is_centre e (t_tri, j)) eqn:Ic; [|unfold pull; cbn; auto]. specialize (Q eq_refl).
    destruct C as [->|]; [|discriminate]. unfold is_centre in Ic. cbn [fst snd] in Ic. change (Z.eqb t_tri t_tri) with true in Ic. cbn [andb] in Ic.
    destruct (lookup j (trivert e)) as [tp| | |] eqn:Et; cbn [bind] in H; try discriminate.
    assert (Etp : tripoint_of e j = tp) by apply (lookup_Ok _ _ (mkTp origin 0 0) Et). rewrite Etp in *. unfold moving in Ic.
    apply Q; auto. intros q m Hq. destruct (Z.eqb_spec (tp_ptype tp) t_tri) as [Tt|Tt]; cbn [orb] in Ic.
    + destruct (lookup (tp_parent tp) (trisurf e)) as [s| | |] eqn:Es; cbn [bind] in H; try discriminate. injection H as <-.
      unfold corners_of in Hq. rewrite Tt in Hq. change (Z.eqb t_tri t_tri) with true in Hq. cbv iota in Hq. rewrite (proj1 (lookup_Ok _ _ [] Es)) in Hq.
      eapply corner_silent; eauto.
    + rewrite Ic in H. apply Z.eqb_eq in Ic. destruct (lookup (tp_parent tp) (snake_surfs e)) as [s| | |] eqn:Es; cbn [bind] in H; try discriminate. injection H as <-.
      unfold corners_of in Hq. rewrite Ic in Hq. change (Z.eqb t_snake t_tri) with false in Hq. cbv iota in Hq. rewrite (proj1 (lookup_Ok _ _ [] Es)) in Hq.
      apply in_map_iff in Hq. destruct Hq as (x & <- & Hx). unfold pull. cbn [fst snd]. change (Z.eqb t_snake t_snake) with true. cbn [andb].
      destruct (Z.eqb_spec x i) as [->|]; auto. exfalso. apply N. apply filter_In. split; auto. apply in_map_in. auto.
Qed.

(** ** The points of a triangle *)
Lemma point_coord_is e d p v : placed e d -> point_coord e p = Ok [v] -> known p /\ same3 v (place e d p) /\
  (forall x, fst p = t_tri -> lookup (snd p) (trivert e) = Ok x -> tripoint_of e (snd p) = x).
Proof.
  intros [P1 P2] H. destruct p as [t j]. unfold point_coord in H.
  assert (LK : forall x, fst (t, j) = t_tri -> lookup (snd (t, j)) (trivert e) = Ok x -> tripoint_of e (snd (t, j)) = x).
  { intros x _ E. apply (lookup_Ok _ _ (mkTp origin 0 0) E). }
  unfold known. cbn [fst]. destruct (Z.eqb_spec t t_mesh) as [->|N1].
  { split; auto. split; auto. destruct (lookup j (mesh_verts e)) as [x| | |] eqn:E; cbn [bind] in H; try discriminate. injection H as <-.
    intros k _. unfold place, corner_at. cbn -[mesh_at]. unfold mesh_at. rewrite (proj1 (lookup_Ok _ _ origin E)). reflexivity. }
  destruct (Z.eqb_spec t t_snake) as [->|N2].
  { split; auto. split; auto. destruct (lookup j (snake_verts e)) as [x| | |] eqn:E; cbn [bind] in H; try discriminate. injection H as <-.
    apply (P1 j x). apply (lookup_Ok _ _ origin E). }
  destruct (Z.eqb_spec t t_tri) as [->|N3]; [|discriminate].
  split; auto. split; auto. destruct (lookup j (trivert e)) as [x| | |] eqn:E; cbn [bind] in H; try discriminate. injection H as <-.
  apply P2. apply (lookup_Ok _ _ (mkTp origin 0 0) E).
Qed.
Lemma coord_short e q v : point_coord e q = Ok v -> (length v <= 1)%nat.
Proof.
  destruct q as [t i]. unfold point_coord. destruct (Z.eqb t t_mesh); [destruct (lookup i (mesh_verts e)); cbn; try discriminate; intros K; injection K as <-; cbn; lia|].
  destruct (Z.eqb t t_snake); [destruct (lookup i (snake_verts e)); cbn; try discriminate; intros K; injection K as <-; cbn; lia|].
  destruct (Z.eqb t t_tri); [destruct (lookup i (trivert e)); cbn; try discriminate; intros K; injection K as <-; cbn; lia|].
  intros K; injection K as <-; cbn; lia.
Qed.
Lemma tri_split e t a b c : tri_coords e t = Ok [a; b; c] ->
  three (tri_pts t) = Ok [nth_pt t 0; nth_pt t 1; nth_pt t 2] /\
  point_coord e (nth_pt t 0) = Ok [a] /\ point_coord e (nth_pt t 1) = Ok [b] /\ point_coord e (nth_pt t 2) = Ok [c].
Proof.
  unfold tri_coords, nth_pt. intros H. destruct (tri_pts t) as [|x [|y [|z r]]]; cbn [three bind] in H; try discriminate. cbn [nth three].
  split; auto. cbn [concat_all] in H.
  destruct (point_coord e x) as [v1| | |] eqn:E1; cbn [bind] in H; try discriminate.
  destruct (point_coord e y) as [v2| | |] eqn:E2; cbn [bind] in H; try discriminate.
  destruct (point_coord e z) as [v3| | |] eqn:E3; cbn [bind] in H; try discriminate. injection H as H.
  pose proof (@coord_short _ _ _ E1) as L1. pose proof (@coord_short _ _ _ E2) as L2. pose proof (@coord_short _ _ _ E3) as L3.
  rewrite app_nil_r in H.
  destruct v1 as [|x1 [|? ?]], v2 as [|x2 [|? ?]], v3 as [|x3 [|? ?]]; cbn in L1, L2, L3, H; try lia; try discriminate.
  injection H as -> -> ->. auto.
Qed.
Lemma jac_rows st e act centre p ws w : point_jac st e act centre p = Ok ws -> In w ws -> (fst (fst w) < 3)%nat.
Proof.
  assert (CJ : forall n jac j i g w, In w (corner_jac n jac act j i g) -> (fst (fst w) < 3)%nat).
  { intros n jac j i g w0 H. unfold corner_jac in H. destruct (index_of i act); [|destruct H]. apply in_flat_map in H. destruct H as (k & Hk & H).
    apply in_map_iff in H. destruct H as (l & <- & _). apply in_seq in Hk. cbn. lia. }
  unfold point_jac. destruct p as [t i]. intros H Hw.
  destruct (if Z.eqb t t_snake then index_of i act else None) as [q|].
  { destruct (snax_dir e i); cbn [bind] in H; try discriminate. injection H as <-. destruct Hw as [<-|[<-|[<-|[]]]]; cbn; lia. }
  destruct (andb (Z.eqb t t_tri) centre); [|injection H as <-; destruct Hw].
  destruct (lookup i (trivert e)) as [tp| | |]; cbn [bind] in H; try discriminate.
  destruct (Z.eqb (tp_ptype tp) t_tri).
  { destruct (lookup (tp_parent tp) (trisurf e)) as [s| | |]; cbn [bind] in H; try discriminate.
    match type of H with bind ?o _ = _ => destruct o; cbn [bind] in H; try discriminate end.
    match type of H with bind ?o _ = _ => destruct o; cbn [bind] in H; try discriminate end.
    apply (proj1 (concat_all_Ok _ _ H)) in Hw. destruct Hw as (jq & x & _ & Ex & Hw).
    destruct (andb _ _); [|injection Ex as <-; destruct Hw]. destruct (snax_dir e (snd (snd jq))); cbn [bind] in Ex; try discriminate. injection Ex as <-. eauto. }
  destruct (Z.eqb (tp_ptype tp) t_snake); [|injection H as <-; destruct Hw].
  destruct (lookup (tp_parent tp) (snake_surfs e)) as [s| | |]; cbn [bind] in H; try discriminate.
  destruct (Nat.eqb (length s) 3); [discriminate|].
  match type of H with bind ?o _ = _ => destruct o; cbn [bind] in H; try discriminate end.
  match type of H with bind ?o _ = _ => destruct o; cbn [bind] in H; try discriminate end.
  apply (proj1 (concat_all_Ok _ _ H)) in Hw. destruct Hw as (jq & x & _ & Ex & Hw).
  destruct (snax_dir e (snd jq)); cbn [bind] in Ex; try discriminate. injection Ex as <-. eauto.
Qed.
Lemma shifted_sum b ws r k q : (k < 3)%nat -> (forall w, In w ws -> (fst (fst w) < 3)%nat) ->
  sum_entries (map (fun w : nat * nat * R => ((b * 3 + fst (fst w))%nat, snd (fst w), snd w)) ws) (r * 3 + k)%nat q = if Nat.eqb b r then sum_entries ws k q else 0.
Proof.
  intros Lk Hw. rewrite <- !sum_entries_is, total_map. destruct (Nat.eqb_spec b r) as [->|N].
  - apply total_ext. intros w Iw. cbn [fst snd]. replace (Nat.eqb (r * 3 + fst (fst w)) (r * 3 + k)) with (Nat.eqb (fst (fst w)) k); auto.
    destruct (Nat.eqb_spec (fst (fst w)) k), (Nat.eqb_spec (r * 3 + fst (fst w)) (r * 3 + k)); auto; lia.
  - apply total_zero. intros w Iw. cbn [fst snd]. pose proof (Hw _ Iw). destruct (Nat.eqb_spec (b * 3 + fst (fst w)) (r * 3 + k)); [lia|reflexivity].
Qed.
Lemma sum_entries_app ws ws' k q : sum_entries (ws ++ ws') k q = sum_entries ws k q + sum_entries ws' k q.
Proof. rewrite <- !sum_entries_is. apply total_app. Qed.
Lemma tri_jac_rows st e act centre t dpos p0 p1 p2 : three (tri_pts t) = Ok [p0; p1; p2] -> tri_jac st e act centre t = Ok dpos ->
  exists w0 w1 w2, point_jac st e act centre p0 = Ok w0 /\ point_jac st e act centre p1 = Ok w1 /\ point_jac st e act centre p2 = Ok w2 /\
  forall k q, (k < 3)%nat -> dpos k q = sum_entries w0 k q /\ dpos (3 + k)%nat q = sum_entries w1 k q /\ dpos (6 + k)%nat q = sum_entries w2 k q.
Proof.
  intros E H. unfold tri_jac in H. rewrite E in H. cbn [bind] in H. cbn [combine seq concat_all fst snd] in H.
  destruct (point_jac st e act centre p0) as [w0| | |] eqn:E0; cbn [bind] in H; try discriminate.
  destruct (point_jac st e act centre p1) as [w1| | |] eqn:E1; cbn [bind] in H; try discriminate.
  destruct (point_jac st e act centre p2) as [w2| | |] eqn:E2; cbn [bind] in H; try discriminate. injection H as <-.
  exists w0, w1, w2. split; auto. split; auto. split; auto. intros k q Lk. rewrite app_nil_r.
  pose proof (fun w => @jac_rows _ _ _ _ _ _ w E0) as R0. pose proof (fun w => @jac_rows _ _ _ _ _ _ w E1) as R1. pose proof (fun w => @jac_rows _ _ _ _ _ _ w E2) as R2.
  assert (Q : forall r, sum_entries (map (fun w : nat * nat * R => ((0 * 3 + fst (fst w))%nat, snd (fst w), snd w)) w0 ++
     map (fun w : nat * nat * R => ((1 * 3 + fst (fst w))%nat, snd (fst w), snd w)) w1 ++
     map (fun w : nat * nat * R => ((2 * 3 + fst (fst w))%nat, snd (fst w), snd w)) w2) (r * 3 + k)%nat q =
     (if Nat.eqb 0 r then sum_entries w0 k q else 0) + ((if Nat.eqb 1 r then sum_entries w1 k q else 0) + (if Nat.eqb 2 r then sum_entries w2 k q else 0))).
  { intros r. rewrite !sum_entries_app, !shifted_sum; auto. }
  split; [etransitivity; [apply (Q 0%nat)|]|split; [etransitivity; [apply (Q 1%nat)|]|etransitivity; [apply (Q 2%nat)|]]]; cbn [Nat.eqb]; ring.
Qed.

(** ** Positions of the active variables *)
Lemma dv_positions_nth c l qs : dv_positions c l = Ok qs ->
  length qs = length l /\ forall j i, nth_error l j = Some i -> exists q, index_of i (dvMap c) = Some q /\ nth_error qs j = Some q.
Proof.
  revert qs. induction l as [|i l IH]; cbn [dv_positions]; intros qs H; [injection H as <-; split; auto; intros [|j] ? H; discriminate|].
  unfold dv_pos in H. destruct (index_of i (dvMap c)) as [q|] eqn:E; cbn [bind] in H; try discriminate.
  destruct (Nat.ltb q (nDv c)); cbn [bind] in H; try discriminate. destruct (dv_positions c l) as [r| | |]; cbn [bind] in H; try discriminate.
  injection H as <-. destruct (IH _ eq_refl) as [L J]. split; [cbn; congruence|]. intros [|j] i' Hj; cbn in Hj |- *; [|auto].
  injection Hj as <-. eauto.
Qed.
Lemma positions_nodup c l qs : dv_positions c l = Ok qs -> NoDup l -> NoDup qs.
Proof.
  intros H N. destruct (dv_positions_nth _ _ H) as [L J]. rewrite NoDup_nth_error in N |- *. intros a b La E.
  destruct (nth_error l a) as [x|] eqn:Ea; [|apply nth_error_None in Ea; lia].
  destruct (J _ _ Ea) as (q & Iq & Eq). rewrite Eq in E. symmetry in E.
  assert (Lb : (b < length qs)%nat) by (apply nth_error_Some; congruence).
  destruct (nth_error l b) as [y|] eqn:Eb; [|apply nth_error_None in Eb; lia].
  destruct (J _ _ Eb) as (q' & Iq' & Eq'). assert (q' = q) by congruence. subst q'.
  apply N; [lia|]. rewrite Ea, Eb. apply index_of_nth in Iq. apply index_of_nth in Iq'. congruence.
Qed.
Lemma dsum_in c l qs f i j q : dv_positions c l = Ok qs -> NoDup l -> index_of i l = Some j -> index_of i (dvMap c) = Some q -> dsum qs f q = f j.
Proof.
  intros H N Ij Iq. apply one_entry; [eapply positions_nodup; eauto|]. destruct (dv_positions_nth _ _ H) as [L J].
  destruct (J _ _ (index_of_nth _ _ Ij)) as (q' & E & E'). congruence.
Qed.
Lemma dsum_out c l qs f i q : dv_positions c l = Ok qs -> ~ In i l -> index_of i (dvMap c) = Some q -> dsum qs f q = 0.
Proof.
  intros H N Iq. apply no_entry. intros K. apply In_nth_error in K. destruct K as [j Ej]. destruct (dv_positions_nth _ _ H) as [L J].
  destruct (nth_error l j) as [x|] eqn:Ex; [|apply nth_error_None in Ex; assert (j < length qs)%nat by (apply nth_error_Some; congruence); lia].
  destruct (J _ _ Ex) as (q' & E & E'). assert (q' = q) by congruence. subst q'. apply N. apply index_of_nth in E. apply index_of_nth in Iq.
  assert (x = i) by congruence. subst x. eapply nth_error_In; eauto.
Qed.

(** ** A function of the points of a triangle *)
Definition at_points (f : (nat -> R) -> R) (e : tri_env) (t : triangle) (d : Z -> R) : R :=
  f (flat [place e d (nth_pt t 0); place e d (nth_pt t 1); place e d (nth_pt t 2)]).
Definition errors (st : statics) (e : tri_env) (d : Z -> R) (i : Z) (t : triangle) : nat -> R :=
  flat [place_error st e d i (nth_pt t 0); place_error st e d i (nth_pt t 1); place_error st e d i (nth_pt t 2)].
Definition speeds (e : tri_env) (d : Z -> R) (i : Z) (t : triangle) : nat -> R :=
  flat [speed e d i (nth_pt t 0); speed e d i (nth_pt t 1); speed e d i (nth_pt t 2)].
Lemma flat9 (P : R -> R -> Prop) x0 x1 x2 y0 y1 y2 :
  (forall k, (k < 3)%nat -> P (x0 k) (y0 k) /\ P (x1 k) (y1 k) /\ P (x2 k) (y2 k)) -> forall r, (r < 9)%nat -> P (flat [x0; x1; x2] r) (flat [y0; y1; y2] r).
Proof.
  intros H. destruct (H 0%nat ltac:(lia)) as (A0 & A1 & A2), (H 1%nat ltac:(lia)) as (B0 & B1 & B2), (H 2%nat ltac:(lia)) as (C0 & C1 & C2).
  intros r L. each r ltac:(cbn; assumption).
Qed.
Lemma same_places e d t a b c : placed e d -> tri_coords e t = Ok [a; b; c] ->
  forall r, (r < 9)%nat -> flat [a; b; c] r = flat [place e d (nth_pt t 0); place e d (nth_pt t 1); place e d (nth_pt t 2)] r.
Proof.
  intros P H. destruct (@tri_split _ _ _ _ _ H) as (_ & E0 & E1 & E2).
  destruct (@point_coord_is _ _ _ _ P E0) as (_ & S0 & _), (@point_coord_is _ _ _ _ P E1) as (_ & S1 & _), (@point_coord_is _ _ _ _ P E2) as (_ & S2 & _).
  apply (@flat9 eq). intros k L. auto.
Qed.

Lemma points_move e d t a b c i centre : placed e d -> tri_coords e t = Ok [a; b; c] -> smooth_tri e d centre t -> forall r, (r < 9)%nat ->
  is_derive (fun u => flat [place e (slide d i u) (nth_pt t 0); place e (slide d i u) (nth_pt t 1); place e (slide d i u) (nth_pt t 2)] r) (d i) (speeds e d i t r).
Proof.
  intros P H S. destruct (@tri_split _ _ _ _ _ H) as (_ & E0 & E1 & E2).
  destruct (@point_coord_is _ _ _ _ P E0) as (K0 & _ & _), (@point_coord_is _ _ _ _ P E1) as (K1 & _ & _), (@point_coord_is _ _ _ _ P E2) as (K2 & _ & _).
  assert (A0 : forall k, (k < 3)%nat -> is_derive (fun u => place e (slide d i u) (nth_pt t 0) k) (d i) (speed e d i (nth_pt t 0) k)).
  { intros k L. apply place_moves; auto. apply (S 0%nat). lia. }
  assert (A1 : forall k, (k < 3)%nat -> is_derive (fun u => place e (slide d i u) (nth_pt t 1) k) (d i) (speed e d i (nth_pt t 1) k)).
  { intros k L. apply place_moves; auto. apply (S 1%nat). lia. }
  assert (A2 : forall k, (k < 3)%nat -> is_derive (fun u => place e (slide d i u) (nth_pt t 2) k) (d i) (speed e d i (nth_pt t 2) k)).
  { intros k L. apply place_moves; auto. apply (S 2%nat). lia. }
  intros r L. unfold speeds. each r ltac:(cbn [flat]; first [apply A0|apply A1|apply A2]; lia).
Qed.

Section Triangle.
Variables (st : statics) (e : tri_env) (d : Z -> R) (i : Z) (cc : Calc.calc) (t : triangle) (a b c : vec) (act : list Z)
  (dpos : mat) (hpos : nat -> mat) (qs : list nat) (q : nat).
Hypotheses (F : tri_facts st e cc t a b c act dpos hpos qs) (Hp : placed e d) (Hs : smooth_tri e d (useCentre cc) t)
  (H1 : 0 <= centre_a st) (H2 : 0 <= centre2_a st) (Hi : index_of i (dvMap cc) = Some q).

Lemma act_nodup : NoDup act.
Proof.
  pose proof (tf_act F) as E. unfold tri_dvs in E. destruct (three (tri_pts t)) as [p| | |]; cbn [bind] in E; try discriminate.
  destruct (concat_all (point_dvs e (dvMap cc) (useCentre cc)) p) as [l| | |]; cbn [bind] in E; try discriminate. injection E as <-. apply sort_unique_nodup.
Qed.
Lemma dpos_close j r : index_of i act = Some j -> (r < 9)%nat -> Rabs (dpos r j - speeds e d i t r) <= errors st e d i t r.
Proof.
  intros Ij. destruct (@tri_split _ _ _ _ _ (tf_coords F)) as (E3 & E0 & E1 & E2).
  destruct (@point_coord_is _ _ _ _ Hp E0) as (K0 & _ & L0), (@point_coord_is _ _ _ _ Hp E1) as (K1 & _ & L1), (@point_coord_is _ _ _ _ Hp E2) as (K2 & _ & L2).
  destruct (@tri_jac_rows _ _ _ _ _ _ _ _ _ E3 (tf_jac F)) as (w0 & w1 & w2 & W0 & W1 & W2 & D).
  pose proof act_nodup as N.
  destruct (Hs (j := 0%nat) ltac:(lia)) as [S0 C0], (Hs (j := 1%nat) ltac:(lia)) as [S1 C1], (Hs (j := 2%nat) ltac:(lia)) as [S2 C2].
  assert (Q : forall k, (k < 3)%nat -> Rabs (dpos k j - speed e d i (nth_pt t 0) k) <= place_error st e d i (nth_pt t 0) k /\
    Rabs (dpos (3 + k)%nat j - speed e d i (nth_pt t 1) k) <= place_error st e d i (nth_pt t 1) k /\
    Rabs (dpos (6 + k)%nat j - speed e d i (nth_pt t 2) k) <= place_error st e d i (nth_pt t 2) k).
  { intros k Lk. destruct (D k j Lk) as (-> & -> & ->). split; [|split]; eapply point_close; eauto. }
  unfold speeds, errors. intros L.
  destruct (Q 0%nat ltac:(lia)) as (A0 & A1 & A2), (Q 1%nat ltac:(lia)) as (B0 & B1 & B2), (Q 2%nat ltac:(lia)) as (D0 & D1 & D2).
  each r ltac:(cbn [flat]; assumption).
Qed.
Lemma all_silent : ~ In i act -> forall r, (r < 9)%nat -> speeds e d i t r = 0 /\ errors st e d i t r = 0.
Proof.
  intros N. destruct (@tri_split _ _ _ _ _ (tf_coords F)) as (E3 & E0 & E1 & E2).
  destruct (@point_coord_is _ _ _ _ Hp E0) as (K0 & _ & L0), (@point_coord_is _ _ _ _ Hp E1) as (K1 & _ & L1), (@point_coord_is _ _ _ _ Hp E2) as (K2 & _ & L2).
  pose proof (tf_act F) as E. unfold tri_dvs in E. rewrite E3 in E. cbn [bind concat_all] in E.
  destruct (point_dvs e (dvMap cc) (useCentre cc) (nth_pt t 0)) as [l0| | |] eqn:P0; cbn [bind] in E; try discriminate.
  destruct (point_dvs e (dvMap cc) (useCentre cc) (nth_pt t 1)) as [l1| | |] eqn:P1; cbn [bind] in E; try discriminate.
  destruct (point_dvs e (dvMap cc) (useCentre cc) (nth_pt t 2)) as [l2| | |] eqn:P2; cbn [bind] in E; try discriminate.
  injection E as E. rewrite <- E in N. rewrite sort_unique_in, !in_app_iff in N.
  assert (I : In i (dvMap cc)) by (apply index_of_in; eauto).
  destruct (Hs (j := 0%nat) ltac:(lia)) as [S0 C0], (Hs (j := 1%nat) ltac:(lia)) as [S1 C1], (Hs (j := 2%nat) ltac:(lia)) as [S2 C2].
  assert (Q : forall k, (speed e d i (nth_pt t 0) k = 0 /\ place_error st e d i (nth_pt t 0) k = 0) /\
    (speed e d i (nth_pt t 1) k = 0 /\ place_error st e d i (nth_pt t 1) k = 0) /\ (speed e d i (nth_pt t 2) k = 0 /\ place_error st e d i (nth_pt t 2) k = 0)).
  { intros k. split; [|split]; eapply silent; eauto; tauto. }
  unfold speeds, errors. intros r L.
  destruct (Q 0%nat) as (A0 & A1 & A2), (Q 1%nat) as (B0 & B1 & B2), (Q 2%nat) as (D0 & D1 & D2).
  each r ltac:(cbn [flat]; assumption).
Qed.

(** The derivative of a function of the points, and what is summed up for it. *)
Lemma tri_rate f J : differential f (flat [a; b; c]) J ->
  rate (at_points f e t) d i (sum_to 9 (fun r => J r * speeds e d i t r)) /\
  forall keep eps, (forall x, Rabs (cut keep x - x) <= eps) ->
    Rabs (dsum qs (fun j => cut keep (chain1 J dpos j)) q - sum_to 9 (fun r => J r * speeds e d i t r))
    <= sum_to 9 (fun r => Rabs (J r) * errors st e d i t r) + eps.
Proof.
  intros D. split.
  - unfold rate. apply is_derive_Reals. apply (D (fun u => flat [place e (slide d i u) (nth_pt t 0); place e (slide d i u) (nth_pt t 1); place e (slide d i u) (nth_pt t 2)])).
    + eapply points_move; eauto. apply (tf_coords F).
    + intros s L. rewrite (same_places _ Hp (tf_coords F)) by auto. revert s L. apply (@flat9 eq).
      assert (X : forall p k, place e (slide d i (d i)) p k = place e d p k).
      2: intros; auto.
      intros p k. unfold place. destruct (Z.eqb (fst p) t_tri); [|apply corner_same]. destruct (moving _); auto.
      set (l := corners_of e _).
      assert (Y : forall v m, polygon e (slide d i (d i)) l v m = polygon e d l v m) by (intros; apply corner_same).
      assert (Sd : forall v, side (length l) (polygon e (slide d i (d i)) l) v = side (length l) (polygon e d l) v)
        by (intros v; unfold side, SpecRsvs.dist, vdot, vsub; rewrite !Y; reflexivity).
      assert (Ou : outline (length l) (polygon e (slide d i (d i)) l) = outline (length l) (polygon e d l)) by (apply sum_to_ext; intros; apply Sd).
      unfold wire_centre. rewrite Ou. f_equal. apply sum_to_ext. intros v Lv. rewrite Sd. unfold middle. rewrite !Y. reflexivity.
  - intros keep eps Hk. pose proof (Hk 0) as E0. assert (0 <= eps) by (eapply Rle_trans; [apply Rabs_pos|exact E0]).
    destruct (index_of i act) as [j|] eqn:Ij.
    + rewrite (@dsum_in cc act qs _ i j q (tf_pos F) act_nodup Ij Hi).
      set (X := chain1 J dpos j). set (Y := sum_to 9 _). set (Z := sum_to 9 _).
      replace (cut keep X - Y) with ((X - Y) + (cut keep X - X)) by ring. eapply Rle_trans; [apply Rabs_triang|]. apply Rplus_le_compat; [|apply Hk].
      unfold X, Y, Z. change (chain1 J dpos j) with (sum_to 9 (fun r => J r * dpos r j)). rewrite sum_to_minus. eapply Rle_trans; [apply sum_to_abs|].
      apply sum_to_le. intros r L. rewrite <- Rmult_minus_distr_l, Rabs_mult. apply Rmult_le_compat_l; [apply Rabs_pos|]. apply dpos_close; auto.
    + assert (N : ~ In i act) by (intros K; apply index_of_in in K; destruct K; congruence).
      rewrite (@dsum_out cc act qs _ i q (tf_pos F) N Hi). pose proof (all_silent N) as S.
      rewrite (@sum_to_ext 9 (fun r => J r * speeds e d i t r) (fun r => 0 * 0)) by (intros r L; rewrite (proj1 (S r L)); ring).
      rewrite (@sum_to_ext 9 (fun r => Rabs (J r) * errors st e d i t r) (fun r => 0 * 0)) by (intros r L; rewrite (proj2 (S r L)); ring).
      rewrite (sum_to_scale 9 (fun _ => 0) 0). replace (0 - 0 * sum_to 9 (fun _ => 0)) with 0 by ring. rewrite Rabs_R0. lra.
Qed.
End Triangle.
