(** Proofs about CartesianMapping. *)
From Coq Require Import Reals Lra.
From Flocq Require Import Core.Raux.
From Verif Require Import Base Containers ContainersProofs Mesh SpecMesh MeshProofs SwitchProofs RemoveProofs
  Edit CropProofs EditProofs Geom MergeProofs GeomProofs FloodProofs ScaleProofs FamilyMapProofs Coarsen SpecCoarsen CoarsenProofs.
Set Implicit Arguments.
Open Scope Z_scope.

(** ** Filling the boxes *)
Definition first_in (l : list (Z * Z)) (s : Z) : Z :=
  match List.find (fun c => snd c =? s) l with Some c => fst c | None => 0 end.

Lemma first_app l1 l2 s : first_in (l1 ++ l2) s =
  if existsb (fun c => snd c =? s) l1 then first_in l1 s else first_in l2 s.
Proof.
  unfold first_in. induction l1 as [|c l IH]; simpl; auto. destruct (snd c =? s); auto.
Qed.

Lemma first_In l s : existsb (fun c => snd c =? s) l = true -> In (first_in l s, s) l.
Proof.
  unfold first_in. induction l as [|[i t] l IH]; simpl; [discriminate|]. destruct (Z.eqb_spec t s) as [->|]; simpl; auto.
Qed.

Lemma boxes_loop nBox cells : (forall i s, In (i, s) cells -> i <> 0 /\ 0 <= s < nBox) ->
  exists bm, for_each cells (fun c st => enter_box nBox (fst c) (snd c) st) (repeat 0 (Z.to_nat nBox), []) =
    Ok (bm, map (fun c => first_in cells (snd c)) cells).
Proof.
  intros Hc.
  assert (H : forall post pre bm, cells = pre ++ post -> length bm = Z.to_nat nBox ->
    (forall s, 0 <= s < nBox -> nth_error bm (Z.to_nat s) = Some (first_in pre s)) ->
    exists bm', for_each post (fun c st => enter_box nBox (fst c) (snd c) st) (bm, map (fun c => first_in cells (snd c)) pre) =
      Ok (bm', map (fun c => first_in cells (snd c)) cells)).
  { induction post as [|[i s] post IH]; intros pre bm E Hl Hb.
    - rewrite app_nil_r in E. subst pre. exists bm. reflexivity.
    - cbn [for_each fst snd]. destruct (Hc i s) as [Hi Hs]; [rewrite E; apply in_app_iff; right; left; auto|].
      unfold enter_box at 1. destruct (Z.leb_spec nBox s); [lia|].
      assert (Hat : at_ bm s = Ok (first_in pre s)) by (apply at_Ok; split; [lia|auto]).
      rewrite Hat. cbn [bind].
      destruct (existsb (fun c => snd c =? s) pre) eqn:Ex.
      + assert (Hf := first_In pre s Ex). assert (Hfc : In (first_in pre s, s) cells) by (rewrite E; apply in_app_iff; auto).
        destruct (Hc _ _ Hfc) as [Hne _]. destruct (Z.eqb_spec (first_in pre s) 0); [congruence|]. cbn [bind].
        destruct (IH (pre ++ [(i, s)]) bm) as [bm' Hr].
        * rewrite <- app_assoc. exact E.
        * exact Hl.
        * intros t Ht. rewrite Hb by auto. f_equal. rewrite first_app. destruct (existsb (fun c : Z * Z => snd c =? t) pre) eqn:Et; auto.
          unfold first_in at 2. simpl. destruct (Z.eq_dec s t) as [Est|Est]; [exfalso; subst t; first [congruence|rewrite Ex in Et; discriminate]|]. apply Z.eqb_neq in Est; rewrite Est.
          unfold first_in. clear -Et. induction pre as [|c l IHl]; simpl in *; auto.
          apply orb_false_iff in Et. destruct Et as [-> Et]. auto.
        * exists bm'. rewrite <- Hr. f_equal. f_equal. rewrite map_app. f_equal. cbn [map snd]. f_equal.
          rewrite E, first_app, Ex. reflexivity.
      + assert (Hf : first_in pre s = 0).
        { unfold first_in. clear -Ex. induction pre as [|c l IHl]; simpl in *; auto.
          apply orb_false_iff in Ex. destruct Ex as [-> Et]. auto. }
        rewrite Hf. cbn [Z.eqb bind].
        destruct (IH (pre ++ [(i, s)]) (upd bm (Z.to_nat s) i)) as [bm' Hr].
        * rewrite <- app_assoc. exact E.
        * rewrite upd_length. exact Hl.
        * intros t Ht. rewrite first_app. destruct (Z.eq_dec t s) as [->|Hn].
          -- rewrite Ex. rewrite nth_error_upd_same by (rewrite Hl; lia). unfold first_in. simpl. rewrite Z.eqb_refl. reflexivity.
          -- rewrite nth_error_upd_other by lia. rewrite Hb by auto. f_equal.
             destruct (existsb (fun c : Z * Z => snd c =? t) pre) eqn:Et; auto. unfold first_in at 2. simpl. destruct (Z.eq_dec s t) as [Est|Est]; [exfalso; subst t; first [congruence|rewrite Ex in Et; discriminate]|]. apply Z.eqb_neq in Est; rewrite Est.
             unfold first_in. clear -Et. induction pre as [|c l IHl]; simpl in *; auto.
             apply orb_false_iff in Et. destruct Et as [-> Et]. auto.
        * exists bm'. rewrite <- Hr. f_equal. f_equal. rewrite map_app. f_equal. cbn [map snd]. f_equal.
          rewrite E, first_app, Ex. unfold first_in. simpl. rewrite Z.eqb_refl. reflexivity. }
  apply (H cells [] (repeat 0 (Z.to_nat nBox))); auto.
  - apply repeat_length.
  - intros s Hs. unfold first_in. simpl. apply nth_error_repeat. lia.
Qed.

(** ** One direction *)
Open Scope R_scope.
Lemma fold_rmin l : forall x, let m := fold_left rmin l x in In m (x :: l) /\ forall y, In y (x :: l) -> m <= y.
Proof.
  induction l as [|a l IH]; intros x; cbn [fold_left].
  - split; [left; auto|]. intros y [<-|[]]. lra.
  - destruct (IH (rmin x a)) as [H1 H2]. split.
    + destruct H1 as [H1|H1]; [|right; right; auto]. rewrite <- H1. unfold rmin. destruct (Rle_dec x a); [left|right; left]; auto.
    + intros y Hy. assert (Hr : rmin x a <= x /\ rmin x a <= a) by (unfold rmin; destruct (Rle_dec x a); lra).
      pose proof (H2 (rmin x a) (or_introl eq_refl)). destruct Hy as [<-|[<-|Hy]]; [lra|lra|]. apply H2. right. auto.
Qed.
Lemma fold_rmax l : forall x, let m := fold_left rmax l x in In m (x :: l) /\ forall y, In y (x :: l) -> y <= m.
Proof.
  induction l as [|a l IH]; intros x; cbn [fold_left].
  - split; [left; auto|]. intros y [<-|[]]. lra.
  - destruct (IH (rmax x a)) as [H1 H2]. split.
    + destruct H1 as [H1|H1]; [|right; right; auto]. rewrite <- H1. unfold rmax. destruct (Rle_dec a x); [left|right; left]; auto.
    + intros y Hy. assert (Hr : x <= rmax x a /\ a <= rmax x a) by (unfold rmax; destruct (Rle_dec a x); lra).
      pose proof (H2 (rmax x a) (or_introl eq_refl)). destruct Hy as [<-|[<-|Hy]]; [lra|lra|]. apply H2. right. auto.
Qed.

Lemma fold_plus l : forall a, fold_left Rplus l a = a + fold_right Rplus 0 l.
Proof. induction l as [|x l IH]; intros a; cbn [fold_left fold_right]; [ring|]. rewrite IH. ring. Qed.

Lemma sum_bounds lo hi l : (forall x, In x l -> lo <= x <= hi) ->
  lo * INR (length l) <= fold_right Rplus 0 l <= hi * INR (length l).
Proof.
  induction l as [|x l IH]; intros H.
  - simpl. lra.
  - cbn [length fold_right]. rewrite S_INR. destruct (H x (or_introl eq_refl)).
    destruct IH; [intros; apply H; right; auto|]. split; ring_simplify; lra.
Qed.

Lemma box_coord_ok d lo hi c : (1 <= d)%Z -> lo < hi -> lo <= c <= hi ->
  exists k, box_coord d (lo, hi) c = Ok k /\ in_part lo hi d k c.
Proof.
  intros Hd Hlt Hc. unfold box_coord. destruct (Req_EM_T (hi - lo) 0) as [E|E]; [lra|].
  set (t := (c - lo) / (hi - lo) * IZR d). set (k := Zfloor t).
  assert (Dpos : 0 < IZR d) by (apply IZR_lt; lia).
  assert (Hc' : c = lo + t * ((hi - lo) / IZR d)) by (unfold t; field; lra).
  assert (Hw : 0 < (hi - lo) / IZR d) by (apply Rdiv_lt_0_compat; lra).
  assert (Ht0 : 0 <= t).
  { unfold t. apply Rmult_le_pos; [|lra]. apply Rmult_le_pos; [lra|]. apply Rlt_le, Rinv_0_lt_compat. lra. }
  assert (Ht1 : t <= IZR d).
  { unfold t. rewrite <- (Rmult_1_l (IZR d)) at 2. apply Rmult_le_compat_r; [lra|].
    apply (Rmult_le_reg_r (hi - lo)); [lra|]. unfold Rdiv. rewrite Rmult_assoc, Rinv_l by lra. lra. }
  pose proof (Zfloor_lb t) as Hlb. pose proof (Zfloor_ub t) as Hub. fold k in Hlb, Hub.
  assert (K0 : (0 <= k)%Z) by (unfold k; apply Zfloor_lub; exact Ht0).
  eexists. split; [reflexivity|]. destruct (Z.leb_spec d k) as [Hk|Hk].
  - split; [lia|]. assert (IZR d <= IZR k) by (apply IZR_le; lia). assert (Et : t = IZR d) by lra. split.
    + rewrite Hc', Et. apply Rplus_le_compat_l. apply Rmult_le_compat_r; [lra|]. apply IZR_le. lia.
    + right. split; [reflexivity|lra].
  - split; [lia|]. split.
    + rewrite Hc' at 1. apply Rplus_le_compat_l. apply Rmult_le_compat_r; lra.
    + left. rewrite Hc' at 1. apply Rplus_lt_compat_l. apply Rmult_lt_compat_r; [lra|].
      rewrite plus_IZR. lra.
Qed.

Lemma box_coord_flat d lo c : box_coord d (lo, lo) c = UB.
Proof. unfold box_coord. destruct (Req_EM_T (lo - lo) 0) as [E|E]; auto. exfalso. apply E. ring. Qed.
Close Scope R_scope.

Lemma sub_inj d0 d1 k0 k1 k2 l0 l1 l2 : 0 <= k0 < d0 -> 0 <= k1 < d1 -> 0 <= l0 < d0 -> 0 <= l1 < d1 ->
  k0 + d0 * k1 + d0 * d1 * k2 = l0 + d0 * l1 + d0 * d1 * l2 -> k0 = l0 /\ k1 = l1 /\ k2 = l2.
Proof.
  intros A1 A2 A3 A4 E.
  assert (E1 : k0 + d0 * (k1 + d1 * k2) = l0 + d0 * (l1 + d1 * l2)) by (rewrite !Z.mul_add_distr_l, !Z.mul_assoc, !Z.add_assoc; exact E).
  assert (H0 : k0 = l0).
  { apply (f_equal (fun x => x mod d0)) in E1.
    rewrite (Z.mul_comm d0 (k1 + _)), (Z.mul_comm d0 (l1 + _)), !Z_mod_plus_full, !Z.mod_small in E1 by lia. exact E1. }
  subst l0. assert (E2 : k1 + d1 * k2 = l1 + d1 * l2) by (apply (Z.mul_cancel_l _ _ d0); lia).
  assert (H1 : k1 = l1).
  { apply (f_equal (fun x => x mod d1)) in E2.
    rewrite (Z.mul_comm d1 k2), (Z.mul_comm d1 l2), !Z_mod_plus_full, !Z.mod_small in E2 by lia. exact E2. }
  subst l1. split; auto. split; auto. apply (Z.mul_cancel_l _ _ d1); lia.
Qed.
Lemma sub_range d0 d1 d2 k0 k1 k2 : 0 <= k0 < d0 -> 0 <= k1 < d1 -> 0 <= k2 < d2 ->
  0 <= k0 + d0 * k1 + d0 * d1 * k2 < d0 * d1 * d2.
Proof.
  intros A B C. assert (H1 : 0 <= d0 * k1 <= d0 * (d1 - 1)) by nia. assert (H0 : 0 < d0 * d1) by nia.
  assert (H2 : 0 <= (d0 * d1) * k2 <= (d0 * d1) * (d2 - 1)) by nia.
  rewrite Z.mul_sub_distr_l in H1, H2. lia.
Qed.

(** ** Cells *)
Section Cells.
Variable g : gmesh.
Hypothesis uniq : NoDup (map ve_index (verts (gtopo g))).
Hypothesis sized : length (gcoord g) = length (verts (gtopo g)).
Hypothesis three : forall p, In p (gcoord g) -> length p = 3%nat.

Lemma coordinate_at (j k : nat) v p : nth_error (verts (gtopo g)) k = Some v -> nth_error (gcoord g) k = Some p ->
  coordinate g j (ve_index v) = nth j p 0%R.
Proof.
  intros Hv Hp. unfold coordinate, coord_of. rewrite (find_pos uniq Hv). rewrite (nth_at _ _ Hp). reflexivity.
Qed.

Lemma at_three p (j : nat) : length p = 3%nat -> (j < 3)%nat -> at_ p (Z.of_nat j) = Ok (nth j p 0%R).
Proof. intros Hl Hj. apply nth_at. apply nth_error_nth'. lia. Qed.

Lemma bounds_ok (j : nat) : (j < 3)%nat -> verts (gtopo g) <> [] ->
  exists lo hi, bounds_dir (Z.of_nat j) g = Ok (lo, hi) /\ extent g j lo hi.
Proof.
  intros Hj Hne. unfold bounds_dir.
  rewrite (@omap_list_Ok _ _ _ (fun p => nth j p 0%R)) by (intros p Hp; apply at_three; auto). cbn [bind].
  assert (Hex : forall x, In x (map (fun p => nth j p 0%R) (gcoord g)) <->
    exists v, has_vert (gtopo g) v /\ coordinate g j v = x).
  { intros x. rewrite in_map_iff. split.
    - intros [p [<- Hp]]. apply In_nth_error in Hp. destruct Hp as [k Hk].
      destruct (@nth_ex _ (verts (gtopo g)) k) as [v Hv]; [rewrite <- sized; apply nth_error_Some; congruence|].
      exists (ve_index v). split; [exists v; split; auto; eapply nth_error_In; eauto|]. eapply coordinate_at; eauto.
    - intros [i [[v [Hv <-]] <-]]. apply In_nth_error in Hv. destruct Hv as [k Hk].
      destruct (@nth_ex _ (gcoord g) k) as [p Hp]; [rewrite sized; apply nth_error_Some; congruence|].
      exists p. split; [symmetry; eapply coordinate_at; eauto|eapply nth_error_In; eauto]. }
  destruct (map (fun p => nth j p 0%R) (gcoord g)) as [|x r] eqn:E.
  - exfalso. apply map_eq_nil in E. rewrite E in sized. simpl in sized. destruct (verts (gtopo g)); auto; discriminate.
  - destruct (fold_rmin r x) as [A1 A2]. destruct (fold_rmax r x) as [B1 B2].
    exists (fold_left rmin r x), (fold_left rmax r x). split; [reflexivity|].
    split; [apply Hex; exact A1|]. split; [apply Hex; exact B1|].
    intros v Hv. assert (Hin : In (coordinate g j v) (x :: r)) by (apply Hex; eauto). split; [apply A2|apply B2]; exact Hin.
Qed.

Lemma extent_unique j lo hi lo' hi' : extent g j lo hi -> extent g j lo' hi' -> lo = lo' /\ hi = hi'.
Proof.
  intros [[a [A1 A2]] [[b [B1 B2]] H]] [[c [C1 C2]] [[d [D1 D2]] H']].
  pose proof (H c C1). pose proof (H d D1). pose proof (H' a A1). pose proof (H' b B1). split; apply Rle_antisym; lra.
Qed.

Lemma mean_ok (j : nat) vs : (j < 3)%nat -> (forall v, In v vs -> has_vert (gtopo g) v) -> vs <> [] ->
  exists x, mean_dir (Z.of_nat j) g (tighten (find_list ve_index (verts (gtopo g)) vs)) = Ok x /\
    mean_coordinate g (fun v => In v vs) j x /\
    forall lo hi, extent g j lo hi -> (lo <= x <= hi)%R.
Proof.
  intros Hj Hvs Hne. set (ps := tighten _).
  assert (Hps : forall p, In p ps <-> exists v, In v vs /\ find ve_index (verts (gtopo g)) v = p).
  { intros p. unfold ps. rewrite tighten_In. unfold find_list. rewrite in_map_iff. split; intros [v [H1 H2]]; exists v; auto. }
  set (at_p := fun p : Z => nth (Z.to_nat p) (map ve_index (verts (gtopo g))) 0).
  assert (Hback : forall v, In v vs -> at_p (find ve_index (verts (gtopo g)) v) = v /\
    exists c, at_ (gcoord g) (find ve_index (verts (gtopo g)) v) = Ok c /\ In c (gcoord g) /\ nth j c 0%R = coordinate g j v).
  { intros v Hv. destruct (Hvs v Hv) as [a [Ha <-]]. apply In_nth_error in Ha. destruct Ha as [k Hk].
    rewrite (find_pos uniq Hk). unfold at_p. rewrite Nat2Z.id. split.
    - apply nth_error_nth. rewrite nth_error_map, Hk. reflexivity.
    - destruct (@nth_ex _ (gcoord g) k) as [p Hp]; [rewrite sized; apply nth_error_Some; congruence|].
      exists p. split; [apply nth_at; auto|]. split; [eapply nth_error_In; eauto|]. symmetry. eapply coordinate_at; eauto. }
  unfold mean_dir.
  rewrite (@omap_list_Ok _ _ _ (fun p => coordinate g j (at_p p))).
  2:{ intros p Hp. apply Hps in Hp. destruct Hp as [v [Hv <-]]. destruct (Hback v Hv) as [E [c [Hc [Hin Hn]]]].
      rewrite Hc, E. cbn [bind]. rewrite at_three by auto. rewrite Hn. reflexivity. }
  cbn [bind].
  assert (Hpn : ps <> []).
  { destruct vs as [|v r]; [congruence|]. intros E. assert (H : In (find ve_index (verts (gtopo g)) v) ps) by (apply Hps; exists v; simpl; auto).
    rewrite E in H. destruct H. }
  rewrite <- (map_map at_p (coordinate g j)). set (ws := map at_p ps).
  assert (Hws : forall v, In v ws <-> In v vs).
  { intros v. unfold ws. rewrite in_map_iff. split.
    - intros [p [<- Hp]]. apply Hps in Hp. destruct Hp as [w [Hw <-]]. destruct (Hback w Hw) as [-> _]. exact Hw.
    - intros Hv. exists (find ve_index (verts (gtopo g)) v). split; [apply Hback; auto|]. apply Hps. eauto. }
  assert (Hwn : ws <> []) by (unfold ws; destruct ps; [congruence|discriminate]).
  assert (Hnd : NoDup ws).
  { unfold ws. assert (NP : NoDup ps) by apply strict_NoDup, tighten_strict.
    assert (Hinj : forall p q, In p ps -> In q ps -> at_p p = at_p q -> p = q).
    { intros p q Hp Hq E. apply Hps in Hp. apply Hps in Hq. destruct Hp as [v [Hv <-]]. destruct Hq as [w [Hw <-]].
      destruct (Hback v Hv) as [E1 _]. destruct (Hback w Hw) as [E2 _]. congruence. }
    clear -NP Hinj. induction ps as [|p l IH]; simpl; constructor.
    - inversion NP; subst. intros Hc. apply in_map_iff in Hc. destruct Hc as [q [E Hq]].
      assert (q = p) by (apply Hinj; simpl; auto). congruence.
    - inversion NP; subst. apply IH; auto. intros; apply Hinj; simpl; auto. }
  clearbody ws. clear Hps Hback Hpn.
  assert (Hval : match map (coordinate g j) ws with [] => UB | _ => Ok (fold_left Rplus (map (coordinate g j) ws) 0 *
      (1 / INR (length (map (coordinate g j) ws))))%R end =
      Ok (fold_right Rplus 0 (map (coordinate g j) ws) / INR (length ws))%R).
  { destruct ws as [|w r]; [congruence|]. cbn [map]. f_equal. rewrite fold_plus, Rplus_0_l. cbn [length]. rewrite map_length.
    unfold Rdiv. rewrite Rmult_1_l. reflexivity. }
  rewrite Hval. eexists. split; [reflexivity|].
  split.
  - exists ws. split; [exact Hnd|]. split; [exact Hwn|]. split; [exact Hws|]. reflexivity.
  - intros lo hi [_ [_ Hb]]. destruct (@sum_bounds lo hi (map (coordinate g j) ws)) as [B1 B2].
    { intros x Hx. apply in_map_iff in Hx. destruct Hx as [v [<- Hv]]. apply Hb. apply Hvs. apply Hws. exact Hv. }
    rewrite map_length in B1, B2.
    assert (Hl : (0 < INR (length ws))%R) by (apply lt_0_INR; destruct ws; [congruence|simpl; lia]).
    split; [apply Rmult_le_reg_r with (INR (length ws)); auto|apply Rmult_le_reg_r with (INR (length ws)); auto];
      unfold Rdiv; rewrite Rmult_assoc, Rinv_l by lra; lra.
Qed.

Lemma mean_ext (P Q : Z -> Prop) j x : (forall v, P v <-> Q v) -> mean_coordinate g P j x -> mean_coordinate g Q j x.
Proof.
  intros H [vs [A [B [C D]]]]. exists vs. split; auto. split; auto. split; auto. intros v. rewrite C. apply H.
Qed.

(** A box for the cell whose vertices are [vs]. *)
Lemma box_ok dims b0 b1 b2 vs P : let '(d0, d1, d2) := dims in
  1 <= d0 -> 1 <= d1 -> 1 <= d2 ->
  extent g 0 (fst b0) (snd b0) -> extent g 1 (fst b1) (snd b1) -> extent g 2 (fst b2) (snd b2) ->
  (fst b0 < snd b0)%R -> (fst b1 < snd b1)%R -> (fst b2 < snd b2)%R ->
  (forall v, In v vs -> has_vert (gtopo g) v) -> vs <> [] -> (forall v, In v vs <-> P v) ->
  exists k0 k1 k2, box_of dims (b0, b1, b2) g (tighten (find_list ve_index (verts (gtopo g)) vs)) =
      Ok (k0 + d0 * k1 + d0 * d1 * k2) /\
    0 <= k0 < d0 /\ 0 <= k1 < d1 /\ 0 <= k2 < d2 /\ in_box g P dims (k0, k1, k2).
Proof.
  destruct dims as [[d0 d1] d2]. destruct b0 as [lo0 hi0], b1 as [lo1 hi1], b2 as [lo2 hi2]. cbn [fst snd].
  intros D0 D1 D2 E0 E1 E2 L0 L1 L2 Hv Hn HP.
  destruct (@mean_ok 0 vs) as [c0 [R0 [M0 B0]]]; [lia|exact Hv|exact Hn|]. destruct (@mean_ok 1 vs) as [c1 [R1 [M1 B1]]]; [lia|exact Hv|exact Hn|].
  destruct (@mean_ok 2 vs) as [c2 [R2 [M2 B2]]]; [lia|exact Hv|exact Hn|].
  unfold box_of. change (Z.of_nat 0) with 0 in R0. change (Z.of_nat 1) with 1 in R1. change (Z.of_nat 2) with 2 in R2.
  rewrite R0, R1, R2. cbn [bind].
  destruct (@box_coord_ok d0 lo0 hi0 c0) as [k0 [-> P0]]; auto. destruct (@box_coord_ok d1 lo1 hi1 c1) as [k1 [-> P1]]; auto.
  destruct (@box_coord_ok d2 lo2 hi2 c2) as [k2 [-> P2]]; auto. cbn [bind].
  exists k0, k1, k2. split; [reflexivity|]. split; [apply P0|]. split; [apply P1|]. split; [apply P2|].
  intros j d k [H|[H|H]]; injection H as -> -> ->; [exists lo0, hi0, c0|exists lo1, hi1, c1|exists lo2, hi2, c2];
    (split; [assumption|]); (split; [apply mean_ext with (P := fun v => In v vs); assumption|assumption]).
Qed.

(** The loop over the cells. *)
Lemma map_cells_ok A (idx : A -> Z) (pos : A -> outcome (list Z)) (belongs : Z -> Z -> Prop) d0 d1 d2 b0 b1 b2 (cells : list A) :
  1 <= d0 -> 1 <= d1 -> 1 <= d2 ->
  extent g 0 (fst b0) (snd b0) -> extent g 1 (fst b1) (snd b1) -> extent g 2 (fst b2) (snd b2) ->
  (fst b0 < snd b0)%R -> (fst b1 < snd b1)%R -> (fst b2 < snd b2)%R ->
  NoDup (map idx cells) -> ~ In 0 (map idx cells) ->
  (forall c, In c cells -> exists vs, pos c = Ok (tighten (find_list ve_index (verts (gtopo g)) vs)) /\
     (forall v, In v vs -> has_vert (gtopo g) v) /\ vs <> [] /\ forall v, In v vs <-> belongs (idx c) v) ->
  exists (f : Z -> Z) (box : Z -> Z * Z * Z),
    map_cells idx pos (d0, d1, d2) (b0, b1, b2) g cells = Ok (map f (map idx cells)) /\
    grouping (fun c => In c (map idx cells)) f /\
    (forall c, In c (map idx cells) -> in_box g (belongs c) (d0, d1, d2) (box c)) /\
    (forall c c', In c (map idx cells) -> In c' (map idx cells) -> (f c = f c' <-> box c = box c')).
Proof.
  intros D0 D1 D2 E0 E1 E2 L0 L1 L2 Hnd H0 Hcells.
  assert (Hsub : forall l, (forall c, In c l -> In c cells) -> exists bs : list (Z * Z * Z),
     Forall2 (fun c b => let '(k0, k1, k2) := b in
       (do ps <- pos c; box_of (d0, d1, d2) (b0, b1, b2) g ps) = Ok (k0 + d0 * k1 + d0 * d1 * k2) /\
       (0 <= k0 < d0 /\ 0 <= k1 < d1 /\ 0 <= k2 < d2) /\ in_box g (belongs (idx c)) (d0, d1, d2) b) l bs).
  { induction l as [|c l IH]; intros Hin; [exists []; constructor|].
    destruct IH as [bs Hbs]; [intros; apply Hin; right; auto|].
    destruct (Hcells c (Hin c (or_introl eq_refl))) as [vs [Hp [Hv [Hn Hb]]]].
    destruct (@box_ok (d0, d1, d2) b0 b1 b2 vs (belongs (idx c)) D0 D1 D2 E0 E1 E2 L0 L1 L2 Hv Hn Hb) as [k0 [k1 [k2 [R [K0 [K1 [K2 K]]]]]]].
    exists ((k0, k1, k2) :: bs). constructor; auto. rewrite Hp. cbn [bind]. auto. }
  destruct (Hsub cells (fun c H => H)) as [bs Hbs]. clear Hsub.
  set (num := fun b : Z * Z * Z => let '(k0, k1, k2) := b in k0 + d0 * k1 + d0 * d1 * k2).
  set (pairs := map (fun cb => (idx (fst cb), num (snd cb))) (combine cells bs)).
  assert (Hlen : length bs = length cells) by (clear -Hbs; induction Hbs; simpl; auto).
  assert (Hfst : map fst pairs = map idx cells).
  { unfold pairs. rewrite map_map. cbn [fst]. clear -Hlen. revert bs Hlen. induction cells as [|c l IH]; intros [|b bs] H; simpl in *; try discriminate; auto.
    f_equal. apply IH. lia. }
  assert (Hpr : forall i s, In (i, s) pairs -> exists c b, In (c, b) (combine cells bs) /\ idx c = i /\ num b = s).
  { intros i s H. unfold pairs in H. apply in_map_iff in H. destruct H as [[c b] [E H]]. injection E as E E'. eauto. }
  assert (Hcb : forall c b, In (c, b) (combine cells bs) -> let '(k0, k1, k2) := b in
       (do ps <- pos c; box_of (d0, d1, d2) (b0, b1, b2) g ps) = Ok (num b) /\
       (0 <= k0 < d0 /\ 0 <= k1 < d1 /\ 0 <= k2 < d2) /\ in_box g (belongs (idx c)) (d0, d1, d2) b).
  { clear -Hbs. induction Hbs as [|c b l l' H HF IH]; simpl; [intros ? ? []|]. intros c' b' [E|H']; [|apply IH; exact H'].
    injection E as <- <-. destruct b as [[k0 k1] k2]. exact H. }
  destruct (@boxes_loop (d0 * d1 * d2) pairs) as [bm Hloop].
  { intros i s H. apply Hpr in H. destruct H as [c [b [H [<- <-]]]]. pose proof (Hcb _ _ H) as HK. destruct b as [[k0 k1] k2].
    destruct HK as [_ [[K0 [K1 K2]] _]]. split.
    - intros E. apply H0. rewrite <- E. apply in_map. eapply in_combine_l; eauto.
    - apply sub_range; auto. }
  set (boxf := fun x => match List.find (fun cb => idx (fst cb) =? x) (combine cells bs) with Some cb => snd cb | None => (0, 0, 0) end).
  set (f := fun x => if mem_z x (map idx cells) then first_in pairs (num (boxf x)) else x).
  assert (Hbox : forall c b, In (c, b) (combine cells bs) -> boxf (idx c) = b).
  { intros c b H. unfold boxf.
    assert (NC : NoDup (map (fun cb : A * (Z * Z * Z) => idx (fst cb)) (combine cells bs))).
    { replace (map (fun cb : A * (Z * Z * Z) => idx (fst cb)) (combine cells bs)) with (map fst pairs); [rewrite Hfst; auto|].
      unfold pairs. rewrite map_map. reflexivity. }
    clear -NC H. induction (combine cells bs) as [|[c' b'] l IH]; simpl in *; [destruct H|].
    inversion NC as [|? ? N1 N2]; subst. destruct H as [H|H].
    - injection H as -> ->. rewrite Z.eqb_refl. reflexivity.
    - destruct (Z.eqb_spec (idx c') (idx c)) as [E|E]; [|auto]. exfalso. apply N1. rewrite E.
      apply in_map_iff. exists (c, b). auto. }
  assert (Hin_cb : forall c, In c cells -> exists b, In (c, b) (combine cells bs)).
  { clear -Hlen. intros c Hc. revert bs Hlen Hc. induction cells as [|c' l IH]; intros [|b bs] Hl Hc; simpl in *; try discriminate; [destruct Hc|].
    destruct Hc as [->|Hc]; [eauto|]. destruct (IH bs) as [b' Hb']; [lia|auto|]. eauto. }
  assert (Hf : forall c b, In (c, b) (combine cells bs) -> f (idx c) = first_in pairs (num b)).
  { intros c b H. unfold f. assert (Hm : mem_z (idx c) (map idx cells) = true) by (apply mem_z_In, in_map; eapply in_combine_l; eauto).
    rewrite Hm, (Hbox c b H). reflexivity. }
  assert (Hfirst : forall c b, In (c, b) (combine cells bs) -> exists c' b', In (c', b') (combine cells bs) /\
     first_in pairs (num b) = idx c' /\ num b' = num b).
  { intros c b H. assert (Hi : In (first_in pairs (num b), num b) pairs).
    { apply first_In. apply existsb_exists. exists (idx c, num b). split; [|cbn [snd]; apply Z.eqb_refl].
      unfold pairs. apply in_map_iff. exists (c, b). auto. }
    apply Hpr in Hi. destruct Hi as [c' [b' [H1 [H2 H3]]]]. eauto. }
  assert (Hnum : forall c b c' b', In (c, b) (combine cells bs) -> In (c', b') (combine cells bs) -> num b = num b' -> b = b').
  { intros c b c' b' H H' E. apply Hcb in H. apply Hcb in H'. destruct b as [[k0 k1] k2], b' as [[l0 l1] l2].
    destruct H as [_ [[K0 [K1 _]] _]]. destruct H' as [_ [[L0' [L1' _]] _]]. cbn [num] in E.
    destruct (@sub_inj d0 d1 k0 k1 k2 l0 l1 l2 K0 K1 L0' L1' E) as [-> [-> ->]]. reflexivity. }
  exists f, boxf. split; [|split; [|split]].
  - unfold map_cells.
    assert (Hrun : forall l l' st, Forall2 (fun c b => let '(k0, k1, k2) := b in
       (do ps <- pos c; box_of (d0, d1, d2) (b0, b1, b2) g ps) = Ok (k0 + d0 * k1 + d0 * d1 * k2) /\
       (0 <= k0 < d0 /\ 0 <= k1 < d1 /\ 0 <= k2 < d2) /\ in_box g (belongs (idx c)) (d0, d1, d2) b) l l' ->
      for_each l (fun c st => do ps <- pos c; do sub <- box_of (d0, d1, d2) (b0, b1, b2) g ps; enter_box (d0 * d1 * d2) (idx c) sub st) st =
      for_each (map (fun cb => (idx (fst cb), num (snd cb))) (combine l l')) (fun c st => enter_box (d0 * d1 * d2) (fst c) (snd c) st) st).
    { intros l l' st HF. revert st. induction HF as [|c [[k0 k1] k2] l l' H HF IH]; intros st; [reflexivity|].
      cbn [combine map for_each fst snd]. destruct H as [H _].
      replace (do ps <- pos c; do sub <- box_of (d0, d1, d2) (b0, b1, b2) g ps; enter_box (d0 * d1 * d2) (idx c) sub st)
        with (do sub <- (do ps <- pos c; box_of (d0, d1, d2) (b0, b1, b2) g ps); enter_box (d0 * d1 * d2) (idx c) sub st).
      2:{ destruct (pos c); reflexivity. }
      rewrite H. cbn [bind num]. destruct (enter_box _ _ _ st); cbn [bind]; auto. }
    rewrite (Hrun cells bs _ Hbs). fold pairs. rewrite Hloop. cbn [bind snd]. f_equal.
    unfold pairs at 2. rewrite <- Hfst. unfold pairs at 2. rewrite !map_map. apply map_ext_in. intros [c b] H. cbn [fst snd].
    symmetry. apply Hf. exact H.
  - split.
    + unfold f. destruct (mem_z 0 (map idx cells)) eqn:Em; auto. apply mem_z_In in Em. contradiction.
    + intros i Hi. apply in_map_iff in Hi. destruct Hi as [c [<- Hc]]. destruct (Hin_cb c Hc) as [b Hb].
      rewrite (Hf c b Hb). destruct (Hfirst c b Hb) as [c' [b' [H1 [H2 H3]]]]. rewrite H2. split.
      * apply in_map. eapply in_combine_l; eauto.
      * rewrite (Hf c' b' H1), H3. exact H2.
  - intros i Hi. apply in_map_iff in Hi. destruct Hi as [c [<- Hc]]. destruct (Hin_cb c Hc) as [b Hb].
    rewrite (Hbox c b Hb). apply Hcb in Hb. destruct b as [[k0 k1] k2]. apply Hb.
  - intros i i' Hi Hi'. apply in_map_iff in Hi. destruct Hi as [c [<- Hc]]. destruct (Hin_cb c Hc) as [b Hb].
    apply in_map_iff in Hi'. destruct Hi' as [c' [<- Hc']]. destruct (Hin_cb c' Hc') as [b' Hb'].
    rewrite (Hbox c b Hb), (Hbox c' b' Hb'), (Hf c b Hb), (Hf c' b' Hb'). split; [|intros ->; reflexivity].
    intros E. destruct (Hfirst c b Hb) as [x [bx [X1 [X2 X3]]]]. destruct (Hfirst c' b' Hb') as [y [by_ [Y1 [Y2 Y3]]]].
    assert (Exy : idx x = idx y) by congruence.
    assert (bx = by_) by (rewrite <- (Hbox x bx X1), <- (Hbox y by_ Y1), Exy; reflexivity).
    apply (Hnum c b c' b' Hb Hb'). congruence.
Qed.
End Cells.

(** ** The whole mapping *)
Lemma wc_EV m e v : well_connected m -> EV m e v -> has_vert m v.
Proof.
  intros [_ [[_ [H _]] X]] HE. destruct (Z.eq_dec v 0) as [->|Hn].
  - exfalso. destruct X as [_ [X _]]. eapply X; eauto.
  - destruct (H v e HE Hn) as [a [Ha [Hi _]]]. exists a. auto.
Qed.
Lemma wc_SE m s e : well_connected m -> SE m s e -> has_edge m e.
Proof.
  intros [_ [[_ [_ [_ [H _]]]] X]] HE. destruct (Z.eq_dec e 0) as [->|Hn].
  - exfalso. destruct X as [_ [_ [X _]]]. eapply X; eauto.
  - destruct (H e s HE Hn) as [a [Ha [Hi _]]]. exists a. auto.
Qed.
Lemma wc_VS m v s : well_connected m -> VS m v s -> has_surf m s.
Proof.
  intros [_ [[_ [_ [_ [_ [_ H]]]]] X]] HE. destruct (Z.eq_dec s 0) as [->|Hn].
  - exfalso. destruct X as [_ [_ [_ [X _]]]]. eapply X; eauto.
  - destruct (H s v HE Hn) as [a [Ha [Hi _]]]. exists a. auto.
Qed.

Lemma lists_own A (idx : A -> Z) get l a x : NoDup (map idx l) -> In a l -> (In x (get a) <-> lists idx get l (idx a) x).
Proof.
  intros Hnd Ha. split.
  - intros Hx. exists a. auto.
  - intros [b [Hb [E Hx]]]. assert (b = a) by (eapply NoDup_idx_inj; eauto). subst. exact Hx.
Qed.

Section Whole.
Variable g : gmesh.
Let m := gtopo g.
Hypothesis WC : well_connected m.
Hypothesis sized : length (gcoord g) = length (verts m).
Hypothesis three : forall p, In p (gcoord g) -> length p = 3%nat.

Lemma surf_pos_ok s : In s (surfs m) -> (exists v, surf_has m (su_index s) v) ->
  exists vs, surf_vert_pos m s = Ok (tighten (find_list ve_index (verts m) vs)) /\
    (forall v, In v vs -> has_vert m v) /\ vs <> [] /\ forall v, In v vs <-> surf_has m (su_index s) v.
Proof.
  intros Hs [w Hw]. pose proof WC as [[U1 [U2 [U3 [U4 _]]]] _]. unfold surf_vert_pos.
  assert (Hown : forall e, In e (su_edgeind s) <-> SE m (su_index s) e) by (intros; apply lists_own; auto).
  destruct (@gather_ok _ ed_index ed_vertind (edges m) (su_edgeind s) U3) as [vs [-> Hvs]].
  { intros k Hk. apply Hown in Hk. apply (wc_SE WC Hk). }
  cbn [bind]. exists vs.
  assert (H : forall v, In v vs <-> surf_has m (su_index s) v).
  { intros v. rewrite Hvs. unfold surf_has. split; intros [e [H1 H2]]; exists e; (split; [apply Hown; exact H1|exact H2]). }
  split; [reflexivity|]. split; [|split].
  - intros v Hv. apply H in Hv. destruct Hv as [e [_ He]]. apply (wc_EV WC He).
  - intros E. apply H in Hw. rewrite E in Hw. destruct Hw.
  - exact H.
Qed.

Lemma volu_pos_ok c : In c (volus m) -> (exists v, volu_has m (vo_index c) v) ->
  exists vs, volu_vert_pos m c = Ok (tighten (find_list ve_index (verts m) vs)) /\
    (forall v, In v vs -> has_vert m v) /\ vs <> [] /\ forall v, In v vs <-> volu_has m (vo_index c) v.
Proof.
  intros Hs [w Hw]. pose proof WC as [[U1 [U2 [U3 [U4 _]]]] _]. unfold volu_vert_pos.
  assert (Hown : forall e, In e (vo_surfind c) <-> VS m (vo_index c) e) by (intros; apply lists_own; auto).
  destruct (@gather_ok _ su_index su_edgeind (surfs m) (vo_surfind c) U2) as [es [-> Hes]].
  { intros k Hk. apply Hown in Hk. apply (wc_VS WC Hk). }
  cbn [bind].
  destruct (@gather_ok _ ed_index ed_vertind (edges m) es U3) as [vs [-> Hvs]].
  { intros k Hk. apply Hes in Hk. destruct Hk as [s [_ Hk]]. apply (wc_SE WC Hk). }
  cbn [bind]. exists vs.
  assert (H : forall v, In v vs <-> volu_has m (vo_index c) v).
  { intros v. rewrite Hvs. unfold volu_has, surf_has. split.
    - intros [e [H1 H2]]. apply Hes in H1. destruct H1 as [s [H0 H1]]. exists s. split; [apply Hown; exact H0|]. exists e. auto.
    - intros [s [H0 [e [H1 H2]]]]. exists e. split; [|exact H2]. apply Hes. exists s. split; [apply Hown; exact H0|exact H1]. }
  split; [reflexivity|]. split; [|split].
  - intros v Hv. apply H in Hv. destruct Hv as [s [_ [e [_ He]]]]. apply (wc_EV WC He).
  - intros E. apply H in Hw. rewrite E in Hw. destruct Hw.
  - exact H.
Qed.

Lemma mapping_spec A (idx : A -> Z) pos (belongs : Z -> Z -> Prop) (cells : list A) (cell : Z -> Prop) d0 d1 d2 :
  verts m <> [] ->
  (forall j lo hi, (j < 3)%nat -> extent g j lo hi -> (lo < hi)%R) ->
  NoDup (map idx cells) -> (forall i, cell i <-> In i (map idx cells)) -> ~ cell 0 ->
  (forall c, In c cells -> exists vs, pos c = Ok (tighten (find_list ve_index (verts m) vs)) /\
     (forall v, In v vs -> has_vert m v) /\ vs <> [] /\ forall v, In v vs <-> belongs (idx c) v) ->
  let dims := (Z.max 1 d0, Z.max 1 d1, Z.max 1 d2) in
  exists (f : Z -> Z) (box : Z -> Z * Z * Z),
    (do b0 <- bounds_dir 0 g; do b1 <- bounds_dir 1 g; do b2 <- bounds_dir 2 g;
     map_cells idx pos dims (b0, b1, b2) g cells) = Ok (map f (map idx cells)) /\
    grouping cell f /\
    (forall c, cell c -> in_box g (belongs c) dims (box c)) /\
    (forall c c', cell c -> cell c' -> (f c = f c' <-> box c = box c')).
Proof.
  intros Hne Hext Hnd Hcell H0 Hpos dims. pose proof WC as [[U1 [U2 [U3 [U4 _]]]] _].
  destruct (@bounds_ok g U4 sized three 0) as [lo0 [hi0 [B0 E0]]]; [lia|exact Hne|].
  destruct (@bounds_ok g U4 sized three 1) as [lo1 [hi1 [B1 E1]]]; [lia|exact Hne|].
  destruct (@bounds_ok g U4 sized three 2) as [lo2 [hi2 [B2 E2]]]; [lia|exact Hne|].
  change (Z.of_nat 0) with 0 in B0. change (Z.of_nat 1) with 1 in B1. change (Z.of_nat 2) with 2 in B2.
  rewrite B0, B1, B2. cbn [bind].
  assert (L0 := Hext 0%nat lo0 hi0 ltac:(lia) E0). assert (L1 := Hext 1%nat lo1 hi1 ltac:(lia) E1).
  assert (L2 := Hext 2%nat lo2 hi2 ltac:(lia) E2).
  destruct (@map_cells_ok g U4 sized three _ idx pos belongs (Z.max 1 d0) (Z.max 1 d1) (Z.max 1 d2) (lo0, hi0) (lo1, hi1) (lo2, hi2) cells)
    as [f [box [R1 [R2 [R3 R4]]]]]; cbn [fst snd]; auto; try lia; [rewrite <- Hcell; exact H0|].
  exists f, box. split; [exact R1|]. split.
  - destruct R2 as [F0 F]. split; [exact F0|]. intros c Hc. apply Hcell in Hc. destruct (F c Hc) as [F1 F2]. split; [apply Hcell; exact F1|exact F2].
  - split.
    + intros c Hc. apply R3, Hcell, Hc.
    + intros c c' Hc Hc'. apply R4; apply Hcell; assumption.
Qed.

(** A direction in which the mesh has no extent. *)
Lemma flat_extent (j : nat) lo hi : (j < 3)%nat -> bounds_dir (Z.of_nat j) g = Ok (lo, hi) ->
  (forall v w, has_vert m v -> has_vert m w -> coordinate g j v = coordinate g j w) -> lo = hi.
Proof.
  intros Hj Hb Hflat. pose proof WC as [[U1 [U2 [U3 [U4 _]]]] _].
  assert (Hne : verts m <> []).
  { intros E. unfold m in *. rewrite E in sized. apply length_zero_iff_nil in sized. unfold bounds_dir in Hb. rewrite sized in Hb. discriminate. }
  destruct (@bounds_ok g U4 sized three j Hj Hne) as [lo' [hi' [B E]]]. rewrite Hb in B. injection B as <- <-.
  destruct E as [[v [V1 V2]] [[w [W1 W2]] _]]. rewrite <- V2, <- W2. apply Hflat; assumption.
Qed.

Lemma box_coord_either d b x : (exists k, box_coord d b x = Ok k) \/ box_coord d b x = UB.
Proof. unfold box_coord. destruct b as [lo hi]. destruct (Req_EM_T (hi - lo) 0); eauto. Qed.

Lemma flat_cells A (idx : A -> Z) pos c cells dims vs (j : nat) :
  pos c = Ok (tighten (find_list ve_index (verts m) vs)) -> (forall v, In v vs -> has_vert m v) -> vs <> [] ->
  (j < 3)%nat -> (forall v w, has_vert m v -> has_vert m w -> coordinate g j v = coordinate g j w) ->
  (do b0 <- bounds_dir 0 g; do b1 <- bounds_dir 1 g; do b2 <- bounds_dir 2 g;
     map_cells idx pos dims (b0, b1, b2) g (c :: cells)) = UB.
Proof.
  intros Hp Hv Hn Hj Hflat. destruct dims as [[d0 d1] d2]. pose proof WC as [[U1 [U2 [U3 [U4 _]]]] _].
  assert (Hne : verts m <> []).
  { destruct vs as [|v r]; [congruence|]. destruct (Hv v (or_introl eq_refl)) as [a [Ha _]]. intros E. rewrite E in Ha. destruct Ha. }
  destruct (@bounds_ok g U4 sized three 0) as [lo0 [hi0 [B0 _]]]; [lia|exact Hne|].
  destruct (@bounds_ok g U4 sized three 1) as [lo1 [hi1 [B1 _]]]; [lia|exact Hne|].
  destruct (@bounds_ok g U4 sized three 2) as [lo2 [hi2 [B2 _]]]; [lia|exact Hne|].
  assert (Hz : (j = 0%nat /\ lo0 = hi0) \/ (j = 1%nat /\ lo1 = hi1) \/ (j = 2%nat /\ lo2 = hi2)).
  { assert (Hjj : j = 0%nat \/ j = 1%nat \/ j = 2%nat) by lia.
    destruct Hjj as [ -> | [ -> | -> ]]; [left|right; left|right; right]; (split; [reflexivity|]);
      eapply flat_extent; eauto. }
  change (Z.of_nat 0) with 0 in B0. change (Z.of_nat 1) with 1 in B1. change (Z.of_nat 2) with 2 in B2.
  rewrite B0, B1, B2. cbn [bind]. unfold map_cells. cbn [for_each]. rewrite Hp. cbn [bind]. unfold box_of.
  destruct (@mean_ok g U4 sized three 0 vs) as [c0 [M0 _]]; [lia|exact Hv|exact Hn|]. change (Z.of_nat 0) with 0 in M0. fold m in M0. rewrite M0.
  destruct (@mean_ok g U4 sized three 1 vs) as [c1 [M1 _]]; [lia|exact Hv|exact Hn|]. change (Z.of_nat 1) with 1 in M1. fold m in M1. rewrite M1.
  destruct (@mean_ok g U4 sized three 2 vs) as [c2 [M2 _]]; [lia|exact Hv|exact Hn|]. change (Z.of_nat 2) with 2 in M2. fold m in M2. rewrite M2.
  cbn [bind].
  destruct (box_coord_either d0 (lo0, hi0) c0) as [[k0 K0]|K0]; rewrite K0; cbn [bind]; [|reflexivity].
  destruct (box_coord_either d1 (lo1, hi1) c1) as [[k1 K1]|K1]; rewrite K1; cbn [bind]; [|reflexivity].
  destruct (box_coord_either d2 (lo2, hi2) c2) as [[k2 K2]|K2]; rewrite K2; cbn [bind]; [|reflexivity].
  exfalso. destruct Hz as [[_ E]|[[_ E]|[_ E]]]; subst;
    [rewrite box_coord_flat in K0|rewrite box_coord_flat in K1|rewrite box_coord_flat in K2]; discriminate.
Qed.
End Whole.
