(** Properties C34 to C43, C59 and C60: motion of a snake. *)
From Coq Require Import Floats.SpecFloat.
From Verif Require Import Base Containers Mesh SpecMesh Flood Num Snake SpecSnake MeshProofs
  PropsMesh SnakeProofs SnakeTimeProofs SnakeOrderProofs SnakeBlockProofs.
Set Implicit Arguments.
Open Scope Q_scope.

Lemma rng_of_legal N (l : list (snax N)) : legal_rng l (rng_of l).
Proof.
  intros e. unfold rng_of. split.
  - assert (H : forall k, NoDup (map snd (combine l (upto (length l) k))) /\
                forall p, In p (map snd (combine l (upto (length l) k))) -> (k <= p)%Z).
    { induction l as [|s r IH]; intros k; simpl; [split; [constructor|intros ? []]|].
      destruct (IH (k + 1)%Z) as [H1 H2]. split.
      - constructor; auto. intros K. apply H2 in K. lia.
      - intros p [<-|Hp]; [lia|]. apply H2 in Hp. lia. }
    destruct (H 0%Z) as [H1 _]. revert H1. generalize (combine l (upto (length l) 0)) as c. clear.
    induction c as [|[s p] c IH]; simpl; intros H; [constructor|]. inversion H as [|? ? H1 H2]; subst.
    destruct (sx_edge s =? e)%Z; simpl; auto. constructor; auto.
    intros K. apply H1. apply in_map_iff in K. destruct K as [[t q] [<- K]]. apply filter_In in K. apply in_map_iff. exists (t, q). tauto.
  - intros p. rewrite in_map_iff. split.
    + intros [[s q] [<- K]]. apply filter_In in K. destruct K as [K E]. apply combine_upto_nth in K. destruct K as [i [Hi ->]].
      cbn [fst snd] in *. apply Z.eqb_eq in E. split; [lia|]. exists s. rewrite Z.add_0_l, Nat2Z.id. auto.
    + intros [H0 [s [Hs He]]]. exists (s, p). split; auto. apply filter_In. split; [|apply Z.eqb_eq; auto].
      apply combine_upto_nth. exists (Z.to_nat p). split; auto. lia.
Qed.

(** ** C34 *)
Theorem C34_on_edge : forall es limits scaled maxD dt (l l' : list qsnax),
  @update_distance Qn es limits scaled maxD dt l = Ok l' ->
  length l' = length l /\
  forall k s s' t, nth_error l k = Some s -> nth_error l' k = Some s' -> nth_error dt k = Some t ->
    in01 (sx_d s') /\ same_but_d s s' /\
    exists lim, (if scaled : bool then exists p x, nth_error es p = Some (sx_edge s) /\ nth_error limits p = Some x /\ lim == x * maxD
                 else lim == maxD) /\
      (0 <= lim -> in01 (sx_d s) -> Qabs (sx_d s' - sx_d s) <= lim) /\
      (* a move that needs no limiting is exact *)
      (Qabs (sx_v s * t) <= lim -> in01 (sx_d s + sx_v s * t) -> sx_d s' == sx_d s + sx_v s * t).
Proof.
  intros es limits scaled maxD dt l l' H. apply update_distance_each in H. destruct H as [Hlen HF].
  split.
  - rewrite <- (Forall2_len HF), combine_length. lia.
  - intros k s s' t Hs Hs' Ht.
    assert (Hc : nth_error (combine dt l) k = Some (t, s)) by (apply combine_nth_error; auto).
    destruct (Forall2_nth HF _ Hc Hs') as [lim [Hl ->]]. cbn [fst snd] in *.
    destruct (move_exact t lim s) as [M1 [M2 M3]]. split; auto. split; [apply move_same|].
    exists lim. split; [|split; auto].
    + unfold own_limit in Hl. destruct scaled.
      * unfold step_limit in Hl. destruct (at_ limits (find (fun e => e) es (sx_edge s))) as [x| | |] eqn:Ex; try discriminate.
        cbn [bind] in Hl. injection Hl as <-. apply at_Ok in Ex. destruct Ex as [H0 Ex].
        destruct (find_spec (fun e : Z => e) es (sx_edge s)) as [[K _]|[p [a [H1 [H2 H3]]]]]; [lia|].
        exists p, x. rewrite H1, Nat2Z.id in Ex. qn. repeat split; auto; [congruence|ring].
      * injection Hl as <-. qn. ring.
    + intros A B. rewrite (M3 A B). reflexivity.
Qed.
Print Assumptions C34_on_edge.

Theorem C34_history : forall l l', evolves l l' -> (forall s, In s l -> in01 (sx_d s)) ->
  length l' = length l /\ forall s, In s l' -> in01 (sx_d s).
Proof.
  intros l l' H H0. induction H as [l|l l1 l2 H IH HF|l l1 l2 es limits scaled maxD dt H IH HM|l l1 l2 es limits scaled maxD dt H IH HM|l l1 b H IH].
  - auto.
  - destruct (IH H0) as [IH1 IH2]. split; [rewrite <- (Forall2_len HF); auto|].
    intros s Hs. apply In_nth_error in Hs. destruct Hs as [k Hk]. destruct (Forall2_ex_r HF _ Hk) as [t [Ht [_ [E _]]]].
    rewrite E. apply IH2. eapply nth_error_In; eauto.
  - destruct (IH H0) as [IH1 IH2]. apply update_distance_each in HM. destruct HM as [Hlen HF]. split.
    + rewrite <- (Forall2_len HF), combine_length. lia.
    + intros s Hs. apply In_nth_error in Hs. destruct Hs as [k Hk]. destruct (Forall2_ex_r HF _ Hk) as [[t u] [_ [lim [_ ->]]]].
      apply (move_exact t lim u).
  - destruct (IH H0) as [IH1 IH2]. apply update_distance1_each in HM. split; [rewrite <- (Forall2_len HM); auto|].
    intros s Hs. apply In_nth_error in Hs. destruct Hs as [k Hk]. destruct (Forall2_ex_r HM _ Hk) as [u [_ [lim [_ ->]]]].
    apply (move_exact dt lim u).
  - destruct (IH H0) as [IH1 IH2]. cbn [flip fst]. split; [rewrite map_length; auto|].
    intros s Hs. apply in_map_iff in Hs. destruct Hs as [t [<- Ht]]. specialize (IH2 t Ht). unfold in01 in *. cbn [flip_snax sx_d]. qn. lra.
Qed.
Print Assumptions C34_history.

(** The doubles of the program: the result is not a number or in [0,1] ... *)
Theorem C34_float : forall es limits scaled maxD dt (l l' : list (snax Fn)),
  @update_distance Fn es limits scaled maxD dt l = Ok l' ->
  forall s, In s l' -> sx_d s = S754_nan \/ (SFleb (S754_zero false) (sx_d s) = true /\ SFleb (sx_d s) f_one = true).
Proof.
  intros es limits scaled maxD dt l l' H s Hs. apply update_distance_each in H. destruct H as [_ HF].
  apply In_nth_error in Hs. destruct Hs as [k Hk]. destruct (Forall2_ex_r HF _ Hk) as [[t u] [_ [lim [_ ->]]]].
  cbn [move sx_set_d sx_d fst snd]. apply clamp_float.
Qed.
Print Assumptions C34_float.
(** ... and not a number is reached from finite limits and steps: an infinite
    velocity with a zero time step. *)
Theorem C34_nan_refuted : exists (s : snax Fn) (s' : snax Fn),
  sx_d s = f_half /\ @update_distance1 Fn [1%Z] [f_one] true f_one (S754_zero false) [s] = Ok [s'] /\ sx_d s' = S754_nan.
Proof.
  set (s := mkSnax 1 (f_half : Fn) (S754_infinity false : Fn) 1 2 1 0 1).
  exists s, (@move Fn (S754_zero false) (f_one : Fn) s). split; [reflexivity|].
  assert (H : own_limit (N := Fn) [1%Z] [f_one] true f_one s = Ok f_one) by (vm_compute; reflexivity).
  split; [|vm_compute; reflexivity]. unfold update_distance1. cbn [omap_list]. rewrite H. reflexivity.
Qed.
Print Assumptions C34_nan_refuted.

Definition q_snax i (d v : Q) f t e o : qsnax := mkSnax (N := Qn) i d v f t e 0 o.
Example C34_used :
  @update_distance Qn [7%Z; 9%Z] [1 # 4; 1 # 2] true 1 [1; 1; 1]
     [q_snax 1 (1 # 2) 5 1 2 7 1; q_snax 2 (1 # 8) (-5) 1 3 9 1; q_snax 3 (1 # 2) (1 # 8) 3 1 9 2]
  = Ok [q_snax 1 (6 # 8) 5 1 2 7 1; q_snax 2 0 (-5) 1 3 9 1; q_snax 3 (10 # 16) (1 # 8) 3 1 9 2].
Proof. vm_compute. reflexivity. Qed.
Example C34_history_used : exists l', evolves [q_snax 1 (1 # 2) 5 1 2 7 1] l' /\ l' = [q_snax 1 (2 # 8) (-5) 2 1 7 1].
Proof.
  eexists. split.
  - eapply (@ev_flip _ _ true). eapply (@ev_move1 _ _ _ [7%Z] [1 # 4] true 1 1); [apply ev_refl|]. vm_compute. reflexivity.
  - vm_compute. reflexivity.
Qed.

(** ** C35 *)
Theorem C35_on_edge : forall (mverts sverts r : list (Z * point Qn)) (l : list qsnax),
  @update_coord Qn mverts l sverts = Ok r ->
  map fst r = map fst sverts /\
  (forall i, (length l <= i)%nat -> nth_error r i = nth_error sverts i) /\
  forall i s, nth_error l i = Some s ->
    exists v f t x y z, nth_error sverts i = Some v /\ In (sx_from s, f) mverts /\ In (sx_to s, t) mverts /\
      nth_error r i = Some (fst v, (x, y, z)) /\
      let '(fx, fy, fz) := f in let '(tx, ty, tz) := t in
      (x == fx + sx_d s * (tx - fx) /\ y == fy + sx_d s * (ty - fy) /\ z == fz + sx_d s * (tz - fz)) /\
      (sx_d s == 0 -> x == fx /\ y == fy /\ z == fz) /\ (sx_d s == 1 -> x == tx /\ y == ty /\ z == tz) /\
      (in01 (sx_d s) -> (Qmin fx tx <= x <= Qmax fx tx) /\ (Qmin fy ty <= y <= Qmax fy ty) /\ (Qmin fz tz <= z <= Qmax fz tz)).
Proof.
  intros mverts sverts r l H. apply update_coord_each in H. destruct H as [_ [H1 [H2 H3]]]. split; auto. split; auto.
  intros i s Hs. destruct (H2 i s Hs) as [v [p [Hv [Hp Hr]]]]. unfold snax_coord in Hp.
  destruct (at_ mverts (find fst mverts (sx_from s))) as [f| | |] eqn:Ef; try discriminate. cbn [bind] in Hp.
  destruct (at_ mverts (find fst mverts (sx_to s))) as [t| | |] eqn:Et; try discriminate. cbn [bind] in Hp. injection Hp as <-.
  assert (HI : forall k (a : Z * point Qn), at_ mverts (find fst mverts k) = Ok a -> In (k, snd a) mverts).
  { intros k a Ha. apply at_Ok in Ha. destruct Ha as [A0 Ha].
    destruct (find_spec (fst : Z * point Qn -> Z) mverts k) as [[K _]|[q [b [B1 [B2 B3]]]]]; [lia|].
    rewrite B1, Nat2Z.id in Ha. assert (a = b) by congruence. subst b. apply nth_error_In in Ha. destruct a; simpl in *. subst; auto. }
  apply HI in Ef, Et. destruct f as [fi [[fx fy] fz]], t as [ti [[tx ty] tz]]. cbn [snd] in *.
  exists v, (fx, fy, fz), (tx, ty, tz), (@lerp Qn fx tx (sx_d s)), (@lerp Qn fy ty (sx_d s)), (@lerp Qn fz tz (sx_d s)).
  repeat (split; [auto; fail|]). split; [|split; [|split]].
  - rewrite !lerp_exact. repeat split; reflexivity.
  - intros E. rewrite !lerp_exact, E. repeat split; ring.
  - intros E. rewrite !lerp_exact, E. repeat split; ring.
  - intros E. repeat split; apply lerp_between; auto.
Qed.
Print Assumptions C35_on_edge.
Definition f_big : Fn := S754_finite false 4503599627370496 2.   (* 2^54 *)
(** With doubles the end point is missed: from 2^54 to 1 at fraction 1 the result
    is 0. *)
Theorem C35_float_end_refuted : exists p q : Fn,
  @nfin Fn p = true /\ @nfin Fn q = true /\ @neq Fn (@lerp Fn p q f_one) q = false.
Proof. exists f_big, f_one. repeat split; vm_compute; reflexivity. Qed.
Print Assumptions C35_float_end_refuted.
Example C35_used :
  @update_coord Qn [(5%Z, (0, 0, 0)); (8%Z, (2, 0, 4))] [q_snax 1 (1 # 4) 0 8 5 3 1] [(1%Z, (0, 0, 0))]
  = Ok [(1%Z, (6 # 4, 0 # 4, 12 # 4))].
Proof. vm_compute. reflexivity. Qed.

(** ** C36 *)
(** The two snaxels of an edge that has just two get the same step, any common
    step not above the two computed ones keeps their order, and the computation
    always succeeds. *)
Theorem C36_no_crossing_partial : forall rng conserve (l : list qsnax) dt dist ends,
  legal_rng l rng -> edges_agree ends l -> 0 <= dt -> dt <= 1 -> 0 <= dist ->
  exists dts, @time_step Qn rng conserve l dt dist = Ok dts /\ length dts = length l /\
    (forall k x, nth_error dts k = Some x -> 0 <= x <= dt) /\
    (* a snaxel alone on its edge is not slowed down by impacts *)
    (forall k s x, nth_error l k = Some s -> nth_error dts k = Some x -> conserve = false ->
       rng (sx_edge s) = [Z.of_nat k] -> x = dt) /\
    (forall p q s t x y, nth_error l p = Some s -> nth_error l q = Some t -> p <> q -> sx_edge s = sx_edge t ->
       length (rng (sx_edge s)) = 2%nat -> nth_error dts p = Some x -> nth_error dts q = Some y -> x = y) /\
    forall p q s t x y, nth_error l p = Some s -> nth_error l q = Some t -> p <> q -> sx_edge s = sx_edge t ->
      nth_error dts p = Some x -> nth_error dts q = Some y ->
      forall T lim a b u v u' v', 0 <= T -> T <= x -> T <= y -> 0 <= lim -> ends (sx_edge s) = (a, b) ->
        pos_is a b s u -> pos_is a b t v -> u <= v ->
        pos_is a b (@move Qn T lim s) u' -> pos_is a b (@move Qn T lim t) v' -> u' <= v'.
Proof.
  intros rng conserve l dt dist ends legal Hends H0 H1 Hd.
  destruct (time_step_spec legal conserve dt dist) as [dts [E [Hlen [Hle [Hnn [Hk [Htwo Hone]]]]]]].
  assert (Hst : dt_start l conserve dist dt <= dt).
  { unfold dt_start. destruct conserve; [apply shape_le|lra]. }
  exists dts. split; auto. split; auto. split; [|split; [|split]].
  - intros k x Hx. split; [apply (Hnn H0 Hd k x Hx)|]. specialize (Hle k x Hx). lra.
  - intros k s x Hs Hx -> Hr. pose proof (Hone _ _ Hr) as K. rewrite Nat2Z.id in K. unfold dt_start in K. congruence.
  - intros p q s t x y Hs Ht Hpq He Hl Hx Hy.
    assert (Hp : In (Z.of_nat p) (rng (sx_edge s))) by (apply (rng_self legal); auto).
    assert (Hq : In (Z.of_nat q) (rng (sx_edge s))) by (rewrite He; apply (rng_self legal); auto).
    destruct (rng (sx_edge s)) as [|a [|b [|]]] eqn:Er; try discriminate.
    pose proof (Htwo _ _ _ Er) as K.
    assert (Hpq' : Z.of_nat p <> Z.of_nat q) by lia.
    destruct Hp as [Hp|[Hp|[]]], Hq as [Hq|[Hq|[]]]; try lia; rewrite Hp, Hq, !Nat2Z.id in K; congruence.
  - intros p q s t x y Hs Ht Hpq He Hx Hy T lim a b u v u' v' T0 Tx Ty Hlim Eab Pu Pv Huv Pu' Pv'.
    destruct (Hends s (nth_error_In _ _ Hs)) as [Hab _]. rewrite Eab in Hab. simpl in Hab.
    assert (T1 : T <= 1) by (specialize (Hle p x Hx); lra).
    refine (@move_keeps_order a b s t u v T lim u' v' _ Hlim Pu Pv T0 T1 _ Huv Pu' Pv'); [lia|].
    destruct (Hk p q s t Hs Ht Hpq He) as [K|K]; [left|right]; intros Hi.
    + destruct (K s t x y) as [K1 K2]; rewrite ?Nat2Z.id; auto. lra.
    + destruct (K t s y x) as [K1 K2]; rewrite ?Nat2Z.id; auto. lra.
Qed.
Print Assumptions C36_no_crossing_partial.
(** With more than two snaxels on an edge the steps differ, and advancing each by
    its own step, as the callers do, lets two of them cross. *)
Definition three : list qsnax :=
  [q_snax 1 0 10 1 2 7 1; q_snax 2 (1 # 10) 2 1 2 7 2; q_snax 3 (11 # 100) 1 1 2 7 3].
Theorem C36_crossing_refuted : exists dts l' x y,
  @time_step Qn (rng_of three) false three 1 1 = Ok dts /\
  @update_distance Qn [7%Z] [] false 1 dts three = Ok l' /\
  sx_d (nth 0 three (q_snax 0 0 0 0 0 0 0)) < sx_d (nth 1 three (q_snax 0 0 0 0 0 0 0)) /\
  nth_error (map (@sx_d Qn) l') 0 = Some x /\ nth_error (map (@sx_d Qn) l') 1 = Some y /\ y < x.
Proof.
  eexists _, _, _, _. split; [vm_compute; reflexivity|]. split; [vm_compute; reflexivity|].
  split; [reflexivity|]. split; [vm_compute; reflexivity|]. split; [vm_compute; reflexivity|reflexivity].
Qed.
Print Assumptions C36_crossing_refuted.
Definition pair : list qsnax := [q_snax 1 (1 # 4) 2 1 2 7 1; q_snax 2 (1 # 4) 1 2 1 7 2; q_snax 3 (1 # 2) 4 5 6 8 1].
Example C36_used : legal_rng pair (rng_of pair) /\ edges_agree (fun e => if (e =? 7)%Z then (1, 2)%Z else (5, 6)%Z) pair /\
  @time_step Qn (rng_of pair) false pair (1 # 2) 1 = Ok [8 # 48; 8 # 48; 1 # 2].
Proof.
  split; [apply rng_of_legal|]. split.
  - intros s [<-|[<-|[<-|[]]]]; cbn; split; try lia; unfold runs; cbn; auto.
  - vm_compute. reflexivity.
Qed.

(** ** C37 *)
Theorem C37_forward_partial : forall rng (l : list qsnax) dt dist dts s k x,
  legal_rng l rng -> @time_step Qn rng true l dt dist = Ok dts ->
  nth_error l k = Some s -> nth_error dts k = Some x -> eps < sx_v s -> sx_v s * x <= dist.
Proof.
  intros rng l dt dist dts s k x legal E Hs Hx Hv.
  destruct (time_step_spec legal true dt dist) as [dts' [E' [_ [Hle _]]]]. rewrite E in E'. injection E' as <-.
  specialize (Hle k x Hx). unfold dt_start in Hle.
  pose proof (@shape_limit l dist dt s (nth_error_In _ _ Hs) Hv) as K.
  assert (0 < sx_v s) by (unfold eps in Hv; lra). nra.
Qed.
Print Assumptions C37_forward_partial.
Theorem C37_backward_refuted : exists (l : list qsnax) dts s x,
  @time_step Qn (rng_of l) true l 1 (1 # 10) = Ok dts /\ In s l /\ nth_error dts 0 = Some x /\ nth_error l 0 = Some s /\
  ~ Qabs (sx_v s * x) <= 1 # 10.
Proof.
  exists [q_snax 1 (1 # 2) (-1) 1 2 7 1]. eexists _, _, _. split; [vm_compute; reflexivity|].
  split; [left; reflexivity|]. split; [reflexivity|]. split; [reflexivity|]. vm_compute. intros H. apply H. reflexivity.
Qed.
Print Assumptions C37_backward_refuted.
Example C37_used : @time_step Qn (rng_of pair) true pair 1 (1 # 10) = Ok [1 # 40; 1 # 40; 1 # 40] /\
  eps < sx_v (q_snax 3 (1 # 2) 4 5 6 8 1).
Proof. split; vm_compute; reflexivity. Qed.

(** ** C38 *)
Definition same_snax (s t : qsnax) : Prop :=
  sx_index s = sx_index t /\ sx_d s == sx_d t /\ sx_v s == sx_v t /\ sx_from s = sx_from t /\ sx_to s = sx_to t /\
  sx_edge s = sx_edge t /\ sx_freeze s = sx_freeze t /\ sx_order s = sx_order t.
Theorem C38_flip_twice : forall (l : list qsnax) b, let st := @flip Qn (@flip Qn (l, b)) in
  snd st = b /\ Forall2 same_snax l (fst st).
Proof.
  intros l b. cbn [flip fst snd]. split; [apply negb_involutive|]. rewrite map_map.
  induction l as [|s l IH]; simpl; constructor; auto.
  unfold same_snax. cbn [flip_snax sx_index sx_d sx_v sx_from sx_to sx_edge sx_freeze sx_order]. qn. repeat split; try reflexivity; change (carrier Qn) with Q; [set (x := sx_d s)|set (x := sx_v s)]; change Q in (type of x); ring.
Qed.
Print Assumptions C38_flip_twice.
Theorem C38_flip_place : forall (l : list qsnax) b, snd (@flip Qn (l, b)) = negb b /\ length (fst (@flip Qn (l, b))) = length l /\
  forall i s, nth_error l i = Some s -> exists s', nth_error (fst (@flip Qn (l, b))) i = Some s' /\
    sx_index s' = sx_index s /\ sx_edge s' = sx_edge s /\ sx_from s' = sx_to s /\ sx_to s' = sx_from s /\
    (* coordinates are those of before, for any end points *)
    (forall p q : Q, @lerp Qn q p (sx_d s') == @lerp Qn p q (sx_d s)) /\
    (* and so is the velocity measured from either end *)
    (forall x, sx_from s <> sx_to s -> vel_is (sx_from s) (sx_to s) s x -> vel_is (sx_from s) (sx_to s) s' x).
Proof.
  intros l b. cbn [flip fst snd]. split; [reflexivity|]. split; [apply map_length|]. intros i s Hs.
  exists (flip_snax s). rewrite nth_error_map, Hs. split; [reflexivity|].
  cbn [flip_snax sx_index sx_d sx_v sx_from sx_to sx_edge]. repeat (split; [reflexivity|]). split.
  - intros p q. rewrite !lerp_exact. qn. ring.
  - intros x Hne H. unfold vel_is in *. cbn [flip_snax sx_v sx_from sx_to]. qn.
    destruct H as [[H1 [H2 H3]]|[H1 [H2 H3]]]; [|congruence].
    right. repeat split. rewrite H3. symmetry. exact (Qopp_involutive (sx_v s)).
Qed.
Print Assumptions C38_flip_place.
(** With doubles a snaxel very near its origin is put on it by two flips. *)
Theorem C38_float_refuted : exists s : snax Fn,
  let s2 := flip_snax (flip_snax s) in @neq Fn (sx_d s2) (sx_d s) = false /\ @neq Fn (sx_d s2) (S754_zero false) = true.
Proof.
  exists (mkSnax 1 (S754_finite false 4503599627370496 (-200) : Fn) f_one 1 2 1 0 1). split; vm_compute; reflexivity.
Qed.
Print Assumptions C38_float_refuted.
Example C38_used : fst (@flip Qn ([q_snax 4 (1 # 4) 2 1 2 7 1], false)) = [q_snax 4 (3 # 4) (-2) 2 1 7 1].
Proof. reflexivity. Qed.

(** ** C39 *)
Theorem C39_inside : forall this tf other of k, (length this <= length other)%nat ->
  exists r, concat_inside this tf other of k = Ok r /\ length r = length this /\
  forall i, (i < length this)%nat ->
    (* the merged snake keeps the flag isFlipped of the first one *)
    (inside r tf i <->
       if (k <? 0)%Z then inside this tf i \/ inside other of i
       else if (0 <? k)%Z then inside this tf i /\ inside other of i
       else (inside this tf i /\ inside other of i) \/
            ((inside this tf i \/ inside other of i) /\ forall j, (j < length this)%nat -> ~ (inside this tf j /\ inside other of j))).
Proof.
  intros this tf other of k Hlen. unfold concat_inside.
  assert (HM : forall indep r, merge_flags indep tf of this other = Ok r -> forall i, (i < length this)%nat ->
    (inside r tf i <-> if indep : bool then inside this tf i \/ inside other of i else inside this tf i /\ inside other of i)).
  { intros indep r Hr i Hi. destruct (merge_spec _ _ _ _ _ Hr) as [_ H].
    destruct (nth_error this i) as [x|] eqn:Ex; [|apply nth_error_None in Ex; lia].
    destruct (H i x Ex) as [y [Ey Er]]. unfold inside. rewrite Ex, Ey, Er.
    assert (K : forall (c f : bool), (exists b, Some c = Some b /\ xorb b f = true) <-> xorb c f = true).
    { intros c f. split; [intros [b [E B]]; congruence|eauto]. }
    unfold merge_flag. destruct indep; rewrite !K; [rewrite <- orb_true_iff|rewrite <- andb_true_iff]; destruct x, y, tf, of; simpl; tauto. }
  destruct (k =? 0)%Z eqn:Ek.
  - destruct (compare_ok this tf other of Hlen) as [b Eb]. rewrite Eb. cbn [bind].
    destruct (merge_ok b tf of this other Hlen) as [r Er]. exists r. split; auto. split; [apply (merge_spec _ _ _ _ _ Er)|].
    intros i Hi. rewrite (HM _ _ Er i Hi). apply Z.eqb_eq in Ek. subst k. cbn [Z.ltb Z.compare].
    assert (Hc : b = true <-> forall j, (j < length this)%nat -> ~ (inside this tf j /\ inside other of j)).
    { rewrite (compare_spec _ _ _ _ Eb). split.
      - intros H j Hj [[x [Ex Bx]] [y [Ey By]]]. apply (H j x y); auto.
      - intros H j x y Ex Ey [Bx By]. apply (H j). { apply nth_error_Some. congruence. } split; eexists; eauto. }
    destruct b.
    + assert (Hd := proj1 Hc eq_refl). split; [tauto|]. intros [K|K]; [|tauto]. exfalso. exact (Hd i Hi K).
    + split; [tauto|]. intros [K|[_ K]]; auto. apply Hc in K. discriminate.
  - apply Z.eqb_neq in Ek. cbn [bind]. destruct (merge_ok (k <=? 0)%Z tf of this other Hlen) as [r Er]. exists r. split; auto.
    split; [apply (merge_spec _ _ _ _ _ Er)|]. intros i Hi. rewrite (HM _ _ Er i Hi).
    destruct (k <? 0)%Z eqn:E1, (k <=? 0)%Z eqn:E2, (0 <? k)%Z eqn:E3; try lia; tauto.
Qed.
Print Assumptions C39_inside.
Example C39_used : concat_inside [true; false; false] false [true; true; false] true 0 = Ok [true; false; true] /\
  concat_inside [true; true; false] false [false; true; false] true 0 = Ok [true; false; false].
Proof. split; reflexivity. Qed.

(** ** C40 *)
(** At most one edge carries several snaxels: they are numbered by position. *)
Theorem C40_one_crowded_edge_partial : forall choose rng (l : list qsnax) e0,
  legal_choose choose -> legal_rng l rng -> NoDup (map (fun s => sx_index s) l) ->
  (forall e, e <> e0 -> (length (rng e) <= 1)%nat) ->
  (forall s t, In s l -> In t l -> sx_edge s = e0 -> sx_edge t = e0 -> low s == low t -> s = t) ->
  exists l', @order_on_edge Qn choose rng l = Ok l' /\ Forall2 same_but_order l l' /\
    forall k s s', nth_error l k = Some s -> nth_error l' k = Some s' ->
      sx_order s' = (if (1 <? length (siblings l s))%nat then Z.of_nat (before l s) + 1 else sx_order s)%Z.
Proof. intros. apply order_on_edge_ok with (e0 := e0); auto. Qed.
Print Assumptions C40_one_crowded_edge_partial.
(** Two crowded edges: the table of the first is used for the second, which
    either reads outside of its arrays or gives the snaxels the wrong numbers. *)
Definition crowded d : list qsnax :=
  [q_snax 1 (1 # 4) 0 1 2 7 0; q_snax 2 (1 # 2) 0 1 2 7 0; q_snax 3 (1 # 2) 0 1 3 8 0; q_snax 4 d 0 1 3 8 0].
Definition pick (l : list Z) : Z := hd 0%Z l.
Lemma pick_legal : legal_choose pick.
Proof. intros [|x l] H; [congruence|]. left. reflexivity. Qed.
Theorem C40_second_edge_refuted :
  @order_on_edge Qn pick (rng_of (crowded (3 # 4))) (crowded (3 # 4)) = UB /\
  exists l', @order_on_edge Qn pick (rng_of (crowded (1 # 4))) (crowded (1 # 4)) = Ok l' /\
    map (fun s => (sx_index s, sx_order s)) l' = [(1, 1); (2, 2); (3, 1); (4, 2)]%Z.
Proof.
  split; [vm_compute; reflexivity|]. eexists. split; [vm_compute; reflexivity|reflexivity].
Qed.
Print Assumptions C40_second_edge_refuted.
(** Two snaxels at the same place: one of them is given no number. *)
Theorem C40_tie_refuted : exists l', @order_on_edge Qn pick (rng_of [q_snax 1 (1 # 2) 0 1 2 7 0; q_snax 2 (1 # 2) 0 1 2 7 0])
    [q_snax 1 (1 # 2) 0 1 2 7 0; q_snax 2 (1 # 2) 0 1 2 7 0] = Ok l' /\
  map (fun s => sx_order s) l' = [2; 0]%Z.
Proof. eexists. split; [vm_compute; reflexivity|reflexivity]. Qed.
Print Assumptions C40_tie_refuted.
Definition crowd1 : list qsnax :=
  [q_snax 1 (3 # 4) 0 1 2 7 0; q_snax 2 (1 # 8) 0 5 6 8 9; q_snax 3 (3 # 4) 0 2 1 7 0; q_snax 4 (1 # 2) 0 1 2 7 0].
Example C40_used : (forall e, e <> 7%Z -> (length (rng_of crowd1 e) <= 1)%nat) /\
  (forall s t, In s crowd1 -> In t crowd1 -> sx_edge s = 7%Z -> sx_edge t = 7%Z -> low s == low t -> s = t) /\
  exists l', @order_on_edge Qn pick (rng_of crowd1) crowd1 = Ok l' /\ map (fun s => sx_order s) l' = [3; 9; 1; 2]%Z.
Proof.
  split; [|split].
  - intros e He. unfold rng_of, crowd1. cbn -[Z.eqb]. destruct (7 =? e)%Z eqn:E; [lia|]. destruct (8 =? e)%Z; cbn; lia.
  - intros s t Hs Ht. cbn in Hs, Ht. intuition; subst; try reflexivity; try discriminate; vm_compute in H3; discriminate.
  - eexists. split; [vm_compute; reflexivity|reflexivity].
Qed.

(** ** C41 *)
(** Exactly what is reported. *)
Theorem C41_reports_partial : forall rng (l : list qsnax) ends,
  legal_rng l rng -> edges_agree ends l -> NoDup (map (fun s => sx_index s) l) ->
  exists out, @impact_detection Qn rng l = Ok out /\
    (* collisions are reported for both *)
    (forall i j, (0 <= j)%Z -> (forall s, In s l -> (0 <= sx_index s)%Z) -> In (i, j) out -> In (j, i) out) /\
    forall i j, In (i, j) out <->
      (exists s, In s l /\ i = sx_index s /\ length (siblings l s) = 1%nat /\
         ((j = (-1)%Z /\ at_start s) \/ (j = (-2)%Z /\ at_end s))) \/
      (exists s, In s l /\ i = sx_index s /\ (1 < length (siblings l s))%nat /\
         ((j = (-1)%Z /\ at_start s /\ sx_order s = 1%Z) \/
          (j = (-2)%Z /\ at_end s /\ sx_order s = Z.of_nat (length (siblings l s))))) \/
      (exists s t, In s l /\ In t l /\ s <> t /\ sx_edge s = sx_edge t /\ i = sx_index s /\ j = sx_index t /\
         Z.abs (sx_order s - sx_order t) = 1%Z /\ meets (fst (ends (sx_edge s))) (snd (ends (sx_edge s))) s t).
Proof.
  intros rng l ends legal Hends Hnd. destruct (detection_spec legal Hends Hnd) as [out [E H]]. exists out. split; auto. split; auto.
  intros i j Hj _ Hin. apply H in Hin. apply H. right. right.
  destruct Hin as [[s [_ [_ [_ [[K _]|[K _]]]]]]|[[s [_ [_ [_ [[K _]|[K _]]]]]]|[s [t [Hs [Ht [Hne [He [Hi [Hjj [Ho Hm]]]]]]]]]]]; try lia.
  exists t, s. do 3 (split; [auto|]). split; [auto|]. do 2 (split; [auto|]). split; [lia|]. rewrite <- He. apply meets_sym. auto.
Qed.
Print Assumptions C41_reports_partial.
(** On an edge with two snaxels, one that went from the higher-numbered end and
    has arrived is first in the order of the edge, and is not reported. *)
Definition arrived : list qsnax := [q_snax 1 1 1 9 4 7 1; q_snax 2 (1 # 2) 0 4 9 7 2].
Theorem C41_backward_refuted : well_ordered arrived /\ orders_full arrived /\ at_end (q_snax 1 1 1 9 4 7 1) /\
  @impact_detection Qn (rng_of arrived) arrived = Ok [].
Proof.
  split; [|split; [|split; [split; vm_compute; [reflexivity|discriminate]|vm_compute; reflexivity]]].
  - intros [|[|[|i]]] [|[|[|j]]] s t Hs Ht Hne _; cbn in Hs, Ht; try discriminate; try congruence;
      injection Hs as <-; injection Ht as <-; cbn; split; try lia; split; try lia; intros; try lia; vm_compute; discriminate.
  - intros s [<-|[<-|[]]]; vm_compute; split; discriminate.
Qed.
Print Assumptions C41_backward_refuted.
Definition meeting : list qsnax :=
  [q_snax 1 (1 # 2) 1 4 9 7 1; q_snax 2 (1 # 2) 1 9 4 7 2; q_snax 3 0 (-1) 4 5 8 1; q_snax 4 1 0 4 6 10 1; q_snax 5 (1 # 2) 0 4 11 12 1].
Example C41_used : NoDup (map (fun s => sx_index s) meeting) /\
  edges_agree (fun e => match e with 7%Z => (4, 9)%Z | 8%Z => (4, 5)%Z | 10%Z => (4, 6)%Z | _ => (4, 11)%Z end) meeting /\
  @impact_detection Qn (rng_of meeting) meeting = Ok [(1, 2); (2, 1); (3, -1); (4, -2)]%Z.
Proof.
  split; [cbn; repeat constructor; simpl; intuition discriminate|]. split; [|vm_compute; reflexivity].
  intros s Hs. cbn in Hs. intuition; subst; cbn; try lia; unfold runs; cbn; auto.
Qed.

(** ** C42 *)
Theorem C42_sound_partial : forall N rng m (l : list (snax N)) fuel,
  legal_rng l rng -> well_connected m -> (forall e, In e (edges m) -> length (ed_vertind e) = 2%nat) -> on_mesh m l ->
  (2 * length (verts m) <= fuel)%nat ->
  exists ins, assign_internal rng fuel m l = Ok (ins, false) /\ length ins = length (verts m) /\
    (forall q v, nth_error (verts m) q = Some v -> nth_error ins q = Some true -> enclosed m l (ve_index v)) /\
    (forall s, In s l -> exists q v, nth_error (verts m) q = Some v /\ ve_index v = sx_from s /\ nth_error ins q = Some true).
Proof.
  intros N rng m l fuel legal wc two om Hf. destruct (find_block_ok legal wc two om Hf) as [n [block [E [H1 [H2 [H3 H4]]]]]].
  unfold assign_internal. rewrite E. cbn [bind snd]. eexists. split; [reflexivity|]. split; [rewrite map_length; auto|]. split.
  - intros q v Hv Hq. rewrite nth_error_map in Hq. destruct (nth_error block q) as [x|] eqn:Ex; [|discriminate].
    injection Hq as Hq. apply (H3 q v x); auto. lia.
  - intros s Hs. destruct (H4 s Hs) as [q [v [x [A [B [C D]]]]]]. exists q, v. rewrite nth_error_map, C. repeat split; auto.
    cbn. f_equal. lia.
Qed.
Print Assumptions C42_sound_partial.
(** A path of four vertices 1 - 2 - 3 - 4 with one snaxel from 2 towards 1: 3 and
    4 are enclosed, but only 2 is marked, because the search stops as soon as
    every snaxel has been met. *)
Definition path4 : mesh := mkMesh [] []
  [mkEdge 1 true [] [1; 2]; mkEdge 2 true [] [2; 3]; mkEdge 3 true [] [3; 4]]%Z
  [mkVert 1 true [1]; mkVert 2 true [1; 2]; mkVert 3 true [2; 3]; mkVert 4 true [3]]%Z 1.
Definition on_path : list qsnax := [q_snax 1 (1 # 2) 0 2 1 1 1].
Lemma path4_ok : well_connected path4.
Proof.
  apply concrete_well_connected; [|unfold exterior_only, VE, EV, ES, SE, VS; repeat apply conj; intros; intro; concrete_lists|reflexivity].
  repeat apply conj; try concrete_nodup; intros [a [Ha Ea]]; simpl in Ha; intuition; subst; discriminate.
Qed.
Lemma on_path_ok : on_mesh path4 on_path.
Proof. intros s [<-|[]]. exists (mkVert 2 true [1; 2]%Z). cbn. tauto. Qed.
Theorem C42_early_stop_refuted : enclosed path4 on_path 4 /\
  @assign_internal Qn (rng_of on_path) 8 path4 on_path = Ok ([false; true; false; false], false).
Proof.
  split; [|vm_compute; reflexivity].
  apply (@enc_edge _ _ _ (mkEdge 3 true [] [3; 4]%Z) 3 4); [|cbn; tauto|intros s [<-|[]]; cbn; discriminate|left; reflexivity].
  apply (@enc_edge _ _ _ (mkEdge 2 true [] [2; 3]%Z) 2 3); [|cbn; tauto|intros s [<-|[]]; cbn; discriminate|left; reflexivity].
  apply (enc_origin path4 on_path (q_snax 1 (1 # 2) 0 2 1 1 1)). left; reflexivity.
Qed.
Print Assumptions C42_early_stop_refuted.
Example C42_used : legal_rng on_path (rng_of on_path) /\ well_connected path4 /\ on_mesh path4 on_path /\
  (forall e, In e (edges path4) -> length (ed_vertind e) = 2%nat).
Proof. split; [apply rng_of_legal|]. split; [apply path4_ok|]. split; [apply on_path_ok|]. intros e He; cbn in He; intuition; subst; reflexivity. Qed.

(** ** C43 *)
(** For the limits as they are meant, [minLim <= maxLim <= 1/2], a distance is
    moved to the nearest of the two, on the side where the snaxel was. *)
Theorem C43_between_partial : forall minLim maxLim newD oldD : Q, minLim <= maxLim ->
  let r := @equilibrate Qn minLim maxLim newD oldD in
  let lo := if Qlt_le_dec oldD (1 # 2) then minLim else 1 - maxLim in
  let hi := if Qlt_le_dec oldD (1 # 2) then maxLim else 1 - minLim in
  (lo <= r /\ r <= hi) /\ (lo <= newD -> newD <= hi -> r = newD) /\
  (newD < lo -> r = lo) /\ (hi < newD -> r = hi).
Proof.
  intros minLim maxLim newD oldD H. unfold equilibrate. cbn [Qn nlt nhalf nfin negb nsub n1].
  destruct (Qlt_le_dec oldD (1 # 2)) as [E|E].
  - replace (qlt oldD (1 # 2)) with true by (symmetry; apply qlt_true; auto). qcases; repeat split; intros; lra || reflexivity || (exfalso; lra).
  - replace (qlt oldD (1 # 2)) with false by (symmetry; apply qlt_false; auto). qcases; repeat split; intros; lra || reflexivity || (exfalso; lra).
Qed.
Print Assumptions C43_between_partial.
(** The limits the program uses for a step below one are the other way round
    ([pow(step, 0.5) > pow(step, 1.5)], see C43_limits_inverted in PropsGeom.v): the
    result is then always one of the two limits, and a distance between them
    is never kept. *)
Theorem C43_inverted : forall minLim maxLim newD oldD : Q, maxLim < minLim ->
  let r := @equilibrate Qn minLim maxLim newD oldD in
  if Qlt_le_dec oldD (1 # 2) then r = (if Qlt_le_dec newD minLim then minLim else maxLim)
  else r = (if Qlt_le_dec newD (1 - maxLim) then 1 - maxLim else 1 - minLim).
Proof.
  intros minLim maxLim newD oldD H. unfold equilibrate. cbn [Qn nlt nhalf nfin negb nsub n1].
  destruct (Qlt_le_dec oldD (1 # 2)) as [E|E].
  - replace (qlt oldD (1 # 2)) with true by (symmetry; apply qlt_true; auto).
    destruct (Qlt_le_dec newD minLim); qcases; try reflexivity; exfalso; lra.
  - replace (qlt oldD (1 # 2)) with false by (symmetry; apply qlt_false; auto).
    destruct (Qlt_le_dec newD (1 - maxLim)); qcases; try reflexivity; exfalso; lra.
Qed.
Print Assumptions C43_inverted.
(** Step 1/4, whose powers are exact: 3/10 lies between 1/8 and 1/2 and is
    changed. *)
Theorem C43_unchanged_refuted : exists newD oldD : Q, oldD < 1 # 2 /\ (1 # 8) < newD /\ newD < (1 # 2) /\
  @equilibrate Qn (1 # 2) (1 # 8) newD oldD = (1 # 2).
Proof. exists (3 # 10), (1 # 10). repeat split; reflexivity. Qed.
Print Assumptions C43_unchanged_refuted.
(** An undefined distance leaves the old one, in any arithmetic. *)
Theorem C43_not_finite : forall (N : num) (minLim maxLim newD oldD : N), nfin newD = false ->
  @equilibrate N minLim maxLim newD oldD = oldD.
Proof. intros N minLim maxLim newD oldD H. unfold equilibrate. rewrite H. cbn [negb]. destruct (nlt oldD nhalf); reflexivity. Qed.
Print Assumptions C43_not_finite.
Example C43_used : @equilibrate Qn (1 # 8) (1 # 2) (1 # 16) (1 # 4) = (1 # 8) /\ @equilibrate Qn (1 # 8) (1 # 2) (15 # 16) (3 # 4) = (7 # 8) /\
  @nfin Fn S754_nan = false.
Proof. repeat split. Qed.

(** ** C59: ReorderOnEdge *)
Theorem C59_new_arrivals_partial : forall rng (l : list qsnax),
  legal_rng l rng -> NoDup (map (fun s => sx_index s) l) -> (forall s, In s l -> in01 (sx_d s)) ->
  (* new snaxels are at an end of their edge, at most one at each end *)
  (forall s, In s l -> fresh s -> low s == 0 \/ low s == 1) ->
  (forall s t, In s l -> In t l -> sx_edge s = sx_edge t -> fresh_low s -> fresh_low t -> s = t) ->
  (forall s t, In s l -> In t l -> sx_edge s = sx_edge t -> fresh_high s -> fresh_high t -> s = t) ->
  well_ordered (settled l) -> (forall s, In s l -> ~ fresh s -> (1 <= sx_order s)%Z) ->
  exists l', @reorder_on_edge Qn rng l = Ok l' /\ Forall2 same_but_order l l' /\ well_ordered l' /\
    (forall i j s t s' t', nth_error l i = Some s -> nth_error l j = Some t -> nth_error l' i = Some s' -> nth_error l' j = Some t' ->
       sx_edge s = sx_edge t -> ~ fresh s -> ~ fresh t -> (sx_order s < sx_order t)%Z -> (sx_order s' < sx_order t')%Z) /\
    (orders_full (settled l) -> orders_full l').
Proof.
  intros rng l legal Hnd H01 F1 F2 F3 W P. apply reorder_good; auto. repeat split; auto.
Qed.
Print Assumptions C59_new_arrivals_partial.
(** Two new snaxels at the same end get the same order. *)
Definition spawned : list qsnax := [q_snax 1 0 0 1 2 7 (-1); q_snax 2 0 0 1 2 7 (-1)].
Theorem C59_same_end_refuted : exists l', @reorder_on_edge Qn (rng_of spawned) spawned = Ok l' /\
  map (fun s => sx_order s) l' = [1; 1]%Z.
Proof. eexists. split; [vm_compute; reflexivity|reflexivity]. Qed.
Print Assumptions C59_same_end_refuted.
(** A new snaxel inside the edge keeps the order -1. *)
Definition inside_edge : list qsnax := [q_snax 1 (1 # 2) 0 1 2 7 1; q_snax 2 (1 # 4) 0 1 2 7 (-1)].
Theorem C59_inside_refuted : exists l', @reorder_on_edge Qn (rng_of inside_edge) inside_edge = Ok l' /\
  map (fun s => sx_order s) l' = [1; -1]%Z.
Proof. eexists. split; [vm_compute; reflexivity|reflexivity]. Qed.
Print Assumptions C59_inside_refuted.
(** The gap left by a deleted snaxel stays, and hides a collision. *)
Definition gap : list qsnax := [q_snax 1 (1 # 2) 1 1 2 7 1; q_snax 3 (1 # 2) 1 2 1 7 3].
Theorem C59_gap_refuted : @reorder_on_edge Qn (rng_of gap) gap = Ok gap /\ @impact_detection Qn (rng_of gap) gap = Ok [].
Proof. split; vm_compute; reflexivity. Qed.
Print Assumptions C59_gap_refuted.
Definition growing : list qsnax := [q_snax 1 (1 # 2) 0 2 1 7 2; q_snax 2 0 0 1 2 7 (-1); q_snax 3 (1 # 4) 0 1 2 7 1; q_snax 4 0 0 2 1 7 (-1)].
Example C59_used : (forall s, In s growing -> in01 (sx_d s)) /\ well_ordered (settled growing) /\ orders_full (settled growing) /\
  (forall s, In s growing -> fresh s -> low s == 0 \/ low s == 1) /\
  (forall s t, In s growing -> In t growing -> sx_edge s = sx_edge t -> fresh_low s -> fresh_low t -> s = t) /\
  (forall s t, In s growing -> In t growing -> sx_edge s = sx_edge t -> fresh_high s -> fresh_high t -> s = t) /\
  exists l', @reorder_on_edge Qn (rng_of growing) growing = Ok l' /\ map (fun s => sx_order s) l' = [3; 1; 2; 4]%Z.
Proof.
  split; [|split; [|split; [|split; [|split; [|split]]]]].
  - intros s Hs. cbn in Hs. intuition; subst; split; vm_compute; discriminate.
  - intros [|[|[|i]]] [|[|[|j]]] s t Hs Ht Hne _; cbn in Hs, Ht; try discriminate; try congruence;
      injection Hs as <-; injection Ht as <-; cbn; split; try lia; split; try lia; intros; try lia; vm_compute; discriminate.
  - intros s [<-|[<-|[]]]; vm_compute; split; discriminate.
  - intros s Hs Hf. cbn in Hs. unfold fresh in Hf. intuition; subst; try discriminate; [left|right]; reflexivity.
  - intros s t Hs Ht _ [Hf Hl] [Hf' Hl']. cbn in Hs, Ht. unfold fresh in *.
    intuition; subst; try discriminate; try reflexivity; exfalso; vm_compute in Hl, Hl'; discriminate.
  - intros s t Hs Ht _ [Hf Hl] [Hf' Hl']. cbn in Hs, Ht. unfold fresh in *.
    intuition; subst; try discriminate; try reflexivity; exfalso; vm_compute in Hl, Hl'; discriminate.
  - eexists. split; [vm_compute; reflexivity|reflexivity].
Qed.

(** ** C60: ValidateDistance *)
(** The snaxel is put on the right side of every other snaxel of its edge, is not
    moved when it is there already, stays on the edge, and keeps all else. *)
Theorem C60_validate : forall a b (sibs : list qsnax) (s : qsnax) (x : Q), (a < b)%Z ->
  in01 (sx_d s) -> sibs <> [] -> (forall t, In t sibs -> runs a b t /\ in01 (sx_d t)) -> pos_is a b s x ->
  (forall t, In t sibs -> sx_index t <> sx_index s -> sx_order t <> sx_order s) ->
  (* the others are themselves in order *)
  (forall t u y z, In t sibs -> In u sibs -> sx_index t <> sx_index s -> sx_index u <> sx_index s ->
     (sx_order t < sx_order s)%Z -> (sx_order s < sx_order u)%Z -> pos_is a b t y -> pos_is a b u z -> y <= z) ->
  (forall t, sibs = [t] -> t = s) ->
  exists s' x', @validate_distance Qn sibs s = Ok s' /\ same_but_d s s' /\ pos_is a b s' x' /\ in01 x' /\
    (forall t y, In t sibs -> sx_index t <> sx_index s -> pos_is a b t y ->
       ((sx_order s < sx_order t)%Z -> x' <= y) /\ ((sx_order t < sx_order s)%Z -> y <= x')) /\
    ((forall t y, In t sibs -> sx_index t <> sx_index s -> pos_is a b t y ->
       ((sx_order s < sx_order t)%Z -> x <= y) /\ ((sx_order t < sx_order s)%Z -> y <= x)) -> x' == x).
Proof.
  intros a b sibs s x Hab H01 Hne Hsib Hx Hord Hmid Hone.
  assert (Hin : forall (t : qsnax) (y : Q), in01 (sx_d t) -> pos_is a b t y -> in01 y).
  { intros t y [A B] [[_ [_ E]]|[_ [_ E]]]; unfold in01; rewrite E; lra. }
  unfold validate_distance. cbn [Qn nlt n0 n1].
  replace (qlt (sx_d s) 0) with false by (symmetry; apply qlt_false; apply H01).
  replace (qlt 1 (sx_d s)) with false by (symmetry; apply qlt_false; apply H01). cbn [orb].
  destruct sibs as [|t0 [|t1 r]]; [congruence| |].
  - exists s, x. assert (t0 = s) by auto. subst t0. split; auto. split; [unfold same_but_d; tauto|]. split; auto. split; [eapply Hin; eauto|].
    split; [|reflexivity]. intros t y [<-|[]]; congruence.
  - set (sibs := t0 :: t1 :: r) in *.
    destruct (@validate_fold a b sibs Hab sibs [] s x) as [x' [A [B [C [D E]]]]]; auto.
    + intros t [].
    + intros t Ht. apply Hsib; auto.
    + intros t [].
    + exists (fold_left (validate_against (N:=Qn)) sibs s), x'. split; auto. split; auto. split; auto. split; [|split].
      * apply D; [eapply Hin; eauto|]. intros t y Ht Hy. apply (Hin t); auto. apply Hsib; auto.
      * intros t y Ht Hi Hy. apply (B t); auto. 
      * intros K. apply C. intros t Ht Hi y Hy. apply (K t); auto.
Qed.
Print Assumptions C60_validate.
(** A distance outside the edge, or an edge without snaxels, is an error. *)
Theorem C60_rejected : forall (sibs : list qsnax) (s : qsnax), ~ in01 (sx_d s) \/ sibs = [] ->
  @validate_distance Qn sibs s = Throw.
Proof.
  intros sibs s H. unfold validate_distance. cbn [Qn nlt n0 n1].
  destruct (qlt (sx_d s) 0) eqn:A; [reflexivity|]. destruct (qlt 1 (sx_d s)) eqn:B; [reflexivity|]. cbn [orb].
  destruct H as [H| ->]; [|reflexivity]. destruct H. apply qlt_false in A. apply qlt_false in B. split; assumption.
Qed.
Print Assumptions C60_rejected.
Example C60_rejected_used : @validate_distance Qn [q_snax 1 (1 # 4) 0 1 2 7 1; q_snax 2 (9 # 8) 0 1 2 7 2] (q_snax 2 (9 # 8) 0 1 2 7 2) = Throw.
Proof. apply C60_rejected. left. intros [_ H]. cbn in H. lra. Qed.
Example C60_used : let l := [q_snax 1 (1 # 4) 0 1 2 7 1; q_snax 2 (1 # 8) 0 1 2 7 2; q_snax 3 (1 # 2) 0 2 1 7 3] in
  @validate_distance Qn l (q_snax 2 (1 # 8) 0 1 2 7 2) = Ok (q_snax 2 (1 # 4) 0 1 2 7 2).
Proof. vm_compute. reflexivity. Qed.
