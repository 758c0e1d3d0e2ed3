(** Proofs about time steps, impacts and ValidateDistance. *)
From Verif Require Import Base Containers Mesh Flood Num Snake SpecSnake MeshProofs SnakeProofs.
Set Implicit Arguments.
Open Scope Q_scope.

(** ** ValidateDistance over all siblings *)
Definition sides_ok (a b : Z) (s : qsnax) (x : Q) (t : qsnax) : Prop :=
  sx_index s <> sx_index t -> forall y, pos_is a b t y ->
  ((sx_order s < sx_order t)%Z -> x <= y) /\ ((sx_order t < sx_order s)%Z -> y <= x).
Lemma pos_is_ext a b (s : qsnax) x x' : x == x' -> pos_is a b s x -> pos_is a b s x'.
Proof. unfold pos_is. intros E [[H1 [H2 H3]]|[H1 [H2 H3]]]; [left|right]; repeat split; auto; lra. Qed.
Lemma pos_is_fun a b (s : qsnax) x x' : a <> b -> pos_is a b s x -> pos_is a b s x' -> x == x'.
Proof. unfold pos_is. intros Hab [[H1 [H2 H3]]|[H1 [H2 H3]]] [[H4 [H5 H6]]|[H4 [H5 H6]]]; try congruence; lra. Qed.
Lemma pos_is_ex a b (s : qsnax) : runs a b s -> exists x, pos_is a b s x.
Proof.
  intros [[H1 H2]|[H1 H2]]; [exists (sx_d s)|exists (1 - sx_d s)]; [left|right]; repeat split; auto; reflexivity.
Qed.

Lemma validate_fold a b (sibs0 : list qsnax) : (a < b)%Z ->
  forall todo done s x, (forall t, In t done -> In t sibs0) -> (forall t, In t todo -> In t sibs0) ->
  (forall t, In t sibs0 -> runs a b t) ->
  (forall t, In t sibs0 -> sx_index t <> sx_index s -> sx_order t <> sx_order s) ->
  (forall t u y z, In t sibs0 -> In u sibs0 -> sx_index t <> sx_index s -> sx_index u <> sx_index s ->
     (sx_order t < sx_order s)%Z -> (sx_order s < sx_order u)%Z -> pos_is a b t y -> pos_is a b u z -> y <= z) ->
  pos_is a b s x -> (forall t, In t done -> sides_ok a b s x t) ->
  exists x', pos_is a b (fold_left (validate_against (N := Qn)) todo s) x' /\
    (forall t, In t done \/ In t todo -> sides_ok a b s x' t) /\
    ((forall t, In t todo -> sides_ok a b s x t) -> x' == x) /\
    (in01 x -> (forall t y, In t sibs0 -> pos_is a b t y -> in01 y) -> in01 x') /\
    same_but_d s (fold_left (validate_against (N := Qn)) todo s).
Proof.
  intros Hlt. induction todo as [|t todo IH]; intros done s x Hd Ht Hr Ho Hc Hs Hok.
  - exists x. split; [auto|split; [|split; [|split]]].
    + intros t [H|[]]; auto.
    + reflexivity.
    + auto.
    + repeat split.
  - simpl fold_left. destruct (Z.eq_dec (sx_index s) (sx_index t)) as [Ei|Ei].
    + assert (E : validate_against (N := Qn) s t = s)
        by (unfold validate_against; rewrite (proj2 (Z.eqb_eq _ _) Ei); auto).
      rewrite E. destruct (IH done s x) as [x' [H1 [H2 [H3 [H4 H5]]]]]; auto.
      { intros u Hu; apply Ht; right; auto. }
      exists x'. split; auto. split; [|split; [|split; auto]].
      * intros u [Hu|[<-|Hu]]; [apply H2; auto| |apply H2; auto]. intros Hn; contradiction.
      * intros Hall. apply H3. intros u Hu; apply Hall; right; auto.
    + destruct (pos_is_ex (Hr t (Ht t (or_introl eq_refl)))) as [y Hy].
      assert (Hot : sx_order s <> sx_order t)
        by (intros E; apply (Ho t (Ht t (or_introl eq_refl))); auto).
      destruct (@validate_step a b s t x y) as [x1 [Hx1 Ex1]]; auto; [lia|].
      destruct (validate_same s t) as [S1 [S2 [S3 [S4 [S5 [S6 S7]]]]]].
      set (s1 := validate_against (N := Qn) s t) in *.
      assert (Hmm : (x1 <= x /\ x1 <= y /\ (x1 == x \/ x1 == y) /\ (sx_order s < sx_order t)%Z) \/
                    (x <= x1 /\ y <= x1 /\ (x1 == x \/ x1 == y) /\ (sx_order t < sx_order s)%Z)).
      { destruct (Z.ltb_spec (sx_order s) (sx_order t)) as [L|L].
        - left. destruct (Q.min_spec x y) as [[M1 M2]|[M1 M2]]; split; [lra|split; [lra|split; [lra|lia]]|lra|split; [lra|split; [lra|lia]]].
        - right. destruct (Q.max_spec x y) as [[M1 M2]|[M1 M2]]; split; [lra|split; [lra|split; [lra|lia]]|lra|split; [lra|split; [lra|lia]]]. }
      assert (Hsd : forall u w, sides_ok a b s1 w u <-> sides_ok a b s w u).
      { intros u w. unfold sides_ok. rewrite S1, S7. tauto. }
      destruct (IH (done ++ [t]) s1 x1) as [x' [H1 [H2 [H3 [H4 H5]]]]]; auto.
      { intros u Hu. apply in_app_or in Hu. destruct Hu as [Hu|[<-|[]]]; auto. apply Ht; left; auto. }
      { intros u Hu; apply Ht; right; auto. }
      { intros u Hu. rewrite S1, S7. auto. }
      { intros u w. rewrite S1, S7. apply Hc. }
      { intros u Hu. rewrite (Hsd u x1). intros Hn z Hz.
        apply in_app_or in Hu. destruct Hu as [Hu|[<-|[]]].
        - destruct (Hok u Hu Hn z Hz) as [K1 K2].
          assert (Hcu : (sx_order u < sx_order s)%Z -> (sx_order s < sx_order t)%Z -> z <= y).
          { intros. refine (Hc u t z y _ _ _ _ _ _ Hz Hy); auto. apply Ht; left; auto. }
          assert (Hcu' : (sx_order t < sx_order s)%Z -> (sx_order s < sx_order u)%Z -> y <= z).
          { intros. refine (Hc t u y z _ _ _ _ _ _ Hy Hz); auto. apply Ht; left; auto. }
          split; intros L; [specialize (K1 L)|specialize (K2 L)];
            destruct Hmm as [[M1 [M2 [[M3|M3] M4]]]|[M1 [M2 [[M3|M3] M4]]]]; try lra.
          + specialize (Hcu' M4 L). lra.
          + specialize (Hcu L M4). lra.
        - assert (Ez : z == y) by (apply (@pos_is_fun a b t); auto; lia).
          split; intros L; destruct Hmm as [[M1 [M2 [M3 M4]]]|[M1 [M2 [M3 M4]]]]; try lia; lra. }
      exists x'. split; auto. split; [|split; [|split]].
      * intros u Hu. apply (Hsd u x'). apply H2. destruct Hu as [Hu|[<-|Hu]]; auto; left; apply in_or_app; simpl; auto.
      * intros Hall.
        assert (E1 : x1 == x).
        { destruct (Hall t (or_introl eq_refl) Ei y Hy) as [K1 K2].
          destruct Hmm as [[M1 [M2 [M3 M4]]]|[M1 [M2 [M3 M4]]]]; [specialize (K1 M4)|specialize (K2 M4)]; destruct M3; lra. }
        rewrite H3; auto. intros u Hu. apply (Hsd u x1). intros Hn z Hz.
        destruct (Hall u (or_intror Hu) Hn z Hz) as [K1 K2]. split; intros L; [specialize (K1 L)|specialize (K2 L)]; lra.
      * intros Hx Hsib. apply H4; auto. specialize (Hsib t y (Ht t (or_introl eq_refl)) Hy). unfold in01 in *.
        destruct Hmm as [[M1 [M2 [[M3|M3] M4]]]|[M1 [M2 [[M3|M3] M4]]]]; lra.
      * destruct H5 as [T1 [T2 [T3 [T4 [T5 [T6 T7]]]]]]. repeat split; congruence.
Qed.

(** ** SnaxImpactDt *)
Lemma vel_is_ext a b (s : qsnax) x x' : x == x' -> vel_is a b s x -> vel_is a b s x'.
Proof. unfold vel_is. intros E [[H1 [H2 H3]]|[H1 [H2 H3]]]; [left|right]; repeat split; auto; lra. Qed.
Lemma approx0 (x : Q) : @approx Qn x 0 = true <-> Qabs x < (1 # 4503599627370496).
Proof.
  unfold approx. qn. rewrite qlt_true. assert (E : x - 0 == x) by ring. rewrite E. tauto.
Qed.
Lemma approx0_false (x : Q) : @approx Qn x 0 = false <-> (1 # 4503599627370496) <= Qabs x.
Proof.
  unfold approx. qn. rewrite qlt_false. assert (E : x - 0 == x) by ring. rewrite E. tauto.
Qed.
Lemma impact_cases a b (s1 s2 : qsnax) x1 x2 u1 u2 : a <> b ->
  pos_is a b s1 x1 -> pos_is a b s2 x2 -> vel_is a b s1 u1 -> vel_is a b s2 u2 ->
  exists dD dV, ((dD == x2 - x1 /\ dV == u2 - u1) \/ (dD == x1 - x2 /\ dV == u1 - u2)) /\
    impact_dt s1 s2 = if @approx Qn dD 0 then 0 else if @approx Qn dV 0 then - (1) else (- dD) / dV.
Proof.
  intros Hab P1 P2 V1 V2. unfold impact_dt. qn.
  assert (HB : forall (k : bool) (x y : Q), (if k then x else y) = if k then x else y) by auto.
  destruct P1 as [[F1 [T1 X1]]|[F1 [T1 X1]]], P2 as [[F2 [T2 X2]]|[F2 [T2 X2]]],
    V1 as [[G1 [_ U1]]|[G1 [_ U1]]], V2 as [[G2 [_ U2]]|[G2 [_ U2]]]; try congruence; rewrite F1, F2.
  - rewrite Z.eqb_refl. eexists _, _. split; [|reflexivity]. left. split; lra.
  - rewrite (proj2 (Z.eqb_neq a b)) by auto. eexists _, _. split; [|reflexivity]. left. split; lra.
  - rewrite (proj2 (Z.eqb_neq b a)) by auto. eexists _, _. split; [|reflexivity]. right. split; lra.
  - rewrite Z.eqb_refl. eexists _, _. split; [|reflexivity]. right. split; lra.
Qed.
Lemma div_mult_le (t n d : Q) : 0 < d -> t <= n / d -> t * d <= n.
Proof.
  intros Hd H. assert (E : n == n / d * d) by (field; lra). rewrite E. apply Qmult_le_compat_r; lra.
Qed.
(** Up to a time no later than the impact time two snaxels do not pass each
    other. *)
Lemma no_cross a b (s1 s2 : qsnax) x1 x2 u1 u2 T : a <> b ->
  pos_is a b s1 x1 -> pos_is a b s2 x2 -> vel_is a b s1 u1 -> vel_is a b s2 u2 ->
  0 <= T -> T <= 1 -> (0 <= impact_dt s1 s2 -> T <= impact_dt s1 s2) ->
  (x1 <= x2 -> x1 + u1 * T <= x2 + u2 * T) /\ (x2 <= x1 -> x2 + u2 * T <= x1 + u1 * T).
Proof.
  intros Hab P1 P2 V1 V2 T0 T1 Hi.
  destruct (impact_cases Hab P1 P2 V1 V2) as [dD [dV [HD E]]]. rewrite E in Hi. clear E.
  assert (HA : forall d x1 x2 u1 u2, x1 <= x2 -> ((dD == x2 - x1 /\ d == u1 - u2 /\ dV == - d) \/ (dD == - (x2 - x1) /\ d == u1 - u2 /\ dV == d)) ->
               x1 + u1 * T <= x2 + u2 * T).
  { clear - T0 T1 Hi. intros d x1 x2 u1 u2 Hx H.
    assert (Hd : d == u1 - u2) by tauto.
    assert (HDa : Qabs dD == x2 - x1).
    { destruct H as [[H _]|[H _]]; rewrite H; [|rewrite Qabs_opp]; apply Qabs_pos; lra. }
    assert (HVa : Qabs dV == Qabs d).
    { destruct H as [[_ [_ H]]|[_ [_ H]]]; rewrite H; [rewrite Qabs_opp|]; reflexivity. }
    destruct (@approx Qn dD 0) eqn:A1.
    - assert (T == 0) by (specialize (Hi (Qle_refl 0)); lra). nra.
    - apply approx0_false in A1. rewrite HDa in A1. destruct (@approx Qn dV 0) eqn:A2.
      + apply approx0 in A2. rewrite HVa in A2. pose proof (Qle_Qabs d). nra.
      + apply approx0_false in A2. rewrite HVa in A2.
        destruct (Qlt_le_dec 0 d) as [L|L]; [|nra].
        assert (Et : - dD / dV == (x2 - x1) / d).
        { destruct H as [[K1 [_ K2]]|[K1 [_ K2]]]; rewrite K1, K2; field; lra. }
        rewrite Et in Hi.
        assert (Hp : 0 <= (x2 - x1) / d) by (apply Qle_shift_div_l; lra).
        specialize (Hi Hp). apply div_mult_le in Hi; auto. nra. }
  split; intros Hx.
  - apply (HA (u1 - u2)); auto. destruct HD as [[K1 K2]|[K1 K2]]; [left|right]; repeat split; lra.
  - apply (HA (u2 - u1)); auto. destruct HD as [[K1 K2]|[K1 K2]]; [right|left]; repeat split; lra.
Qed.

(** ** The loops over snaxels *)
Section Visit.
Variable N : num.
Variable rng : Z -> list Z.
Variable l : list (snax N).
Hypothesis legal : legal_rng l rng.
Variable S : Type.
Variable single : Z -> S -> outcome S.
Variable many : list Z -> S -> outcome S.

Definition handle (e : Z) (x : S) : outcome S :=
  match rng e with [] => Throw | [p] => single p x | subs => many subs x end.

Lemma mark_ok subs done : (forall p, In p subs -> (0 <= p)%Z /\ (Z.to_nat p < length done)%nat) ->
  exists done', mark subs done = Ok done' /\ length done' = length done /\
    forall k, nth_error done' k = if existsb (fun p => (p =? Z.of_nat k)%Z) subs
                                  then (if (k <? length done)%nat then Some true else None) else nth_error done k.
Proof.
  revert done. induction subs as [|p subs IH]; intros done H.
  - exists done. repeat split; auto.
  - destruct (H p (or_introl eq_refl)) as [H0 H1].
    destruct (@at_in_range _ done p) as [b Hb]; [lia|].
    unfold mark. cbn [for_each]. unfold modify. rewrite Hb. cbn [bind].
    destruct (IH (upd done (Z.to_nat p) true)) as [d' [E1 [E2 E3]]].
    { intros q Hq. rewrite upd_length. apply H; right; auto. }
    rewrite upd_length in E2, E3. exists d'. split; [exact E1|]. split; auto. intros k. rewrite E3.
    cbn [existsb]. destruct (existsb (fun q => (q =? Z.of_nat k)%Z) subs); [now rewrite orb_true_r|]. rewrite orb_false_r.
    destruct (Z.eqb_spec p (Z.of_nat k)) as [->|Hne].
    + rewrite Nat2Z.id in *. rewrite (proj2 (Nat.ltb_lt _ _)) by auto. apply nth_error_upd_same; auto.
    + apply nth_error_upd_other. lia.
Qed.

Lemma rng_self p s : nth_error l p = Some s -> In (Z.of_nat p) (rng (sx_edge s)).
Proof. intros H. apply (proj2 (legal (sx_edge s))). rewrite Nat2Z.id. split; [lia|eauto]. Qed.

Lemma visit_loop ps : forall seen done x, length done = length l ->
  (forall p, In p ps -> (0 <= p < Z.of_nat (length l))%Z) ->
  (forall k s, nth_error l k = Some s -> nth_error done k = Some (mem_z (sx_edge s) seen)) ->
  exists es, NoDup es /\ (forall e, In e es -> ~ In e seen) /\
    (forall e, In e es -> exists p s, In p ps /\ nth_error l (Z.to_nat p) = Some s /\ sx_edge s = e) /\
    (forall p s, In p ps -> nth_error l (Z.to_nat p) = Some s -> In (sx_edge s) seen \/ In (sx_edge s) es) /\
    (do st <- for_each ps (visit rng l single many) (x, done); Ok (fst st)) = for_each es handle x.
Proof.
  induction ps as [|p ps IH]; intros seen done x Hl Hps Hd.
  - exists []. repeat split; auto; try constructor; try (intros ? []); try (intros ? ? []).
  - destruct (Hps p (or_introl eq_refl)) as [Hp0 Hp1].
    destruct (nth_error l (Z.to_nat p)) as [s|] eqn:Es; [|apply nth_error_None in Es; lia].
    assert (Edone : at_ done p = Ok (mem_z (sx_edge s) seen)) by (apply at_Ok; split; [lia|apply Hd; auto]).
    cbn [for_each]. unfold visit at 1. rewrite Edone. cbn [bind].
    destruct (mem_z (sx_edge s) seen) eqn:Em.
    + destruct (IH seen done x Hl) as [es [H1 [H2 [H3 [H4 H5]]]]]; auto.
      { intros q Hq; apply Hps; right; auto. }
      exists es. repeat split; auto.
      * intros e He. destruct (H3 e He) as [q [t [Hq Ht]]]. exists q, t. split; [right; auto|auto].
      * intros q t [<-|Hq] Ht; [|eauto]. left. rewrite Es in Ht. injection Ht as <-. apply mem_z_In; auto.
    + assert (Eat : at_ l p = Ok s) by (apply at_Ok; split; [lia|auto]). rewrite Eat. cbn [bind].
      assert (Hin : In p (rng (sx_edge s))) by (pose proof (rng_self _ Es) as K; rewrite Z2Nat.id in K by lia; auto).
      assert (Hrange : forall q, In q (rng (sx_edge s)) -> (0 <= q)%Z /\ (Z.to_nat q < length done)%nat).
      { intros q Hq. apply (proj2 (legal _)) in Hq. destruct Hq as [Q0 [t [Ht _]]]. split; auto. rewrite Hl. apply nth_error_Some. congruence. }
      assert (Key : forall done', length done' = length l ->
          (forall k, nth_error done' k = if existsb (fun q => (q =? Z.of_nat k)%Z) (rng (sx_edge s))
                                  then (if (k <? length done)%nat then Some true else None) else nth_error done k) ->
          forall x', exists es, NoDup es /\ (forall e, In e es -> ~ In e (sx_edge s :: seen)) /\
            (forall e, In e es -> exists p s, In p ps /\ nth_error l (Z.to_nat p) = Some s /\ sx_edge s = e) /\
            (forall p t, In p ps -> nth_error l (Z.to_nat p) = Some t -> In (sx_edge t) (sx_edge s :: seen) \/ In (sx_edge t) es) /\
            (do st <- for_each ps (visit rng l single many) (x', done'); Ok (fst st)) = for_each es handle x').
      { intros done' Hl' Hd' x'. apply IH; auto.
        - intros q Hq; apply Hps; right; auto.
        - intros k t Ht. rewrite Hd'. destruct (existsb (fun q => (q =? Z.of_nat k)%Z) (rng (sx_edge s))) eqn:Ex.
          + apply existsb_exists in Ex. destruct Ex as [q [Hq Eq]]. apply Z.eqb_eq in Eq. subst q.
            apply (proj2 (legal _)) in Hq. destruct Hq as [_ [t' [Ht' Ee]]]. rewrite Nat2Z.id in Ht'.
            rewrite Ht in Ht'. injection Ht' as <-.
            assert (k < length done)%nat by (rewrite Hl; apply nth_error_Some; congruence).
            rewrite (proj2 (Nat.ltb_lt _ _)) by auto. simpl. rewrite Ee, Z.eqb_refl. auto.
          + rewrite (Hd k t Ht). f_equal. simpl. destruct (Z.eqb_spec (sx_edge t) (sx_edge s)) as [Ee|]; auto.
            exfalso. assert (existsb (fun q => (q =? Z.of_nat k)%Z) (rng (sx_edge s)) = true); [|congruence].
            apply existsb_exists. exists (Z.of_nat k). split; [|apply Z.eqb_refl]. rewrite <- Ee. apply rng_self; auto. }
      assert (Step : forall (h : S -> outcome S) done',
         (forall y, handle (sx_edge s) y = h y) -> length done' = length l ->
         (forall k, nth_error done' k = if existsb (fun q => (q =? Z.of_nat k)%Z) (rng (sx_edge s))
                                  then (if (k <? length done)%nat then Some true else None) else nth_error done k) ->
         exists es, NoDup es /\ (forall e, In e es -> ~ In e seen) /\
    (forall e, In e es -> exists q s, In q (p :: ps) /\ nth_error l (Z.to_nat q) = Some s /\ sx_edge s = e) /\
    (forall q s, In q (p :: ps) -> nth_error l (Z.to_nat q) = Some s -> In (sx_edge s) seen \/ In (sx_edge s) es) /\
    (do st <- (do st1 <- (do x' <- h x; Ok (x', done')); for_each ps (visit rng l single many) st1); Ok (fst st)) = for_each es handle x).
      { intros h done' Hh Hl' Hd'.
        assert (Hgo : forall x', exists es, NoDup es /\ (forall e, In e es -> ~ In e seen) /\
            (forall e, In e es -> exists q s, In q (p :: ps) /\ nth_error l (Z.to_nat q) = Some s /\ sx_edge s = e) /\
            (forall q s, In q (p :: ps) -> nth_error l (Z.to_nat q) = Some s -> In (sx_edge s) seen \/ In (sx_edge s) es) /\
            exists es', es = sx_edge s :: es' /\
            (do st <- for_each ps (visit rng l single many) (x', done'); Ok (fst st)) = for_each es' handle x').
        { intros x'. destruct (Key done' Hl' Hd' x') as [es [H1 [H2 [H3 [H4 H5]]]]].
          exists (sx_edge s :: es). split; [|split; [|split; [|split]]].
          - constructor; auto. intros K. apply (H2 _ K). left; auto.
          - intros e [<-|He]; [apply mem_z_not_In; auto|]. intros K. apply (H2 _ He). right; auto.
          - intros e [<-|He]; [exists p, s; simpl; auto|]. destruct (H3 e He) as [q [t [Hq Ht]]]. exists q, t. simpl; auto.
          - intros q t [<-|Hq] Ht; [rewrite Es in Ht; injection Ht as <-; simpl; auto|].
            destruct (H4 q t Hq Ht) as [[K|K]|K]; simpl; auto.
          - exists es. auto. }
        destruct (h x) as [x'| | |] eqn:Ehx.
        + destruct (Hgo x') as [es [H1 [H2 [H3 [H4 [es' [-> H5]]]]]]]. exists (sx_edge s :: es'). repeat split; auto.
          cbn [bind for_each]. rewrite Hh, Ehx. cbn [bind]. exact H5.
        + destruct (Hgo x) as [es [H1 [H2 [H3 [H4 [es' [-> H5]]]]]]]. exists (sx_edge s :: es'). repeat split; auto.
          cbn [bind for_each]. rewrite Hh, Ehx. reflexivity.
        + destruct (Hgo x) as [es [H1 [H2 [H3 [H4 [es' [-> H5]]]]]]]. exists (sx_edge s :: es'). repeat split; auto.
          cbn [bind for_each]. rewrite Hh, Ehx. reflexivity.
        + destruct (Hgo x) as [es [H1 [H2 [H3 [H4 [es' [-> H5]]]]]]]. exists (sx_edge s :: es'). repeat split; auto.
          cbn [bind for_each]. rewrite Hh, Ehx. reflexivity. }
      destruct (mark_ok (rng (sx_edge s)) done Hrange) as [dm [M1 [M2 M3]]].
      destruct (rng (sx_edge s)) as [|q [|q2 r]] eqn:Er; [destruct Hin| |].
      * destruct Hin as [->|[]].
        assert (Em1 : modify done p (fun _ => true) = Ok dm).
        { unfold mark in M1. cbn [for_each] in M1. destruct (modify done p (fun _ => true)); cbn [bind] in M1; auto; discriminate. }
        refine (eq_ind_r (fun z => exists es, _ /\ _ /\ _ /\ _ /\ (do st <- (do st1 <- z; _); _) = _) (Step (single p) dm _ _ _) _).
        -- intros y. unfold handle. rewrite Er. auto.
        -- congruence.
        -- auto.
        -- rewrite Em1. destruct (single p x); reflexivity.
      * refine (eq_ind_r (fun z => exists es, _ /\ _ /\ _ /\ _ /\ (do st <- (do st1 <- z; _); _) = _) (Step (many (q :: q2 :: r)) dm _ _ _) _).
        -- intros y. unfold handle. rewrite Er. auto.
        -- congruence.
        -- auto.
        -- rewrite M1. destruct (many (q :: q2 :: r) x); reflexivity.
Qed.

(** Visiting all snaxels handles every occupied edge exactly once. *)
Lemma upto_In n k p : In p (upto n k) <-> (k <= p < k + Z.of_nat n)%Z.
Proof.
  revert k. induction n as [|n IH]; intros k; simpl; [lia|]. rewrite IH. lia.
Qed.
Lemma visit_all x : exists es, NoDup es /\ (forall e, In e es <-> exists s, In s l /\ sx_edge s = e) /\
  (do st <- for_each (upto (length l) 0) (visit rng l single many) (x, repeat false (length l)); Ok (fst st))
  = for_each es handle x.
Proof.
  destruct (@visit_loop (upto (length l) 0) [] (repeat false (length l)) x) as [es [H1 [H2 [H3 [H4 H5]]]]].
  - apply repeat_length.
  - intros p Hp. apply upto_In in Hp. lia.
  - intros k s Hs. simpl. apply nth_error_repeat. apply nth_error_Some. congruence.
  - exists es. split; auto. split; auto. intros e. split.
    + intros He. destruct (H3 e He) as [p [s [_ [Hs Ee]]]]. exists s. split; auto. eapply nth_error_In; eauto.
    + intros [s [Hs <-]]. apply In_nth_error in Hs. destruct Hs as [k Hk].
      destruct (H4 (Z.of_nat k) s) as [[]|]; auto.
      * apply upto_In. assert (k < length l)%nat by (apply nth_error_Some; congruence). lia.
      * rewrite Nat2Z.id; auto.
Qed.
End Visit.

(** ** CalculateTimeStep *)
Lemma bind_ret A (x : outcome A) d : (do s <- x; Ok s) = Ok d -> x = Ok d.
Proof. destruct x; auto. Qed.
Definition below (dt' dt : list Q) : Prop := Forall2 (fun x' x => x' <= x) dt' dt.
Lemma below_refl dt : below dt dt.
Proof. induction dt; constructor; auto. lra. Qed.
Lemma below_trans a b c : below a b -> below b c -> below a c.
Proof.
  intros H. revert c. induction H as [|x y r r' H0 H1 IH]; intros c Hc; inversion Hc; subst; constructor; auto. lra.
  apply IH; auto.
Qed.
Lemma below_at a b k x y : below a b -> nth_error a k = Some x -> nth_error b k = Some y -> x <= y.
Proof. intros H E F. exact (Forall2_nth H k E F). Qed.

Lemma lower_ok (dt : list Qn) p t : (0 <= p < Z.of_nat (length dt))%Z ->
  exists dt', lower Qn dt p t = Ok dt' /\ below dt' dt /\
    (forall x, nth_error dt' (Z.to_nat p) = Some x -> x <= t) /\
    (forall k, k <> Z.to_nat p -> nth_error dt' k = nth_error dt k) /\
    (Forall (fun x => 0 <= x) dt -> 0 <= t -> Forall (fun x => 0 <= x) dt') /\
    (forall x, nth_error dt (Z.to_nat p) = Some x -> nth_error dt' (Z.to_nat p) = Some (if qlt t x then t else x)).
Proof.
  intros Hp. destruct (at_in_range _ Hp) as [x0 Hx]. unfold lower, modify. rewrite Hx. cbn [bind].
  apply at_Ok in Hx. destruct Hx as [_ Hx].
  assert (Hlen : (Z.to_nat p < length dt)%nat) by lia.
  eexists. split; [reflexivity|]. qn. split; [|split; [|split; [|split]]].
  - clear Hlen Hp. revert Hx. generalize (Z.to_nat p) as n. induction dt as [|y dt IH]; intros [|n] Hx; simpl in *; try discriminate.
    + injection Hx as ->. constructor; [|apply below_refl]. qcases; lra.
    + constructor; [lra|]. apply IH; auto.
  - intros x. rewrite nth_error_upd_same by auto. intros E. injection E as <-. qcases; lra.
  - intros k Hk. apply nth_error_upd_other. auto.
  - intros HF Ht. apply Forall_forall. intros z Hz. apply In_nth_error in Hz. destruct Hz as [k Hk].
    destruct (Nat.eq_dec k (Z.to_nat p)) as [->|Hne].
    + rewrite nth_error_upd_same in Hk by auto. injection Hk as <-.
      apply nth_error_In in Hx. rewrite Forall_forall in HF. specialize (HF _ Hx). qcases; lra.
    + rewrite nth_error_upd_other in Hk by auto. apply nth_error_In in Hk. rewrite Forall_forall in HF. auto.
  - intros x Ex. rewrite nth_error_upd_same by auto. pose proof (eq_trans (eq_sym Hx) Ex) as K. injection K as <-. reflexivity.
Qed.
Lemma below_length a b : below a b -> length a = length b.
Proof. apply Forall2_len. Qed.

Definition keeps (l : list qsnax) (dt : list Q) (p q : Z) : Prop :=
  forall s1 s2 x y, nth_error l (Z.to_nat p) = Some s1 -> nth_error l (Z.to_nat q) = Some s2 ->
    nth_error dt (Z.to_nat p) = Some x -> nth_error dt (Z.to_nat q) = Some y ->
    0 <= impact_dt s1 s2 -> x <= impact_dt s1 s2 /\ y <= impact_dt s1 s2.
Lemma keeps_below l dt dt' p q : below dt' dt -> keeps l dt p q -> keeps l dt' p q.
Proof.
  intros B K s1 s2 x y H1 H2 Hx Hy Hi.
  destruct (Forall2_ex B _ Hx) as [x0 [E1 L1]]. destruct (Forall2_ex B _ Hy) as [y0 [E2 L2]].
  destruct (K s1 s2 x0 y0 H1 H2 E1 E2 Hi). split; lra.
Qed.

Lemma time_pairs (l : list qsnax) ps : forall dt : list Q,
  (forall p q, In (p, q) ps -> (0 <= p < Z.of_nat (length l))%Z /\ (0 <= q < Z.of_nat (length l))%Z) ->
  length dt = length l ->
  exists dt', for_each ps
    (fun pq (dt : list Qn) => do s1 <- at_ l (fst pq); do s2 <- at_ l (snd pq);
       let t := impact_dt s1 s2 in
       if nle (n0 : Qn) t then do dt1 <- lower Qn dt (fst pq) t; lower Qn dt1 (snd pq) t else Ok dt) dt = Ok dt' /\
    below dt' dt /\ (forall p q, In (p, q) ps -> keeps l dt' p q) /\
    (Forall (fun x => 0 <= x) dt -> Forall (fun x => 0 <= x) dt') /\
    (forall k, (forall p q, In (p, q) ps -> Z.to_nat p <> k /\ Z.to_nat q <> k) -> nth_error dt' k = nth_error dt k).
Proof.
  induction ps as [|[p q] ps IH]; intros dt Hr Hl.
  - exists dt. split; [auto|]. split; [apply below_refl|]. split; [intros ? ? []|]. auto.
  - destruct (Hr p q (or_introl eq_refl)) as [Hp Hq].
    destruct (at_in_range _ Hp) as [s1 H1]. destruct (at_in_range _ Hq) as [s2 H2].
    cbn [for_each fst snd]. rewrite H1, H2. cbn [bind]. cbv zeta. qn.
    assert (Hn1 := proj1 (at_Ok _ _ _) H1). assert (Hn2 := proj1 (at_Ok _ _ _) H2).
    destruct Hn1 as [_ Hn1], Hn2 as [_ Hn2].
    destruct (Qle_bool 0 (impact_dt s1 s2)) eqn:Ei.
    + apply Qle_bool_iff in Ei.
      destruct (@lower_ok dt p (impact_dt s1 s2)) as [d1 [E1 [B1 [L1 [O1 [F1 _]]]]]]; [change (carrier Qn) with Q; lia|].
      rewrite E1. cbn [bind].
      destruct (@lower_ok d1 q (impact_dt s1 s2)) as [d2 [E2 [B2 [L2 [O2 [F2 _]]]]]];
        [change (carrier Qn) with Q; rewrite (below_length B1); lia|].
      rewrite E2. cbn [bind].
      destruct (IH d2) as [d3 [E3 [B3 [K3 [F3 O3]]]]].
      { intros; apply Hr; right; auto. }
      { rewrite (below_length B2), (below_length B1). auto. }
      exists d3. split; [exact E3|]. split; [eapply below_trans; [eauto|]; eapply below_trans; eauto|]. split; [|split].
      * intros p' q' [E|Hin]; [|auto]. injection E as <- <-. apply (keeps_below B3).
        intros t1 t2 x y T1 T2 Hx Hy Hi. rewrite Hn1 in T1. rewrite Hn2 in T2. injection T1 as <-. injection T2 as <-.
        split; [|apply L2; auto]. destruct (Forall2_ex B2 _ Hx) as [x0 [Ex0 Lx]]. specialize (L1 _ Ex0). lra.
      * auto.
      * intros k Hk. rewrite O3 by (intros; apply Hk; right; auto).
        destruct (Hk p q (or_introl eq_refl)). rewrite O2 by auto. apply O1; auto.
    + cbn [bind]. destruct (IH dt) as [d3 [E3 [B3 [K3 [F3 O3]]]]]; auto.
      { intros; apply Hr; right; auto. }
      exists d3. split; [exact E3|]. split; auto. split; [|split; auto].
      * intros p' q' [E|Hin]; [|auto]. injection E as <- <-. intros t1 t2 x y T1 T2 Hx Hy Hi.
        rewrite Hn1 in T1. rewrite Hn2 in T2. injection T1 as <-. injection T2 as <-. apply qle_false in Ei. lra.
      * intros k Hk. apply O3. intros; apply Hk; right; auto.
Qed.
Lemma pairs_In A (l : list A) x y : In (x, y) (pairs l) -> In x l /\ In y l.
Proof.
  induction l as [|a l IH]; simpl; [tauto|]. intros H. apply in_app_or in H. destruct H as [H|H].
  - apply in_map_iff in H. destruct H as [z [E Hz]]. injection E as <- <-. auto.
  - destruct (IH H); auto.
Qed.
Lemma pairs_total A (l : list A) x y : In x l -> In y l -> x <> y -> In (x, y) (pairs l) \/ In (y, x) (pairs l).
Proof.
  induction l as [|a l IH]; simpl; [tauto|]. intros [->|Hx] [->|Hy] Hn; [congruence| | |].
  - left. apply in_or_app. left. apply in_map_iff. eauto.
  - right. apply in_or_app. left. apply in_map_iff. eauto.
  - destruct (IH Hx Hy Hn); [left|right]; apply in_or_app; auto.
Qed.

Section Steps.
Variable rng : Z -> list Z.
Variable l : list qsnax.
Hypothesis legal : legal_rng l rng.
Lemma rng_range e p : In p (rng e) -> (0 <= p < Z.of_nat (length l))%Z.
Proof.
  intros H. apply (proj2 (legal e)) in H. destruct H as [H0 [s [Hs _]]].
  assert (Z.to_nat p < length l)%nat by (apply nth_error_Some; congruence). lia.
Qed.
Definition on_edges (es : list Z) (k : nat) : Prop := exists e, In e es /\ In (Z.of_nat k) (rng e).

Lemma time_edges es : (forall e, In e es -> rng e <> []) -> NoDup es -> forall dt : list Q, length dt = length l ->
  exists dt', for_each es (handle rng (fun _ dt => Ok dt) (fun subs (dt : list Qn) => time_on_edge l subs dt)) dt = Ok dt' /\
    below dt' dt /\ (Forall (fun x => 0 <= x) dt -> Forall (fun x => 0 <= x) dt') /\
    (forall e p q, In e es -> In p (rng e) -> In q (rng e) -> p <> q -> keeps l dt' p q \/ keeps l dt' q p) /\
    (forall k, ~ on_edges es k -> nth_error dt' k = nth_error dt k) /\
    (forall e p q, In e es -> rng e = [p; q] -> nth_error dt (Z.to_nat p) = nth_error dt (Z.to_nat q) ->
                   nth_error dt' (Z.to_nat p) = nth_error dt' (Z.to_nat q)).
Proof.
  induction es as [|e es IH]; intros Hne Hnd dt Hl.
  - exists dt. split; [auto|]. split; [apply below_refl|]. split; [auto|]. split; [intros ? ? ? []|]. split; [auto|intros ? ? ? []].
  - inversion Hnd as [|? ? Hni Hnd']; subst.
    assert (Hstep : exists d1, handle rng (fun _ dt => Ok dt) (fun subs (dt : list Qn) => time_on_edge l subs dt) e dt = Ok d1 /\
       below d1 dt /\ (Forall (fun x => 0 <= x) dt -> Forall (fun x => 0 <= x) d1) /\
       (forall p q, In p (rng e) -> In q (rng e) -> p <> q -> keeps l d1 p q \/ keeps l d1 q p) /\
       (forall k, ~ In (Z.of_nat k) (rng e) -> nth_error d1 k = nth_error dt k) /\
       (forall p q, rng e = [p; q] -> nth_error dt (Z.to_nat p) = nth_error dt (Z.to_nat q) ->
                   nth_error d1 (Z.to_nat p) = nth_error d1 (Z.to_nat q))).
    { unfold handle. destruct (rng e) as [|p [|p2 r]] eqn:Er; [exfalso; apply (Hne e); simpl; auto| |].
      - exists dt. split; [auto|]. split; [apply below_refl|]. split; [auto|]. split; [|split; [auto|discriminate]].
        intros p0 q0 [<-|[]] [<-|[]]; congruence.
      - destruct (@time_pairs l (pairs (p :: p2 :: r)) dt) as [d1 [E1 [B1 [K1 [F1 O1]]]]]; auto.
        { intros x y Hxy. apply pairs_In in Hxy. rewrite <- Er in Hxy. destruct Hxy; split; eapply rng_range; eauto. }
        exists d1. split; [exact E1|]. split; auto. split; auto. split; [|split].
        + intros x y Hx Hy Hn. destruct (@pairs_total _ _ _ _ Hx Hy Hn) as [H|H]; [left|right]; auto.
        + intros k Hk. apply O1. intros x y Hxy. apply pairs_In in Hxy.
          assert (R : forall z, In z (p :: p2 :: r) -> Z.to_nat z <> k).
          { intros z Hz E. apply Hk. subst k. rewrite <- Er in *. rewrite Z2Nat.id; auto. destruct (rng_range _ _ Hz); auto. }
          destruct Hxy; split; apply R; auto.
        + intros x y Exy Heq. injection Exy as -> -> ->.
          unfold time_on_edge in E1. cbn [pairs map app for_each fst snd] in E1.
          destruct (at_ l x) as [s1| | |]; try discriminate. destruct (at_ l y) as [s2| | |]; try discriminate. cbn [bind] in E1. cbv zeta in E1. qn.
          destruct (Qle_bool 0 (impact_dt s1 s2)); [|cbn [bind] in E1; injection E1 as <-; auto].
          assert (Hx : In x (rng e)) by (rewrite Er; simpl; auto). assert (Hy : In y (rng e)) by (rewrite Er; simpl; auto).
          apply rng_range in Hx, Hy.
          destruct (@lower_ok dt x (impact_dt s1 s2)) as [da [Ea [Ba [_ [Oa [_ La]]]]]]; [change (carrier Qn) with Q; lia|]. rewrite Ea in E1. cbn [bind] in E1.
          destruct (@lower_ok da y (impact_dt s1 s2)) as [db [Eb [_ [_ [Ob [_ Lb]]]]]]; [change (carrier Qn) with Q; rewrite (below_length Ba); lia|].
          rewrite Eb in E1. cbn [bind] in E1. injection E1 as <-.
          assert (Hxy : x <> y).
          { intros ->. pose proof (proj1 (legal e)) as K. rewrite Er in K. inversion K; subst. simpl in *; tauto. }
          assert (Hnxy : Z.to_nat x <> Z.to_nat y) by lia.
          assert (Ev0 : exists v, nth_error dt (Z.to_nat x) = Some v) by (destruct (nth_error dt (Z.to_nat x)) as [v|] eqn:Ev; [eauto|apply nth_error_None in Ev; lia]). destruct Ev0 as [v Ev].
          rewrite (Ob _ Hnxy). rewrite (La v Ev). symmetry. apply Lb. rewrite Oa by auto. exact (eq_trans (eq_sym Heq) Ev). }
    destruct Hstep as [d1 [E1 [B1 [F1 [K1 [O1 Q1]]]]]].
    cbn [for_each]. rewrite E1. cbn [bind].
    destruct (IH (fun e' H => Hne e' (or_intror H)) Hnd' d1) as [d2 [E2 [B2 [F2 [K2 [O2 Q2]]]]]]; [rewrite (below_length B1); auto|].
    assert (Hdisj : forall e1 e2 p, In p (rng e1) -> In p (rng e2) -> e1 = e2).
    { intros e1 e2 p A B. apply (proj2 (legal e1)) in A. apply (proj2 (legal e2)) in B.
      destruct A as [_ [s [Hs <-]]], B as [_ [t [Ht <-]]]. congruence. }
    assert (Hout : forall p, In p (rng e) -> ~ on_edges es (Z.to_nat p)).
    { intros p Hp [e' [He' Hp']]. rewrite Z2Nat.id in Hp' by (destruct (rng_range _ _ Hp); auto).
      rewrite (Hdisj _ _ _ Hp Hp') in Hni. contradiction. }
    exists d2. split; [exact E2|]. split; [eapply below_trans; eauto|]. split; [auto|]. split; [|split].
    + intros e' p q [<-|He'] Hp Hq Hn; [|apply (K2 e'); auto].
      destruct (K1 p q Hp Hq Hn); [left|right]; eapply keeps_below; eauto.
    + intros k Hk. rewrite O2 by (intros [e' [A B]]; apply Hk; exists e'; simpl; auto). apply O1.
      intros A. apply Hk. exists e; simpl; auto.
    + intros e' p q [<-|He'] Ee Heq.
      * rewrite !O2 by (apply Hout; rewrite Ee; simpl; auto). apply Q1; auto.
      * apply (Q2 e'); auto.
        assert (R : forall z, In z (rng e') -> ~ In (Z.of_nat (Z.to_nat z)) (rng e)).
        { intros z Hz A. rewrite Z2Nat.id in A by (destruct (rng_range _ _ Hz); auto).
          rewrite (Hdisj _ _ _ A Hz) in Hni. contradiction. }
        rewrite !O1 by (apply R; rewrite Ee; simpl; auto). auto.
Qed.

Lemma shape_le dist dt : @shape_dt Qn dist l dt <= dt.
Proof.
  unfold shape_dt. clear legal. revert dt. induction l as [|s r IH]; intros dt; simpl; [lra|].
  eapply Qle_trans; [apply IH|]. qn. qcases; lra.
Qed.
Lemma shape_limit dist dt s : In s l -> eps < sx_v s -> sx_v s * @shape_dt Qn dist l dt <= dist.
Proof.
  unfold shape_dt. clear legal. intros Hs Hv. unfold eps in Hv. revert dt. induction l as [|t r IH]; intros dt; [destruct Hs|].
  simpl. destruct Hs as [->|Hs]; [|apply IH; auto]. qn. rewrite (proj2 (qlt_true _ _) Hv).
  assert (Hle : forall d, fold_left (fun (dt0 : Q) (s0 : qsnax) => if qlt (1 # 4503599627370496) (sx_v s0)
                  then if qlt (dist / Qabs (sx_v s0)) dt0 then dist / Qabs (sx_v s0) else dt0 else dt0) r d <= d).
  { clear. induction r as [|t r IH]; intros d; simpl; [lra|]. eapply Qle_trans; [apply IH|]. qcases; lra. }
  match goal with |- _ * fold_left _ _ ?d <= _ => specialize (Hle d); set (f := fold_left _ _ d) in * end.
  assert (Ea : Qabs (sx_v s) == sx_v s) by (apply Qabs_pos; lra).
  assert (f <= dist / sx_v s) as Hf.
  { qcases; rewrite Ea in *; lra. }
  rewrite Qmult_comm. apply div_mult_le; auto. lra.
Qed.
Lemma shape_nonneg dist dt : 0 <= dist -> 0 <= dt -> 0 <= @shape_dt Qn dist l dt.
Proof.
  unfold shape_dt. clear legal. intros Hd. revert dt. induction l as [|t r IH]; intros dt Hdt; simpl; auto.
  apply IH. qn. qcases; auto. apply Qle_shift_div_l; [|lra]. rewrite Qabs_pos; lra.
Qed.

Definition dt_start (conserve : bool) dist dt : Q := if conserve then @shape_dt Qn dist l dt else dt.
Lemma time_step_spec conserve dt dist : exists dts, @time_step Qn rng conserve l dt dist = Ok dts /\
  length dts = length l /\
  (forall k x, nth_error dts k = Some x -> x <= dt_start conserve dist dt) /\
  (0 <= dt -> 0 <= dist -> forall k x, nth_error dts k = Some x -> 0 <= x) /\
  (forall p q s t, nth_error l p = Some s -> nth_error l q = Some t -> p <> q -> sx_edge s = sx_edge t ->
     keeps l dts (Z.of_nat p) (Z.of_nat q) \/ keeps l dts (Z.of_nat q) (Z.of_nat p)) /\
  (forall e p q, rng e = [p; q] -> nth_error dts (Z.to_nat p) = nth_error dts (Z.to_nat q)) /\
  (forall e p, rng e = [p] -> nth_error dts (Z.to_nat p) = Some (dt_start conserve dist dt)).
Proof.
  set (dt0 := dt_start conserve dist dt).
  destruct (visit_all legal (fun _ dt => Ok dt) (fun subs (dt : list Qn) => time_on_edge l subs dt) (repeat dt0 (length l)))
    as [es [Hnd [Hes E]]].
  assert (Hne : forall e, In e es -> rng e <> []).
  { intros e He Hr. apply Hes in He. destruct He as [s [Hs <-]]. apply In_nth_error in Hs. destruct Hs as [k Hk].
    pose proof (rng_self legal _ Hk) as K. rewrite Hr in K. destruct K. }
  destruct (time_edges Hne Hnd (repeat dt0 (length l))) as [dts [E1 [B1 [F1 [K1 [O1 Q1]]]]]]; [apply repeat_length|].
  assert (Hrep : forall k, (k < length l)%nat -> nth_error (repeat dt0 (length l)) k = Some dt0)
    by (intros; apply nth_error_repeat; auto).
  exists dts. split; [|split; [|split; [|split; [|split; [|split]]]]].
  - unfold time_step. change (if conserve then shape_dt dist l dt else dt) with dt0. etransitivity; [exact E|exact E1].
  - exact (eq_trans (below_length B1) (repeat_length _ _)).
  - intros k x Hx. destruct (Forall2_ex B1 _ Hx) as [y [Hy L]]. apply nth_error_In, repeat_spec in Hy. subst; auto.
  - intros Hdt Hdist k x Hx. apply nth_error_In in Hx. revert x Hx. apply Forall_forall. apply F1.
    apply Forall_forall. intros x Hx. apply repeat_spec in Hx. subst x. unfold dt0, dt_start.
    destruct conserve; auto. apply shape_nonneg; auto.
  - intros p q s t Hs Ht Hpq He. apply (K1 (sx_edge s)).
    + apply Hes. exists s. split; auto. eapply nth_error_In; eauto.
    + apply (rng_self legal); auto.
    + rewrite He. apply (rng_self legal); auto.
    + lia.
  - intros e p q Er.
    assert (Hp : In p (rng e)) by (rewrite Er; simpl; auto). assert (Hq : In q (rng e)) by (rewrite Er; simpl; auto).
    apply (Q1 e); auto.
    + apply Hes. apply (proj2 (legal e)) in Hp. destruct Hp as [_ [s [Hs <-]]]. exists s; split; auto. eapply nth_error_In; eauto.
    + apply rng_range in Hp, Hq. rewrite !Hrep by lia. auto.
  - intros e p Er. assert (Hp : In p (rng e)) by (rewrite Er; simpl; auto). pose proof (rng_range _ _ Hp).
    (* an edge with one snaxel leaves the vector as it is *)
    assert (Hk : forall es' (d d' : list Qn), (forall e', In e' es' -> rng e' <> []) -> NoDup es' -> length d = length l ->
       for_each es' (handle rng (fun _ dt => Ok dt) (fun subs (dt : list Qn) => time_on_edge l subs dt)) d = Ok d' ->
       nth_error d' (Z.to_nat p) = nth_error d (Z.to_nat p)).
    { induction es' as [|e' es' IH']; intros d d' Hne' Hnd' Hl Hd; simpl in Hd; [congruence|].
      inversion Hnd' as [|? ? N1 N2]; subst.
      destruct (Z.eq_dec e' e) as [->|Hee].
      - unfold handle at 1 in Hd. rewrite Er in Hd. cbn [bind] in Hd.
        apply (IH' d d'); auto. intros; apply Hne'; right; auto.
      - assert (Hs1 : forall x, In x [e'] -> rng x <> []) by (intros x [<-|[]]; apply Hne'; left; auto).
        assert (Hs2 : NoDup [e']) by (constructor; [intros []|constructor]).
        destruct (@time_edges [e'] Hs1 Hs2 d Hl) as [d1 [X1 [X2 [_ [_ [X5 _]]]]]].
        assert (Hh : handle rng (fun _ dt => Ok dt) (fun subs (dt : list Qn) => time_on_edge l subs dt) e' d = Ok d1).
        { exact (bind_ret _ X1). }
        match type of Hd with bind ?h _ = _ => replace h with (Ok d1 : outcome (list Q)) in Hd by (symmetry; exact Hh) end.
        cbn [bind] in Hd.
        rewrite (IH' d1 d' (fun x H => Hne' x (or_intror H)) N2); auto.
        + apply X5. intros [e2 [[<-|[]] H2]]. rewrite Z2Nat.id in H2 by lia. apply Hee.
          apply (proj2 (legal e')) in H2. apply (proj2 (legal e)) in Hp.
          destruct H2 as [_ [s [Hs <-]]], Hp as [_ [t [Ht <-]]]. congruence.
        + exact (eq_trans (below_length X2) Hl). }
    rewrite (Hk es (repeat dt0 (length l)) dts); auto; [|apply repeat_length]. apply Hrep. lia.
Qed.
End Steps.

(** ** Moving by a common time step *)
Lemma move_pos a b (s : qsnax) x u T lim : 0 <= lim -> pos_is a b s x -> vel_is a b s u -> a <> b ->
  pos_is a b (move (N := Qn) T lim s) (@clamp Qn (x + @limited Qn lim (u * T))).
Proof.
  intros Hl Hp Hv Hab. unfold move, pos_is. cbn [sx_set_d sx_from sx_to sx_d].
  destruct Hp as [[F1 [T1 X1]]|[F1 [T1 X1]]], Hv as [[F2 [T2 U1]]|[F2 [T2 U1]]]; try congruence; [left|right]; repeat split; auto; qn.
  - apply clamp_ext. rewrite X1. rewrite (limited_ext lim (x := u * T) (y := sx_v s * T)); [lra|]. rewrite U1. reflexivity.
  - rewrite <- clamp_turn. apply clamp_ext.
    rewrite (limited_ext lim (x := u * T) (y := - (sx_v s * T))) by (rewrite U1; ring).
    rewrite limited_opp by auto. lra.
Qed.
Lemma vel_is_ex a b (s : qsnax) : runs a b s -> exists x, vel_is a b s x.
Proof.
  intros [[H1 H2]|[H1 H2]]; [exists (sx_v s)|exists (- sx_v s)]; [left|right]; repeat split; auto; reflexivity.
Qed.
Lemma move_keeps_order a b (s1 s2 : qsnax) x1 x2 T lim y1 y2 : a <> b -> 0 <= lim ->
  pos_is a b s1 x1 -> pos_is a b s2 x2 -> 0 <= T -> T <= 1 ->
  (0 <= impact_dt s1 s2 -> T <= impact_dt s1 s2) \/ (0 <= impact_dt s2 s1 -> T <= impact_dt s2 s1) ->
  x1 <= x2 -> pos_is a b (move (N := Qn) T lim s1) y1 -> pos_is a b (move (N := Qn) T lim s2) y2 -> y1 <= y2.
Proof.
  intros Hab Hl P1 P2 T0 T1 Hi Hx Q1 Q2.
  assert (R1 : runs a b s1) by (destruct P1 as [[A [B _]]|[A [B _]]]; [left|right]; auto).
  assert (R2 : runs a b s2) by (destruct P2 as [[A [B _]]|[A [B _]]]; [left|right]; auto).
  destruct (vel_is_ex R1) as [u1 V1]. destruct (vel_is_ex R2) as [u2 V2].
  pose proof (move_pos T Hl P1 V1 Hab) as M1. pose proof (move_pos T Hl P2 V2 Hab) as M2.
  pose proof (pos_is_fun Hab Q1 M1) as E1. pose proof (pos_is_fun Hab Q2 M2) as E2. rewrite E1, E2. apply clamp_mono.
  assert (Hle : x1 + u1 * T <= x2 + u2 * T).
  { destruct Hi as [Hi|Hi]; [apply (no_cross Hab P1 P2 V1 V2 T0 T1 Hi); auto|apply (no_cross Hab P2 P1 V2 V1 T0 T1 Hi); auto]. }
  pose proof (@limited_gap lim (u1 * T) (u2 * T) (x2 - x1) Hl). lra.
Qed.

(** ** SnaxImpactDetection *)
Lemma impact_zero a b (s1 s2 : qsnax) : a <> b -> runs a b s1 -> runs a b s2 ->
  (@approx Qn (impact_dt s1 s2) 0 = true <-> meets a b s1 s2).
Proof.
  intros Hab R1 R2. destruct (pos_is_ex R1) as [x1 P1]. destruct (pos_is_ex R2) as [x2 P2].
  destruct (vel_is_ex R1) as [u1 V1]. destruct (vel_is_ex R2) as [u2 V2].
  destruct (impact_cases Hab P1 P2 V1 V2) as [dD [dV [HD E]]]. rewrite E. clear E.
  assert (HM : meets a b s1 s2 <-> (Qabs dD < eps \/ (eps <= Qabs dV /\ Qabs dD < eps * Qabs dV))).
  { assert (A : Qabs dD == Qabs (x2 - x1) /\ Qabs dV == Qabs (u2 - u1)).
    { destruct HD as [[H1 H2]|[H1 H2]]; rewrite H1, H2; [split; reflexivity|split; rewrite Qabs_Qminus; reflexivity]. }
    destruct A as [A1 A2]. unfold meets. split.
    - intros [x [y [u [v [Px [Py [Vu [Vv H]]]]]]]].
      assert (Ex : x == x1) by (apply (pos_is_fun Hab Px P1)). assert (Ey : y == x2) by (apply (pos_is_fun Hab Py P2)).
      assert (Eu : u == u1) by (destruct Vu as [[? [? K]]|[? [? K]]], V1 as [[? [? K']]|[? [? K']]]; try congruence; lra).
      assert (Ev : v == u2) by (destruct Vv as [[? [? K]]|[? [? K]]], V2 as [[? [? K']]|[? [? K']]]; try congruence; lra).
      rewrite A1, A2. rewrite Ex, Ey, Eu, Ev in H. exact H.
    - intros H. exists x1, x2, u1, u2. rewrite A1, A2 in H. auto. }
  rewrite HM. unfold eps. destruct (@approx Qn dD 0) eqn:A1.
  - apply approx0 in A1. split; auto.
  - apply approx0_false in A1. destruct (@approx Qn dV 0) eqn:A2.
    + apply approx0 in A2. split; [intros H; vm_compute in H; discriminate|]. intros [H|[H _]]; lra.
    + apply approx0_false in A2. rewrite approx0.
      assert (Hn : ~ dV == 0) by (intros H; rewrite H in A2; vm_compute in A2; apply A2; auto).
      assert (Eq : Qabs (- dD / dV) * Qabs dV == Qabs dD).
      { rewrite <- Qabs_Qmult. rewrite <- (Qabs_opp dD). apply Qabs_wd. field. auto. }
      assert (Hv : 0 < Qabs dV) by lra. split.
      * intros H. right. split; auto. rewrite <- Eq. apply Qmult_lt_compat_r; auto.
      * intros [H|[_ H]]; [lra|]. rewrite <- Eq in H. apply Qmult_lt_r in H; auto.
Qed.
Lemma detect_many_In (n : Z) (ss : list qsnax) x : In x (detect_many n ss) <->
  (exists s, In s ss /\ In x (arrival_many n s)) \/ (exists s t, In (s, t) (pairs ss) /\ In x (collision s t)).
Proof.
  induction ss as [|s ss IH]; simpl.
  - split; [tauto|]. intros [[s [[] _]]|[s [t [[] _]]]].
  - rewrite !in_app_iff, in_flat_map, IH. split.
    + intros [[t [Ht Hx]]|[H|[[t [Ht Hx]]|[t [u [Ht Hx]]]]]].
      * right. exists s, t. split; auto. apply in_or_app. left. apply in_map_iff. eauto.
      * left; eauto.
      * left; eauto.
      * right. exists t, u. split; auto. apply in_or_app; auto.
    + intros [[t [[->|Ht] Hx]]|[t [u [Ht Hx]]]]; [auto|right; right; left; eauto|].
      apply in_app_or in Ht. destruct Ht as [Ht|Ht].
      * apply in_map_iff in Ht. destruct Ht as [w [E Hw]]. injection E as <- <-. left; eauto.
      * right; right; right; eauto.
Qed.
Lemma collision_In a b (s t : qsnax) i j : a <> b -> runs a b s -> runs a b t ->
  (In (i, j) (collision s t) <->
   Z.abs (sx_order s - sx_order t) = 1%Z /\ meets a b s t /\
   ((i = sx_index s /\ j = sx_index t) \/ (i = sx_index t /\ j = sx_index s))).
Proof.
  intros Hab R1 R2. unfold collision. qn.
  destruct (Z.eqb_spec (Z.abs (sx_order s - sx_order t)) 1) as [Eo|Eo]; cbn [andb].
  - destruct (@approx Qn (impact_dt s t) 0) eqn:A.
    + apply (impact_zero Hab R1 R2) in A. simpl. split.
      * intros [E|[E|[]]]; injection E as <- <-; auto.
      * intros [_ [_ [[-> ->]|[-> ->]]]]; auto.
    + split; [intros []|]. intros [_ [M _]]. apply (impact_zero Hab R1 R2) in M. congruence.
  - split; [intros []|]. tauto.
Qed.
Lemma meets_sym a b (s t : qsnax) : meets a b s t -> meets a b t s.
Proof.
  intros [x [y [u [v [P1 [P2 [V1 [V2 H]]]]]]]]. exists y, x, v, u. repeat (split; [auto|]).
  rewrite (Qabs_Qminus x y), (Qabs_Qminus u v). auto.
Qed.
Lemma approx1 (x : Q) : @approx Qn x 1 = true <-> Qabs (x - 1) < eps.
Proof. unfold approx. qn. rewrite qlt_true. unfold eps. tauto. Qed.
Lemma not_both (x : Q) : Qabs x < eps -> Qabs (x - 1) < eps -> False.
Proof. unfold eps. intros H1 H2. apply Qabs_Qlt_condition in H1, H2. lra. Qed.
Lemma arrival_In (s : qsnax) i j : In (i, j) (arrival s) <->
  i = sx_index s /\ ((j = (-1)%Z /\ at_start s) \/ (j = (-2)%Z /\ at_end s)).
Proof.
  unfold arrival, at_start, at_end. qn. unfold eps.
  destruct (@approx Qn (sx_d s) 0) eqn:A1; cbn [andb].
  - apply approx0 in A1. destruct (Qle_bool (sx_v s) 0) eqn:B1.
    + apply Qle_bool_iff in B1. simpl. split.
      * intros [E|[]]. injection E as <- <-. tauto.
      * intros [-> [[-> _]|[-> [K _]]]]; auto. destruct (not_both A1 K).
    + apply qle_false in B1.
      assert (B2 : @approx Qn (sx_d s) 1 = false).
      { destruct (@approx Qn (sx_d s) 1) eqn:A2; auto. apply approx1 in A2. destruct (not_both A1 A2). }
      rewrite B2. simpl. split; [tauto|]. intros [_ [[_ [_ K]]|[_ [K _]]]]; [lra|]. destruct (not_both A1 K).
  - apply approx0_false in A1. destruct (@approx Qn (sx_d s) 1) eqn:A2; cbn [andb].
    + apply approx1 in A2. destruct (Qle_bool 0 (sx_v s)) eqn:B1.
      * apply Qle_bool_iff in B1. simpl. split; [intros [E|[]]; injection E as <- <-; tauto|].
        intros [-> [[-> [K _]]|[-> _]]]; auto. lra.
      * apply qle_false in B1. simpl. split; [tauto|]. intros [_ [[_ [K _]]|[_ [_ K]]]]; lra.
    + simpl. split; [tauto|]. intros [_ [[_ [K _]]|[_ [K _]]]]; [lra|]. apply approx1 in K. congruence.
Qed.
Lemma arrival_many_In n (s : qsnax) i j : In (i, j) (arrival_many n s) <->
  i = sx_index s /\ ((j = (-1)%Z /\ at_start s /\ sx_order s = 1%Z) \/ (j = (-2)%Z /\ at_end s /\ sx_order s = n)).
Proof.
  unfold arrival_many, at_start, at_end. qn. unfold eps.
  destruct (@approx Qn (sx_d s) 0) eqn:A1; cbn [andb].
  - apply approx0 in A1.
    assert (B2 : @approx Qn (sx_d s) 1 = false).
    { destruct (@approx Qn (sx_d s) 1) eqn:A2; auto. apply approx1 in A2. destruct (not_both A1 A2). }
    rewrite B2. cbn [andb]. destruct (Qle_bool (sx_v s) 0) eqn:B1; cbn [andb].
    + apply Qle_bool_iff in B1. destruct (Z.eqb_spec (sx_order s) 1) as [Eo|Eo]; simpl.
      * split; [intros [E|[]]; injection E as <- <-; tauto|].
        intros [-> [[-> _]|[-> [[K _] _]]]]; auto. destruct (not_both A1 K).
      * split; [tauto|]. intros [_ [[_ [_ K]]|[_ [[K _] _]]]]; [contradiction|]. destruct (not_both A1 K).
    + apply qle_false in B1. simpl. split; [tauto|]. intros [_ [[_ [[_ K] _]]|[_ [[K _] _]]]]; [lra|]. destruct (not_both A1 K).
  - apply approx0_false in A1. destruct (@approx Qn (sx_d s) 1) eqn:A2; cbn [andb].
    + apply approx1 in A2. destruct (Qle_bool 0 (sx_v s)) eqn:B1; cbn [andb].
      * apply Qle_bool_iff in B1. destruct (Z.eqb_spec (sx_order s) n) as [Eo|Eo]; simpl.
        -- split; [intros [E|[]]; injection E as <- <-; tauto|].
           intros [-> [[-> [[K _] _]]|[-> _]]]; auto. lra.
        -- split; [tauto|]. intros [_ [[_ [[K _] _]]|[_ [_ K]]]]; [lra|contradiction].
      * apply qle_false in B1. simpl. split; [tauto|]. intros [_ [[_ [[K _] _]]|[_ [[_ K] _]]]]; lra.
    + simpl. split; [tauto|]. intros [_ [[_ [[K _] _]]|[_ [[K _] _]]]]; [lra|]. apply approx1 in K. congruence.
Qed.

(** What is found on the edge [e] *)
Definition found (rng : Z -> list Z) (l : list qsnax) (e : Z) : list (Z * Z) :=
  match rng e with
  | [] => []
  | [p] => match at_ l p with Ok s => arrival s | _ => [] end
  | subs => match omap_list (fun p => at_ l p) subs with Ok ss => detect_many (Z.of_nat (length subs)) ss | _ => [] end
  end.
Lemma omap_at A (l : list A) subs : (forall p, In p subs -> (0 <= p < Z.of_nat (length l))%Z) ->
  exists ss, omap_list (fun p => at_ l p) subs = Ok ss /\ Forall2 (fun p s => nth_error l (Z.to_nat p) = Some s) subs ss.
Proof.
  induction subs as [|p subs IH]; intros H; simpl; [eauto|].
  destruct (@at_in_range _ l p (H p (or_introl eq_refl))) as [s Hs]. rewrite Hs. cbn [bind].
  destruct IH as [ss [E F]]; [intros; apply H; right; auto|]. rewrite E. cbn [bind].
  eexists. split; [reflexivity|]. constructor; auto. apply at_Ok in Hs. tauto.
Qed.
Lemma detection_edges rng (l : list qsnax) : legal_rng l rng -> exists es, NoDup es /\
  (forall e, In e es <-> exists s, In s l /\ sx_edge s = e) /\ impact_detection rng l = Ok (flat_map (found rng l) es).
Proof.
  intros legal.
  destruct (visit_all legal (fun p out => do s <- at_ l p; Ok (out ++ arrival s))
             (fun subs out => do ss <- omap_list (fun p => at_ l p) subs;
                              Ok (out ++ detect_many (Z.of_nat (length subs)) ss)) []) as [es [Hnd [Hes E]]].
  exists es. split; auto. split; auto. unfold impact_detection. etransitivity; [exact E|]. clear E.
  assert (Hne : forall e, In e es -> rng e <> []).
  { intros e He Hr. apply Hes in He. destruct He as [s [Hs <-]]. apply In_nth_error in Hs. destruct Hs as [k Hk].
    pose proof (rng_self legal _ Hk) as K. rewrite Hr in K. destruct K. }
  assert (Hgo : forall es' out, (forall e, In e es' -> rng e <> []) ->
    for_each es' (handle rng (fun p out => do s <- at_ l p; Ok (out ++ arrival s))
             (fun subs out => do ss <- omap_list (fun p => at_ l p) subs;
                              Ok (out ++ detect_many (Z.of_nat (length subs)) ss))) out = Ok (out ++ flat_map (found rng l) es')).
  { induction es' as [|e es' IH]; intros out Hn; cbn [for_each flat_map]; [rewrite app_nil_r; auto|].
    assert (Hh : handle rng (fun p out => do s <- at_ l p; Ok (out ++ arrival s))
             (fun subs out => do ss <- omap_list (fun p => at_ l p) subs;
                              Ok (out ++ detect_many (Z.of_nat (length subs)) ss)) e out = Ok (out ++ found rng l e)).
    { unfold handle, found. destruct (rng e) as [|p [|p2 r]] eqn:Er; [exfalso; apply (Hn e); simpl; auto| |].
      - destruct (@at_in_range _ l p) as [s Hs]; [apply (@rng_range rng l legal e); rewrite Er; simpl; auto|].
        rewrite Hs. auto.
      - destruct (@omap_at _ l (p :: p2 :: r)) as [ss [Ess _]].
        { intros q Hq. apply (@rng_range rng l legal e). rewrite Er; auto. }
        rewrite Ess. auto. }
    rewrite Hh. cbn [bind]. rewrite IH by (intros; apply Hn; right; auto). rewrite app_assoc. auto. }
  apply (Hgo es [] Hne).
Qed.

Lemma sibs_match rng (l : list qsnax) e subs ss : legal_rng l rng -> rng e = subs ->
  Forall2 (fun p s => nth_error l (Z.to_nat p) = Some s) subs ss ->
  (forall s, In s ss <-> In s l /\ sx_edge s = e) /\
  (NoDup l -> NoDup ss /\ length ss = length (filter (fun t => sx_edge t =? e)%Z l)).
Proof.
  intros legal Er HF.
  assert (H1 : forall s, In s ss <-> In s l /\ sx_edge s = e).
  { intros s. split.
    - intros Hs. apply In_nth_error in Hs. destruct Hs as [k Hk].
      destruct (Forall2_ex_r HF _ Hk) as [p [Hp Hn]]. split; [eapply nth_error_In; eauto|].
      apply nth_error_In in Hp. rewrite <- Er in Hp. apply (proj2 (legal e)) in Hp. destruct Hp as [_ [t [Ht Et]]]. congruence.
    - intros [Hs He]. apply In_nth_error in Hs. destruct Hs as [k Hk].
      assert (Hin : In (Z.of_nat k) subs) by (rewrite <- Er, <- He; apply (rng_self legal); auto).
      apply In_nth_error in Hin. destruct Hin as [i Hi]. destruct (Forall2_ex HF _ Hi) as [t [Ht Hn]].
      rewrite Nat2Z.id in Hn. replace s with t by congruence. eapply nth_error_In; eauto. }
  split; auto. intros Hnd.
  assert (Hss : NoDup ss).
  { apply NoDup_nth_error. intros i j Hi Eij.
    destruct (nth_error ss i) as [s|] eqn:Es; [|apply nth_error_None in Es; lia]. symmetry in Eij.
    destruct (Forall2_ex_r HF _ Es) as [p [Hp Np]]. destruct (Forall2_ex_r HF _ Eij) as [q [Hq Nq]].
    assert (Z.to_nat p = Z.to_nat q).
    { apply (proj1 (NoDup_nth_error l) Hnd); [apply nth_error_Some; congruence|congruence]. }
    assert (Hrp : (0 <= p)%Z) by (apply nth_error_In in Hp; rewrite <- Er in Hp; apply (rng_range legal) in Hp; lia).
    assert (Hrq : (0 <= q)%Z) by (apply nth_error_In in Hq; rewrite <- Er in Hq; apply (rng_range legal) in Hq; lia).
    assert (p = q) by lia. subst q.
    pose proof (proj1 (legal e)) as Hn. rewrite Er in Hn. apply (proj1 (NoDup_nth_error subs) Hn); [apply nth_error_Some; congruence|congruence]. }
  split; auto.
  apply Permutation.Permutation_length. apply Permutation.NoDup_Permutation; auto.
  - apply NoDup_filter; auto.
  - intros s. rewrite H1, filter_In, Z.eqb_eq. tauto.
Qed.

Lemma detection_spec rng (l : list qsnax) ends : legal_rng l rng -> edges_agree ends l -> NoDup (map (fun s => sx_index s) l) ->
  exists out, impact_detection rng l = Ok out /\ forall i j, In (i, j) out <->
    (exists s, In s l /\ i = sx_index s /\ length (siblings l s) = 1%nat /\
       ((j = (-1)%Z /\ at_start s) \/ (j = (-2)%Z /\ at_end s))) \/
    (exists s, In s l /\ i = sx_index s /\ (1 < length (siblings l s))%nat /\
       ((j = (-1)%Z /\ at_start s /\ sx_order s = 1%Z) \/
        (j = (-2)%Z /\ at_end s /\ sx_order s = Z.of_nat (length (siblings l s))))) \/
    (exists s t, In s l /\ In t l /\ s <> t /\ sx_edge s = sx_edge t /\ i = sx_index s /\ j = sx_index t /\
       Z.abs (sx_order s - sx_order t) = 1%Z /\ meets (fst (ends (sx_edge s))) (snd (ends (sx_edge s))) s t).
Proof.
  intros legal Hends Hidx. assert (Hnd : NoDup l) by (apply NoDup_map_inv in Hidx; auto).
  destruct (detection_edges legal) as [es [Hes1 [Hes2 E]]]. exists (flat_map (found rng l) es). split; auto.
  intros i j. rewrite in_flat_map.
  (* one edge *)
  assert (Hone : forall e, In e es -> (In (i, j) (found rng l e) <->
    (exists s, In s l /\ sx_edge s = e /\ i = sx_index s /\ length (siblings l s) = 1%nat /\
       ((j = (-1)%Z /\ at_start s) \/ (j = (-2)%Z /\ at_end s))) \/
    (exists s, In s l /\ sx_edge s = e /\ i = sx_index s /\ (1 < length (siblings l s))%nat /\
       ((j = (-1)%Z /\ at_start s /\ sx_order s = 1%Z) \/
        (j = (-2)%Z /\ at_end s /\ sx_order s = Z.of_nat (length (siblings l s))))) \/
    (exists s t, In s l /\ In t l /\ sx_edge s = e /\ s <> t /\ sx_edge s = sx_edge t /\ i = sx_index s /\ j = sx_index t /\
       Z.abs (sx_order s - sx_order t) = 1%Z /\ meets (fst (ends (sx_edge s))) (snd (ends (sx_edge s))) s t))).
  { intros e He. apply Hes2 in He. destruct He as [s0 [Hs0 Ee0]]. unfold found.
    assert (Hsib : forall s, sx_edge s = e -> siblings l s = filter (fun t => sx_edge t =? e)%Z l)
      by (intros s <-; auto).
    destruct (rng e) as [|p [|p2 r]] eqn:Er.
    - exfalso. apply In_nth_error in Hs0. destruct Hs0 as [k Hk]. pose proof (rng_self legal _ Hk) as K.
      rewrite Ee0, Er in K. destruct K.
    - destruct (@at_in_range _ l p) as [s Hs]; [apply (@rng_range rng l legal e); rewrite Er; simpl; auto|].
      rewrite Hs. apply at_Ok in Hs. destruct Hs as [_ Hs].
      assert (HF : Forall2 (fun p s => nth_error l (Z.to_nat p) = Some s) [p] [s]) by (constructor; auto).
      destruct (@sibs_match rng l e _ _ legal Er HF) as [M1 M2]. destruct (M2 Hnd) as [_ Hlen]. simpl in Hlen.
      destruct (proj1 (M1 s) (or_introl eq_refl)) as [Hsl Hse].
      assert (Honly : forall t, In t l -> sx_edge t = e -> t = s).
      { intros t Ht Te. destruct (proj2 (M1 t) (conj Ht Te)) as [|[]]; auto. }
      rewrite arrival_In. split.
      + intros [-> H]. left. exists s. rewrite (Hsib s Hse), <- Hlen. auto.
      + intros [[t [Ht [Te [-> [_ H]]]]]|[[t [Ht [Te [-> [Hn _]]]]]|[t [u [Ht [Hu [Te [Hn [Ue _]]]]]]]]].
        * rewrite (Honly t Ht Te) in *. auto.
        * rewrite (Hsib t Te), <- Hlen in Hn. lia.
        * exfalso. apply Hn. rewrite (Honly t Ht Te). symmetry. apply Honly; auto. congruence.
    - destruct (@omap_at _ l (p :: p2 :: r)) as [ss [Ess HF]].
      { intros q Hq. apply (@rng_range rng l legal e). rewrite Er; auto. }
      rewrite Ess. destruct (@sibs_match rng l e _ _ legal Er HF) as [M1 M2]. destruct (M2 Hnd) as [Hnds Hlen].
      pose proof (Forall2_len HF) as Hlen2. rewrite Hlen2, detect_many_In.
      assert (Hlong : (1 < length (filter (fun t => sx_edge t =? e)%Z l))%nat) by (rewrite <- Hlen, <- Hlen2; simpl; lia).
      assert (Hruns : forall t, In t l -> sx_edge t = e -> fst (ends e) <> snd (ends e) /\ runs (fst (ends e)) (snd (ends e)) t).
      { intros t Ht Te. destruct (Hends t Ht) as [A B]. rewrite Te in *. split; [lia|auto]. }
      split.
      + intros [[s [Hs H]]|[s [t [Hst H]]]].
        * apply M1 in Hs. destruct Hs as [Hs Se]. apply arrival_many_In in H. destruct H as [-> H].
          right; left. exists s. rewrite (Hsib s Se). rewrite Hlen in H. auto.
        * assert (Hne : s <> t).
          { intros ->. clear - Hst Hnds. induction Hnds as [|x r Hx Hr IH]; simpl in Hst; [auto|].
            apply in_app_or in Hst. destruct Hst as [H|H]; [|auto]. apply in_map_iff in H. destruct H as [y [K Hy]].
            injection K as -> ->. contradiction. }
          pose proof (pairs_In _ _ _ Hst) as [Hs Ht]. apply M1 in Hs, Ht. destruct Hs as [Hs Se], Ht as [Ht Te].
          destruct (Hruns s Hs Se) as [Hab R1]. destruct (Hruns t Ht Te) as [_ R2].
          apply (@collision_In _ _ _ _ _ _ Hab R1 R2) in H. destruct H as [Ho [Hm [[-> ->]|[-> ->]]]]; right; right.
          -- exists s, t. rewrite Se, Te. repeat (split; [auto; congruence|]). auto.
          -- exists t, s. rewrite Se, Te. repeat (split; [auto; congruence|]). split; [lia|apply meets_sym; auto].
      + intros [[t [Ht [Te [-> [Hn H]]]]]|[[t [Ht [Te [-> [Hn H]]]]]|[s [t [Hs [Ht [Se [Hn [Ue [-> [-> [Ho Hm]]]]]]]]]]]].
        * rewrite (Hsib t Te) in Hn. lia.
        * left. exists t. split; [apply M1; auto|]. apply arrival_many_In. rewrite (Hsib t Te) in H. rewrite Hlen. auto.
        * right. assert (Te : sx_edge t = e) by congruence.
          destruct (Hruns s Hs Se) as [Hab R1]. destruct (Hruns t Ht Te) as [_ R2]. rewrite Se in Hm.
          destruct (@pairs_total _ ss s t) as [H|H]; [apply M1; auto|apply M1; auto|auto| |].
          -- exists s, t. split; auto. apply (@collision_In _ _ _ _ _ _ Hab R1 R2). auto.
          -- exists t, s. split; auto. apply (@collision_In _ _ _ _ _ _ Hab R2 R1). split; [lia|]. split; [apply meets_sym|]; auto. }
  split.
  - intros [e [He H]]. apply (Hone e He) in H. destruct H as [[s H]|[[s H]|[s [t H]]]].
    + left. exists s. tauto.
    + right; left. exists s. tauto.
    + right; right. exists s, t. tauto.
  - intros [[s H]|[[s H]|[s [t H]]]]; exists (sx_edge s);
      (assert (He : In (sx_edge s) es) by (apply Hes2; exists s; tauto)); split; auto; apply (Hone _ He).
    + left. exists s. tauto.
    + right; left. exists s. tauto.
    + right; right. exists s, t. tauto.
Qed.
