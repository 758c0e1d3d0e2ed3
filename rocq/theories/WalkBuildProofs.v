(** The parts of all surfaces. *)
From Coq Require Import List ZArith Lia Arith Permutation.
From Verif Require Import Base Containers ContainersProofs Mesh SpecMesh MeshProofs FloodProofs Order SpecOrder OrderProofs OrderMeshProofs Edit SpecEdit EditProofs Family SpecFamily FamilyMapProofs Calc Triangulate SpecTriangulate TriangulateProofs SpecWalk WalkProofs WalkLoopProofs.
Import Mesh.
Set Implicit Arguments.
Open Scope Z_scope.

Lemma pseudo_match l p q : (3 <= length l)%nat -> NoDup l -> p <> 0 -> q <> 0 -> p <> q -> follows l p q \/ follows l q p ->
  exists r, order_match_lists [0; p; q; 0] l p q = Ok r /\ ((r = 1 /\ follows l p q) \/ (r = -1 /\ follows l q p)).
Proof.
  intros L N P Q PQ F. unfold order_match_lists.
  assert (E : order_match [0; p; q; 0] p q = (-1, 2)).
  { unfold order_match. cbn [match_sum]. destruct (Z.eqb_spec 0 p); [congruence|]. destruct (Z.eqb_spec 0 q); [congruence|].
    rewrite Z.eqb_refl. destruct (Z.eqb_spec q p); [congruence|]. rewrite Z.eqb_refl. reflexivity. }
  rewrite E. destruct F as [F|F].
  - rewrite (order_match_after L N F). exists 1. auto.
  - rewrite (order_match_before L N F). exists (-1). auto.
Qed.
Lemma surface_known m tr s : family_ready m tr ->
  (exists su v0 v1 r, In su (surfs m) /\ su_index su = s /\ SpecFamily.sides su v0 v1 /\ surf_in_parent m tr s = Ok r /\ (0 <= r <-> between m tr su)) \/
  ((forall su, In su (surfs m) -> su_index su <> s) /\ surf_in_parent m tr s = Ok (-1)).
Proof.
  intros R. destruct (find_spec su_index (surfs m) s) as [[E N]|(j & su & E & Hj & Es)].
  - right. split; [intros su I X; apply N; now exists su|]. unfold surf_in_parent. now rewrite E.
  - left. assert (I := nth_error_In _ _ Hj). destruct R as (R1 & R2 & R3 & R4). destruct (R3 su I) as (v0 & v1 & Sd).
    destruct (@FamilyMapProofs.surf_in_parent_ok m tr (conj R1 (conj R2 (conj R3 R4))) su v0 v1 I Sd) as (r & Er & H).
    exists su, v0, v1, r. split; auto. split; auto. split; auto. rewrite <- Es. split; auto.
    destruct H as [[-> H]|(i & -> & Li & Ap & _)].
    + split; [lia|]. intros (w0 & w1 & i & Sd' & Li & Ap). destruct Sd as [r1 E1], Sd' as [r2 E2]. rewrite E1 in E2. injection E2 as <- <- _. now contradiction (H i Li).
    + split; [|lia]. intros _. now exists v0, v1, i.
Qed.

Section Build.
Variables (n : nat) (k : snk) (m : mesh) (tr : tree) (inside : Z -> Prop).
Hypothesis R : family_ready m tr.
Hypothesis Hu : NoDup (map ed_index (edges m)).
Hypothesis K : sound_snake k.
Hypothesis Hcut : forall su e, In su (surfs m) -> between m tr su -> In (e, su_index su) (sk_edges k) ->
  cut k m su inside /\ ~ In 0 (su_edgeind su).
Hypothesis Fuel : forall su, In su (surfs m) -> (2 * length (su_edgeind su) + 1 <= n)%nat.

Definition seen (parts : list trisf) (s : Z) (a : Z * Z) : Prop := exists x, In x parts /\ ts_parent x = s /\ In a (ts_corners x).
Record built (ii : nat) (done : list bool) (parts : list trisf) : Prop := {
  b_len : length done = length (sk_edges k);
  b_num : numbered 0 (map ts_index parts);
  b_parts : forall x, In x parts -> exists su, In su (surfs m) /\ between m tr su /\ (exists e, In (e, su_index su) (sk_edges k)) /\
    outlines k m inside su x /\ forall a, In a (ts_corners x) -> good k m su inside a;
  b_sep : separate parts;
  b_marks : forall su, In su (surfs m) -> between m tr su -> forall x,
    marked k su done x <-> (exists e, In (e, su_index su) (sk_edges k)) /\ seen parts (su_index su) (t_snake, x);
  b_done : forall i, (i < ii)%nat -> (i < length (sk_edges k))%nat -> nth_error done i = Some true }.

Lemma same_surf su su' : In su (surfs m) -> In su' (surfs m) -> su_index su = su_index su' -> su = su'.
Proof using R. intros I I' E. destruct R as (_ & U & _). eapply (@NoDup_idx_inj _ su_index); eauto. Qed.
Lemma turn_done ii done parts p1 p2 : built ii done parts -> nth_error done ii = Some true -> build_turn n k m tr ii (done, (p1, p2), parts) = Ok (done, (p1, p2), parts) /\ built (S ii) done parts.
Proof using All.
  intros B D. split.
  - unfold build_turn. assert (at_ done (Z.of_nat ii) = Ok true) as -> by (apply at_Ok; split; [lia|now rewrite Nat2Z.id]). reflexivity.
  - constructor; try apply B. intros i Li Lk. destruct (Nat.eq_dec i ii) as [->|]; auto. apply (b_done B); lia.
Qed.
Lemma turn ii done p1 p2 parts : built ii done parts -> (ii < length (sk_edges k))%nat ->
  exists done' q1 q2 parts', build_turn n k m tr ii (done, (p1, p2), parts) = Ok (done', (q1, q2), parts') /\ built (S ii) done' parts'.
Proof using R Hu K Hcut Fuel.
  intros B Lii. destruct (nth_error done ii) as [d|] eqn:D; [|apply nth_error_None in D; rewrite (b_len B) in D; lia].
  destruct d; [do 4 eexists; apply turn_done; eauto|].
  unfold build_turn. assert (at_ done (Z.of_nat ii) = Ok false) as -> by (apply at_Ok; split; [lia|now rewrite Nat2Z.id]). cbn [bind].
  destruct (nth_error (sk_edges k) ii) as [[e s]|] eqn:Se; [|apply nth_error_None in Se; lia].
  assert (at_ (sk_edges k) (Z.of_nat ii) = Ok (e, s)) as -> by (apply at_Ok; split; [lia|now rewrite Nat2Z.id]). cbn [bind].
  assert (Ie := nth_error_In _ _ Se).
  assert (Skip : (forall su, In su (surfs m) -> su_index su = s -> ~ between m tr su) -> built (S ii) (upd done ii true) parts).
  { intros Nb. constructor; try apply B.
    - now rewrite upd_length, (b_len B).
    - intros su I Bt x. rewrite <- (b_marks B I Bt x). split; intros (p & f & y & P & J & Dp); exists p, f, y; (split; [exact P|split; [exact J|]]).
      + rewrite nth_error_upd in Dp. destruct (Nat.eqb_spec ii p) as [<-|]; auto. rewrite Se in P. injection P as _ P. now contradiction (Nb su I).
      + rewrite nth_error_upd. destruct (Nat.eqb_spec ii p) as [<-|]; auto. rewrite D in Dp. discriminate.
    - intros i Li Lk. rewrite nth_error_upd. destruct (Nat.eqb_spec ii i) as [<-|].
      + replace (ii <? length done)%nat with true by (symmetry; apply Nat.ltb_lt; rewrite (b_len B); lia). reflexivity.
      + apply (b_done B); lia. }
  destruct (surface_known s R) as [(su & v0 & v1 & j & Is & Es & Sd & Ej & Hj)|[Ns Ej]]; rewrite Ej; cbn [bind].
  2:{ change (0 <=? -1) with false. cbv iota. do 4 eexists. split; [reflexivity|]. apply Skip. intros su I X. now contradiction (Ns su I). }
  destruct (Z.leb_spec 0 j) as [Lj|Lj].
  2:{ do 4 eexists. split; [reflexivity|]. apply Skip. intros su' I X Bt. assert (su' = su) as -> by (apply same_surf; congruence). apply Hj in Bt. lia. }
  assert (Bt := proj1 Hj Lj). clear Hj Lj Ej j Skip. subst s. destruct (Hcut e Is Bt Ie) as [C N0].
  destruct (cut_outline C) as [vs O]. destruct (outline_len O) as [Ll L3].
  rewrite (isearch_in su_index (surfs m) su (proj1 (proj2 R)) Is). cbn [bind].
  destruct (edge_pairs_ok Hu (outline_loops Hu O)) as (es & EP & _). rewrite EP. cbn [bind]. set (vp := flat_map ed_vertind es) in *.
  destruct (edge_place K e (su_index su) Ie) as (p & ed & Pp & _ & Ped & Xed).
  assert (p = ii) as -> by (eapply (place_inj K); eauto).
  assert (at_ (edges (sk_conn k)) (Z.of_nat ii) = Ok ed) as -> by (apply at_Ok; split; [lia|now rewrite Nat2Z.id]). cbn [bind].
  assert (Ied := nth_error_In _ _ Ped). destruct (snake_ends K ed Ied) as (a & b & Vab). rewrite Vab. change (at_ [a; b] 0) with (Ok a). cbn [bind].
  assert (Start : joins_in k (su_index su) e a b) by (split; auto; left; now exists ed).
  set (Cl := seen parts (su_index su)).
  assert (Bm := b_marks B Is Bt).
  assert (Cl_closed : forall x y, Cl x -> linked k m (su_edgeind su) (su_index su) x y -> Cl y).
  { intros x y (q & Iq & Pq & Cq) A. destruct (b_parts B q Iq) as (su' & Is' & _ & _ & (Pq' & Cw & _) & Gd).
    assert (su' = su) as -> by (apply same_surf; congruence). exists q. split; auto. split; auto. eapply (cycle_closed Hu K C Cw Gd); eauto. }
  assert (Cl_marks : forall x, marked k su done x -> Cl (t_snake, x)) by (intros x X; now apply Bm in X as [_ X]).
  assert (Fresh : ~ Cl (t_snake, a)).
  { intros X. assert (M : marked k su done a) by (apply Bm; split; eauto). destruct M as (p & f & y & P & J & Dp).
    assert (Jf : joins_in k (su_index su) f a y) by (split; auto; eapply nth_error_In; eauto).
    destruct (mate_unique K C Start Jf) as [-> _]. assert (p = ii) as -> by (eapply (place_inj K); eauto). congruence. }
  destruct (@walk_ended k m su inside vp Hu K C EP a b e done Cl Cl_closed Cl_marks (b_len B) Start Fresh n p1 p2 (Fuel su Is)) as (w' & Ew & w & W & En & L1 & ->).
  rewrite Ew. cbn [bind].
  assert (Cyc := ended_cycle Hu K C EP Cl_closed Cl_marks (b_len B) Start Fresh W En).
  destruct (ended_turn Hu K C EP Cl_closed Cl_marks (b_len B) Start Fresh W En L1) as (i & pr & v & nx & H1 & H2 & H3 & V1 & V2 & Np).
  assert (V1' := V1). destruct V1' as (I1 & T1 & B1). assert (V2' := V2). destruct V2' as (I2 & T2 & B2).
  destruct (@pseudo_match (su_edgeind su) (wk_p1 w) (wk_p2 w)) as (r & Er & Hr); auto.
  { rewrite Ll. exact L3. }
  { apply (outline_NoDup Hu O). }
  { intros X. apply N0. now rewrite <- X. }
  { intros X. apply N0. now rewrite <- X. }
  { eapply (outline_follows Hu O); eauto. }
  unfold close_part. cbn [wk_p1 wk_p2 wk_corners]. rewrite Er. cbn [bind].
  assert (Ev : exists vol, (if r =? -1 then do x <- at_ (su_voluind su) 0 ; do y <- at_ (su_voluind su) 1 ; Ok (y :: x :: skipn 2 (su_voluind su)) else Ok (su_voluind su)) = Ok vol /\
     ((follows (su_edgeind su) (wk_p1 w) (wk_p2 w) /\ vol = su_voluind su) \/
     (follows (su_edgeind su) (wk_p2 w) (wk_p1 w) /\ exists c d r, su_voluind su = c :: d :: r /\ vol = d :: c :: r))).
  { destruct Hr as [[-> F]|[-> F]]; cbn [Z.eqb].
    - eexists. split; [reflexivity|]. now left.
    - destruct Sd as [rest Sd]. rewrite Sd. eexists. split; [reflexivity|]. right. split; auto. now exists v0, v1, rest. }
  destruct Ev as (vol & Ev & Hvol). rewrite Ev. cbn [bind]. do 4 eexists. split; [reflexivity|].
  set (part := mkTrisf _ _ _ _). clear Ev Er Hr Ew.
  assert (Gd : forall x, In x (ts_corners part) -> good k m su inside x) by (intros x Ix; apply (o_good W); now apply in_rev).
  assert (Fr : forall x, In x (ts_corners part) -> ~ Cl x) by (intros x Ix; apply (o_good W); now apply in_rev).
  assert (Out : outlines k m inside su part).
  { split; [reflexivity|]. split; [exact Cyc|]. split.
    - intros u Iu. destruct (Gd _ Iu) as [[T _]|(_ & X & _)]; [types T|exact X].
    - exists i, pr, v, nx, (wk_p1 w), (wk_p2 w). cbn [part ts_corners ts_volu]. split; auto. split; auto. split; [now rewrite rev_length|].
      split; [|split; auto]; (split; auto); [destruct B1 as [(u & -> & J & _)|(u & -> & S & _)]|destruct B2 as [(u & -> & J & _)|(u & -> & S & _)]]; eauto. }
  assert (Mark : forall x y f p, nth_error (sk_edges k) p = Some (f, su_index su) -> edge_joins (sk_conn k) f x y ->
     (nth_error (upd (wk_done w) ii true) p = Some true <-> nth_error done p = Some true \/ In (t_snake, x) (ts_corners part))).
  { intros x y f p P J. assert (Jx : joins_in k (su_index su) f x y) by (split; auto; eapply nth_error_In; eauto).
    assert (Wi : nth_error (wk_done w) ii = Some true).
    { apply (o_marks W). right. exists e, a, b. split; auto. split; [apply Start|]. destruct (o_tail W) as [r0 ->]. apply in_or_app. right. right. now left. }
    rewrite (upd_true _ _ Wi), (o_marks W p). cbn [part ts_corners]. rewrite <- in_rev.
    split; (intros [H|H]; [now left|right]).
    - destruct H as (f' & x' & y' & P' & J' & I'). rewrite P in P'. injection P' as <-.
      assert (Jx' : joins_in k (su_index su) f x' y') by (split; auto; eapply nth_error_In; eauto).
      destruct J as [Q|Q], J' as [Q'|Q']; destruct (edge_is_fun (snake_edges K) Q Q') as [E1 E2]; subst; auto; eapply (o_mated W); eauto.
    - now exists f, x, y. }
  constructor.
  - rewrite upd_length. apply (o_len W).
  - intros q x Hq. rewrite map_app in Hq. cbn [map] in Hq. destruct (Nat.lt_ge_cases q (length parts)) as [Lq|Lq].
    + rewrite nth_error_app1 in Hq by now rewrite map_length. now apply (b_num B).
    + rewrite nth_error_app2 in Hq by now rewrite map_length. rewrite map_length in Hq. destruct (q - length parts)%nat as [|z] eqn:Ez; [|now destruct z].
      cbn in Hq. injection Hq as <-. cbn [part ts_index]. lia.
  - intros x Ix. apply in_app_or in Ix as [Ix|[<-|[]]]; [now apply (b_parts B)|]. exists su. split; auto. split; auto. split; [now exists e|]. auto.
  - intros q q' x y c Hx Hy Pxy Ix Iy.
    assert (New : forall q x, nth_error (parts ++ [part]) q = Some x -> (nth_error parts q = Some x) \/ (q = length parts /\ x = part)).
    { intros z u Hz. destruct (Nat.lt_ge_cases z (length parts)) as [Lz|Lz]; [left; now rewrite nth_error_app1 in Hz|right].
      rewrite nth_error_app2 in Hz by lia. destruct (z - length parts)%nat as [|t] eqn:Ez; [|now destruct t]. cbn in Hz. injection Hz as <-. split; auto. lia. }
    destruct (New _ _ Hx) as [Hx'|[-> ->]], (New _ _ Hy) as [Hy'|[-> ->]]; auto.
    + eapply (b_sep B); eauto.
    + exfalso. apply (Fr c Iy). exists x. split; [eapply nth_error_In; eauto|]. split; auto.
    + exfalso. apply (Fr c Ix). exists y. split; [eapply nth_error_In; eauto|]. split; auto.
  - intros su' Is' Bt' x. destruct (Z.eq_dec (su_index su') (su_index su)) as [Ex|Nx].
    + assert (su' = su) as -> by (apply same_surf; auto). split.
      * intros (p & f & y & P & J & Dp). split; [exists f; eapply nth_error_In; eauto|]. apply (Mark x y f p P J) in Dp as [Dp|Ix].
        -- assert (M : marked k su done x) by (now exists p, f, y). apply Bm in M as [_ (q & Iq & H)]. exists q. split; auto. apply in_or_app. now left.
        -- exists part. split; [apply in_or_app; right; now left|]. auto.
      * intros [_ (q & Iq & Pq & Cq)]. apply in_app_or in Iq as [Iq|[<-|[]]].
        -- assert (M : marked k su done x) by (apply Bm; split; [now exists e|now exists q]). destruct M as (p & f & y & P & J & Dp).
           exists p, f, y. split; auto. split; auto. apply (Mark x y f p P J). now left.
        -- destruct (Gd _ Cq) as [(_ & g & u & Ig & Su & Xu)|(T & _)]; [|types T]. cbn [snd] in Xu.
           destruct (cut_one C Ig Su) as (f & y & [If Jf] & _). rewrite Xu in Jf. apply In_nth_error in If as [p P].
           exists p, f, y. split; auto. split; auto. apply (Mark x y f p P Jf). now right.
    + assert (Same : forall p f, nth_error (sk_edges k) p = Some (f, su_index su') -> (nth_error (upd (wk_done w) ii true) p = Some true <-> nth_error done p = Some true)).
      { intros p f P. rewrite nth_error_upd_other by (intros <-; congruence). rewrite (o_marks W p). split; [|now left].
        intros [H|(f' & x' & y' & P' & _)]; auto. congruence. }
      split.
      * intros (p & f & y & P & J & Dp). split; [exists f; eapply nth_error_In; eauto|].
        assert (M : marked k su' done x) by (exists p, f, y; split; auto; split; auto; now apply (Same p f P)).
        apply (b_marks B Is' Bt') in M as [_ (q & Iq & H)]. exists q. split; auto. apply in_or_app. now left.
      * intros [X (q & Iq & Pq & Cq)]. apply in_app_or in Iq as [Iq|[<-|[]]]; [|cbn in Pq; congruence].
        assert (M : marked k su' done x) by (apply (b_marks B Is' Bt'); split; auto; now exists q). destruct M as (p & f & y & P & J & Dp).
        exists p, f, y. split; auto. split; auto. now apply (Same p f P).
  - intros q Lq Lk. cbn [wk_done]. rewrite nth_error_upd. destruct (Nat.eqb_spec ii q) as [<-|Nq].
    + replace (ii <? length (wk_done w))%nat with true by (symmetry; apply Nat.ltb_lt; rewrite (o_len W); lia). reflexivity.
    + apply (o_marks W). left. apply (b_done B); lia.
Qed.
Lemma build_ok : exists parts done, build_trisurf n k m tr = Ok parts /\ built (length (sk_edges k)) done parts.
Proof using R Hu K Hcut Fuel.
  assert (Go : forall c ii done p1 p2 parts, built ii done parts -> (ii + c = length (sk_edges k))%nat ->
    exists done' q parts', for_each (seq ii c) (build_turn n k m tr) (done, (p1, p2), parts) = Ok (done', q, parts') /\ built (length (sk_edges k)) done' parts').
  { induction c as [|c IH]; intros ii done p1 p2 parts B Lc; cbn [seq for_each].
    - do 3 eexists. split; [reflexivity|]. replace (length (sk_edges k)) with ii by lia. exact B.
    - destruct (@turn ii done p1 p2 parts B ltac:(lia)) as (done' & q1 & q2 & parts' & E & B'). rewrite E. cbn [bind]. apply IH; auto. lia. }
  destruct (Go (length (sk_edges k)) 0%nat (repeat false (length (sk_edges k))) 0 0 []) as (done & q & parts & E & B); [|lia|].
  - assert (Nf : forall p, nth_error (repeat false (length (sk_edges k))) p <> Some true) by (intros p H; apply nth_error_In, repeat_spec in H; discriminate).
    constructor.
    + apply repeat_length.
    + intros [|i] x H; discriminate.
    + intros x [].
    + intros [|i] j x y a H; discriminate.
    + intros su I Bt x. split; [intros (p & f & y & _ & _ & H); now contradiction (Nf p)|intros [_ (q & [] & _)]].
    + intros i Li. lia.
  - exists parts, done. unfold build_trisurf. rewrite E. auto.
Qed.
End Build.
