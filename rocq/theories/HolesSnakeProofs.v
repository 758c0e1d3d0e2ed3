(** The holes of the bodies of a snake (C113). *)
From Coq Require Import Lia.
From Verif Require Import Base Containers Mesh SpecMesh MeshProofs FloodProofs Num Snake Spawn Edit EditProofs MergeProofs.
From Verif Require Import Holes SpecHoles HolesProofs.
Set Implicit Arguments.
Open Scope Z_scope.

Lemma for_each_keep A S (P : S -> Prop) (f : A -> S -> outcome S) : forall l s s1, (forall a t t1, In a l -> P t -> f a t = Ok t1 -> P t1) ->
  P s -> for_each l f s = Ok s1 -> P s1.
Proof.
  induction l as [|a l IH]; intros s s1 H I E; simpl in E; [injection E as <-; exact I|].
  destruct (f a s) as [t| | |] eqn:F; try discriminate. cbn [bind] in E.
  apply (IH t s1); [intros b t1 t2 B; apply H; right; exact B|apply (H a s t); simpl; auto|exact E].
Qed.
(** A loop that leaves the state alone until one step ends it. *)
Lemma for_each_stop A S (s0 : S) (Q : A -> Prop) (D : S -> Prop) (f : A -> S -> outcome S) : forall l,
  (forall a s, D s -> f a s = Ok s) ->
  (forall a, In a l -> exists s, f a s0 = Ok s /\ (s = s0 /\ Q a \/ D s)) ->
  exists s, for_each l f s0 = Ok s /\ (s = s0 /\ (forall a, In a l -> Q a) \/ D s).
Proof.
  intros l F. induction l as [|a l IH]; intros H; simpl.
  - exists s0. split; [reflexivity|]. left. split; [reflexivity|]. intros a [].
  - destruct (H a (or_introl eq_refl)) as [s [-> [[-> Qa]|Ds]]]; cbn [bind].
    + destruct IH as [s [-> [[-> Ql]|Ds]]]; [intros b B; apply H; right; exact B| |].
      * exists s0. split; [reflexivity|]. left. split; [reflexivity|]. intros b [<-|B]; auto.
      * exists s. auto.
    + exists s. split; [|right; exact Ds]. clear - F Ds. induction l as [|b l IH]; simpl; [reflexivity|]. rewrite F by exact Ds. exact IH.
Qed.
Lemma isearch_In A (ix : A -> Z) l i a : isearch ix l i = Ok a -> In a l.
Proof. unfold isearch. intros H. apply at_Ok in H. destruct H as [_ H]. eapply nth_error_In; eauto. Qed.
Lemma isearch_get A (ix : A -> Z) l i : NoDup (map ix l) -> In i (map ix l) -> exists a, isearch ix l i = Ok a /\ In a l /\ ix a = i.
Proof. intros _ H. apply in_map_iff in H. destruct H as [a [<- A0]]. apply isearch_ok. eauto. Qed.

(** ** One vertex *)
Section One.
Variables (m : mesh) (vin : list bool) (unc : list Z).
Hypothesis idx : indexed m.
Hypothesis lin : length vin = length (verts m).
Lemma hole_at x ex : length ex = length (verts m) -> certain m vin unc x -> ~ flagged m ex x ->
  find_vertex_hole m vin unc x ex = Ok (upd ex (Z.to_nat (find ve_index (verts m) x)) true, x).
Proof.
  intros L [F U] N. destruct F as (p & v & A & E & B). unfold find_vertex_hole. cbn [plus hole_rounds for_each visit_hole].
  assert (P : find ve_index (verts m) x = Z.of_nat p) by (rewrite <- E; exact (find_pos (proj1 idx) A)). rewrite P.
  assert (X : at_ ex (Z.of_nat p) = Ok false).
  { apply at_Ok. split; [lia|]. rewrite Nat2Z.id. destruct (nth_error ex p) as [[]|] eqn:G; [|reflexivity|].
    - exfalso. apply N. exists p, v. auto.
    - apply nth_error_None in G. assert (p < length (verts m))%nat by (apply nth_error_Some; congruence). lia. }
  assert (Y : at_ vin (Z.of_nat p) = Ok true) by (apply at_Ok; rewrite Nat2Z.id; split; [lia|exact B]).
  rewrite X. cbn [bind]. rewrite Y. cbn [bind]. destruct (mem_z x unc) eqn:M; [apply mem_z_In in M; contradiction|]. reflexivity.
Qed.
Lemma hole_none x ex : length ex = length (verts m) -> (exists v, In v (verts m) /\ ve_index v = x) -> ~ flagged m vin x \/ flagged m ex x ->
  find_vertex_hole m vin unc x ex = Ok (ex, -1).
Proof.
  intros L [v [V E]] F. apply In_nth_error in V. destruct V as [p A]. unfold find_vertex_hole. cbn [plus hole_rounds for_each visit_hole].
  assert (P : find ve_index (verts m) x = Z.of_nat p) by (rewrite <- E; exact (find_pos (proj1 idx) A)). rewrite P.
  assert (p < length (verts m))%nat by (apply nth_error_Some; congruence).
  destruct (nth_error ex p) as [e|] eqn:G; [|apply nth_error_None in G; lia].
  destruct (nth_error vin p) as [i|] eqn:I; [|apply nth_error_None in I; lia].
  assert (X : at_ ex (Z.of_nat p) = Ok e) by (apply at_Ok; rewrite Nat2Z.id; split; [lia|exact G]).
  assert (Y : at_ vin (Z.of_nat p) = Ok i) by (apply at_Ok; rewrite Nat2Z.id; split; [lia|exact I]).
  rewrite X. cbn [bind]. destruct e; [reflexivity|]. rewrite Y. cbn [bind]. destruct i; [|reflexivity].
  exfalso. destruct F as [F|(q & w & A1 & E1 & B1)]; [apply F; exists p, v; auto|].
  assert (q = p). { eapply (@pos_unique _ ve_index); [exact (proj1 idx)|exact A1|exact A|congruence]. } congruence.
Qed.
End One.

Section Bodies.
Variables (N : num) (k : snake N) (m : mesh) (unc : list Z).
Hypothesis idx : indexed m.
Hypothesis lin : length (k_in k) = length (verts m).
Hypothesis full : bounded k.

(** The value left by the bodies before does not matter. *)
Lemma stale v ex h hs : In v (volus (k_conn k)) -> hole_volu k m unc v (ex, h, hs) = hole_volu k m unc v (ex, -1, hs).
Proof.
  intros V. unfold hole_volu. pose proof (proj1 full v V) as E. destruct (vo_surfind v) as [|si r]; [congruence|]. cbn [for_each].
  assert (hole_surf k m unc si (ex, h, false) = hole_surf k m unc si (ex, -1, false)) as ->; [|reflexivity].
  unfold hole_surf. destruct (isearch su_index (surfs (k_conn k)) si) as [s| | |] eqn:S; cbn [bind]; [|reflexivity..].
  apply isearch_In in S. pose proof (proj2 full s S) as E1. destruct (su_edgeind s) as [|ei es]; [congruence|]. reflexivity.
Qed.

(** ** Any run *)
Definition found (ex0 : list bool) (st : list bool * Z * bool) : Prop :=
  let '(ex, h, stop) := st in
  length ex = length (verts m) /\ (forall y, flagged m ex0 y -> flagged m ex y) /\
  (stop = false /\ h = -1 \/ stop = true /\ h <> -1 /\ certain m (k_in k) unc h /\ ~ flagged m ex0 h /\ flagged m ex h).
Lemma corner_found ex0 x st st1 : found ex0 st -> hole_corner k m unc x st = Ok st1 -> found ex0 st1.
Proof.
  destruct st as [[ex h] stop]. intros I H. unfold hole_corner in H. destruct stop; [injection H as <-; exact I|].
  destruct (isearch _ (k_snaxs k) x) as [s| | |]; try discriminate. cbn [bind] in H.
  destruct (find_vertex_hole m (k_in k) unc (sx_from s) ex) as [[ex1 h1]| | |] eqn:R; try discriminate. cbn [bind fst snd] in H. injection H as <-.
  destruct I as (L & G & _). unfold find_vertex_hole in R.
  destruct (@rounds_sound m (k_in k) unc idx lin _ _ _ _ _ L R) as (L1 & G1 & _ & P1 & _).
  split; [exact L1|]. split; [auto|]. destruct (Z.eqb_spec h1 (-1)) as [-> |NE]; [left; auto|right].
  destruct (P1 NE) as (A & B & C & _). split; [reflexivity|]. split; [exact NE|]. split; [exact A|]. split; [intros F; apply B, G, F|exact C].
Qed.
Lemma surf_found ex0 si st st1 : found ex0 st -> hole_surf k m unc si st = Ok st1 -> found ex0 st1.
Proof.
  intros I H. destruct st as [[ex h] stop]. unfold hole_surf in H. destruct stop; [injection H as <-; exact I|].
  destruct (isearch su_index _ si) as [s| | |]; try discriminate. cbn [bind] in H.
  match type of H with bind ?e _ = _ => destruct e as [[[ex1 h1] stop1]| | |] eqn:R; try discriminate end. cbn [bind] in H. injection H as <-.
  apply (@for_each_keep _ _ (found ex0)) in R; [| |exact I].
  - destruct R as (L & G & [[-> ->]|(-> & NE & R)]); (split; [exact L|]; split; [exact G|]); [left; auto|].
    right. destruct (Z.eqb_spec h1 (-1)); [contradiction|]. auto.
  - intros ei [[exa ha] sa] t1 _ J E. destruct sa; [injection E as <-; exact J|].
    destruct (isearch ed_index _ ei) as [e| | |]; try discriminate. cbn [bind] in E.
    destruct (at_ (ed_vertind e) 0) as [a| | |]; try discriminate. cbn [bind] in E.
    destruct (hole_corner k m unc a (exa, ha, false)) as [[[exb hb] sb]| | |] eqn:Ca; try discriminate. cbn [bind] in E.
    apply (@corner_found ex0 _ _ _ J) in Ca. destruct sb; [injection E as <-; exact Ca|].
    destruct (at_ (ed_vertind e) 1) as [b| | |]; try discriminate. cbn [bind] in E. exact (@corner_found ex0 _ _ _ Ca E).
Qed.
Lemma holes_sound hs : find_holes k m unc = Ok hs ->
  (forall h, In h hs -> certain m (k_in k) unc h) /\ NoDup hs /\ (length hs <= length (volus (k_conn k)))%nat.
Proof.
  unfold find_holes. intros H.
  match type of H with bind ?e _ = _ => destruct e as [[[ex h] hs1]| | |] eqn:R; try discriminate end. cbn [bind snd] in H. injection H as <-.
  assert (X : forall l ex0 h0 hs0, (forall v, In v l -> In v (volus (k_conn k))) -> length ex0 = length (verts m) ->
    (forall x, In x hs0 -> certain m (k_in k) unc x /\ flagged m ex0 x) -> NoDup hs0 ->
    for_each l (hole_volu k m unc) (ex0, h0, hs0) = Ok (ex, h, hs1) ->
    (forall x, In x hs1 -> certain m (k_in k) unc x) /\ NoDup hs1 /\ (length hs1 <= length hs0 + length l)%nat).
  { clear R. induction l as [|v l IH]; intros ex0 h0 hs0 V L S D E; cbn [for_each] in E.
    - injection E as <- <- <-. split; [intros x X; apply S; exact X|]. split; [exact D|lia].
    - rewrite stale in E by (apply V; left; reflexivity). unfold hole_volu at 1 in E.
      destruct (for_each (vo_surfind v) (hole_surf k m unc) (ex0, -1, false)) as [[[ex1 h1] st1]| | |] eqn:F; try discriminate. cbn [bind] in E.
      apply (@for_each_keep _ _ (found ex0)) in F; [|intros a t t1 _; apply surf_found|split; [exact L|]; split; auto].
      destruct F as (L1 & G & F).
      assert (Y : (forall x, In x hs0 -> certain m (k_in k) unc x /\ flagged m ex1 x)) by (intros x X; destruct (S x X); auto).
      destruct F as [[_ ->]|(_ & NE & C & N1 & F1)].
      + change (-1 =? -1) with true in E. apply IH in E; auto; [|intros w W; apply V; right; exact W]. simpl. destruct E as (A & B & C). split; [exact A|]. split; [exact B|lia].
      + destruct (Z.eqb_spec h1 (-1)); [contradiction|]. apply IH in E; auto; [| |intros x X; apply in_app_iff in X; destruct X as [X|[<-|[]]]; [auto|auto]|].
        * rewrite app_length in E. simpl in *. destruct E as (A & B & D1). split; [exact A|]. split; [exact B|lia].
        * intros w W; apply V; right; exact W.
        * apply NoDup_app2; [exact D|constructor; [intros []|constructor]|]. intros x X [<-|[]]. apply N1. apply S. exact X. }
  apply X in R; auto.
  - rewrite repeat_length. exact lin.
  - intros x [].
  - constructor.
Qed.

(** ** No vertex in doubt *)
Hypothesis ok : resolved k.
Hypothesis froms : forall v x, In v (volus (k_conn k)) -> from_of k v x -> exists w, In w (verts m) /\ ve_index w = x.
Hypothesis clear : forall v x, In v (volus (k_conn k)) -> from_of k v x -> flagged m (k_in k) x -> ~ In x unc.
Let hole_of := hole_of k m.
Lemma volu_hole v ex hs : In v (volus (k_conn k)) -> length ex = length (verts m) -> (forall x, from_of k v x -> flagged m (k_in k) x -> ~ flagged m ex x) ->
  exists ex1 h1 o, hole_volu k m unc v (ex, -1, hs) = Ok (ex1, h1, hs ++ chosen [o]) /\ hole_of v o /\ length ex1 = length (verts m) /\
    forall y, flagged m ex1 y -> flagged m ex y \/ o = Some y.
Proof.
  intros V L NX. destruct ok as (NS & NE & NK & RS & RE & RK).
  set (D := fun st : list bool * Z * bool => exists h, from_of k v h /\ flagged m (k_in k) h /\ st = (upd ex (Z.to_nat (find ve_index (verts m) h)) true, h, true)).
  assert (MO : forall h, flagged m (k_in k) h -> h <> -1).
  { intros h (p & w & A & <- & _). apply (proj2 idx). eapply nth_error_In; eauto. }
  assert (corner : forall s e a, In s (surfs (k_conn k)) -> In (su_index s) (vo_surfind v) -> In e (edges (k_conn k)) -> In (ed_index e) (su_edgeind s) -> In a (ed_vertind e) ->
    In a (map (@sx_index N) (k_snaxs k)) ->
    exists st, hole_corner k m unc a (ex, -1, false) = Ok st /\ (st = (ex, -1, false) /\ (forall sx, In sx (k_snaxs k) -> sx_index sx = a -> ~ flagged m (k_in k) (sx_from sx)) \/ D st)).
  { intros s e a Hs Hi He Hj Ha Hk. destruct (@isearch_get _ (@sx_index N) _ _ NK Hk) as [sx [Q [Hx Ex]]]. unfold hole_corner. rewrite Q. cbn [bind].
    assert (FO : from_of k v (sx_from sx)) by (exists s, e, sx; rewrite Ex; auto 10).
    destruct (@flag_dec m idx (k_in k) (sx_from sx)) as [F|F].
    - rewrite (@hole_at m (k_in k) unc idx lin (sx_from sx) ex L (conj F (clear V FO F)) (NX _ FO F)). cbn [bind fst snd].
      eexists. split; [reflexivity|]. right. exists (sx_from sx). split; [exact FO|]. split; [exact F|]. destruct (Z.eqb_spec (sx_from sx) (-1)) as [E|_]; [apply MO in F; contradiction|reflexivity].
    - rewrite (@hole_none m (k_in k) unc idx lin (sx_from sx) ex L (froms V FO) (or_introl F)). cbn [bind fst snd].
      eexists. split; [reflexivity|]. left. split; [reflexivity|]. intros sy Y EY.
      assert (sy = sx) as ->; [|exact F]. eapply (@NoDup_idx_inj _ (@sx_index N)); eauto. congruence. }
  assert (Dstop : forall st, D st -> exists e h, st = (e, h, true)) by (intros st (h & _ & _ & ->); eauto).
  destruct (@for_each_stop _ _ (ex, -1, false) (fun si => forall s, In s (surfs (k_conn k)) -> su_index s = si -> forall e sx, In e (edges (k_conn k)) -> In (ed_index e) (su_edgeind s) ->
       In sx (k_snaxs k) -> In (sx_index sx) (ed_vertind e) -> ~ flagged m (k_in k) (sx_from sx)) D (hole_surf k m unc) (vo_surfind v)) as [st [R O]].
  { intros si st Ds. destruct (Dstop st Ds) as (e & h & ->). reflexivity. }
  { intros si Hsi. destruct (@isearch_get _ su_index _ _ NS (RS v si V Hsi)) as [s [Q [Hs Es]]]. unfold hole_surf. rewrite Q. cbn [bind].
    match goal with |- context[for_each (su_edgeind s) ?g (ex, -1, false)] =>
      destruct (@for_each_stop _ _ (ex, -1, false) (fun ei => forall e sx, In e (edges (k_conn k)) -> ed_index e = ei -> In sx (k_snaxs k) -> In (sx_index sx) (ed_vertind e) -> ~ flagged m (k_in k) (sx_from sx)) D g (su_edgeind s)) as [st [R O]] end.
    { intros ei st Ds. destruct (Dstop st Ds) as (e & h & ->). reflexivity. }
    { intros ei Hei. destruct (@isearch_get _ ed_index _ _ NE (RE s ei Hs Hei)) as [e [Qe [He Ee]]]. rewrite Qe. cbn [bind].
      destruct (RK e He) as (a & b & Eab & Ia & Ib). rewrite Eab. cbn [at_ bind]. change (at_ [a; b] 0) with (Ok a). change (at_ [a; b] 1) with (Ok b). cbn [bind].
      rewrite <- Es in Hsi. rewrite <- Ee in Hei.
      destruct (corner s e a Hs Hsi He Hei) as [st [-> O]]; [rewrite Eab; simpl; auto|exact Ia|]. cbn [bind].
      destruct O as [[-> Na]|Da]; [|destruct (Dstop st Da) as (e1 & h1 & ->); eexists; split; [reflexivity|right; exact Da]].
      destruct (corner s e b Hs Hsi He Hei) as [st [-> O]]; [rewrite Eab; simpl; auto|exact Ib|].
      exists st. split; [reflexivity|]. destruct O as [[-> Nb]|Db]; [|right; exact Db]. left. split; [reflexivity|].
      intros e2 sx He2 E2 Hx Hxi. assert (e2 = e) as -> by (eapply (@NoDup_idx_inj _ ed_index); eauto; congruence).
      rewrite Eab in Hxi. destruct Hxi as [E|[E|[]]]; [apply Na|apply Nb]; auto. }
    rewrite R. cbn [bind]. destruct O as [[-> O]|(h & A & B & ->)].
    - eexists. split; [reflexivity|]. left. split; [reflexivity|]. intros s2 Hs2 E2 e sx He Hei Hx Hxi.
      assert (s2 = s) as -> by (eapply (@NoDup_idx_inj _ su_index); eauto; congruence). exact (O _ Hei e sx He eq_refl Hx Hxi).
    - eexists. split; [reflexivity|]. right. exists h. split; [exact A|]. split; [exact B|]. destruct (Z.eqb_spec h (-1)) as [E|_]; [apply MO in B; contradiction|reflexivity]. }
  unfold hole_volu. rewrite R. cbn [bind]. destruct O as [[-> O]|(h & A & B & ->)].
  - exists ex, (-1), None. cbn. rewrite app_nil_r. split; [reflexivity|]. split; [|split; [exact L|auto]].
    intros x (s & e & sx & A & B & C & E & F & G & <-). exact (O _ B s A eq_refl e sx C E F G).
  - eexists _, h, (Some h). destruct (Z.eqb_spec h (-1)) as [E|_]; [apply MO in B; contradiction|]. split; [reflexivity|]. split; [split; assumption|].
    split; [rewrite upd_length; exact L|]. intros y Y. apply (@flag_upd m (k_in k) idx lin ex h y L) in Y; [destruct Y as [Y| ->]; auto|]. exact (froms V A).
Qed.
Hypothesis apart : ForallOrdPairs (fun v w => forall x, from_of k v x -> from_of k w x -> ~ flagged m (k_in k) x) (volus (k_conn k)).
Lemma holes_all : exists os, find_holes k m unc = Ok (chosen os) /\ Forall2 hole_of (volus (k_conn k)) os.
Proof.
  assert (X : forall l ex0 h0 hs0, (forall v, In v l -> In v (volus (k_conn k))) -> length ex0 = length (verts m) ->
    ForallOrdPairs (fun v w => forall x, from_of k v x -> from_of k w x -> ~ flagged m (k_in k) x) l ->
    (forall v x, In v l -> from_of k v x -> flagged m (k_in k) x -> ~ flagged m ex0 x) ->
    exists os ex1 h1, for_each l (hole_volu k m unc) (ex0, h0, hs0) = Ok (ex1, h1, hs0 ++ chosen os) /\ Forall2 hole_of l os).
  { induction l as [|v l IH]; intros ex0 h0 hs0 V L A NX.
    - exists [], ex0, h0. cbn. rewrite app_nil_r. auto.
    - inversion A as [|? ? A1 A2]; subst. cbn [for_each]. rewrite stale by (apply V; left; reflexivity).
      destruct (@volu_hole v ex0 hs0) as (ex1 & h1 & o & -> & O & L1 & G); [apply V; left; reflexivity|exact L|intros x; apply NX; left; reflexivity|].
      cbn [bind]. destruct (IH ex1 h1 (hs0 ++ chosen [o])) as (os & ex2 & h2 & -> & F); [intros w W; apply V; right; exact W|exact L1|exact A2| |].
      + intros w x W Fw Fi Fe. destruct (G x Fe) as [Fe0| ->]; [apply (NX w x); auto; right; exact W|].
        rewrite Forall_forall in A1. destruct O as [O1 O2]. exact (A1 w W x O1 Fw O2).
      + exists (o :: os), ex2, h2. split; [|constructor; assumption]. rewrite <- app_assoc. do 3 f_equal. destruct o; reflexivity. }
  destruct (X (volus (k_conn k)) (repeat false (length (k_in k))) (-1) []) as (os & ex1 & h1 & R & F); auto.
  - rewrite repeat_length. exact lin.
  - intros v x _ _ _ (p & w & _ & _ & B). apply nth_error_In in B. apply repeat_spec in B. discriminate.
  - exists os. unfold find_holes. rewrite R. cbn [bind snd app]. auto.
Qed.
End Bodies.
