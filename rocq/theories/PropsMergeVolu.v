(** The merge of the bodies of a snake that meet at vertices, C118. *)
From Coq Require Import Lia Sorted Relations.
From Verif Require Import Base Containers ContainersProofs Mesh SpecMesh MeshProofs FloodProofs SwitchProofs MeshCheck Detect MergeVolu SpecMergeVolu.
Set Implicit Arguments.
Open Scope Z_scope.

Record weak (m m1 : mesh) : Prop := {
  wk_same : same_objects m m1;
  wk_edges : edges m1 = edges m;
  wk_verts : verts m1 = verts m;
  wk_back : forall s v, SV m1 s v -> v <> 0 -> VS m1 v s;
  wk_surf : forall v s, VS m1 v s -> has_surf m1 s;
  wk_ord : map su_edgeind (surfs m1) = map su_edgeind (surfs m) }.

Lemma pair_idx T (f : T -> Z) (g : T -> bool) (a b : list T) : map (fun v => (f v, g v)) a = map (fun v => (f v, g v)) b -> map f a = map f b.
Proof. intros H. apply (f_equal (map fst)) in H. rewrite !map_map in H. exact H. Qed.
Lemma switch4_weak m m1 old new : unique_indices m -> weak m m1 -> old <> new -> old <> 0 -> new <> 0 -> has_volu m1 old -> has_volu m1 new ->
  exists m2, switch4 old new m1 = Ok m2 /\ weak m m2 /\ (forall v, has_volu m2 v <-> has_volu m1 v) /\
    (forall s v, SV m2 s v <-> exists u, SV m1 s u /\ v = if u =? old then new else u).
Proof.
  intros U [O E V B S OO] Hne O0 N0 Ho Hn.
  assert (U1 : NoDup (map vo_index (volus m1)) /\ NoDup (map su_index (surfs m1))).
  { destruct O as (O1 & O2 & _), U as (A & C & _).
    rewrite (pair_idx _ _ _ _ O1), (pair_idx _ _ _ _ O2). auto. }
  destruct U1 as [Uv Us].
  unfold switch4. destruct (find_at vo_index (volus m1) Ho) as [vo [Hat [Hin Hidx]]].
  rewrite Hat. simpl.
  pose proof (@owner _ vo_index vo_surfind (volus m1) _ _ Uv Hin Hidx) as Hown.
  destruct (@redirect_loop _ _ su_index su_voluind su_set_voluind vo_index vo_surfind vo_set_surfind
              ltac:(reflexivity) ltac:(reflexivity) ltac:(reflexivity) ltac:(reflexivity)
              ltac:(intros []; reflexivity) ltac:(reflexivity) old new Hne
              (surfs m1) (volus m1) (vo_surfind vo) Us Uv (proj1 (has_volu_In m1 new) Hn))
    as [c [Hc Hrun]].
  { intros k Hk. apply Hown in Hk. apply has_surf_In. exact (S old k Hk). }
  rewrite Hrun. simpl. eexists. split; [reflexivity|].
  match goal with |- weak m ?x /\ _ => set (m2 := x) end.
  assert (SO : same_objects m1 m2).
  { unfold m2. repeat split; simpl; auto; [unfold on; apply map_same; intros a _; destruct (_ =? _); auto|apply map_same; intros a _; dredirected; auto]. }
  assert (SV2 : forall s v, SV m2 s v <-> renamed old new (SV m1 s) v).
  { intros s v. unfold SV at 1. simpl. rewrite lists_redirected; auto.
    change (lists su_index su_voluind (surfs m1) s) with (SV m1 s). split.
    - intros [[H1 H2]|[_ H]]; auto. left. split; auto. intros ->. apply H1. apply Hown. apply B; auto.
    - intros H. destruct (in_dec Z.eq_dec s (vo_surfind vo)) as [Hi|Hi]; [right; auto|].
      left. split; auto. destruct H as [[H _]|[_ H]]; auto. exfalso; apply Hi, Hown, B; auto. }
  assert (VS2 : forall v s, VS m2 v s <-> VS m1 v s \/ (v = new /\ In s c)).
  { intros v s. unfold VS at 1. simpl. rewrite lists_pushed; auto; [reflexivity|apply has_volu_In; auto]. }
  assert (Hv : forall v, has_volu m2 v <-> has_volu m1 v).
  { intros v. rewrite !has_volu_In. destruct SO as (SO1 & _). apply pair_idx in SO1. rewrite SO1. tauto. }
  assert (Hs : forall s, has_surf m2 s <-> has_surf m1 s).
  { intros v. rewrite !has_surf_In. destruct SO as (_ & SO1 & _). apply pair_idx in SO1. rewrite SO1. tauto. }
  split; [|split; [exact Hv|]].
  - constructor.
    + destruct O as (A1 & A2 & A3 & A4 & A5), SO as (B1 & B2 & B3 & B4 & B5). unfold same_objects. rewrite B1, B2, B3, B4, B5. auto.
    + exact E.
    + exact V.
    + intros s v H Hv0. apply SV2 in H. apply VS2. destruct H as [[H _]|[-> H]]; [left; apply B; auto|].
      right. split; [reflexivity|]. apply Hc. unfold referring. split; [apply Hown, B; auto|exact H].
    + intros v s H. apply Hs. apply VS2 in H. destruct H as [H|[_ H]]; [eapply S; eauto|]. apply Hc in H. destruct H as [H _]. apply (S old), Hown, H.
    + rewrite <- OO. unfold m2. simpl. apply map_same. intros a _. dredirected; auto.
  - intros s v. rewrite SV2. unfold renamed. split.
    + intros [[H N]|[-> H]]; [exists v|exists old]; (split; [exact H|]); [apply Z.eqb_neq in N; rewrite N; reflexivity|rewrite Z.eqb_refl; reflexivity].
    + intros (u & H & ->). destruct (Z.eqb_spec u old) as [->|N]; auto.
Qed.

(** Several bodies are renamed to [keep]. *)
Definition into (keep : Z) (rmv : list Z) (u : Z) : Z := if in_dec Z.eq_dec u rmv then keep else u.
Lemma switches m keep rmv : unique_indices m -> keep <> 0 -> ~ In keep rmv -> forall m1, weak m m1 -> has_volu m1 keep -> (forall o, In o rmv -> o <> 0 /\ has_volu m1 o) -> NoDup rmv ->
  exists m2, for_each rmv (fun o m => switch_index 4 o keep [] m) m1 = Ok m2 /\ weak m m2 /\ (forall v, has_volu m2 v <-> has_volu m1 v) /\
    (forall s v, SV m2 s v <-> exists u, SV m1 s u /\ v = into keep rmv u).
Proof.
  intros U K0. induction rmv as [|o r IH]; intros NK m1 W HK HR ND; cbn [for_each].
  - exists m1. split; [reflexivity|]. split; [exact W|]. split; [tauto|]. intros s v. unfold into. cbn. split; [eauto|intros (u & H & ->); exact H].
  - destruct (HR o (or_introl eq_refl)) as [O0 HO]. destruct (@switch4_weak m m1 o keep U W) as (m2 & E & W2 & H2 & S2); auto.
    { intros ->. apply NK. left; reflexivity. }
    cbn [switch_index]. rewrite E. cbn [bind]. inversion ND as [|? ? N1 N2]; subst.
    destruct (IH (fun X => NK (or_intror X)) m2 W2) as (m3 & E3 & W3 & H3 & S3); [apply H2; exact HK|intros p Hp; destruct (HR p (or_intror Hp)); split; [assumption|apply H2; assumption]|exact N2|].
    exists m3. split; [exact E3|]. split; [exact W3|]. split; [intros v; rewrite H3; apply H2|].
    assert (G : forall u, into keep (o :: r) u = into keep r (if u =? o then keep else u)).
    { intros u. unfold into. destruct (Z.eqb_spec u o) as [->|N].
      - destruct (in_dec Z.eq_dec o (o :: r)) as [_|X]; [|exfalso; apply X; left; reflexivity]. destruct (in_dec Z.eq_dec keep r); reflexivity.
      - destruct (in_dec Z.eq_dec u (o :: r)) as [[X|X]|X], (in_dec Z.eq_dec u r) as [Y|Y]; auto; try congruence; try contradiction; exfalso; apply X; right; exact Y. }
    intros s v. rewrite S3. split.
    + intros (u & H & ->). apply S2 in H. destruct H as (w & H & ->). exists w. rewrite G. auto.
    + intros (w & H & ->). exists (if w =? o then keep else w). rewrite <- G. split; [apply S2; eauto|reflexivity].
Qed.

Lemma collect A (idx : A -> Z) (get : A -> list Z) l ks : NoDup (map idx l) -> (forall k, In k ks -> exists a, In a l /\ idx a = k) ->
  exists bs, omap_list (at_ l) (find_list idx l ks) = Ok bs /\ forall x, In x (flat_map get bs) <-> exists k, In k ks /\ lists idx get l k x.
Proof.
  intros ND H. induction ks as [|k ks IH]; unfold find_list; cbn [map omap_list].
  - exists []. split; [reflexivity|]. intros x. simpl. split; [intros []|intros (k & [] & _)].
  - destruct (H k (or_introl eq_refl)) as (a & Ha & <-). destruct (In_nth_error _ _ Ha) as [p Hp]. rewrite (@find_pos _ idx _ _ _ ND Hp).
    assert (at_ l (Z.of_nat p) = Ok a) as -> by (apply at_Ok; rewrite Nat2Z.id; split; [lia|exact Hp]). cbn [bind].
    change (map (find idx l) ks) with (find_list idx l ks). destruct IH as (bs & E & I); [intros k Hk; apply H; right; exact Hk|]. rewrite E. cbn [bind]. exists (a :: bs). split; [reflexivity|].
    intros x. cbn [flat_map]. rewrite in_app_iff, I. split.
    + intros [X|(k & Hk & X)]; [exists (idx a); split; [left; reflexivity|exists a; auto]|exists k; split; [right; exact Hk|exact X]].
    + intros (k & [<-|Hk] & X); [left|right; exists k; auto]. destruct X as (b & Hb & Eb & X).
      assert (b = a) as <- by (eapply (@NoDup_idx_inj _ idx); eauto). exact X.
Qed.
Lemma after_zero_spec l : StronglySorted Z.lt l -> (forall x, In x l -> 0 <= x) ->
  StronglySorted Z.lt (after_zero l) /\ forall x, In x (after_zero l) <-> In x l /\ x <> 0.
Proof.
  intros S P. destruct l as [|a r]; cbn [after_zero]; [split; [constructor|simpl; tauto]|].
  apply StronglySorted_inv in S as T. destruct T as [T1 T2]. rewrite Forall_forall in T2.
  assert (0 <= a) by (apply P; left; reflexivity).
  destruct (Z.eqb_spec a 0) as [->|N].
  - split; [exact T1|]. intros x. simpl. split; [intros X; specialize (T2 x X); split; [auto|lia]|intros [[X|X] Y]; [congruence|exact X]].
  - split; [exact S|]. intros x. split; [|tauto]. intros X. split; [exact X|]. destruct X as [<-|X]; [exact N|]. specialize (T2 x X). lia.
Qed.
Section Merge.
Variables (m : mesh) (L : list Z).
Hypotheses (W : well_connected m) (V3 : volus m <> []) (P : positive_indices m).
Record state (l : list Z) (f : Z -> Z) (m1 : mesh) : Prop := {
  st_weak : weak m m1;
  st_sv : forall s v, SV m1 s v <-> exists u, SV m s u /\ v = f u;
  st_zero : forall u, f u = 0 <-> u = 0;
  st_idem : forall u, f (f u) = f u;
  st_chain : forall u, chained m L u (f u);
  st_one : forall n u w, In n l -> touches m n u -> touches m n w -> u <> 0 -> w <> 0 -> f u = f w }.
Lemma start : state [] (fun u => u) m.
Proof.
  destruct W as (_ & (_ & _ & _ & _ & M5 & M6) & (_ & _ & _ & X4 & _)).
  constructor; [constructor; auto|..].
  - repeat split; reflexivity.
  - intros v s H. assert (S0 : s <> 0) by (intros ->; exact (X4 v H)). destruct (M6 s v H S0) as (t & A & B & _). exists t. auto.
  - intros s v. split; [eauto|intros (u & H & ->); exact H].
  - tauto.
  - reflexivity.
  - intros u. apply rst_refl.
  - intros n u w [].
Qed.
Lemma merge_step l f m1 n out : state l f m1 -> In n L -> has_vert m n ->
  exists m2 rs g, merge_at n (m1, out) = Ok (m2, out ++ rs) /\ state (n :: l) g m2 /\
    (forall c, In c rs -> cn_type c = 4 /\ cn_rmv c <> [] /\ ~ In (cn_keep c) (cn_rmv c)) /\
    (forall v, (exists c, In c rs /\ In v (cn_rmv c)) <-> f v = v /\ g v <> v) /\ (forall v, f v <> v -> g v <> v).
Proof.
  intros ST HL (v & Hv & Iv). destruct ST as [K SVf Z0 ID CH ONE]. pose proof K as K'. destruct K' as [O E V B S OO].
  pose proof W as W'. destruct W' as ((U1 & U2 & U3 & U4 & _) & (M1 & M2 & M3 & M4 & M5 & M6) & (X1 & X2 & X3 & X4 & X5)).
  assert (UI : unique_indices m) by (destruct W as [U _]; exact U).
  assert (Hvol : forall x, has_volu m1 x <-> has_volu m x).
  { intros x. rewrite !has_volu_In. destruct O as (O1 & _). apply pair_idx in O1. rewrite O1. tauto. }
  assert (Us : NoDup (map su_index (surfs m1)) /\ forall x, has_surf m1 x <-> has_surf m x).
  { destruct O as (_ & O1 & _). apply pair_idx in O1. split; [rewrite O1; exact U2|]. intros x. rewrite !has_surf_In, O1. tauto. }
  destruct Us as [Us Hsurf].
  destruct (In_nth_error _ _ Hv) as [p Hp].
  unfold merge_at. rewrite V, E. assert (FV : find ve_index (verts m) n = Z.of_nat p) by (rewrite <- Iv; exact (@find_pos _ ve_index _ _ _ U4 Hp)). rewrite FV.
  assert (at_ (verts m) (Z.of_nat p) = Ok v) as -> by (apply at_Ok; rewrite Nat2Z.id; split; [lia|exact Hp]). cbn [bind].
  assert (VEv : forall e, In e (ve_edgeind v) <-> VE m n e).
  { intros e. split; [intros X; exists v; auto|]. intros (w & Hw & Iw & X). assert (w = v) as <- by (eapply (@NoDup_idx_inj _ ve_index); eauto; congruence). exact X. }
  destruct (@collect _ ed_index ed_surfind (edges m) (ve_edgeind v) U3) as (es & -> & Ies).
  { intros e He. apply VEv in He. destruct (M1 n e He) as (a & A1 & A2 & _); [intros ->; exact (X1 n He)|]. exists a. auto. }
  cbn [bind].
  destruct (@collect _ su_index su_voluind (surfs m1) (flat_map ed_surfind es) Us) as (ss & -> & Iss).
  { intros s Hs. apply Ies in Hs. destruct Hs as (e & _ & Hs). apply Hsurf. assert (s <> 0) by (intros ->; exact (X5 V3 e Hs)).
    destruct (M3 e s Hs) as (a & A1 & A2 & _); [assumption|]. exists a. auto. }
  cbn [bind]. set (ts := tighten (flat_map su_voluind ss)).
  assert (Its : forall x, In x ts <-> exists u, touches m n u /\ x = f u).
  { intros x. unfold ts. rewrite tighten_In, Iss. split.
    - intros (s & Hs & X). apply Ies in Hs. destruct Hs as (e & He & Hs). apply SVf in X. destruct X as (u & X & ->). exists u. split; [|reflexivity]. exists e, s. split; [apply VEv; exact He|auto].
    - intros (u & (e & s & A & C & D) & ->). exists s. split; [apply Ies; exists e; split; [apply VEv; exact A|exact C]|]. apply SVf. eauto. }
  assert (volu_of : forall x, In x ts -> x <> 0 -> has_volu m1 x).
  { intros x Hx N. apply Its in Hx. destruct Hx as (u & (e & s & A & C & D) & ->). assert (G : SV m1 s (f u)) by (apply SVf; eauto).
    destruct (B s (f u) G N) as (a & A1 & A2 & _). exists a. auto. }
  assert (pos : forall x, In x ts -> 0 <= x).
  { intros x Hx. destruct (Z.eq_dec x 0) as [->|N]; [lia|]. destruct P as [P1 _]. specialize (P1 x (or_introl (proj1 (Hvol x) (volu_of x Hx N)))). lia. }
  destruct (@after_zero_spec ts (tighten_strict _) pos) as [SS IS].
  assert (same : forall x, (forall u, touches m n u -> u <> 0 -> f u = x) -> state (n :: l) f m1).
  { intros x H. constructor; auto. intros n1 u w [<-|Hn] A C D F; [rewrite (H u A D), (H w C F); reflexivity|eapply ONE; eauto]. }
  destruct (after_zero ts) as [|keep r].
  { exists m1, [], f. rewrite app_nil_r. split; [reflexivity|]. split; [|split; [intros c []|split; [intros x; split; [intros (c & [] & _)|tauto]|auto]]].
    apply (same 0). intros u A C. exfalso. apply (IS (f u)). split; [apply Its; eauto|rewrite Z0; exact C]. }
  apply StronglySorted_inv in SS as SQ. destruct SQ as [SQ KR]. rewrite Forall_forall in KR.
  destruct (proj1 (IS keep) (or_introl eq_refl)) as [Kt K0].
  assert (fr : forall x, In x (filter (fun x => 0 <? x) r) <-> In x r).
  { intros x. rewrite filter_In. split; [tauto|]. intros X. split; [exact X|]. apply Z.ltb_lt. specialize (KR x X). specialize (pos keep Kt). lia. }
  assert (fN : NoDup (filter (fun x => 0 <? x) r)).
  { apply NoDup_filter. clear - SQ. induction SQ as [|a q S IH F]; constructor; auto. intros X. rewrite Forall_forall in F. specialize (F a X). lia. }
  destruct (filter (fun x => 0 <? x) r) as [|x0 q] eqn:FE.
  { exists m1, [], f. rewrite app_nil_r. split; [reflexivity|]. split; [|split; [intros c []|split; [intros x; split; [intros (c & [] & _)|tauto]|auto]]].
    apply (same keep). intros u A C. assert (X : In (f u) (keep :: r)) by (apply IS; split; [apply Its; eauto|rewrite Z0; exact C]).
    destruct X as [X|X]; [auto|]. apply fr in X. destruct X. }
  set (rmv := x0 :: q) in *.
  assert (NK : ~ In keep rmv) by (intros X; apply fr in X; specialize (KR keep X); lia).
  assert (IR : forall x, In x ts /\ x <> 0 <-> x = keep \/ In x rmv).
  { intros x. rewrite <- IS, fr. simpl. intuition. }
  destruct (@switches m keep rmv UI K0 NK m1 K) as (m2 & -> & W2 & _ & S2); [apply volu_of; auto|intros o Ho; destruct (proj2 (IR o) (or_intror Ho)); auto|exact fN|].
  cbn [bind]. exists m2, [mkConnec keep 4 rmv], (fun u => into keep rmv (f u)). split; [reflexivity|].
  assert (chain : forall x y, In x ts -> x <> 0 -> In y ts -> y <> 0 -> chained m L x y).
  { intros x y Hx Nx Hy Ny. apply Its in Hx, Hy. destruct Hx as (a & A & ->), Hy as (b & C & ->).
    apply rst_trans with a; [apply rst_sym, CH|]. apply rst_trans with b; [|apply CH]. apply rst_step. rewrite Z0 in Nx, Ny. split; [exact Nx|]. split; [exact Ny|]. exists n. auto. }
  assert (fix_ts : forall x, In x ts -> f x = x) by (intros x X; apply Its in X; destruct X as (u & _ & ->); apply ID).
  assert (fkeep : f keep = keep) by (apply fix_ts; exact Kt).
  split; [|split; [|split]].
  - constructor.
    + exact W2.
    + intros s x. rewrite S2. split.
      * intros (u & X & ->). apply SVf in X. destruct X as (w & X & ->). eauto.
      * intros (w & X & ->). exists (f w). split; [apply SVf; eauto|reflexivity].
    + intros u. unfold into. destruct (in_dec Z.eq_dec (f u) rmv) as [X|X]; [|apply Z0]. apply (fun H => proj2 (IR _) (or_intror H)) in X. destruct X as [_ X]. split; intros Y; [contradiction|apply Z0 in Y; contradiction].
    + intros u. unfold into at 2 3. destruct (in_dec Z.eq_dec (f u) rmv) as [X|X].
      * rewrite fkeep. unfold into. destruct (in_dec Z.eq_dec keep rmv); reflexivity.
      * rewrite ID. unfold into. destruct (in_dec Z.eq_dec (f u) rmv); [contradiction|reflexivity].
    + intros u. unfold into. destruct (in_dec Z.eq_dec (f u) rmv) as [X|X]; [|apply CH]. apply (fun H => proj2 (IR _) (or_intror H)) in X. destruct X as [X1' X2'].
      apply rst_trans with (f u); [apply CH|]. apply chain; auto.
    + intros n1 u w [<-|Hn] A C D F.
      * assert (to : forall u, touches m n u -> u <> 0 -> into keep rmv (f u) = keep).
        { intros z T1 T2. unfold into. destruct (in_dec Z.eq_dec (f z) rmv) as [X|X]; [reflexivity|].
          assert (Y : f z = keep \/ In (f z) rmv) by (apply IR; split; [apply Its; eauto|rewrite Z0; exact T2]). destruct Y; [assumption|contradiction]. }
        rewrite (to u A D), (to w C F). reflexivity.
      * rewrite (ONE n1 u w Hn A C D F). reflexivity.
  - intros c [<-|[]]. cbn. split; [reflexivity|]. split; [discriminate|exact NK].
  - intros x. split.
    + intros (c & [<-|[]] & X). cbn [cn_rmv] in X. assert (Fx : f x = x) by (apply fix_ts, (proj2 (IR x) (or_intror X))). split; [exact Fx|]. rewrite Fx.
      unfold into. destruct (in_dec Z.eq_dec x rmv); [intros Q; apply NK; rewrite Q; exact X|contradiction].
    + intros [Fx G]. exists (mkConnec keep 4 rmv). split; [left; reflexivity|]. cbn [cn_rmv]. rewrite Fx in G. unfold into in G. destruct (in_dec Z.eq_dec x rmv) as [X|X]; [exact X|contradiction].
  - intros x Fx. unfold into. destruct (in_dec Z.eq_dec (f x) rmv) as [X|X]; [|exact Fx]. intros Q. apply Fx. rewrite <- Q. exact fkeep.
Qed.
Lemma merge_all l : forall done f m1 out, state done f m1 -> (forall n, In n l -> In n L /\ has_vert m n) ->
  exists m2 rs g, for_each l merge_at (m1, out) = Ok (m2, out ++ rs) /\ state (rev l ++ done) g m2 /\
    (forall c, In c rs -> cn_type c = 4 /\ cn_rmv c <> [] /\ ~ In (cn_keep c) (cn_rmv c)) /\
    (forall v, (exists c, In c rs /\ In v (cn_rmv c)) <-> f v = v /\ g v <> v) /\ (forall v, f v <> v -> g v <> v).
Proof.
  induction l as [|n l IH]; intros done f m1 out ST H; cbn [for_each].
  - exists m1, [], f. rewrite app_nil_r. split; [reflexivity|]. split; [exact ST|]. split; [intros c []|]. split; [intros x; split; [intros (c & [] & _)|tauto]|auto].
  - destruct (H n (or_introl eq_refl)) as [HL HV]. destruct (@merge_step done f m1 n out ST HL HV) as (m2 & rs & g & -> & ST2 & R & Q1 & Q2). cbn [bind].
    destruct (IH (n :: done) g m2 (out ++ rs) ST2) as (m3 & rs3 & g3 & -> & ST3 & R3 & Q3 & Q4); [intros k Hk; apply H; right; exact Hk|].
    exists m3, (rs ++ rs3), g3. rewrite app_assoc. split; [reflexivity|]. split; [cbn [rev]; rewrite <- app_assoc; exact ST3|].
    split; [intros c X; apply in_app_iff in X; destruct X; auto|]. split; [|intros v X; apply Q4, Q2, X].
    intros v. split.
    + intros (c & X & Y). apply in_app_iff in X. destruct X as [X|X].
      * destruct (proj1 (Q1 v)) as [A B]; [eauto|]. split; [exact A|apply Q4, B].
      * destruct (proj1 (Q3 v)) as [A B]; [eauto|]. split; [|exact B]. destruct (Z.eq_dec (f v) v) as [D|D]; [exact D|]. exfalso. exact (Q2 v D A).
    + intros [A B]. destruct (Z.eq_dec (g v) v) as [D|D].
      * destruct (proj2 (Q3 v) (conj D B)) as (c & X & Y). exists c. rewrite in_app_iff. auto.
      * destruct (proj2 (Q1 v) (conj A D)) as (c & X & Y). exists c. rewrite in_app_iff. auto.
Qed.
End Merge.
(** Two bodies get the same name exactly when a chain of meetings at vertices of the list
    joins them; edges, vertices and the edges of faces stay as they were. *)
Theorem C118_merge m l out : well_connected m -> volus m <> [] -> positive_indices m -> (forall n, In n l -> has_vert m n) ->
  exists m1 rs f, merge_volus l m out = Ok (m1, out ++ rs) /\ same_objects m m1 /\ edges m1 = edges m /\ verts m1 = verts m /\
    map su_edgeind (surfs m1) = map su_edgeind (surfs m) /\
    (forall s v, SV m1 s v <-> exists u, SV m s u /\ v = f u) /\ (forall u, f u = 0 <-> u = 0) /\
    (forall u w, f u = f w <-> chained m l u w) /\
    (forall n v w, In n l -> touches m1 n v -> touches m1 n w -> v <> 0 -> w <> 0 -> v = w) /\
    (forall s v, SV m1 s v -> v <> 0 -> VS m1 v s) /\
    (forall c, In c rs -> cn_type c = 4 /\ cn_rmv c <> [] /\ ~ In (cn_keep c) (cn_rmv c)) /\
    (forall v, (exists c, In c rs /\ In v (cn_rmv c)) <-> f v <> v) /\ (forall u, f (f u) = f u).
Proof.
  intros W V3 P H. destruct (@merge_all m l W V3 P l [] (fun u => u) m out (start l W)) as (m1 & rs & f & E & [K SVf Z0 ID CH ONE] & R & Q1 & _); [intros n Hn; auto|].
  exists m1, rs, f. split; [exact E|]. destruct K as [O Ee V B S OO]. split; [exact O|]. split; [exact Ee|]. split; [exact V|]. split; [exact OO|].
  split; [exact SVf|]. split; [exact Z0|].
  assert (one : forall n u w, In n l -> touches m n u -> touches m n w -> u <> 0 -> w <> 0 -> f u = f w).
  { intros n u w Hn. apply (ONE n). rewrite app_nil_r. apply in_rev in Hn. exact Hn. }
  split.
  { intros u w. split.
    - intros Q. apply rst_trans with (f u); [apply CH|]. rewrite Q. apply rst_sym, CH.
    - intros C. induction C as [x y (A & C & n & Hn & D & F)|x|x y _ IH|x y z _ IH1 _ IH2]; [eapply one; eauto|reflexivity|auto|congruence]. }
  split.
  { assert (back : forall n v, touches m1 n v -> exists u, touches m n u /\ v = f u).
    { intros n v (e & s & A & C & D). apply SVf in D. destruct D as (u & D & ->). exists u. split; [|reflexivity]. exists e, s. unfold VE, ES in *. rewrite V in A. rewrite Ee in C. auto. }
    intros n v w Hn A C D F. destruct (back n v A) as (u & A1 & ->), (back n w C) as (z & C1 & ->). rewrite Z0 in D, F. eapply one; eauto. }
  split; [exact B|]. split; [exact R|]. split; [intros v; rewrite Q1; tauto|exact ID].
Qed.
Print Assumptions C118_merge.
(** Three bodies in a row that share one vertex each. *)
Definition in_a_row : mesh := mkMesh [mkVolu 1 false [1]; mkVolu 2 false [2]; mkVolu 3 false [3]]
  [mkSurf 1 false true [1; 0] [1; 2; 3]; mkSurf 2 false true [2; 0] [4; 5; 6]; mkSurf 3 false true [0; 3] [7; 8; 9]]
  [mkEdge 1 false [1] [1; 2]; mkEdge 2 false [1] [2; 3]; mkEdge 3 false [1] [3; 1]; mkEdge 4 false [2] [3; 4]; mkEdge 5 false [2] [4; 5]; mkEdge 6 false [2] [5; 3];
   mkEdge 7 false [3] [5; 6]; mkEdge 8 false [3] [6; 7]; mkEdge 9 false [3] [7; 5]]
  [mkVert 1 false [1; 3]; mkVert 2 false [1; 2]; mkVert 3 false [2; 3; 4; 6]; mkVert 4 false [4; 5]; mkVert 5 false [5; 6; 7; 9]; mkVert 6 false [7; 8]; mkVert 7 false [8; 9]] 3.
Example C118_case : well_connected in_a_row /\ volus in_a_row <> [] /\ positive_indices in_a_row /\ has_vert in_a_row 5 /\ has_vert in_a_row 3 /\
  (exists m1, merge_volus [5] in_a_row [] = Ok (m1, [mkConnec 2 4 [3]]) /\ map su_voluind (surfs m1) = [[1; 0]; [2; 0]; [0; 2]]) /\
  (exists m1, merge_volus [5; 3] in_a_row [] = Ok (m1, [mkConnec 2 4 [3]; mkConnec 1 4 [2]]) /\ map su_voluind (surfs m1) = [[1; 0]; [1; 0]; [0; 1]]).
Proof.
  split; [apply well_connectedb_spec; vm_compute; reflexivity|]. split; [discriminate|].
  split; [split|].
  - intros i H. repeat destruct H as [H|H]; destruct H as (a & H & <-); simpl in H; repeat (destruct H as [<-|H]; [cbn; lia|]); destruct H.
  - intros i x H. repeat destruct H as [H|H]; destruct H as (a & H & _ & X); simpl in H; repeat (destruct H as [<-|H]; [cbn in X; lia|]); destruct H.
  - split; [exists (mkVert 5 false [5; 6; 7; 9]); split; [vm_compute; tauto|reflexivity]|]. split; [exists (mkVert 3 false [2; 3; 4; 6]); split; [vm_compute; tauto|reflexivity]|].
    split; eexists; split; vm_compute; reflexivity.
Qed.
