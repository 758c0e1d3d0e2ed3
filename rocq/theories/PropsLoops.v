(** The removal of edges with twice the same end, C115. *)
From Coq Require Import Lia.
From Verif Require Import Base Containers Mesh SpecMesh MeshProofs FloodProofs Edit EditProofs CropProofs.
From Verif Require Import MeshCheck Detect SpecDetect.
Set Implicit Arguments.
Open Scope Z_scope.

Lemma remove2_edges m i e m1 : NoDup (map ed_index (edges m)) -> nth_error (edges m) i = Some e -> remove_index 2 (ed_index e) m = Ok m1 ->
  edges m1 = upd (edges m) i (emptied e) /\ volus m1 = volus m.
Proof.
  intros ND H E. cbn [remove_index] in E. unfold remove_index in E. cbn [Z.eqb Pos.eqb] in E. unfold remove2 in E. rewrite (find_pos ND H) in E.
  assert (A : at_ (edges m) (Z.of_nat i) = Ok e) by (apply at_Ok; rewrite Nat2Z.id; split; [lia|exact H]). rewrite A in E. cbn [bind] in E.
  match type of E with bind ?x _ = _ => destruct x as [vs| | |]; try discriminate end. cbn [bind] in E.
  match type of E with bind ?x _ = _ => destruct x as [ss| | |]; try discriminate end. cbn [bind] in E.
  unfold modify in E. rewrite A in E. cbn [bind] in E. rewrite Nat2Z.id in E. injection E as <-. split; reflexivity.
Qed.
Definition becomes (e e1 : edge) : Prop := looped e /\ e1 = emptied e \/ ~ looped e /\ e1 = e.
Lemma looped_dec e : {looped e} + {~ looped e}.
Proof.
  unfold looped. destruct (ed_vertind e) as [|a [|b r]]; [right; intros (? & ? & H); discriminate H|right; intros (? & ? & H); discriminate H|].
  destruct (Z.eq_dec a b) as [<-|N]; [left; eauto|right]. intros (x & y & H). injection H. congruence.
Qed.
Lemma objs_idx m m1 : objs m m1 -> map ed_index (edges m1) = map ed_index (edges m).
Proof. intros (_ & _ & A & _). exact A. Qed.
Definition without (m m1 : mesh) (P : Z -> Prop) : Prop :=
  (forall n i, VE m1 n i <-> VE m n i /\ ~ P i) /\ (forall s i, SE m1 s i <-> SE m s i /\ ~ P i).
Lemma loop_step m i e out : well_connected m -> nth_error (edges m) i = Some e ->
  exists m1 rs, loop_edge (Z.of_nat i) (m, out) = Ok (m1, out ++ rs) /\ well_connected m1 /\ objs m m1 /\ volus m1 = volus m /\
    without m m1 (fun j => looped e /\ j = ed_index e) /\ (looped e /\ rs = [mkConnec (ed_index e) 2 [ed_index e]] /\ edges m1 = upd (edges m) i (emptied e) \/ ~ looped e /\ rs = [] /\ m1 = m).
Proof.
  intros W H. unfold loop_edge. assert (at_ (edges m) (Z.of_nat i) = Ok e) as -> by (apply at_Ok; rewrite Nat2Z.id; split; [lia|exact H]). cbn [bind].
  assert (no : ~ looped e -> exists m1 rs, Ok (m, out) = Ok (m1, out ++ rs) /\ well_connected m1 /\ objs m m1 /\ volus m1 = volus m /\
    without m m1 (fun j => looped e /\ j = ed_index e) /\ (looped e /\ rs = [mkConnec (ed_index e) 2 [ed_index e]] /\ edges m1 = upd (edges m) i (emptied e) \/ ~ looped e /\ rs = [] /\ m1 = m)).
  { intros N. exists m, []. rewrite app_nil_r. split; [reflexivity|]. split; [exact W|]. split; [apply objs_refl|]. split; [reflexivity|]. split; [split; intros; tauto|right; auto]. }
  destruct (ed_vertind e) as [|a [|b r]] eqn:V.
  - apply no. intros (x & y & X). congruence.
  - apply no. intros (x & y & X). congruence.
  - destruct (Z.eqb_spec a b) as [<-|N].
    2:{ apply no. intros (x & y & X). rewrite V in X. injection X. congruence. }
    assert (ND : NoDup (map ed_index (edges m))) by (destruct W as [U _]; apply U).
    destruct (@wc_remove2 m (ed_index e) W) as [m1 [E1 [O1 [R1 S1]]]].
    { exists e. split; [eapply nth_error_In; eauto|reflexivity]. }
    assert (W1 : well_connected m1).
    { eapply restr_wc; eauto; [eapply objs_unique; eauto; apply W|apply objs_volus; auto]. }
    destruct (@remove2_edges m i e m1 ND H E1) as [EE VV]. rewrite E1. cbn [bind].
    assert (at_ (edges m1) (Z.of_nat i) = Ok (emptied e)) as ->.
    { apply at_Ok. rewrite Nat2Z.id, EE. split; [lia|]. apply nth_error_upd_same. apply nth_error_Some. congruence. }
    cbn [bind]. exists m1. eexists. split; [reflexivity|]. split; [exact W1|]. split; [exact O1|]. split; [exact VV|].
    assert (L : looped e) by (exists a, r; exact V). split.
    { destruct R1 as (A1 & _ & _ & A4 & _). split; intros x j; [rewrite A1|rewrite A4]; unfold T; tauto. }
    left. split; [exact L|]. split; [reflexivity|exact EE].
Qed.
Lemma loops_from l : forall done m out, edges m = done ++ l -> well_connected m ->
  exists m1 rs l1, for_each (map Z.of_nat (seq (length done) (length l))) loop_edge (m, out) = Ok (m1, out ++ rs) /\ well_connected m1 /\ objs m m1 /\ volus m1 = volus m /\
    edges m1 = done ++ l1 /\ Forall2 becomes l l1 /\ without m m1 (fun j => exists e, In e l /\ ed_index e = j /\ looped e) /\
    NoDup (map cn_keep rs) /\
    (forall c, In c rs <-> exists e, In e l /\ looped e /\ c = mkConnec (ed_index e) 2 [ed_index e]).
Proof.
  induction l as [|e l IH]; intros done m out E W; cbn [length seq map for_each].
  - exists m, [], []. rewrite app_nil_r. split; [reflexivity|]. split; [exact W|]. split; [apply objs_refl|]. split; [reflexivity|]. split; [exact E|]. split; [constructor|].
    split; [split; intros x j; (split; [intros A; split; [exact A|intros (e & [] & _)]|tauto])|]. split; [constructor|].
    intros c. split; [intros []|intros (e & [] & _)].
  - destruct (@loop_step m (length done) e out W) as (m1 & rs & -> & W1 & O1 & V1 & K1 & C).
    { rewrite E, nth_error_app2, Nat.sub_diag by lia. reflexivity. }
    cbn [bind].
    assert (X : exists e1, edges m1 = (done ++ [e1]) ++ l /\ becomes e e1 /\ forall c, In c rs <-> looped e /\ c = mkConnec (ed_index e) 2 [ed_index e]).
    { destruct C as [(C & -> & Q)|(C & -> & ->)].
      - exists (emptied e). split; [|split; [left; auto|]].
        + rewrite Q, E, <- app_assoc. clear. induction done as [|x done IH]; cbn [app length upd]; [reflexivity|]. rewrite IH. reflexivity.
        + intros c. simpl. intuition.
      - exists e. split; [rewrite E, <- app_assoc; reflexivity|]. split; [right; auto|]. intros c. simpl. tauto. }
    destruct X as (e1 & E1 & B1 & R1).
    destruct (IH (done ++ [e1]) m1 (out ++ rs) E1) as (m2 & rs2 & l2 & Q & W2 & O2 & V2 & E2 & F2 & K2 & N2 & R2); [exact W1|].
    replace (length (done ++ [e1])) with (S (length done)) in Q by (rewrite app_length; cbn; lia). rewrite Q.
    exists m2, (rs ++ rs2), (e1 :: l2). rewrite app_assoc. split; [reflexivity|]. split; [exact W2|]. split; [eapply objs_trans; eauto|]. split; [congruence|].
    split; [rewrite E2, <- app_assoc; reflexivity|]. split; [constructor; assumption|]. split.
    { destruct K1 as [KA KB], K2 as [KC KD]. split; intros x j; [rewrite KC, KA|rewrite KD, KB]; (split; [intros [[A B] D]; split; [exact A|]; intros (f & [<-|G] & I & L1); [apply B; auto|apply D; eauto]|
        intros [A B]; split; [split; [exact A|]; intros [L1 ->]; apply B; exists e; simpl; auto|intros (f & G & I & L1); apply B; exists f; simpl; auto]]). }
    split.
    { destruct C as [(_ & -> & _)|(_ & -> & _)]; cbn [app map cn_keep]; [|exact N2]. constructor; [|exact N2].
      intros G. apply in_map_iff in G. destruct G as (c & G & J). apply R2 in J. destruct J as (f & J & _ & ->). cbn [cn_keep] in G.
      assert (ND : NoDup (map ed_index (edges m))) by (destruct W as [U _]; apply U). rewrite E, map_app in ND. apply NoDup_remove_2 in ND.
      apply ND, in_app_iff. right. rewrite <- G. apply in_map. exact J. }
    intros c. rewrite in_app_iff, R1, R2. split.
    + intros [[A B]|(x & A & B)]; [exists e; simpl; auto|exists x; simpl; tauto].
    + intros (x & [<-|A] & B & D); [left; auto|right; exists x; auto].
Qed.
(** The edges with twice the same end lose all their references and are recorded; the other
    edges are left as they were, and vertices and faces refer only to those. *)
Theorem C115_loops m out : well_connected m ->
  exists m1 rs, drop_loops m out = Ok (m1, out ++ rs) /\ well_connected m1 /\
    Forall2 (fun e e1 => looped e /\ e1 = emptied e \/ ~ looped e /\ e1 = e) (edges m) (edges m1) /\
    (forall e, In e (edges m1) -> ~ looped e) /\
    NoDup (map cn_keep rs) /\
    (forall c, In c rs <-> exists e, In e (edges m) /\ looped e /\ c = mkConnec (ed_index e) 2 [ed_index e]) /\
    volus m1 = volus m /\ map ve_index (verts m1) = map ve_index (verts m) /\ map su_index (surfs m1) = map su_index (surfs m) /\
    (forall v i, VE m1 v i <-> VE m v i /\ ~ exists e, In e (edges m) /\ ed_index e = i /\ looped e) /\
    (forall s i, SE m1 s i <-> SE m s i /\ ~ exists e, In e (edges m) /\ ed_index e = i /\ looped e).
Proof.
  intros W. destruct (@loops_from (edges m) [] m out eq_refl W) as (m1 & rs & l1 & Q & W1 & O & V & E & F & K & ND & R). cbn [app] in E. subst l1.
  exists m1, rs. split; [exact Q|]. split; [exact W1|]. split; [exact F|].
  assert (fwd : forall e1, In e1 (edges m1) -> exists e, In e (edges m) /\ becomes e e1).
  { intros e1 H. apply In_nth_error in H. destruct H as [j H]. clear - F H. revert j H. induction F as [|x y l l1 B F IH]; intros [|j] H; try discriminate.
    - injection H as <-. exists x. simpl; auto.
    - destruct (IH j H) as (e & A & C). exists e. simpl; auto. }
  split.
  { intros e1 H. destruct (fwd e1 H) as (e & _ & [[_ ->]|[N ->]]); [intros (a & r & X); discriminate X|exact N]. }
  split; [exact ND|]. split; [exact R|]. split; [exact V|]. destruct O as (_ & O2 & _ & O4 & _). split; [exact O4|]. split; [exact O2|].
  exact K.
Qed.
Print Assumptions C115_loops.
(** A triangle with two more edges that have been left with twice the same end. *)
Definition with_loops : mesh := mkMesh [mkVolu 1 false [1]] [mkSurf 1 false true [1; 0] [1; 2; 5; 3; 4]]
  [mkEdge 1 false [1] [1; 2]; mkEdge 4 false [1] [1; 1]; mkEdge 2 false [1] [2; 3]; mkEdge 5 false [1] [3; 3]; mkEdge 3 false [1] [3; 1]]
  [mkVert 1 false [1; 4; 3]; mkVert 2 false [1; 2]; mkVert 3 false [2; 5; 3]] 3.
Example C115_case : well_connected with_loops /\
  drop_loops with_loops [mkConnec 7 5 [8]] = Ok (mkMesh [mkVolu 1 false [1]] [mkSurf 1 false false [1; 0] [1; 2; 3]]
    [mkEdge 1 false [1] [1; 2]; mkEdge 4 false [] []; mkEdge 2 false [1] [2; 3]; mkEdge 5 false [] []; mkEdge 3 false [1] [3; 1]]
    [mkVert 1 false [1; 3]; mkVert 2 false [1; 2]; mkVert 3 false [2; 3]] 3, [mkConnec 7 5 [8]; mkConnec 4 2 [4]; mkConnec 5 2 [5]]).
Proof. split; [apply well_connectedb_spec; vm_compute; reflexivity|vm_compute; reflexivity]. Qed.
(** The records of these removals are read again, 785-795, to find the edges that still have
    twice the same end; but the edges recorded have no ends left, and their ends 0 and 1 are
    read without a test. *)
Theorem C115_again_refuted m out m1 l : well_connected m -> (exists e, In e (edges m) /\ looped e) -> drop_loops m out = Ok (m1, l) ->
  edges_again m1 l = UB.
Proof.
  intros W (e & He & Le) D. destruct (C115_loops out W) as (m2 & rs & Q & W2 & F & _ & _ & R & _).
  rewrite Q in D. injection D as -> <-.
  assert (I : In (mkConnec (ed_index e) 2 [ed_index e]) (out ++ rs)) by (apply in_app_iff; right; apply R; eauto).
  assert (E1 : In (emptied e) (edges m1)).
  { clear - F He Le. induction F as [|x y l l1 B F IH]; [destruct He|]. destruct He as [->|He]; [left|right; auto]. destruct B as [[_ B]|[B _]]; [auto|contradiction]. }
  assert (ND : NoDup (map ed_index (edges m1))) by (destruct W2 as [U _]; apply U).
  apply In_nth_error in E1. destruct E1 as [p E1]. assert (P := @find_pos _ ed_index _ _ _ ND E1). cbn [emptied ed_index] in P.
  unfold edges_again. match goal with |- for_each _ ?f _ = _ => set (g := f) end. generalize (@nil Z) as acc. revert I. generalize (out ++ rs) as l. clear - P E1 g.
  induction l as [|c l IH]; intros I acc; [destruct I|]. cbn [for_each].
  destruct I as [->|I].
  - unfold g at 1. cbn [cn_type cn_keep]. rewrite Z.eqb_refl, P.
    assert (at_ (edges m1) (Z.of_nat p) = Ok (emptied e)) as -> by (apply at_Ok; rewrite Nat2Z.id; split; [lia|exact E1]). reflexivity.
  - unfold g at 1. destruct (cn_type c =? 2); [|cbn [bind]; apply IH; exact I].
    assert (U : forall A (v : list A) q, at_ v q = UB \/ exists x, at_ v q = Ok x).
    { intros A v q. unfold at_. destruct (q <? 0); [auto|]. destruct (nth_error v (Z.to_nat q)); eauto. }
    destruct (U _ (edges m1) (find ed_index (edges m1) (cn_keep c))) as [->|[f ->]]; [reflexivity|]. cbn [bind].
    destruct (U _ (ed_vertind f) 0) as [->|[a ->]]; [reflexivity|]. cbn [bind].
    destruct (U _ (ed_vertind f) 1) as [->|[b ->]]; [reflexivity|]. cbn [bind]. apply IH. exact I.
Qed.
Print Assumptions C115_again_refuted.
Example C115_again_case : (exists e, In e (edges with_loops) /\ looped e) /\ exists m1 l, drop_loops with_loops [] = Ok (m1, l) /\ edges_again m1 l = UB /\ edges_again with_loops l = Ok [4; 5].
Proof.
  split; [exists (mkEdge 4 false [1] [1; 1]); split; [right; left; reflexivity|exists 1, []; reflexivity]|].
  do 2 eexists. split; [vm_compute; reflexivity|]. split; vm_compute; reflexivity.
Qed.

Lemma drop_from l : forall m out, well_connected m ->
  (forall c, In c l -> cn_type c = 2 -> exists i, cn_rmv c = [i] /\ 0 < i /\ has_edge m i) ->
  exists m1, for_each l drop_record (m, out) = Ok (m1, out ++ l) /\ well_connected m1 /\ objs m m1 /\
    restr m T (fun i => ~ recorded l i) T T m1 /\ (forall s v, SV m1 s v <-> SV m s v).
Proof.
  induction l as [|c l IH]; intros m out W H; cbn [for_each].
  - exists m. rewrite app_nil_r. split; [reflexivity|]. split; [exact W|]. split; [apply objs_refl|]. split; [|tauto].
    eapply restr_ext; [..|apply restr_refl]; unfold T, recorded; try tauto. intros i. split; [intros _ (c & [] & _)|tauto].
  - unfold drop_record at 1. destruct (Z.eqb_spec (cn_type c) 2) as [E|E].
    + destruct (H c (or_introl eq_refl) E) as (i & R & P & He). rewrite R. cbn [at_ Z.ltb Z.compare Z.to_nat nth_error bind]. unfold at_. cbn [Z.ltb Z.compare Z.to_nat nth_error bind].
      apply Z.ltb_lt in P. rewrite P.
      destruct (@wc_remove2 m i W He) as [m1 [E1 [O1 [R1 S1]]]]. rewrite E1. cbn [bind].
      assert (W1 : well_connected m1) by (eapply restr_wc; eauto; [eapply objs_unique; eauto; apply W|apply objs_volus; auto]).
      destruct (IH m1 (out ++ [c]) W1) as (m2 & Q & W2 & O2 & R2 & S2).
      { intros d Hd Ed. destruct (H d (or_intror Hd) Ed) as (j & A & B & C). exists j. split; [exact A|]. split; [exact B|]. apply (objs_has O1). exact C. }
      exists m2. rewrite Q, <- app_assoc. split; [reflexivity|]. split; [exact W2|]. split; [eapply objs_trans; eauto|].
      split; [|intros s v; rewrite S2; apply S1].
      eapply restr_ext; [..|eapply restr_trans; [exact R1|exact R2]]; unfold T; try tauto. intros j. split.
      * intros [A B] (d & [<-|Hd] & Ed & X); [rewrite R in X; destruct X as [<-|[]]; apply A; reflexivity|apply B; exists d; auto].
      * intros A. split; [intros ->; apply A; exists c; rewrite R; simpl; auto|]. intros (d & Hd & X). apply A. exists d. simpl; tauto.
    + cbn [bind]. destruct (IH m (out ++ [c]) W) as (m2 & Q & W2 & O2 & R2 & S2); [intros d Hd; apply H; right; exact Hd|].
      exists m2. rewrite Q, <- app_assoc. split; [reflexivity|]. split; [exact W2|]. split; [exact O2|]. split; [|exact S2].
      eapply restr_ext; [..|exact R2]; unfold T; try tauto. intros j. split.
      * intros A (d & [<-|Hd] & Ed & X); [contradiction|apply A; exists d; auto].
      * intros A (d & Hd & X). apply A. exists d. simpl; tauto.
Qed.
(** The edges recorded lose all their references, and no other reference changes. *)
Theorem C115_recorded m l : well_connected m ->
  (forall c, In c l -> cn_type c = 2 -> exists i, cn_rmv c = [i] /\ 0 < i /\ has_edge m i) ->
  exists m1, drop_recorded m l = Ok (m1, l) /\ well_connected m1 /\
    (forall n i, VE m1 n i <-> VE m n i /\ ~ recorded l i) /\ (forall i n, EV m1 i n <-> EV m i n /\ ~ recorded l i) /\
    (forall i s, ES m1 i s <-> ES m i s /\ ~ recorded l i) /\ (forall s i, SE m1 s i <-> SE m s i /\ ~ recorded l i) /\
    (forall s v, SV m1 s v <-> SV m s v) /\ (forall v s, VS m1 v s <-> VS m v s) /\
    map ed_index (edges m1) = map ed_index (edges m) /\ map ve_index (verts m1) = map ve_index (verts m) /\
    map su_index (surfs m1) = map su_index (surfs m) /\ map vo_index (volus m1) = map vo_index (volus m).
Proof.
  intros W H. destruct (@drop_from l m [] W H) as (m1 & Q & W1 & O & (R1 & R2 & R3 & R4 & _ & R6) & S). exists m1.
  split; [exact Q|]. split; [exact W1|]. unfold T in *.
  split; [intros n i; rewrite R1; tauto|]. split; [intros i n; rewrite R2; tauto|]. split; [intros i s; rewrite R3; tauto|]. split; [intros s i; rewrite R4; tauto|].
  split; [exact S|]. split; [intros v s; rewrite R6; tauto|]. destruct O as (O1 & O2 & O3 & O4 & _). auto.
Qed.
Print Assumptions C115_recorded.
(** But these records, too, are read again, 785-795, and the ends 0 and 1 of the edges removed
    are read without a test. *)
Theorem C115_collapsed_refuted m l m1 more : well_connected m ->
  (forall c, In c l -> cn_type c = 2 -> cn_rmv c = [cn_keep c] /\ 0 < cn_keep c /\ has_edge m (cn_keep c)) ->
  (exists c, In c l /\ cn_type c = 2) -> drop_recorded m l = Ok (m1, l) -> edges_again m1 (l ++ more) = UB.
Proof.
  intros W H (c & Hc & Tc) D.
  destruct (@C115_recorded m l W) as (m2 & Q & _ & _ & EVm & _). { intros d Hd Td. destruct (H d Hd Td) as (A & B). exists (cn_keep d). auto. }
  rewrite Q in D. injection D as ->. destruct (H c Hc Tc) as (A & _ & _).
  assert (N : forall e, In e (edges m1) -> ed_index e = cn_keep c -> ed_vertind e = []).
  { intros e He I. destruct (ed_vertind e) as [|x r] eqn:V; [reflexivity|]. exfalso.
    apply (EVm (cn_keep c) x); [exists e; rewrite V; simpl; auto|]. exists c. rewrite A. simpl; auto. }
  assert (I : In c (l ++ more)) by (apply in_app_iff; auto).
  unfold edges_again. match goal with |- for_each _ ?f _ = _ => set (g := f) end. generalize (@nil Z) as acc. revert I. generalize (l ++ more) as k. clear - N g Tc.
  assert (U : forall A (v : list A) q, at_ v q = UB \/ exists x, at_ v q = Ok x).
  { intros A v q. unfold at_. destruct (q <? 0); [auto|]. destruct (nth_error v (Z.to_nat q)); eauto. }
  induction k as [|d k IH]; intros I acc; [destruct I|]. cbn [for_each]. unfold g at 1.
  destruct (Z.eqb_spec (cn_type d) 2) as [Td|Td].
  - destruct (U _ (edges m1) (find ed_index (edges m1) (cn_keep d))) as [->|[f Ef]]; [reflexivity|]. rewrite Ef. cbn [bind].
    destruct (U _ (ed_vertind f) 0) as [->|[a Ea]]; [reflexivity|]. rewrite Ea. cbn [bind].
    destruct (U _ (ed_vertind f) 1) as [->|[b ->]]; [reflexivity|]. cbn [bind].
    destruct I as [->|I]; [|apply IH; exact I]. exfalso.
    apply at_Ok in Ef. destruct Ef as [Pf Ef]. destruct (find_spec ed_index (edges m1) (cn_keep c)) as [[X _]|(j & x & X & Y & Z)]; [lia|].
    rewrite X, Nat2Z.id in Ef. assert (x = f) by congruence. subst x. rewrite (N f) in Ea; [discriminate Ea|eapply nth_error_In; eauto|exact Z].
  - destruct I as [->|I]; [contradiction|]. cbn [bind]. apply IH. exact I.
Qed.
Print Assumptions C115_collapsed_refuted.
Example C115_recorded_case : exists m1, well_connected with_loops /\
  drop_recorded with_loops [mkConnec 1 1 [2]; mkConnec 1 2 [1]] = Ok (m1, [mkConnec 1 1 [2]; mkConnec 1 2 [1]]) /\ has_edge with_loops 1 /\
  nth_error (edges m1) 0 = Some (mkEdge 1 false [] []) /\ edges_again m1 [mkConnec 1 1 [2]; mkConnec 1 2 [1]] = UB.
Proof.
  eexists. split; [apply well_connectedb_spec; vm_compute; reflexivity|]. split; [vm_compute; reflexivity|].
  split; [exists (mkEdge 1 false [1] [1; 2]); split; [left; reflexivity|reflexivity]|]. split; vm_compute; reflexivity.
Qed.
