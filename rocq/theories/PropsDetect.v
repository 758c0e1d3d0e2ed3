(** The detection of invalid connections of a snake, C114. *)
From Coq Require Import Lia QArith.
From Verif Require Import Base Containers Mesh SpecMesh MeshProofs FloodProofs Num Snake Spawn SpecSpawn MergeProofs CloseProofs.
From Verif Require Import Detect SpecDetect.
Set Implicit Arguments.
Open Scope Z_scope.

Section Edges.
Variables (N : num) (k : snake N).
Hypothesis aligned : map fst (k_edges k) = map ed_index (edges (k_conn k)).
Hypothesis nd : NoDup (map (@sx_index N) (k_snaxs k)).
Hypothesis two : forall e, In e (edges (k_conn k)) -> ed_vertind e = [] \/ exists a b, ed_vertind e = [a; b].

Definition records (e : edge) (l : list connec) : Prop :=
  l = [] /\ (forall a b, ~ flattened k e a b) \/
  exists a b, flattened k e a b /\ l = (if a =? b then [] else [mkConnec a 1 [b]]) ++ [mkConnec (ed_index e) 2 [ed_index e]].
Lemma snaxel a : find (@sx_index N) (k_snaxs k) a = -1 /\ (forall s, In s (k_snaxs k) -> sx_index s <> a) \/
  exists s, In s (k_snaxs k) /\ sx_index s = a /\ at_ (k_snaxs k) (find (@sx_index N) (k_snaxs k) a) = Ok s /\ find (@sx_index N) (k_snaxs k) a <> -1.
Proof.
  destruct (find_spec (@sx_index N) (k_snaxs k) a) as [[E H]|[j [s [E [A B]]]]].
  - left. split; [exact E|]. intros s S X. apply H. eauto.
  - right. exists s. split; [eapply nth_error_In; eauto|]. split; [exact B|]. rewrite E. split; [apply at_Ok; rewrite Nat2Z.id; split; [lia|exact A]|lia].
Qed.
Lemma edge_records i e out : nth_error (edges (k_conn k)) i = Some e -> exists l, edge_detect k (Z.of_nat i) out = Ok (out ++ l) /\ records e l.
Proof.
  intros H. assert (He : In e (edges (k_conn k))) by (eapply nth_error_In; eauto). unfold edge_detect.
  assert (at_ (edges (k_conn k)) (Z.of_nat i) = Ok e) as -> by (apply at_Ok; rewrite Nat2Z.id; split; [lia|exact H]). cbn [bind].
  assert (none : (forall a b, ~ flattened k e a b) -> exists l, Ok out = Ok (out ++ l) /\ records e l).
  { intros X. exists []. rewrite app_nil_r. split; [reflexivity|left; auto]. }
  destruct (@two e He) as [E|(a & b & E)]; rewrite E.
  { apply none. intros a b (_ & E1 & _). congruence. }
  change (at_ [a; b] 0) with (Ok a). change (at_ [a; b] 1) with (Ok b). cbn [bind].
  destruct (snaxel a) as [[-> Na]|(s & Hs & Es & As & Ns)].
  { apply none. intros a1 b1 (_ & E1 & s & t & S & X & _). rewrite E in E1. injection E1 as <- <-. exact (Na s S X). }
  destruct (snaxel b) as [[-> Nb]|(t & Ht & Et & At & Nt)].
  { rewrite orb_true_r. apply none. intros a1 b1 (_ & E1 & s1 & t & _ & _ & S & X & _). rewrite E in E1. injection E1 as <- <-. exact (Nb t S X). }
  rewrite (proj2 (Z.eqb_neq _ _) Ns), (proj2 (Z.eqb_neq _ _) Nt). cbn [orb]. rewrite As, At. cbn [bind].
  assert (U : forall x y, In x (k_snaxs k) -> In y (k_snaxs k) -> sx_index x = sx_index y -> x = y) by (intros x y X Y; apply (@NoDup_idx_inj _ (@sx_index N) _ x y nd X Y)).
  destruct (Z.eqb_spec (sx_edge s) (sx_edge t)) as [Q|Q].
  - assert (exists x, at_ (k_edges k) (Z.of_nat i) = Ok x /\ fst x = ed_index e) as (x & -> & X).
    { assert (M : nth_error (map fst (k_edges k)) i = Some (ed_index e)) by (rewrite aligned; apply map_nth_error; exact H).
      rewrite nth_error_map in M. destruct (nth_error (k_edges k) i) as [x|] eqn:Ex; [|discriminate]. injection M as M. exists x. split; [apply at_Ok; rewrite Nat2Z.id; split; [lia|exact Ex]|exact M]. }
    cbn [bind]. rewrite X, Es, Et.
    assert (F : flattened k e a b) by (split; [exact He|]; split; [exact E|]; exists s, t; auto 10).
    assert (D : (find (@sx_index N) (k_snaxs k) a =? find (@sx_index N) (k_snaxs k) b) = (a =? b)).
    { destruct (Z.eqb_spec a b) as [-> |NE]; [apply Z.eqb_refl|]. apply Z.eqb_neq. intros G. rewrite G in As. rewrite As in At. injection At as ->. congruence. }
    rewrite D. eexists. split; [|right; exists a, b; split; [exact F|reflexivity]]. destruct (a =? b); cbn [app]; [reflexivity|]. rewrite <- app_assoc. reflexivity.
  - apply none. intros a1 b1 (_ & E1 & s1 & t1 & S1 & X1 & T1 & Y1 & Z1). rewrite E in E1. injection E1 as <- <-.
    apply Q. rewrite <- (U s1 s), <- (U t1 t); auto; congruence.
Qed.
Lemma all_records : forall l n out, (forall i e, nth_error l i = Some e -> nth_error (edges (k_conn k)) (n + i) = Some e) ->
  exists ls, for_each (map Z.of_nat (seq n (length l))) (edge_detect k) out = Ok (out ++ concat ls) /\ Forall2 records l ls.
Proof.
  induction l as [|e l IH]; intros n out H; cbn [length seq map for_each].
  - exists []. cbn. rewrite app_nil_r. auto.
  - destruct (@edge_records n e out) as [r [-> R]]; [specialize (H 0%nat e eq_refl); rewrite Nat.add_0_r in H; exact H|]. cbn [bind].
    destruct (IH (S n) (out ++ r)) as [ls [-> F]]; [intros i x X; replace (S n + i)%nat with (n + S i)%nat by lia; apply H; exact X|].
    exists (r :: ls). cbn [concat]. rewrite app_assoc. auto.
Qed.
End Edges.

(** The list receives, for each edge of the snake between two snaxels on the same edge of
    the mesh, the removal of the edge and the merge of its two ends, and nothing else. *)
Theorem C114_edges (N : num) (k : snake N) out :
  in_step k -> NoDup (map (@sx_index N) (k_snaxs k)) -> NoDup (map ed_index (edges (k_conn k))) ->
  (forall e, In e (edges (k_conn k)) -> ed_vertind e = [] \/ exists a b, ed_vertind e = [a; b]) ->
  exists found, detect_edges k out = Ok (out ++ found) /\
    (forall c, In c found <-> exists e a b, flattened k e a b /\
       (c = mkConnec (ed_index e) 2 [ed_index e] \/ a <> b /\ c = mkConnec a 1 [b])) /\
    NoDup (map cn_keep (filter (fun c => cn_type c =? 2) found)).
Proof.
  intros (_ & Al & _) ND NE Two. unfold detect_edges.
  destruct (@all_records N k Al ND Two (edges (k_conn k)) 0 out) as [ls [R F]]; [auto|].
  assert (length (k_edges k) = length (edges (k_conn k))) as -> by (rewrite <- (map_length fst), Al, map_length; reflexivity).
  exists (concat ls). split; [exact R|].
  assert (W : forall l ls, Forall2 (records k) l ls ->
    (forall c, In c (concat ls) <-> exists e a b, In e l /\ flattened k e a b /\ (c = mkConnec (ed_index e) 2 [ed_index e] \/ a <> b /\ c = mkConnec a 1 [b])) /\
    (NoDup (map ed_index l) -> NoDup (map cn_keep (filter (fun c => cn_type c =? 2) (concat ls)))) /\
    (forall i, In i (map cn_keep (filter (fun c => cn_type c =? 2) (concat ls))) -> In i (map ed_index l))).
  { clear. induction 1 as [|e r l ls R F [IH1 [IH2 IH3]]].
    - cbn. split; [|split; [intros _; constructor|intros i []]]. intros c. split; [intros []|intros (e & _ & _ & [] & _)].
    - cbn [concat]. destruct R as [[-> NF]|(a & b & FL & ->)].
      + cbn [app]. split; [|split; [intros D; apply IH2; inversion D; assumption|intros i I; right; apply IH3; exact I]].
        intros c. rewrite IH1. split; intros (e1 & a & b & A & B & C); exists e1, a, b; [simpl; auto|].
        destruct A as [<-|A]; [exfalso; exact (NF a b B)|auto].
      + assert (X : filter (fun c => cn_type c =? 2) (((if a =? b then [] else [mkConnec a 1 [b]]) ++ [mkConnec (ed_index e) 2 [ed_index e]]) ++ concat ls)
                    = mkConnec (ed_index e) 2 [ed_index e] :: filter (fun c => cn_type c =? 2) (concat ls)) by (destruct (a =? b); reflexivity).
        rewrite X. cbn [map cn_keep]. split; [|split].
        * intros c. rewrite in_app_iff, IH1. split.
          -- intros [I|(e1 & a1 & b1 & A & B & C)]; [|exists e1, a1, b1; simpl; auto].
             exists e, a, b. split; [simpl; auto|]. split; [exact FL|]. apply in_app_iff in I. destruct I as [I|[<-|[]]]; [|auto].
             destruct (Z.eqb_spec a b) as [Q|Q]; [destruct I|]. destruct I as [<-|[]]. auto.
          -- intros (e1 & a1 & b1 & [<-|A] & B & C); [|right; exists e1, a1, b1; auto]. left.
             assert (a1 = a /\ b1 = b) as [-> ->]. { destruct B as (_ & B & _), FL as (_ & G & _). rewrite G in B. injection B. auto. }
             apply in_app_iff. destruct C as [-> |[Q ->]]; [right; simpl; auto|left]. apply Z.eqb_neq in Q. rewrite Q. simpl; auto.
        * intros D. inversion D as [|? ? D1 D2]; subst. constructor; [intros I; apply D1; apply IH3; exact I|apply IH2; exact D2].
        * intros i [<-|I]; [left; reflexivity|right; apply IH3; exact I]. }
  destruct (W _ _ F) as [W1 [W2 _]]. split; [|exact (W2 NE)]. intros c. rewrite W1. split.
  - intros (e & a & b & _ & X). exists e, a, b. exact X.
  - intros (e & a & b & X & Y). exists e, a, b. split; [exact (proj1 X)|auto].
Qed.
Print Assumptions C114_edges.

(** The vertices without edges are listed, in order, and nothing else. *)
Theorem C114_loose c out : exists found, detect_loose c out = out ++ found /\
  (forall r, In r found <-> exists v, In v (verts c) /\ ve_edgeind v = [] /\ r = mkConnec (ve_index v) 1 [ve_index v]) /\
  (NoDup (map ve_index (verts c)) -> NoDup found).
Proof.
  unfold detect_loose. generalize (verts c). clear c. intros l. revert out. induction l as [|v l IH]; intros out; cbn [fold_left].
  - exists []. rewrite app_nil_r. split; [reflexivity|]. split; [|intros _; constructor]. intros r. split; [intros []|intros (v & [] & _)].
  - destruct (ve_edgeind v) as [|x xs] eqn:E.
    + destruct (IH (out ++ [mkConnec (ve_index v) 1 [ve_index v]])) as (f & -> & F & D). exists (mkConnec (ve_index v) 1 [ve_index v] :: f).
      rewrite <- app_assoc. split; [reflexivity|]. split.
      * intros r. split.
        -- intros [<-|R]; [exists v; simpl; auto|]. apply F in R. destruct R as (w & A & B & C). exists w. simpl; auto.
        -- intros (w & [<-|A] & B & ->); [left; reflexivity|right; apply F; eauto].
      * intros ND. inversion ND as [|? ? N1 N2]; subst. constructor; [|apply D; exact N2]. intros R. apply F in R. destruct R as (w & A & B & C).
        injection C as C _. apply N1. rewrite C. apply in_map. exact A.
    + destruct (IH out) as (f & -> & F & D). exists f. split; [reflexivity|]. split.
      * intros r. rewrite F. split; intros (w & A & B & C); exists w; [simpl; auto|]. destruct A as [<-|A]; [congruence|auto].
      * intros ND. inversion ND; subst. auto.
Qed.
Print Assumptions C114_loose.

(** Snaxels 1 and 2 are on mesh edge 7, so that snake edge 1 has collapsed; snaxel 4 has no
    edge left. *)
Definition pinched : snake Qn :=
  let x i e := mkSnax (N := Qn) i 0%Q 0%Q 1 2 e 0 1 in
  mkSnake [x 1 7; x 2 7; x 3 8; x 4 9] [(1, 1); (2, 1); (3, 1)] []
    (mkMesh [] [] [mkEdge 1 false [1] [1; 2]; mkEdge 2 false [1] [2; 3]; mkEdge 3 false [1] [3; 1]]
       [mkVert 1 false [1; 3]; mkVert 2 false [1; 2]; mkVert 3 false [2; 3]; mkVert 4 false []] 2) [] false.
Example C114_case : in_step pinched /\ NoDup (map (@sx_index Qn) (k_snaxs pinched)) /\ NoDup (map ed_index (edges (k_conn pinched))) /\
  (forall e, In e (edges (k_conn pinched)) -> ed_vertind e = [] \/ exists a b, ed_vertind e = [a; b]) /\
  detect_edges pinched (detect_loose (k_conn pinched) []) = Ok [mkConnec 4 1 [4]; mkConnec 1 1 [2]; mkConnec 1 2 [1]].
Proof.
  split; [repeat split|]. split; [cbn; repeat constructor; simpl; intuition discriminate|]. split; [cbn; repeat constructor; simpl; intuition discriminate|].
  split; [|vm_compute; reflexivity]. intros e [<-|[<-|[<-|[]]]]; right; eexists; eexists; reflexivity.
Qed.
(** ** Making the merges agree *)
Inductive paired : list connec -> Prop :=
| paired_nil : paired []
| paired_edge e l : cn_type e = 2 -> paired l -> paired (e :: l)
| paired_merge c e l a b : merges c a b -> a <> b -> cn_type e = 2 -> paired l -> paired (c :: e :: l).
Lemma paired_app l1 l2 : paired l1 -> paired l2 -> paired (l1 ++ l2).
Proof. induction 1; intros P; cbn [app]; [exact P|apply paired_edge; auto|eapply paired_merge; eauto]. Qed.
Lemma records_paired (N : num) (k : snake N) e l : records k e l -> paired l.
Proof.
  intros [[-> _]|(a & b & _ & ->)]; [constructor|]. destruct (Z.eqb_spec a b) as [Q|Q]; cbn [app].
  - apply paired_edge; [reflexivity|constructor].
  - apply paired_merge with a b; [repeat split|exact Q|reflexivity|constructor].
Qed.
Lemma overlaps_spec c a b d a1 b1 : merges c a b -> merges d a1 b1 -> a1 <> b1 -> overlaps c d = false -> a <> a1 /\ a <> b1 /\ b <> a1 /\ b <> b1.
Proof.
  intros (_ & <- & R) (_ & <- & R1) NE H. unfold overlaps, rmv0 in H. rewrite R, R1 in H. cbn [hd] in H.
  apply andb_false_iff in H. destruct H as [H|H].
  - apply negb_false_iff in H. apply Z.eqb_eq in H. contradiction.
  - apply orb_false_iff in H. destruct H as [H H4]. apply orb_false_iff in H. destruct H as [H H3]. apply orb_false_iff in H. destruct H as [H1 H2].
    apply Z.eqb_neq in H1, H2, H3, H4. repeat split; congruence.
Qed.
Lemma after_ok c a b nk : merges c a b -> a <> b -> forall l, paired l ->
  exists r, settle_after c nk l = Ok r /\ paired r /\ length r = length l /\
    forall d a1 b1, In d r -> merges d a1 b1 -> a1 = a /\ b1 = b \/ (In d l /\ a <> a1 /\ a <> b1 /\ b <> a1 /\ b <> b1).
Proof.
  intros C NE l P. induction P as [|e l E P (r & R & PR & LR & H)|d e l x y D NX E P (r & R & PR & LR & H)]; cbn [settle_after].
  - exists []. split; [reflexivity|]. split; [constructor|]. split; [reflexivity|]. intros d a1 b1 [].
  - rewrite E. cbn [Z.eqb Pos.eqb andb]. rewrite R. cbn [bind]. exists (e :: r). split; [reflexivity|]. split; [constructor; assumption|]. split; [cbn; congruence|].
    intros d a1 b1 [<-|I] M; [destruct M as [M _]; congruence|]. destruct (H d a1 b1 I M) as [X|[X Y]]; [auto|]. right. split; [right; exact X|exact Y].
  - pose proof (proj1 D) as TD. rewrite TD. cbn [Z.eqb Pos.eqb andb]. destruct (overlaps c d) eqn:O.
    + rewrite R. cbn [bind]. eexists. split; [reflexivity|]. pose proof C as (_ & KC & RC). unfold rmv0. rewrite RC. cbn [hd].
      split; [apply paired_merge with a b; [split; [reflexivity|split; [exact KC|reflexivity]]|exact NE|exact E|exact PR]|]. split; [cbn; congruence|].
      intros d1 a1 b1 [<-|[<-|I]] M.
      * left. destruct M as (_ & M1 & M2). cbn in M1, M2. split; congruence.
      * destruct M as [M _]. cbn in M. congruence.
      * destruct (H d1 a1 b1 I M) as [X|[X Y]]; [auto|]. right. split; [right; right; exact X|exact Y].
    + rewrite E. cbn [Z.eqb Pos.eqb andb]. rewrite R. cbn [bind]. eexists. split; [reflexivity|].
      split; [apply paired_merge with x y; assumption|]. split; [cbn; congruence|].
      intros d1 a1 b1 [<-|[<-|I]] M.
      * right. split; [left; reflexivity|]. apply (@overlaps_spec c a b d a1 b1 C M); [|exact O]. destruct D as (_ & D1 & D2), M as (_ & M1 & M2). congruence.
      * destruct M as [M _]. congruence.
      * destruct (H d1 a1 b1 I M) as [X|[X Y]]; [auto|]. right. split; [right; right; exact X|exact Y].
Qed.
Lemma settle_ok f : forall l, (length l <= f)%nat -> paired l -> exists r, settle f l = Ok r /\ length r = length l /\
  (forall d a b, In d r -> merges d a b -> a <> b /\ exists d0, In d0 l /\ merges d0 a b) /\
  (forall c d a b a1 b1, In c r -> In d r -> merges c a b -> merges d a1 b1 -> agree a b a1 b1).
Proof.
  induction f as [|f IH]; intros l L P.
  { destruct l; [|cbn in L; lia]. exists []. split; [reflexivity|]. split; [reflexivity|]. split; [intros d a b []|intros c d a b a1 b1 []]. }
  destruct P as [|e l E P|c e l a b C NE E P]; cbn [settle].
  - exists []. split; [reflexivity|]. split; [reflexivity|]. split; [intros d a b []|intros c d a b a1 b1 []].
  - rewrite E. cbn [Z.eqb Pos.eqb]. cbn in L. destruct (IH l) as (r & -> & LR & S & A); [lia|exact P|]. cbn [bind].
    exists (e :: r). split; [reflexivity|]. split; [cbn; congruence|]. split.
    + intros d a b [<-|I] M; [destruct M as [M _]; congruence|]. destruct (S d a b I M) as [X (d0 & Y & Z0)]. split; [exact X|]. exists d0. simpl; auto.
    + intros c d a b a1 b1 [<-|I] [<-|J] M M1; [destruct M as [M _]; congruence|destruct M as [M _]; congruence|destruct M1 as [M1 _]; congruence|]. exact (A c d a b a1 b1 I J M M1).
  - rewrite (proj1 C). cbn [Z.eqb Pos.eqb hd]. 
    destruct (@after_ok c a b (cn_keep e) C NE (e :: l)) as (r1 & R1 & P1 & L1 & H1); [apply paired_edge; assumption|]. rewrite R1. cbn [bind].
    destruct (IH r1) as (r & -> & LR & S & A); [cbn in *; lia|exact P1|]. cbn [bind]. exists (c :: r). split; [reflexivity|]. split; [cbn in *; congruence|].
    assert (same : forall x y, merges c x y -> x = a /\ y = b). { intros x y (_ & X & Y). destruct C as (_ & C1 & C2). split; congruence. }
    assert (later : forall d x y, In d r -> merges d x y -> agree a b x y).
    { intros d x y I M. destruct (S d x y I M) as [_ (d0 & I0 & M0)]. destruct (H1 d0 x y I0 M0) as [[-> ->]|[_ X]]; [left; auto|right; exact X]. }
    split.
    + intros d x y [<-|I] M; [destruct (same x y M) as [-> ->]; split; [exact NE|]; exists c; simpl; auto|].
      destruct (S d x y I M) as [X (d0 & I0 & M0)]. split; [exact X|].
      destruct (H1 d0 x y I0 M0) as [[-> ->]|[J _]]; [exists c; simpl; auto|exists d0; split; [right; exact J|exact M0]].
    + intros d d1 x y x1 y1 [<-|I] [<-|J] M M1.
      * destruct (same x y M) as [-> ->], (same x1 y1 M1) as [-> ->]. left; auto.
      * destruct (same x y M) as [-> ->]. exact (later d1 x1 y1 J M1).
      * destruct (same x1 y1 M1) as [-> ->]. destruct (later d x y I M) as [[-> ->]|X]; [left; auto|right]. repeat split; apply not_eq_sym; apply X.
      * exact (A d d1 x y x1 y1 I J M M1).
Qed.
(** After the loop any two merges are equal or have no snaxel in common, and each of them
    merges the two ends of one of the edges detected. *)
Theorem C114_settled (N : num) (k : snake N) out found :
  in_step k -> NoDup (map (@sx_index N) (k_snaxs k)) ->
  (forall e, In e (edges (k_conn k)) -> ed_vertind e = [] \/ exists a b, ed_vertind e = [a; b]) ->
  detect_edges k out = Ok (out ++ found) ->
  exists r, settle (length found) found = Ok r /\ length r = length found /\
    (forall c a b, In c r -> merges c a b -> a <> b /\ exists e, flattened k e a b) /\
    (forall c d a b a1 b1, In c r -> In d r -> merges c a b -> merges d a1 b1 -> agree a b a1 b1).
Proof.
  intros (_ & Al & _) ND Two D. unfold detect_edges in D.
  destruct (@all_records N k Al ND Two (edges (k_conn k)) 0 out) as [ls [R F]]; [auto|].
  assert (length (k_edges k) = length (edges (k_conn k))) as E by (rewrite <- (map_length fst), Al, map_length; reflexivity).
  rewrite E, R in D. injection D as D. apply app_inv_head in D. subst found.
  assert (P : paired (concat ls)).
  { clear - F. induction F as [|e l es ls R F IH]; cbn [concat]; [constructor|]. apply paired_app; [exact (@records_paired N k e l R)|exact IH]. }
  destruct (@settle_ok _ (concat ls) (le_n _) P) as (r & Q & L & S & A). exists r. split; [exact Q|]. split; [exact L|]. split; [|exact A].
  intros c a b I M. destruct (S c a b I M) as [X (d0 & I0 & M0)]. split; [exact X|]. clear - F I0 M0.
  induction F as [|e l es ls R F IH]; cbn [concat] in I0; [destruct I0|]. apply in_app_iff in I0. destruct I0 as [I0|I0]; [|exact (IH I0)].
  exists e. destruct R as [[-> _]|(x & y & FL & ->)]; [destruct I0|]. apply in_app_iff in I0. destruct I0 as [I0|[<-|[]]]; [|destruct M0 as [M0 _]; discriminate M0].
  destruct (x =? y); [destruct I0|]. destruct I0 as [<-|[]]. destruct M0 as (_ & M1 & M2). cbn in M1, M2. injection M2 as <-. subst a. exact FL.
Qed.
Print Assumptions C114_settled.
(** ** The edges removed *)
Inductive edited : list connec -> list connec -> Prop :=
| edited_nil : edited [] []
| edited_edge e l r : cn_type e = 2 -> edited l r -> edited (e :: l) (e :: r)
| edited_same c e l r : cn_type c = 1 -> cn_type e = 2 -> edited l r -> edited (c :: e :: l) (c :: e :: r)
| edited_other c e c1 e1 l r : cn_type c = 1 -> cn_type e = 2 -> cn_type c1 = 1 -> cn_type e1 = 2 -> cn_rmv e1 = [-1] -> edited l r -> edited (c :: e :: l) (c1 :: e1 :: r).
Lemma edited_trans l m : edited l m -> forall r, edited m r -> edited l r.
Proof.
  induction 1 as [|e l m E K IH|c e l m C E K IH|c e c1 e1 l m C E C1 E1 R K IH]; intros r H.
  - exact H.
  - inversion H; subst; [apply edited_edge; auto|congruence|congruence].
  - inversion H as [|? ? ? X|? ? ? ? X Y Z0|? ? ? ? ? ? X Y X1 Y1 W Z0]; subst; [congruence|apply edited_same; auto|apply edited_other; auto].
  - inversion H as [|? ? ? X|? ? ? ? X Y Z0|? ? ? ? ? ? X Y X1 Y1 W Z0]; subst; [congruence|apply edited_other; auto|apply edited_other; auto].
Qed.
Lemma after_edited c nk : cn_type c = 1 -> forall l, paired l -> forall r, settle_after c nk l = Ok r -> edited l r.
Proof.
  intros C l P. induction P as [|e l E P IH|d e l x y D NX E P IH]; intros r H; cbn [settle_after] in H.
  - injection H as <-. constructor.
  - rewrite E in H. cbn [Z.eqb Pos.eqb andb] in H. destruct (settle_after c nk l) as [r1| | |]; try discriminate. cbn [bind] in H. injection H as <-. apply edited_edge; auto.
  - rewrite (proj1 D) in H. cbn [Z.eqb Pos.eqb andb] in H. destruct (overlaps c d).
    + destruct (settle_after c nk l) as [r1| | |]; try discriminate. cbn [bind] in H. injection H as <-. apply edited_other; auto. exact (proj1 D).
    + rewrite E in H. cbn [Z.eqb Pos.eqb andb] in H. destruct (settle_after c nk l) as [r1| | |]; try discriminate. cbn [bind] in H. injection H as <-. apply edited_same; auto. exact (proj1 D).
Qed.
Lemma settle_edited f : forall l r, paired l -> settle f l = Ok r -> edited l r.
Proof.
  induction f as [|f IH]; intros l r P H.
  { destruct l; cbn in H; [injection H as <-; constructor|discriminate]. }
  destruct P as [|e l E P|c e l a b C NE E P]; cbn [settle] in H.
  - injection H as <-. constructor.
  - rewrite E in H. cbn [Z.eqb Pos.eqb] in H. destruct (settle f l) as [r1| | |] eqn:R; try discriminate. cbn [bind] in H. injection H as <-. apply edited_edge; auto.
  - rewrite (proj1 C) in H. cbn [Z.eqb Pos.eqb hd] in H.
    destruct (@after_ok c a b (cn_keep e) C NE (e :: l)) as (r1 & R1 & P1 & _); [apply paired_edge; assumption|]. rewrite R1 in H. cbn [bind] in H.
    destruct (settle f r1) as [r2| | |] eqn:R2; try discriminate. cbn [bind] in H. injection H as <-.
    apply after_edited in R1; [|exact (proj1 C)|apply paired_edge; assumption]. apply IH in R2; [|exact P1].
    pose proof (edited_trans R1 R2) as K. inversion K; subst; [|congruence|congruence]. apply edited_same; auto. exact (proj1 C).
Qed.
(** Every removal left after the loop is one that was detected, and so is the merge before
    it, if there is one: an edge goes only with the merge of its own two ends. *)
Theorem C114_removals (N : num) (k : snake N) out found r :
  in_step k -> NoDup (map (@sx_index N) (k_snaxs k)) ->
  (forall e, In e (edges (k_conn k)) -> ed_vertind e = [] \/ exists a b, ed_vertind e = [a; b]) ->
  detect_edges k out = Ok (out ++ found) -> settle (length found) found = Ok r ->
  (forall i c, nth_error r i = Some c -> exists d, nth_error found i = Some d /\ cn_type d = cn_type c) /\
  (forall i e, nth_error r i = Some e -> cn_type e = 2 -> nth_error found i = Some e \/ cn_rmv e = [-1]) /\
  (forall i c e, nth_error r i = Some c -> cn_type c = 1 -> nth_error r (S i) = Some e ->
     cn_type e = 2 /\ (nth_error found i = Some c /\ nth_error found (S i) = Some e \/ cn_rmv e = [-1])).
Proof.
  intros (_ & Al & _) ND Two D Q. unfold detect_edges in D.
  destruct (@all_records N k Al ND Two (edges (k_conn k)) 0 out) as [ls [R F]]; [auto|].
  assert (length (k_edges k) = length (edges (k_conn k))) as E by (rewrite <- (map_length fst), Al, map_length; reflexivity).
  rewrite E, R in D. injection D as D. apply app_inv_head in D. subst found.
  assert (P : paired (concat ls)).
  { clear - F. induction F as [|e l es ls R F IH]; cbn [concat]; [constructor|]. apply paired_app; [exact (@records_paired N k e l R)|exact IH]. }
  apply settle_edited in Q; [|exact P]. clear - Q.
  induction Q as [|e l r E K [A [B C]]|c e l r C0 E K [A [B C]]|c e c1 e1 l r C0 E C1 E1 R K [A [B C]]].
  - split; [|split]; intros [|i]; discriminate.
  - split; [|split].
    + intros [|i] x X; [injection X as <-; exists e; auto|exact (A i x X)].
    + intros [|i] x X T; [left; exact X|exact (B i x X T)].
    + intros [|i] x y X T Y; [injection X as <-; congruence|exact (C i x y X T Y)].
  - split; [|split].
    + intros [|[|i]] x X; [injection X as <-; exists c; auto|injection X as <-; exists e; auto|exact (A i x X)].
    + intros [|[|i]] x X T; [left; exact X|left; exact X|exact (B i x X T)].
    + intros [|[|i]] x y X T Y; [injection X as <-; injection Y as <-; split; [exact E|left; auto]|injection X as <-; congruence|exact (C i x y X T Y)].
  - split; [|split].
    + intros [|[|i]] x X; [injection X as <-; exists c; split; [reflexivity|congruence]|injection X as <-; exists e; split; [reflexivity|congruence]|exact (A i x X)].
    + intros [|[|i]] x X T; [injection X as <-; congruence|injection X as <-; right; exact R|exact (B i x X T)].
    + intros [|[|i]] x y X T Y; [injection X as <-; injection Y as <-; split; [exact E1|right; exact R]|injection X as <-; congruence|exact (C i x y X T Y)].
Qed.
Print Assumptions C114_removals.
(** Three snaxels on one mesh edge: the merges overlap before the loop, a snaxel to keep
    being also one to remove, and are the same merge after it. *)
Example C114_settled_case : exists (k : snake Qn), in_step k /\ NoDup (map (@sx_index Qn) (k_snaxs k)) /\
  (forall e, In e (edges (k_conn k)) -> ed_vertind e = [] \/ exists a b, ed_vertind e = [a; b]) /\
  detect_edges k [] = Ok [mkConnec 1 1 [2]; mkConnec 1 2 [1]; mkConnec 2 1 [3]; mkConnec 2 2 [2]; mkConnec 3 1 [1]; mkConnec 3 2 [3]] /\
  (do l <- detect_edges k []; settle (length l) l) = Ok [mkConnec 1 1 [2]; mkConnec 1 2 [1]; mkConnec 1 1 [2]; mkConnec 1 2 [-1]; mkConnec 1 1 [2]; mkConnec 1 2 [-1]].
Proof.
  exists (mkSnake (map (fun i => mkSnax (N := Qn) i 0%Q 0%Q 1 2 7 0 1) [1; 2; 3]) [(1, 1); (2, 1); (3, 1)] [] (mkMesh [] []
    [mkEdge 1 false [1] [1; 2]; mkEdge 2 false [1] [2; 3]; mkEdge 3 false [1] [3; 1]]
    [mkVert 1 false [1; 3]; mkVert 2 false [1; 2]; mkVert 3 false [2; 3]] 2) [] false).
  split; [repeat split|]. split; [cbn; repeat constructor; simpl; intuition discriminate|].
  split; [intros e [<-|[<-|[<-|[]]]]; right; eexists; eexists; reflexivity|]. split; vm_compute; reflexivity.
Qed.
