(** The search for a vertex inside the snake (C113). *)
From Coq Require Import Lia.
From Verif Require Import Base Containers Mesh SpecMesh MeshProofs FloodProofs Num Snake Spawn Edit EditProofs MergeProofs.
From Verif Require Import Holes SpecHoles.
Set Implicit Arguments.
Open Scope Z_scope.

Section Search.
Variables (m : mesh) (vin : list bool) (unc : list Z).
Hypothesis idx : indexed m.
Hypothesis lin : length vin = length (verts m).
Let nd : NoDup (map ve_index (verts m)) := proj1 idx.
Let pos (x : Z) := find ve_index (verts m) x.
Definition vertex (x : Z) := exists v, In v (verts m) /\ ve_index v = x.

Lemma pos_flag l x : flagged m l x <-> vertex x /\ nth_error l (Z.to_nat (pos x)) = Some true.
Proof.
  split.
  - intros (p & v & A & <- & B). split; [exists v; split; [eapply nth_error_In; eauto|reflexivity]|].
    unfold pos. rewrite (find_pos nd A), Nat2Z.id. exact B.
  - intros [[v [A <-]] B]. apply In_nth_error in A. destruct A as [p A]. exists p, v.
    unfold pos in B. rewrite (find_pos nd A), Nat2Z.id in B. auto.
Qed.
Lemma pos_vertex x (l : list bool) b : at_ l (pos x) = Ok b -> vertex x /\ nth_error l (Z.to_nat (pos x)) = Some b.
Proof.
  intros H. apply at_Ok in H. destruct H as [P H]. split; [|exact H].
  unfold pos in *. destruct (find_spec ve_index (verts m) x) as [[E _]|[j [a [E [A B]]]]]; [lia|].
  exists a. split; [eapply nth_error_In; eauto|exact B].
Qed.
Lemma vertex_pos x : vertex x -> 0 <= pos x < Z.of_nat (length (verts m)).
Proof. intros H. unfold pos. destruct (@find_range _ ve_index (verts m) x H) as [q [-> Q]]. lia. Qed.
Lemma pos_inj x y : vertex x -> vertex y -> pos x = pos y -> x = y.
Proof.
  intros [v [A <-]] Y E. apply In_nth_error in A. destruct A as [p A]. unfold pos in E.
  rewrite (find_pos nd A) in E. symmetry. exact (find_inj nd A (eq_sym E)).
Qed.
Lemma flag_upd ex x y : length ex = length (verts m) -> vertex x ->
  (flagged m (upd ex (Z.to_nat (pos x)) true) y <-> flagged m ex y \/ y = x).
Proof.
  intros L X. pose proof (vertex_pos X) as PX. rewrite !pos_flag. split.
  - intros [Y H]. destruct (Z.eq_dec (pos x) (pos y)) as [E|E].
    + right. symmetry. apply pos_inj; assumption.
    + left. split; [exact Y|]. pose proof (vertex_pos Y) as PY. rewrite nth_error_upd_other in H; [exact H|lia].
  - intros [[Y H]| ->].
    + split; [exact Y|]. destruct (Z.eq_dec (pos x) (pos y)) as [E|E].
      * rewrite E. apply nth_error_upd_same. pose proof (vertex_pos Y). lia.
      * pose proof (vertex_pos Y) as PY. rewrite nth_error_upd_other; [exact H|lia].
    + split; [exact X|]. apply nth_error_upd_same. lia.
Qed.
Lemma flag_dec l x : flagged m l x \/ ~ flagged m l x.
Proof.
  destruct (In_dec Z.eq_dec x (map ve_index (verts m))) as [H|H].
  - apply in_map_iff in H. destruct H as [v [<- V]].
    destruct (nth_error l (Z.to_nat (pos (ve_index v)))) as [[]|] eqn:E.
    + left. apply pos_flag. split; [exists v; auto|exact E].
    + right. intros F. apply pos_flag in F. destruct F as [_ F]. congruence.
    + right. intros F. apply pos_flag in F. destruct F as [_ F]. congruence.
  - right. intros (p & v & A & <- & _). apply H. apply in_map. eapply nth_error_In; eauto.
Qed.

(** ** One round *)
Definition round_inv (ex0 : list bool) (done cur : list Z) (st : list bool * list Z * option Z) : Prop :=
  let '(ex, nxt, ret) := st in
  length ex = length (verts m) /\
  (forall y, flagged m ex0 y -> flagged m ex y) /\
  (forall y, flagged m ex y -> flagged m ex0 y \/ flagged m vin y /\ In y cur) /\
  (forall ei, In ei nxt -> exists v, In v (verts m) /\ In ei (ve_edgeind v) /\ In (ve_index v) cur /\ flagged m vin (ve_index v) /\ In (ve_index v) unc) /\
  (nxt = [] \/ (length (filter (fun b : bool => b) ex0) < length (filter (fun b : bool => b) ex))%nat) /\
  (length (filter (fun b : bool => b) ex0) <= length (filter (fun b : bool => b) ex))%nat /\
  match ret with
  | Some h => certain m vin unc h /\ ~ flagged m ex0 h /\ flagged m ex h /\ In h cur
  | None => (forall y, In y done -> flagged m vin y -> flagged m ex y) /\
            (forall v, In v (verts m) -> flagged m ex (ve_index v) -> ~ flagged m ex0 (ve_index v) ->
               In (ve_index v) unc /\ forall ei, In ei (ve_edgeind v) -> In ei nxt)
  end.
Lemma mem_z_In x l : mem_z x l = true <-> In x l.
Proof.
  unfold mem_z. rewrite existsb_exists. split.
  - intros [y [A B]]. apply Z.eqb_eq in B. subst y. exact A.
  - intros A. exists x. split; [exact A|apply Z.eqb_refl].
Qed.
Lemma visit_inv ex0 done cur x st st1 : In x cur -> round_inv ex0 done cur st -> visit_hole m vin unc x st = Ok st1 -> round_inv ex0 (done ++ [x]) cur st1.
Proof.
  intros C. destruct st as [[ex nxt] ret]. intros (L & G & S & NX & CN & CL & R) H. unfold visit_hole in H.
  destruct ret as [h|].
  { injection H as <-. repeat (split; [assumption|]). exact R. }
  fold (pos x) in H. destruct R as [R1 R2].
  destruct (at_ ex (pos x)) as [e| | |] eqn:E; try discriminate. cbn [bind] in H. apply pos_vertex in E. destruct E as [V E].
  assert (same : forall st', st' = (ex, nxt, @None Z) -> (flagged m vin x -> flagged m ex x) -> round_inv ex0 (done ++ [x]) cur st').
  { intros st' -> F. repeat (split; [assumption|]). split; [|exact R2].
    intros y Y. apply in_app_iff in Y. destruct Y as [Y|[<-|[]]]; [apply R1; exact Y|exact F]. }
  destruct e.
  { injection H as <-. apply same; [reflexivity|]. intros _. apply pos_flag. auto. }
  destruct (at_ vin (pos x)) as [i| | |] eqn:I; try discriminate. cbn [bind] in H. apply pos_vertex in I. destruct I as [_ I].
  destruct i.
  2:{ injection H as <-. apply same; [reflexivity|]. intros F. apply pos_flag in F. destruct F as [_ F]. congruence. }
  assert (FI : flagged m vin x) by (apply pos_flag; auto).
  assert (NE : ~ flagged m ex x) by (intros F; apply pos_flag in F; destruct F as [_ F]; congruence).
  assert (N0 : ~ flagged m ex0 x) by (intros F; apply NE, G, F).
  assert (U := fun y => @flag_upd ex x y L V).
  assert (CU := count_upd _ _ E).
  destruct (mem_z x unc) eqn:MU.
  - apply mem_z_In in MU. destruct (at_ (verts m) (pos x)) as [v| | |] eqn:AV; try discriminate. cbn [bind] in H. injection H as <-.
    apply at_Ok in AV. destruct AV as [P0 AV].
    assert (VX : ve_index v = x).
    { destruct V as [w [W <-]]. apply In_nth_error in W. destruct W as [q W]. unfold pos in AV. rewrite (find_pos nd W), Nat2Z.id in AV. congruence. }
    assert (VI : In v (verts m)) by (eapply nth_error_In; eauto).
    unfold round_inv. split; [rewrite upd_length; exact L|]. split; [intros y Y; apply U; left; apply G; exact Y|].
    split; [intros y Y; apply U in Y; destruct Y as [Y| ->]; [apply S; exact Y|right; auto]|].
    split.
    { intros ei Hei. apply in_app_iff in Hei. destruct Hei as [Hei|Hei]; [apply NX; exact Hei|].
      exists v. rewrite VX. auto. }
    split; [right; rewrite CU; lia|]. split; [rewrite CU; lia|].
    split.
    + intros y Y FY. apply U. apply in_app_iff in Y. destruct Y as [Y|[<-|[]]]; [left; apply R1; assumption|right; reflexivity].
    + intros w W FW N. apply U in FW. destruct FW as [FW|EW].
      * destruct (R2 w W FW N) as [A B]. split; [exact A|]. intros ei Hei. apply in_app_iff. left. apply B. exact Hei.
      * assert (w = v) as ->. { eapply (@NoDup_idx_inj _ ve_index); eauto. congruence. }
        split; [rewrite VX; exact MU|]. intros ei Hei. apply in_app_iff. right. exact Hei.
  - injection H as <-. assert (NU : ~ In x unc) by (intros F; apply mem_z_In in F; congruence).
    unfold round_inv. split; [rewrite upd_length; exact L|]. split; [intros y Y; apply U; left; apply G; exact Y|].
    split; [intros y Y; apply U in Y; destruct Y as [Y| ->]; [apply S; exact Y|right; auto]|].
    split; [exact NX|]. split; [right; rewrite CU; lia|]. split; [rewrite CU; lia|].
    split; [split; assumption|]. split; [exact N0|]. split; [apply U; right; reflexivity|exact C].
Qed.
Lemma round_spec ex0 cur : forall l done st st1, (forall x, In x l -> In x cur) -> round_inv ex0 done cur st ->
  for_each l (visit_hole m vin unc) st = Ok st1 -> round_inv ex0 (done ++ l) cur st1.
Proof.
  induction l as [|x l IH]; intros done st st1 C I H; simpl in H.
  - injection H as <-. rewrite app_nil_r. exact I.
  - destruct (visit_hole m vin unc x st) as [st2| | |] eqn:V; try discriminate.
    cbn [bind] in H. apply (@visit_inv ex0 done cur x st st2 (C x (or_introl eq_refl)) I) in V.
    change (x :: l) with ([x] ++ l). rewrite app_assoc. eapply IH; eauto. intros y Y. apply C. right. exact Y.
Qed.
Lemma round_start ex0 cur : length ex0 = length (verts m) -> round_inv ex0 [] cur (ex0, [], None).
Proof.
  intros L. unfold round_inv. split; [exact L|]. split; [auto|]. split; [auto|]. split; [intros ei []|]. split; [auto|]. split; [lia|].
  split; [intros y []|]. intros v _ A B. contradiction.
Qed.
Lemma ends_In ps vs : ends_at m ps = Ok vs -> forall y, In y vs <-> exists p e, In p ps /\ 0 <= p /\ nth_error (edges m) (Z.to_nat p) = Some e /\ In y (ed_vertind e).
Proof.
  unfold ends_at. revert vs. induction ps as [|p ps IH]; intros vs H; cbn [omap_list] in H.
  - injection H as <-. intros y. split; [intros []|intros (p & e & [] & _)].
  - destruct (at_ (edges m) p) as [e| | |] eqn:A; try discriminate. cbn [bind] in H. apply at_Ok in A. destruct A as [P A].
    destruct (omap_list _ ps) as [r| | |] eqn:O; try discriminate. cbn [bind] in H. injection H as <-.
    intros y. cbn [concat]. rewrite in_app_iff, (IH (concat r) eq_refl y). split.
    + intros [Y|(q & f & B & C)]; [exists p, e; simpl; auto|exists q, f; simpl; tauto].
    + intros (q & f & [<-|B] & C & D & F); [left; congruence|right; exists q, f; auto].
Qed.

(** ** The whole search *)
Lemma rounds_sound fuel : forall cur ex ex1 h, length ex = length (verts m) -> hole_rounds m vin unc fuel cur ex = Ok (ex1, h) ->
  length ex1 = length (verts m) /\
  (forall y, flagged m ex y -> flagged m ex1 y) /\
  (forall y, flagged m ex1 y -> flagged m ex y \/ flagged m vin y /\ exists c, In c cur /\ reach (reads m) m vin unc c y) /\
  (h <> -1 -> certain m vin unc h /\ ~ flagged m ex h /\ flagged m ex1 h /\ exists c, In c cur /\ reach (reads m) m vin unc c h) /\
  (h = -1 -> (forall y, In y cur -> flagged m vin y -> flagged m ex1 y) /\
     forall y, flagged m ex1 y -> ~ flagged m ex y -> In y unc /\ forall z, reads m y z -> flagged m vin z -> flagged m ex1 z).
Proof.
  induction fuel as [|f IH]; intros cur ex ex1 h L H; [discriminate|]. cbn [hole_rounds] in H.
  destruct cur as [|c0 cur0].
  { injection H as <- <-. split; [exact L|]. split; [auto|]. split; [auto|]. split; [congruence|]. intros _. split; [intros y []|]. intros y A B. contradiction. }
  remember (c0 :: cur0) as cur eqn:EC. clear EC c0 cur0.
  destruct (for_each cur (visit_hole m vin unc) (ex, [], None)) as [st| | |] eqn:R; try discriminate.
  apply (@round_spec ex cur cur [] _ _ (fun x X => X) (@round_start ex cur L)) in R. destruct st as [[exa nxt] ret].
  cbn [bind] in H. destruct R as (La & G & S & NX & _ & _ & R). cbn [app] in R.
  destruct ret as [x|].
  - injection H as <- <-. destruct R as ([FX UX] & N & F & C). split; [exact La|]. split; [exact G|].
    split; [intros y Y; destruct (S y Y) as [A|[A B]]; [left; exact A|right; split; [exact A|exists y; split; [exact B|constructor]]]|].
    split; [intros _; split; [split; assumption|]; split; [exact N|]; split; [exact F|]; exists x; split; [exact C|constructor]|].
    intros ->. exfalso. destruct F as (p & v & A & B & _). apply (proj2 idx v); [eapply nth_error_In; eauto|exact B].
  - destruct (ends_at m nxt) as [vs| | |] eqn:EV; try discriminate. cbn [bind] in H.
    pose proof (@ends_In _ _ EV) as VS. destruct R as [R1 R2].
    destruct (IH vs exa ex1 h La H) as (L1 & G1 & S1 & P1 & M1).
    assert (far : forall z y, In z vs -> reach (reads m) m vin unc z y -> exists c, In c cur /\ reach (reads m) m vin unc c y).
    { intros z y Hz Q. apply VS in Hz. destruct Hz as (p & e & A & B & C & D). destruct (NX p A) as (v & V1 & V2 & V3 & V4 & V5).
      exists (ve_index v). split; [exact V3|]. apply reach_step with z; auto. exists v, (Z.to_nat p), e. rewrite Z2Nat.id by exact B. auto. }
    split; [exact L1|]. split; [auto|]. split.
    { intros y Y. destruct (S1 y Y) as [A|[A [c [B C]]]].
      - destruct (S y A) as [A1|[A1 A2]]; [left; exact A1|right; split; [exact A1|exists y; split; [exact A2|constructor]]].
      - right. split; [exact A|]. exact (far c y B C). }
    split.
    { intros HN. destruct (P1 HN) as (A & B & C & [c [D E]]). split; [exact A|]. split; [intros F; apply B, G, F|]. split; [exact C|]. exact (far c h D E). }
    intros HN. destruct (M1 HN) as [A B]. split; [intros y Y FY; apply G1, R1; assumption|].
    intros y Y N. destruct (flag_dec exa y) as [Fa|Fa]; [|exact (B y Y Fa)].
    destruct (proj1 (pos_flag exa y) Fa) as [[v [V E]] _]. subst y. destruct (R2 v V Fa N) as [U W]. split; [exact U|].
    intros z (v1 & i & e & V1 & E1 & I1 & E2 & Z1) FZ. assert (v1 = v) as -> by (eapply (@NoDup_idx_inj _ ve_index); eauto).
    apply A; [|exact FZ]. apply VS. exists (Z.of_nat i), e. rewrite Nat2Z.id. split; [apply W; exact I1|]. split; [lia|]. auto.
Qed.

(** ** It ends *)
Hypothesis safe : readable m vin unc.
Lemma visit_total x st : vertex x -> length (fst (fst st)) = length (verts m) -> exists st1, visit_hole m vin unc x st = Ok st1 /\ length (fst (fst st1)) = length (verts m).
Proof.
  destruct st as [[ex nxt] ret]. cbn [fst]. intros V L. unfold visit_hole. destruct ret; [eauto|]. fold (pos x). pose proof (vertex_pos V) as P.
  assert (AT : forall A (l : list A), length l = length (verts m) -> exists a, at_ l (pos x) = Ok a).
  { intros A l Ll. destruct (nth_error l (Z.to_nat (pos x))) as [a|] eqn:E; [exists a; apply at_Ok; split; [lia|exact E]|]. apply nth_error_None in E. lia. }
  destruct (AT _ ex L) as [e ->]. cbn [bind]. destruct e; [eauto|]. destruct (AT _ vin lin) as [i ->]. cbn [bind]. destruct i; [|eauto].
  destruct (mem_z x unc).
  - destruct (AT _ (verts m) eq_refl) as [v ->]. cbn [bind]. eexists. split; [reflexivity|]. cbn [fst]. rewrite upd_length. exact L.
  - eexists. split; [reflexivity|]. cbn [fst]. rewrite upd_length. exact L.
Qed.
Lemma round_total l : (forall x, In x l -> vertex x) -> forall st, length (fst (fst st)) = length (verts m) ->
  exists st1, for_each l (visit_hole m vin unc) st = Ok st1.
Proof.
  induction l as [|x l IH]; intros V st L; simpl; [eauto|].
  destruct (@visit_total x st (V x (or_introl eq_refl)) L) as [st1 [-> L1]]. cbn [bind]. apply IH; [intros y Y; apply V; right; exact Y|exact L1].
Qed.
Lemma ends_total ps : (forall p, In p ps -> 0 <= p /\ exists e, nth_error (edges m) (Z.to_nat p) = Some e) -> exists vs, ends_at m ps = Ok vs.
Proof.
  unfold ends_at. induction ps as [|p ps IH]; intros H; cbn [omap_list]; [eexists; reflexivity|].
  destruct (H p (or_introl eq_refl)) as [P [e E]]. assert (at_ (edges m) p = Ok e) as -> by (apply at_Ok; auto). cbn [bind].
  destruct IH as [vs IH]; [intros q Q; apply H; right; exact Q|]. destruct (omap_list _ ps) as [r| | |]; try discriminate. cbn [bind]. eexists. reflexivity.
Qed.
Lemma rounds_total fuel : forall cur ex, length ex = length (verts m) -> (forall x, In x cur -> vertex x) -> (1 <= fuel)%nat ->
  (cur = [] \/ (2 + length (verts m) <= fuel + length (filter (fun b : bool => b) ex))%nat) -> exists r, hole_rounds m vin unc fuel cur ex = Ok r.
Proof.
  induction fuel as [|f IH]; intros cur ex L V F1 F; [lia|]. cbn [hole_rounds]. destruct cur as [|c0 cur0]; [eauto|].
  destruct F as [F|F]; [discriminate|]. remember (c0 :: cur0) as cur eqn:EC. clear EC c0 cur0.
  destruct (@round_total cur V (ex, [], None) L) as [[[exa nxt] ret] R]. rewrite R. cbn [bind].
  apply (@round_spec ex cur cur [] _ _ (fun x X => X) (@round_start ex cur L)) in R. destruct R as (La & G & S & NX & CN & CL & _).
  destruct ret as [x|]; [eauto|].
  assert (W : forall p, In p nxt -> 0 <= p /\ exists e, nth_error (edges m) (Z.to_nat p) = Some e /\ forall y, In y (ed_vertind e) -> vertex y).
  { intros p Hp. destruct (NX p Hp) as (v & A & B & _ & C & D). destruct (@safe v A C D p B) as [E [e [E1 E2]]]. split; [exact E|]. exists e. auto. }
  destruct (@ends_total nxt) as [vs EV]; [intros p Hp; destruct (W p Hp) as [A [e [B _]]]; eauto|].
  rewrite EV. cbn [bind]. pose proof (@ends_In _ _ EV) as VS.
  assert (LE : (length (filter (fun b : bool => b) exa) <= length (verts m))%nat).
  { rewrite <- La. clear. induction exa as [|[] r IH]; simpl; lia. }
  apply IH; [exact La| |lia|].
  - intros y Y. apply VS in Y. destruct Y as (p & e & A & B & C & D). destruct (W p A) as [_ [e' [E1 E2]]]. apply E2. congruence.
  - destruct CN as [-> |CN]; [left; cbn in EV; injection EV as <-; reflexivity|right; lia].
Qed.
End Search.
