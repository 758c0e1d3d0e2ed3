(** The grouping of close vertices computes the abstract search. *)
From Coq Require Import Reals Lra.
From Verif Require Import Base Containers Mesh Edit Geom Group SpecMesh SpecGroup
  MeshProofs FloodProofs EditProofs FamilyMapProofs GroupProofs.
Set Implicit Arguments.
Open Scope Z_scope.

Lemma for_each_in (A S : Type) (f h : A -> S -> outcome S) (P : S -> Prop) :
  forall l, (forall x s, In x l -> f x s = h x s) -> forall s, for_each l f s = for_each l h s.
Proof.
  induction l as [|x l IH]; intros E s; simpl; auto. rewrite E by (simpl; auto).
  destruct (h x s); simpl; auto. apply IH. intros; apply E; simpl; auto.
Qed.

Section Link.
Variable g : gmesh.
Variable tol : R.
Hypothesis ready : grid_ready g.
Hypothesis tol_pos : (0 <= tol)%R.
Let m := gtopo g.
Let n := length (verts m).
Definition inc (p : nat) : list Z := match nth_error (verts (gtopo g)) p with Some v => ve_edgeind v | None => [] end.
Definition shortb (e : Z) : bool :=
  match isearch ed_index (edges (gtopo g)) e with
  | Ok x => match squared_length g x with Ok q => if Rlt_dec q (tol * tol) then true else false | _ => false end
  | _ => false
  end.
Definition endp (k : nat) (e : Z) : nat :=
  match isearch ed_index (edges (gtopo g)) e with
  | Ok x => Z.to_nat (find ve_index (verts (gtopo g)) (nth k (ed_vertind x) 0))
  | _ => O
  end.

Lemma end_facts e x i : In x (edges m) -> ed_index x = e -> In i (ed_vertind x) ->
  exists p v a b c r, nth_error (verts m) p = Some v /\ ve_index v = i /\ find ve_index (verts m) i = Z.of_nat p /\
    (p < n)%nat /\ In e (ve_edgeind v) /\ nth_error (gcoord g) p = Some (a :: b :: c :: r).
Proof.
  intros Hx Hi Hin. destruct ready as [Nv [Ne [Mu [Two [Lg Ld]]]]]. fold m in Nv, Ne, Two, Lg.
  assert (Hve : VE m i e) by (apply Mu; exists x; auto).
  destruct Hve as [v [Hv [Iv Ie]]]. destruct (In_nth_error _ _ Hv) as [p Hp].
  assert (Hn : (p < n)%nat) by (apply nth_error_Some; congruence).
  destruct (@nth_ex _ (gcoord g) p) as [pt Ept]; [unfold n in Hn; lia|].
  assert (Hl := Ld pt (nth_error_In _ _ Ept)). destruct pt as [|a [|b [|c r]]]; simpl in Hl; try lia.
  exists p, v, a, b, c, r. split; auto. split; auto. split; [|split; [|split]]; auto.
  rewrite <- Iv. apply find_pos; auto.
Qed.

Definition sq (a b c a' b' c' : R) : R := ((a - a') * (a - a') + (b - b') * (b - b') + (c - c') * (c - c'))%R.
Definition edge_data (e : Z) (x : edge) (pa pb : nat) (va vb : vert) : Prop :=
  isearch ed_index (edges m) e = Ok x /\ In x (edges m) /\ ed_index x = e /\
  ed_vertind x = [ve_index va; ve_index vb] /\
  nth_error (verts m) pa = Some va /\ nth_error (verts m) pb = Some vb /\
  find ve_index (verts m) (ve_index va) = Z.of_nat pa /\ find ve_index (verts m) (ve_index vb) = Z.of_nat pb /\
  (pa < n)%nat /\ (pb < n)%nat /\ In e (ve_edgeind va) /\ In e (ve_edgeind vb) /\
  exists a b c r a' b' c' r', nth_error (gcoord g) pa = Some (a :: b :: c :: r) /\
    nth_error (gcoord g) pb = Some (a' :: b' :: c' :: r') /\ squared_length g x = Ok (sq a b c a' b' c').

Lemma edge_facts x : In x (edges m) -> exists pa pb va vb, edge_data (ed_index x) x pa pb va vb.
Proof.
  intro Hx. pose proof ready as [Nv [Ne [Mu [Two [Lg Ld]]]]]. fold m in Nv, Ne, Two, Lg.
  pose proof (Two x Hx) as T. destruct (ed_vertind x) as [|i [|j [|]]] eqn:Ev; simpl in T; try lia.
  destruct (@end_facts (ed_index x) x i Hx eq_refl) as [pa [va [a [b [c [r [A1 [A2 [A3 [A4 [A5 A6]]]]]]]]]]]; [rewrite Ev; simpl; auto|].
  destruct (@end_facts (ed_index x) x j Hx eq_refl) as [pb [vb [a' [b' [c' [r' [B1 [B2 [B3 [B4 [B5 B6]]]]]]]]]]]; [rewrite Ev; simpl; auto|].
  exists pa, pb, va, vb. unfold edge_data. rewrite Ev, A2, B2.
  split; [apply isearch_is; auto|]. split; auto. split; auto. split; auto. split; auto. split; auto.
  split; auto. split; auto. split; auto. split; auto. split; auto. split; auto.
  exists a, b, c, r, a', b', c', r'. split; auto. split; auto.
  unfold squared_length, coord_of. rewrite Ev. fold m.
  change (at_ [i; j] 0) with (Ok i). change (at_ [i; j] 1) with (Ok j). cbn [bind].
  rewrite A3, B3, (at_nat _ _ A6), (at_nat _ _ B6). cbn [bind for_each].
  change (at_ (a :: b :: c :: r) 0) with (Ok a). change (at_ (a :: b :: c :: r) 1) with (Ok b). change (at_ (a :: b :: c :: r) 2) with (Ok c).
  change (at_ (a' :: b' :: c' :: r') 0) with (Ok a'). change (at_ (a' :: b' :: c' :: r') 1) with (Ok b'). change (at_ (a' :: b' :: c' :: r') 2) with (Ok c').
  cbn [bind]. f_equal. unfold sq. ring.
Qed.
Lemma inc_facts p e : (p < n)%nat -> In e (inc p) ->
  exists x pa pb va vb, edge_data e x pa pb va vb /\ (p = pa \/ p = pb).
Proof.
  intros Hp He. pose proof ready as [Nv [Ne [Mu _]]]. fold m in Nv, Ne.
  unfold inc in He. destruct (@nth_ex _ (verts m) p Hp) as [v Ev]. fold m in He. rewrite Ev in He.
  assert (H : EV m e (ve_index v)) by (apply Mu; exists v; split; [eapply nth_error_In; eauto | auto]).
  destruct H as [x [Hx [Ix Iv]]]. destruct (edge_facts x Hx) as [pa [pb [va [vb D]]]]. rewrite Ix in D.
  exists x, pa, pb, va, vb. split; [exact D|]. destruct D as [_ [_ [_ [Ex [Ea [Eb _]]]]]]. rewrite Ex in Iv.
  destruct Iv as [I|[I|[]]]; [left | right]; symmetry; eapply (@pos_unique _ ve_index); eauto.
Qed.
Lemma data_end e x pa pb va vb : edge_data e x pa pb va vb ->
  endp 0 e = pa /\ endp 1 e = pb /\ inc pa = ve_edgeind va /\ inc pb = ve_edgeind vb.
Proof.
  intros [E [_ [_ [Ev [A [B [Fa [Fb _]]]]]]]]. unfold endp, inc. fold m. rewrite E, Ev, A, B. cbn [nth].
  rewrite Fa, Fb, !Nat2Z.id. auto.
Qed.

Lemma ends_in p e : (p < n)%nat -> In e (inc p) -> shortb e = true -> (endp 0 e < n)%nat /\ (endp 1 e < n)%nat.
Proof.
  intros Hp He _. destruct (@inc_facts p e Hp He) as [x [pa [pb [va [vb [D _]]]]]].
  destruct (data_end D) as [-> [-> _]]. unfold edge_data in D. tauto.
Qed.
Lemma inc_end p e : (p < n)%nat -> In e (inc p) -> shortb e = true -> p = endp 0 e \/ p = endp 1 e.
Proof.
  intros Hp He _. destruct (@inc_facts p e Hp He) as [x [pa [pb [va [vb [D H]]]]]].
  destruct (data_end D) as [-> [-> _]]. exact H.
Qed.
Lemma end_inc p e : (p < n)%nat -> In e (inc p) -> shortb e = true -> In e (inc (endp 0 e)) /\ In e (inc (endp 1 e)).
Proof.
  intros Hp He _. destruct (@inc_facts p e Hp He) as [x [pa [pb [va [vb [D H]]]]]].
  destruct (data_end D) as [-> [-> [-> ->]]]. unfold edge_data in D. tauto.
Qed.

Lemma test_dfs : forall fuel p st, (p < n)%nat ->
  test_vert_close fuel g (tol * tol) (Z.of_nat p) st = dfs inc shortb (endp 0) (endp 1) fuel p st.
Proof.
  induction fuel as [|f IH]; intros p [dn sm] Hp; [reflexivity|]. cbn [test_vert_close dfs fst snd].
  unfold at_ at 1. rewrite Nat2Z.id. destruct (Z.ltb_spec (Z.of_nat p) 0) as [C|_]; [lia|].
  destruct (nth_error dn p) as [[|]|] eqn:Ed; cbn [bind]; auto.
  destruct (@nth_ex _ (verts m) p Hp) as [v Ev]. fold m. rewrite (at_nat _ _ Ev). cbn [bind].
  replace (inc p) with (ve_edgeind v) by (unfold inc; fold m; rewrite Ev; reflexivity).
  apply for_each_in; [exact (fun _ => True)|]. intros e s He.
  destruct (@inc_facts p e Hp) as [x [pa [pb [va [vb [D _]]]]]]; [unfold inc; fold m; rewrite Ev; exact He|].
  destruct (data_end D) as [-> [-> _]].
  destruct D as [E [_ [_ [Ex [A [B [Fa [Fb [La [Lb [_ [_ [a [b [c [r [a' [b' [c' [r' [_ [_ Sq]]]]]]]]]]]]]]]]]]]]]].
  replace (shortb e) with (if Rlt_dec (sq a b c a' b' c') (tol * tol) then true else false)
    by (unfold shortb; fold m; rewrite E, Sq; reflexivity).
  rewrite E. cbn [bind]. rewrite Sq. cbn [bind].
  destruct (Rlt_dec (sq a b c a' b' c') (tol * tol)); [|reflexivity].
  cbn [for_each]. rewrite Ex. change (at_ [ve_index va; ve_index vb] 0) with (Ok (ve_index va)).
  change (at_ [ve_index va; ve_index vb] 1) with (Ok (ve_index vb)). cbn [bind].
  rewrite Fa, IH by auto. destruct (dfs inc shortb (endp 0) (endp 1) f pa (fst s, snd s ++ [e])) as [s1| | |]; cbn [bind]; auto.
  rewrite Fb, IH by auto. destruct (dfs inc shortb (endp 0) (endp 1) f pb s1); reflexivity.
Qed.

Lemma label_paint k : forall es lab, length lab = n -> (forall e, In e es -> exists p, (p < n)%nat /\ In e (inc p)) ->
  for_each es (label_edge m k) lab = Ok (fold_left (fun l e => paint (endp 0) (endp 1) k e l) es lab).
Proof.
  induction es as [|e r IH]; intros lab Hl H; [reflexivity|]. cbn [for_each fold_left].
  destruct (H e (or_introl eq_refl)) as [p [Hp He]].
  destruct (@inc_facts p e Hp He) as [x [pa [pb [va [vb [D _]]]]]]. unfold paint. destruct (data_end D) as [-> [-> _]].
  destruct D as [E [_ [_ [Ex [A [B [Fa [Fb [La [Lb _]]]]]]]]]].
  unfold label_edge. rewrite E. cbn [bind]. rewrite Ex. change (at_ [ve_index va; ve_index vb] 0) with (Ok (ve_index va)).
  change (at_ [ve_index va; ve_index vb] 1) with (Ok (ve_index vb)). cbn [bind]. unfold label_vert. rewrite Fa, Fb, !Nat2Z.id.
  destruct (@nth_ex _ lab pa) as [q1 E1]; [lia|]. rewrite (at_nat _ _ E1). cbn [bind].
  destruct (@nth_ex _ (upd lab pa k) pb) as [q2 E2]; [rewrite upd_length; lia|]. rewrite (at_nat _ _ E2). cbn [bind].
  unfold paint in IH. rewrite IH; [reflexivity | rewrite !upd_length; auto | intros; apply H; simpl; auto].
Qed.

Definition mtop (i : Z) (s : list bool * list Z * Z) : outcome (list bool * list Z * Z) :=
      let '(done, lab, grp) := s in
      do (done1, same) <- test_vert_close (2 + n) g (tol * tol)%R i (done, []);
      match same with
      | [] => Ok (done1, lab, grp)
      | _ => do lab1 <- for_each same (label_edge (gtopo g) grp) lab; Ok (done1, lab1, grp + 1)
      end.
Lemma top_is i dn lab k : (i < n)%nat -> length dn = n -> length lab = n ->
  mtop (Z.of_nat i) (dn, lab, k) = top n inc shortb (endp 0) (endp 1) i (dn, lab, k).
Proof.
  intros Hi Hd Hl. unfold mtop, top. rewrite test_dfs by auto.
  destruct (@dfs_ok n inc shortb (endp 0) (endp 1) ends_in (2 + n) i dn [] Hi Hd) as [d1 [s1 [nw [R [[L [M S0]] [_ [_ N]]]]]]].
  { pose proof (undone_le dn). lia. }
  rewrite R. cbn [bind]. destruct s1 as [|e r] eqn:Es; auto. fold m.
  rewrite label_paint; auto. intros x Hx. simpl in S0. rewrite S0 in Hx.
  destruct (N x Hx) as [_ [q [Q1 [_ Q2]]]]. exists q. split; auto. unfold isd in Q1.
  assert (q < length d1)%nat by (apply nth_error_Some; congruence). lia.
Qed.

Lemma tops_is : forall k i s, (i + k = n)%nat ->
  (let '(dn, lab, c) := s in good n inc shortb (endp 0) (endp 1) i dn lab c) ->
  for_each (map Z.of_nat (seq i k)) mtop s = for_each (seq i k) (top n inc shortb (endp 0) (endp 1)) s.
Proof.
  induction k as [|k IH]; intros i [[dn lab] c] Hk G; [reflexivity|]. cbn [seq map for_each].
  rewrite top_is; [|lia | apply (g_dn G) | apply (g_lab G)].
  destruct (@top_ok n inc shortb (endp 0) (endp 1) ends_in inc_end end_inc i dn lab c ltac:(lia) G) as [d [l [k' [R G']]]].
  rewrite R. cbn [bind]. apply IH; [lia | exact G'].
Qed.

(** ** Paths *)
Lemma short_iff e x pa pb va vb : edge_data e x pa pb va vb ->
  (shortb e = true <-> short_edge g tol e (ve_index va) (ve_index vb)).
Proof.
  intros D. pose proof ready as [Nv _]. fold m in Nv.
  destruct D as [E [Hx [Ix [Ex [A [B [Fa [Fb [La [Lb [_ [_ [a [b [c [r [a' [b' [c' [r' [Ca [Cb Sq]]]]]]]]]]]]]]]]]]]]]].
  assert (K : forall q, (0 <= q -> q < tol * tol <-> sqrt q < tol)%R).
  { intros q Hq. split; intro H.
    - rewrite <- (sqrt_square tol) by auto. apply sqrt_lt_1; try lra.
    - pose proof (sqrt_sqrt q Hq). pose proof (sqrt_pos q). set (w := sqrt q) in *. clearbody w. nra. }
  assert (P : (0 <= sq a b c a' b' c')%R) by (unfold sq; repeat apply Rplus_le_le_0_compat; apply Rle_0_sqr).
  unfold shortb. fold m. rewrite E, Sq. split.
  - destruct (Rlt_dec (sq a b c a' b' c') (tol * tol)) as [L|]; [|discriminate]. intros _. split; [exists x; auto|].
    exists a, b, c, a', b', c'. split; [exists pa, va, r; auto|]. split; [exists pb, vb, r'; auto|].
    apply K; auto.
  - intros [_ [x1 [y1 [z1 [x2 [y2 [z2 [[k1 [v1 [r1 [W1 [W2 W3]]]]] [[k2 [v2 [r2 [W4 [W5 W6]]]]] W7]]]]]]]]].
    assert (k1 = pa) by (eapply (@pos_unique _ ve_index); eauto). assert (k2 = pb) by (eapply (@pos_unique _ ve_index); eauto).
    subst k1 k2. rewrite Ca in W3. rewrite Cb in W6. injection W3 as -> -> -> _. injection W6 as -> -> -> _.
    destruct (Rlt_dec (sq x1 y1 z1 x2 y2 z2) (tol * tol)) as [L|L]; auto. exfalso. apply L. apply K; auto.
Qed.
Lemma short_edge_sym e u v : short_edge g tol e u v -> short_edge g tol e v u.
Proof.
  intros [[x [H1 [H2 H3]]] [a [b [c [a' [b' [c' [H4 [H5 H6]]]]]]]]]. split; [exists x; tauto|].
  exists a', b', c', a, b, c. split; auto. split; auto. unfold distance in *.
  replace ((a' - a) * (a' - a) + (b' - b) * (b' - b) + (c' - c) * (c' - c))%R
    with ((a - a') * (a - a') + (b - b') * (b - b') + (c - c') * (c - c'))%R by ring. exact H6.
Qed.
Notation Conn := (conn inc shortb (endp 0) (endp 1)).
Notation Hop := (hop inc shortb (endp 0) (endp 1)).
Lemma hop_short p q u v : nth_error (verts m) p = Some u -> nth_error (verts m) q = Some v -> Hop p q ->
  p = q \/ exists e, short_edge g tol e (ve_index u) (ve_index v).
Proof.
  intros Hu Hv [e [He [Hs Hq]]].
  assert (Hp : (p < n)%nat) by (apply nth_error_Some; congruence).
  destruct (@inc_facts p e Hp He) as [x [pa [pb [va [vb [D H]]]]]]. destruct (data_end D) as [Da [Db _]]. rewrite Da, Db in Hq.
  pose proof (proj1 (short_iff D) Hs) as Sh. destruct D as [_ [_ [_ [_ [A [B _]]]]]].
  destruct H as [-> | ->], Hq as [-> | ->]; auto; right; exists e.
  - rewrite A in Hu. rewrite B in Hv. congruence.
  - rewrite B in Hu. rewrite A in Hv. injection Hu as ->. injection Hv as ->. apply short_edge_sym. exact Sh.
Qed.
Lemma short_hop e i j : short_edge g tol e i j ->
  exists p q u v, nth_error (verts m) p = Some u /\ ve_index u = i /\ nth_error (verts m) q = Some v /\ ve_index v = j /\
    In e (inc p) /\ shortb e = true /\ Hop p q.
Proof.
  intros Sh. pose proof Sh as [[x [Hx [Ix Ex]]] _]. destruct (edge_facts x Hx) as [pa [pb [va [vb D]]]]. rewrite Ix in D.
  destruct (data_end D) as [Da [Db [Ia Ib]]]. pose proof (short_iff D) as Si.
  destruct D as [_ [_ [_ [Ev [A [B [_ [_ [_ [_ [Ha [Hb _]]]]]]]]]]]]. rewrite Ev in Ex.
  destruct Ex as [E|E]; injection E as E1 E2.
  - assert (Hs : shortb e = true) by (apply Si; rewrite E1, E2; auto).
    exists pa, pb, va, vb. rewrite Ia. repeat (split; [auto; fail|]). exists e. rewrite Ia, Da, Db. auto.
  - assert (Hs : shortb e = true) by (apply Si; rewrite E1, E2; apply short_edge_sym; auto).
    exists pb, pa, vb, va. rewrite Ib. repeat (split; [auto; fail|]). exists e. rewrite Ib, Da, Db. auto.
Qed.
Lemma conn_joined p q u v : nth_error (verts m) p = Some u -> nth_error (verts m) q = Some v ->
  (Conn p q <-> joined g tol (ve_index u) (ve_index v)).
Proof.
  intros Hu Hv. pose proof ready as [Nv _]. fold m in Nv.
  assert (Hp : (p < n)%nat) by (apply nth_error_Some; congruence). split.
  - intro H. revert v Hv. induction H as [|q r H IH Hh]; intros v Hv.
    + rewrite Hu in Hv. injection Hv as ->. constructor.
    + assert (Hq : (q < n)%nat) by (eapply conn_in; [apply ends_in | exact Hp | exact H]).
      destruct (@nth_ex _ (verts m) q Hq) as [w Ew]. specialize (IH w Ew).
      destruct (hop_short Ew Hv Hh) as [->|[e He]]; [congruence|]. econstructor; eauto.
  - remember (ve_index u) as i. remember (ve_index v) as j. intro J. revert q v Hv Heqj.
    induction J as [i|i j k e J IH Sh]; intros q v Hv Ej.
    + replace q with p; [constructor|]. eapply (@pos_unique _ ve_index); eauto; congruence.
    + destruct (short_hop Sh) as [a [b [ua [ub [A1 [A2 [A3 [A4 [_ [_ Hh]]]]]]]]]].
      replace q with b by (eapply (@pos_unique _ ve_index); eauto; congruence).
      eapply conn_hop; [|exact Hh]. eapply IH; eauto.
Qed.

Lemma group_ok : exists lab, group_close_vertices g tol = Ok lab /\ length lab = n /\
  (forall i, has_vert m i -> (in_group m lab i (-1) <-> ~ exists e j, short_edge g tol e i j)) /\
  (forall i j, has_vert m i -> has_vert m j -> i <> j ->
     ((exists k, k <> -1 /\ in_group m lab i k /\ in_group m lab j k) <-> joined g tol i j)).
Proof.
  pose proof ready as [Nv _]. fold m in Nv.
  destruct (@groups_ok n inc shortb (endp 0) (endp 1) ends_in inc_end end_inc) as [dn [lab [k [R [L [G1 G2]]]]]].
  exists lab. split.
  { unfold group_close_vertices. fold m. fold n.
    change (bind (for_each (map Z.of_nat (seq 0 n)) mtop (repeat false n, repeat (-1) n, 1))
      (fun s => let '(_, lab, _) := s in Ok lab) = Ok lab).
    rewrite tops_is; [rewrite R; reflexivity | lia | eapply good_start; try (apply ends_in); try (apply inc_end); apply end_inc]. }
  split; [auto|].
  assert (In_g : forall p v x, nth_error (verts m) p = Some v -> (in_group m lab (ve_index v) x <-> lab_of lab p = x)).
  { intros p v x Hv. assert (Hp : (p < n)%nat) by (apply nth_error_Some; congruence). split.
    - intros [p' [v' [A [B C]]]]. assert (p' = p) by (eapply (@pos_unique _ ve_index); eauto). subst p'.
      unfold lab_of. apply nth_error_nth. exact C.
    - intros <-. exists p, v. split; auto. split; auto. unfold lab_of. apply nth_error_nth'. lia. }
  assert (Pos : forall i, has_vert m i -> exists p v, nth_error (verts m) p = Some v /\ ve_index v = i /\ (p < n)%nat).
  { intros i [v Hv]. destruct Hv as [Hv Iv]. destruct (In_nth_error _ _ Hv) as [p Hp]. exists p, v.
    split; auto. split; auto. apply nth_error_Some. congruence. }
  split.
  - intros i Hi. destruct (Pos i Hi) as [p [v [Hv [<- Hp]]]]. rewrite (In_g p v (-1) Hv). pose proof (G1 p Hp) as G.
    assert (Hs : has_short inc shortb p <-> exists e j, short_edge g tol e (ve_index v) j).
    { split.
      - intros [e [He Hs]]. destruct (@inc_facts p e Hp He) as [x [pa [pb [va [vb [D H]]]]]].
        pose proof (proj1 (short_iff D) Hs) as Sh. destruct D as [_ [_ [_ [_ [A [B _]]]]]]. exists e.
        destruct H as [-> | ->]; [exists (ve_index vb); rewrite A in Hv | exists (ve_index va); rewrite B in Hv];
          injection Hv as ->; auto. apply short_edge_sym; auto.
      - intros [e [j Sh]]. destruct (short_hop Sh) as [a [b [ua [ub [A1 [A2 [A3 [A4 [A5 [A6 _]]]]]]]]]].
        exists e. replace p with a by (eapply (@pos_unique _ ve_index); eauto). auto. }
    destruct (Z.eq_dec (lab_of lab p) (-1)); tauto.
  - intros i j Hi Hj Nij. destruct (Pos i Hi) as [p [u [Hu [<- Hp]]]]. destruct (Pos j Hj) as [q [v [Hv [<- Hq]]]].
    assert (Npq : p <> q) by (intros ->; congruence).
    rewrite <- (@conn_joined p q u v Hu Hv), <- (G2 p q Hp Hq Npq). split.
    + intros [x [Nx [A B]]]. apply (In_g p u x Hu) in A. apply (In_g q v x Hv) in B. split; congruence.
    + intros [A B]. exists (lab_of lab p). split; auto. split; [apply (In_g p u _ Hu) | apply (In_g q v _ Hv)]; auto.
Qed.
End Link.
