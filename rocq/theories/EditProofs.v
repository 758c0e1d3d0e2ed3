(** Searching, comparing cycles, border vertices. *)
From Verif Require Import Base Containers ContainersProofs Mesh SpecMesh MeshProofs SwitchProofs
  FloodProofs Order SpecOrder OrderProofs OrderMeshProofs Edit SpecEdit CropProofs.
Set Implicit Arguments.
Open Scope Z_scope.

(** ** RemoveSingularConnectors on a mesh with nothing singular *)
Lemma for_each_same A S (body : A -> S -> outcome S) s l : (forall a, In a l -> body a s = Ok s) -> for_each l body s = Ok s.
Proof.
  induction l as [|a l IH]; intros H; cbn [for_each]; auto.
  rewrite (H a) by (left; auto). cbn [bind]. apply IH. intros b Hb. apply H. right; auto.
Qed.
Lemma upto_pos_at A (l : list A) i : In i (upto_pos l) -> exists a, at_ l i = Ok a /\ In a l.
Proof.
  unfold upto_pos. rewrite in_map_iff. intros [k [<- Hk]]. apply in_seq in Hk.
  destruct (@at_in_range _ l (Z.of_nat k)) as [a Ha]; [lia|]. exists a. split; auto.
  apply at_Ok in Ha. eapply nth_error_In. apply Ha.
Qed.
Lemma drop_nil A (idx : A -> Z) l : drop idx [] l = l.
Proof. unfold drop. induction l as [|a l IH]; simpl; auto. f_equal. auto. Qed.
Lemma set_edges_id m : set_edges (edges m) m = m.
Proof. destruct m; reflexivity. Qed.
Lemma set_surfs_id m : set_surfs (surfs m) m = m.
Proof. destruct m; reflexivity. Qed.
Lemma set_volus_id m : set_volus (volus m) m = m.
Proof. destruct m; reflexivity. Qed.

Lemma remove_singular_id b m : not_singular m -> remove_singular b m = Ok m.
Proof.
  intros [HE [HS HV]]. unfold remove_singular.
  rewrite for_each_same.
  2:{ intros i Hi. apply upto_pos_at in Hi. destruct Hi as [e [Ha Hin]]. unfold singular_edge. rewrite Ha. cbn [bind].
      destruct (HE e Hin) as [x [y [r [Ex Hne]]]]. rewrite Ex.
      change (at_ (x :: y :: r) 0) with (Ok x). change (at_ (x :: y :: r) 1) with (Ok y). cbn [bind].
      destruct (Z.eqb_spec x y); [congruence|reflexivity]. }
  cbn [bind fst snd]. rewrite drop_nil, set_edges_id.
  rewrite for_each_same.
  2:{ intros i Hi. apply upto_pos_at in Hi. destruct Hi as [s [Ha Hin]]. unfold singular_surf. rewrite Ha. cbn [bind].
      pose proof (HS s Hin) as H3. destruct (su_edgeind s) as [|e0 [|e1 [|e2 r]]]; simpl in H3; try lia. reflexivity. }
  cbn [bind]. rewrite !drop_nil, set_surfs_id, set_edges_id.
  rewrite for_each_same.
  2:{ intros i Hi. apply upto_pos_at in Hi. destruct Hi as [v [Ha Hin]]. unfold singular_volu. rewrite Ha. cbn [bind].
      pose proof (HV v Hin) as H3. destruct (vo_surfind v) as [|e0 [|e1 [|e2 [|e3 r]]]]; simpl in H3; try lia. reflexivity. }
  cbn [bind]. rewrite !drop_nil, set_volus_id, set_surfs_id. reflexivity.
Qed.

(** ** Lookups *)
Lemma isearch_ok A (idx : A -> Z) l k : (exists a, In a l /\ idx a = k) ->
  exists a, isearch idx l k = Ok a /\ In a l /\ idx a = k.
Proof. intros H. exact (find_at idx l H). Qed.
Lemma isearch_is A (idx : A -> Z) l a : NoDup (map idx l) -> In a l -> isearch idx l (idx a) = Ok a.
Proof.
  intros Hnd Ha. destruct (@isearch_ok _ idx l (idx a)) as [b [Hb [Hin E]]]; [eauto|].
  rewrite Hb. f_equal. eapply (@NoDup_idx_inj _ idx); eauto.
Qed.
Lemma isearch_edge m e a b : NoDup (map ed_index (edges m)) -> edge_is m e a b ->
  exists x, isearch ed_index (edges m) e = Ok x /\ ed_vertind x = [a; b].
Proof. intros Hnd [x [Hx [<- Vx]]]. exists x. split; auto. apply isearch_is; auto. Qed.

(** ** EdgeFromVerts *)
Lemma edge_scan_spec m v1 v2 el : NoDup (map ed_index (edges m)) ->
  (forall e, In e el -> exists a b, edge_is m e a b) ->
  exists r, edge_scan m v1 v2 el = Ok r /\
    ((In r el /\ edge_joins m r v1 v2) \/ (r = -1 /\ forall e, In e el -> ~ edge_joins m e v1 v2)).
Proof.
  intros Hnd. induction el as [|e el IH]; intros H; cbn [edge_scan].
  - exists (-1). split; auto.
  - destruct (H e (or_introl eq_refl)) as [a [b He]].
    destruct (isearch_edge Hnd He) as [x [Ex Vx]]. rewrite Ex. cbn [bind]. rewrite Vx.
    change (at_ [a; b] 0) with (Ok a). change (at_ [a; b] 1) with (Ok b). cbn [bind].
    destruct (((a =? v1) && (b =? v2)) || ((b =? v1) && (a =? v2)))%bool eqn:Ec.
    + exists e. split; auto. left. split; [left; auto|].
      apply orb_true_iff in Ec. destruct Ec as [Ec|Ec]; apply andb_true_iff in Ec; destruct Ec as [E1 E2];
        apply Z.eqb_eq in E1, E2; subst; [left|right]; auto.
    + destruct IH as [r [Er Hr]]; [intros; apply H; right; auto|]. exists r. split; auto.
      destruct Hr as [[Hi Hj]|[-> Hn]]; [left; split; [right|]; auto|right]. split; auto.
      intros f [<-|Hf]; auto. intros [Hj|Hj]; destruct (edge_is_fun Hnd He Hj) as [-> ->]; rewrite !Z.eqb_refl in Ec; simpl in Ec;
        [|rewrite orb_true_r in Ec]; discriminate.
Qed.

Lemma edge_from_verts_spec m v1 v2 : well_connected m -> has_vert m v1 -> has_vert m v2 ->
  (forall e, has_edge m e -> exists a b, edge_is m e a b) ->
  exists r, edge_from_verts m v1 v2 = Ok r /\
    ((has_edge m r /\ edge_joins m r v1 v2) \/ (r = -1 /\ forall e, ~ edge_joins m e v1 v2)).
Proof.
  intros W H1 H2 H2e. pose proof W as [[_ [_ [Ue [Un [_ [_ [Z3 Z4]]]]]]] [[M1 [M2 _]] _]].
  unfold edge_from_verts.
  destruct (isearch_ok ve_index (verts m) H1) as [a [Ea [Ia Xa]]].
  destruct (isearch_ok ve_index (verts m) H2) as [b [Eb [Ib Xb]]].
  rewrite Ea. cbn [bind]. rewrite Eb. cbn [bind].
  set (c := if _ : bool then a else b).
  assert (Hc : In c (verts m) /\ (ve_index c = v1 \/ ve_index c = v2)).
  { unfold c. destruct (_ <? _)%nat; auto. }
  destruct Hc as [Ic Xc].
  assert (HV : forall e, In e (ve_edgeind c) -> VE m (ve_index c) e) by (intros e He; exists c; auto).
  destruct (@edge_scan_spec m v1 v2 (ve_edgeind c) Ue) as [r [Er Hr]].
  { intros e He. apply H2e. eapply ve_edge; eauto. }
  exists r. split; auto. destruct Hr as [[Hi Hj]|[-> Hn]]; [left|right].
  - split; auto. eapply ve_edge; eauto.
  - split; auto. intros e Hj. apply (Hn e); auto.
    assert (HEV : EV m e (ve_index c)).
    { destruct Hj as [[x [Hx [Ex Vx]]]|[x [Hx [Ex Vx]]]]; exists x; rewrite Vx; simpl; intuition. }
    apply M2 in HEV.
    + apply (@owner _ ve_index ve_edgeind (verts m) (ve_index c) c) in HEV; auto.
    + intros Hz. apply Z4. exists c. auto.
Qed.

(** ** SurfFromEdges *)
Definition uses m e s := match isearch su_index (surfs m) s with Ok x => mem_z e (su_edgeind x) | _ => false end.
Lemma surf_scan_some m rep e p sl : (forall s, In s sl -> has_surf m s) ->
  surf_scan m rep e (Some p) sl =
  match filter (uses m e) sl with [] => Ok p | _ => if rep =? 1 then Ok (-1) else Throw end.
Proof.
  induction sl as [|s sl IH]; intros H; cbn [surf_scan filter]; auto.
  destruct (@isearch_ok _ su_index (surfs m) s) as [x [Ex [Ix Xx]]]; [apply H; left; auto|].
  unfold uses at 1. rewrite Ex. cbn [bind]. destruct (mem_z e (su_edgeind x)); auto.
  apply IH. intros; apply H; right; auto.
Qed.
Lemma surf_scan_none m rep e sl : (forall s, In s sl -> has_surf m s) ->
  surf_scan m rep e None sl =
  match filter (uses m e) sl with
  | [] => Ok (-1) | [s] => Ok s
  | s :: _ => if rep =? 0 then Ok s else if rep =? 1 then Ok (-1) else Throw end.
Proof.
  induction sl as [|s sl IH]; intros H; cbn [surf_scan filter]; auto.
  destruct (@isearch_ok _ su_index (surfs m) s) as [x [Ex [Ix Xx]]]; [apply H; left; auto|].
  assert (H' : forall s, In s sl -> has_surf m s) by (intros; apply H; right; auto).
  unfold uses at 1. rewrite Ex. cbn [bind]. destruct (mem_z e (su_edgeind x)); auto.
  rewrite surf_scan_some by auto. destruct (filter (uses m e) sl); destruct (rep =? 0); auto.
Qed.

Lemma surf_from_edges_spec m e1 e2 rep : well_connected m -> has_edge m e1 -> has_edge m e2 ->
  (forall e, In e (edges m) -> NoDup (ed_surfind e)) -> ~ ES m e1 0 -> ~ ES m e2 0 ->
  exists c, NoDup c /\ (forall s, In s c <-> common_surf m e1 e2 s) /\
    surf_from_edges m e1 e2 rep =
    match c with
    | [] => Ok (-1) | [s] => Ok s
    | s :: _ => if rep =? 0 then Ok s else if rep =? 1 then Ok (-1) else Throw end.
Proof.
  intros W H1 H2 HN Z1 Z2. pose proof W as [[_ [Us [Ue _]]] [[_ [_ [M3 [M4 _]]]] _]].
  unfold surf_from_edges.
  destruct (isearch_ok ed_index (edges m) H1) as [a [Ea [Ia Xa]]].
  destruct (isearch_ok ed_index (edges m) H2) as [b [Eb [Ib Xb]]].
  rewrite Ea. cbn [bind]. rewrite Eb. cbn [bind].
  assert (Hu : forall e s, has_edge m e -> has_surf m s -> uses m e s = true <-> ES m e s).
  { intros e s He Hs. unfold uses. destruct (isearch_ok su_index (surfs m) Hs) as [x [Ex [Ix Xx]]]. rewrite Ex, mem_z_In.
    rewrite (@owner _ su_index su_edgeind (surfs m) s x Us Ix Xx). fold (SE m s e). split; intros H.
    - apply M4; auto. intros ->. apply W in He. auto.
    - apply M3; auto. intros ->. apply W in Hs. auto. }
  assert (Hl : forall e x f, In x (edges m) -> ed_index x = e -> ~ ES m e 0 -> has_edge m f ->
     (forall s, In s (ed_surfind x) -> has_surf m s) /\
     NoDup (filter (uses m f) (ed_surfind x)) /\
     forall s, In s (filter (uses m f) (ed_surfind x)) <-> ES m e s /\ ES m f s).
  { intros e x f Hx Ex Hz Hf.
    assert (Ho : forall s, In s (ed_surfind x) <-> ES m e s) by (apply (@owner _ ed_index ed_surfind (edges m) e x Ue Hx Ex)).
    assert (Hh : forall s, In s (ed_surfind x) -> has_surf m s).
    { intros s Hs. apply Ho in Hs. eapply es_surf; eauto. intros ->. auto. }
    split; auto. split; [apply NoDup_filter; auto|].
    intros s. rewrite filter_In. split.
    - intros [Hs Hq]. split; [apply Ho; auto|]. apply Hu; auto.
    - intros [Hs Hq]. apply Ho in Hs. split; auto. apply Hu; auto. }
  destruct (_ <? _)%nat.
  - destruct (Hl e1 a e2 Ia Xa Z1 H2) as [A1 [A2 A3]]. exists (filter (uses m e2) (ed_surfind a)).
    split; auto. split; auto. apply surf_scan_none; auto.
  - destruct (Hl e2 b e1 Ib Xb Z2 H1) as [A1 [A2 A3]]. exists (filter (uses m e1) (ed_surfind b)).
    split; auto. split; [intros s; rewrite A3; unfold common_surf; tauto|]. apply surf_scan_none; auto.
Qed.

(** ** OrderMatchLists *)
Lemma match_none p1 p2 : forall l ii, ~ In p1 l -> ~ In p2 l -> match_sum p1 p2 ii l = (0, 0).
Proof.
  induction l as [|x r IH]; intros ii H1 H2; cbn [match_sum]; auto.
  rewrite IH by (simpl in *; tauto).
  destruct (Z.eqb_spec x p1); [exfalso; apply H1; left; auto|].
  destruct (Z.eqb_spec x p2); [exfalso; apply H2; left; auto|]. reflexivity.
Qed.
Lemma match_first p1 p2 : p1 <> p2 -> forall l ii i, NoDup l -> nth_error l i = Some p1 -> ~ In p2 l ->
  match_sum p1 p2 ii l = (ii + Z.of_nat i, 1).
Proof.
  intros Hne. induction l as [|x r IH]; intros ii i Hnd H1 H2; [destruct i; discriminate|].
  inversion Hnd as [|? ? Hx Hr]; subst. cbn [match_sum]. destruct i as [|i]; simpl in H1.
  - injection H1 as ->. rewrite match_none; [|auto|simpl in H2; tauto]. rewrite Z.eqb_refl. f_equal; lia.
  - rewrite (IH (ii + 1) i); auto; [|simpl in H2; tauto].
    destruct (Z.eqb_spec x p1) as [->|]; [exfalso; apply Hx; eapply nth_error_In; eauto|].
    destruct (Z.eqb_spec x p2) as [->|]; [exfalso; apply H2; left; auto|]. f_equal; lia.
Qed.
Lemma match_second p1 p2 : p1 <> p2 -> forall l ii j, NoDup l -> nth_error l j = Some p2 -> ~ In p1 l ->
  match_sum p1 p2 ii l = (- (ii + Z.of_nat j), 1).
Proof.
  intros Hne. induction l as [|x r IH]; intros ii i Hnd H1 H2; [destruct i; discriminate|].
  inversion Hnd as [|? ? Hx Hr]; subst. cbn [match_sum]. destruct i as [|i]; simpl in H1.
  - injection H1 as ->. rewrite match_none; [|simpl in H2; tauto|auto]. destruct (Z.eqb_spec p2 p1); [congruence|].
    rewrite Z.eqb_refl. f_equal; lia.
  - rewrite (IH (ii + 1) i); auto; [|simpl in H2; tauto].
    destruct (Z.eqb_spec x p1) as [->|]; [exfalso; apply H2; left; auto|].
    destruct (Z.eqb_spec x p2) as [->|]; [exfalso; apply Hx; eapply nth_error_In; eauto|]. f_equal; lia.
Qed.
Lemma match_both p1 p2 : p1 <> p2 -> forall l ii i j, NoDup l -> nth_error l i = Some p1 -> nth_error l j = Some p2 ->
  match_sum p1 p2 ii l = (Z.of_nat i - Z.of_nat j, 2).
Proof.
  intros Hne. induction l as [|x r IH]; intros ii i j Hnd H1 H2; [destruct i; discriminate|].
  inversion Hnd as [|? ? Hx Hr]; subst. cbn [match_sum]. destruct i as [|i], j as [|j]; simpl in H1, H2; try congruence.
  - injection H1 as ->. rewrite (@match_second p1 p2 Hne r (ii + 1) j); auto. rewrite Z.eqb_refl. f_equal; lia.
  - injection H2 as ->. rewrite (@match_first p1 p2 Hne r (ii + 1) i); auto.
    destruct (Z.eqb_spec p2 p1); [congruence|]. rewrite Z.eqb_refl. f_equal; lia.
  - rewrite (IH (ii + 1) i j); auto.
    destruct (Z.eqb_spec x p1) as [->|]; [exfalso; apply Hx; eapply nth_error_In; eauto|].
    destruct (Z.eqb_spec x p2) as [->|]; [exfalso; apply Hx; eapply nth_error_In; eauto|]. f_equal; lia.
Qed.

Lemma follows_pos l p q : follows l p q -> exists i j, nth_error l i = Some p /\ nth_error l j = Some q /\
  (j = S i \/ (S i = length l /\ j = 0)%nat).
Proof.
  intros [i [H1 H2]]. assert (Hi : (i < length l)%nat) by (apply nth_error_Some; congruence).
  rewrite nth_cycle in H2 by auto. destruct (Nat.eqb_spec (S i) (length l)) as [E|E].
  - exists i, 0%nat. auto.
  - exists i, (S i). auto.
Qed.
Lemma follows_next l i p q : nth_error l i = Some p -> nth_error l (S i) = Some q -> follows l p q.
Proof.
  intros H1 H2. exists i. split; auto. assert (Hi : (S i < length l)%nat) by (apply nth_error_Some; congruence).
  rewrite nth_cycle by lia. destruct (Nat.eqb_spec (S i) (length l)); [lia|auto].
Qed.
Lemma follows_ne l p q : (2 <= length l)%nat -> NoDup l -> follows l p q -> p <> q.
Proof.
  intros HL Hnd Hf E. subst q. apply follows_pos in Hf. destruct Hf as [i [j [H1 [H2 H3]]]].
  assert (i = j); [|lia].
  apply (proj1 (NoDup_nth_error l) Hnd); [apply nth_error_Some; congruence|congruence].
Qed.
Lemma order_match_after l p q : (3 <= length l)%nat -> NoDup l -> follows l p q -> order_match l p q = (-1, 2).
Proof.
  intros HL Hnd Hf. assert (Hne : p <> q) by (eapply follows_ne; eauto; lia).
  apply follows_pos in Hf. destruct Hf as [i [j [H1 [H2 H3]]]].
  unfold order_match. rewrite (@match_both p q Hne l 0 i j); auto.
  assert (Hi : (i < length l)%nat) by (apply nth_error_Some; congruence).
  destruct H3 as [->|[H3 ->]].
  - destruct (Z.ltb_spec 1 (Z.of_nat i - Z.of_nat (S i))); [lia|].
    destruct (Z.ltb_spec (Z.of_nat i - Z.of_nat (S i)) (-1)); [lia|]. f_equal. lia.
  - destruct (Z.ltb_spec 1 (Z.of_nat i - Z.of_nat 0)); [auto|lia].
Qed.
Lemma order_match_before l p q : (3 <= length l)%nat -> NoDup l -> follows l q p -> order_match l p q = (1, 2).
Proof.
  intros HL Hnd Hf. assert (Hne : q <> p) by (eapply follows_ne; eauto; lia).
  apply follows_pos in Hf. destruct Hf as [i [j [H1 [H2 H3]]]].
  unfold order_match. rewrite (@match_both p q (not_eq_sym Hne) l 0 j i); auto.
  assert (Hi : (i < length l)%nat) by (apply nth_error_Some; congruence).
  destruct H3 as [->|[H3 ->]].
  - destruct (Z.ltb_spec 1 (Z.of_nat (S i) - Z.of_nat i)); [lia|].
    destruct (Z.ltb_spec (Z.of_nat (S i) - Z.of_nat i) (-1)); [lia|]. f_equal. lia.
  - destruct (Z.ltb_spec 1 (Z.of_nat 0 - Z.of_nat i)); [lia|].
    destruct (Z.ltb_spec (Z.of_nat 0 - Z.of_nat i) (-1)); [auto|lia].
Qed.
Lemma match_count_lt2 l p q : NoDup l -> p <> q -> ~ (In p l /\ In q l) -> snd (order_match l p q) <> 2.
Proof.
  intros Hnd Hne H. unfold order_match.
  destruct (in_dec Z.eq_dec p l) as [Hp|Hp], (in_dec Z.eq_dec q l) as [Hq|Hq]; [tauto|..].
  - apply In_nth_error in Hp. destruct Hp as [i Hi]. rewrite (@match_first p q Hne l 0 i); auto. simpl. lia.
  - apply In_nth_error in Hq. destruct Hq as [i Hi]. rewrite (@match_second p q Hne l 0 i); auto. simpl. lia.
  - rewrite match_none; auto. simpl. lia.
Qed.

(** ** ConnVertFromConnEdge *)
Section Conn.
Variable m : mesh.
Hypothesis Hnd : NoDup (map ed_index (edges m)).
Lemma end_at_0 e a b : edge_is m e a b -> end_at m e 0 = Ok a.
Proof. intros H. unfold end_at. destruct (isearch_edge Hnd H) as [x [-> E]]. cbn [bind]. rewrite E. reflexivity. Qed.
Lemma end_at_1 e a b : edge_is m e a b -> end_at m e 1 = Ok b.
Proof. intros H. unfold end_at. destruct (isearch_edge Hnd H) as [x [-> E]]. cbn [bind]. rewrite E. reflexivity. Qed.
Lemma in_ends_joins e a b x : edge_joins m e a b -> in_ends m e x = Ok ((x =? a) || (x =? b))%bool.
Proof.
  intros [H|H]; unfold in_ends; rewrite (end_at_0 H), (end_at_1 H); cbn [bind]; auto. rewrite orb_comm. auto.
Qed.
(** An end number [ll] of an edge joining [a] and [b] is one of them, the other
    end is the other. *)
Lemma end_cases e a b ll : edge_joins m e a b -> ll = 0 \/ ll = 1 ->
  (end_at m e ll = Ok a /\ end_at m e ((ll + 1) mod 2) = Ok b) \/
  (end_at m e ll = Ok b /\ end_at m e ((ll + 1) mod 2) = Ok a).
Proof.
  intros [H|H] [->| ->]; [left|right|right|left]; rewrite ?(end_at_0 H), ?(end_at_1 H);
    (split; [auto|]); [change ((0+1) mod 2) with 1|change ((1+1) mod 2) with 0|change ((0+1) mod 2) with 1|change ((1+1) mod 2) with 0];
    rewrite ?(end_at_0 H), ?(end_at_1 H); auto.
Qed.

Fixpoint path (l vs : list Z) : Prop :=
  match l, vs with
  | [], [_] => True
  | e :: r, a :: (b :: t) as vs' =>
      edge_joins m e a b /\ a <> b /\ (match t with c :: _ => c <> a | [] => True end) /\ path r (tl vs)
  | _, _ => False
  end.
Lemma conn_loop_path : forall l vs ll, ll = 0 \/ ll = 1 -> path l vs ->
  (forall e b, nth_error l 0 = Some e -> nth_error vs 1 = Some b -> end_at m e ll = Ok b) ->
  conn_loop m ll l = Ok (tl vs).
Proof.
  induction l as [|e l IH]; intros vs ll Hll HP H0.
  - destruct vs as [|v [|? ?]]; simpl in HP; try contradiction; reflexivity.
  - destruct vs as [|a [|b t]]; try (simpl in HP; tauto).
    destruct HP as [HJ [Hab [Hc HP]]]. cbn [tl] in *. cbn [conn_loop].
    rewrite (H0 e b) by reflexivity. cbn [bind].
    destruct l as [|f l].
    + cbn [bind conn_loop]. destruct t as [|? ?]; simpl in HP; [reflexivity|tauto].
    + destruct t as [|c t]; [simpl in HP; tauto|].
      pose proof HP as [HJ' [Hbc [_ _]]].
      destruct (end_cases HJ' Hll) as [[E1 E2]|[E1 E2]]; rewrite E1; cbn [bind]; rewrite (in_ends_joins _ HJ); cbn [bind].
      * rewrite Z.eqb_refl, orb_true_r.
        rewrite (IH (b :: c :: t) ((ll + 1) mod 2)); [reflexivity| |exact HP|].
        -- destruct Hll as [->| ->]; [right|left]; reflexivity.
        -- intros g x Hg Hx. injection Hg as <-. injection Hx as <-. exact E2.
      * destruct (Z.eqb_spec c a); [congruence|]. destruct (Z.eqb_spec c b); [congruence|]. cbn [orb].
        rewrite (IH (b :: c :: t) ll); [reflexivity|auto|exact HP|].
        intros g x Hg Hx. injection Hg as <-. injection Hx as <-. exact E1.
Qed.
Lemma conn_vert_path l vs : (2 <= length l)%nat -> path l vs -> conn_vert m l = Ok (tl vs).
Proof.
  intros HL HP. destruct l as [|e [|f l]]; simpl in HL; try lia. unfold conn_vert.
  change (at_ (e :: f :: l) 0) with (Ok e). change (at_ (e :: f :: l) 1) with (Ok f). cbn [bind].
  destruct vs as [|a [|b [|c t]]]; try (simpl in HP; tauto).
  pose proof HP as [HJ [Hab [Hca [HJ' [Hbc _]]]]].
  destruct (end_cases HJ (or_introl eq_refl)) as [[E1 E2]|[E1 E2]]; rewrite E1; cbn [bind]; rewrite (in_ends_joins _ HJ'); cbn [bind].
  - destruct (Z.eqb_spec a b); [congruence|]. destruct (Z.eqb_spec a c); [congruence|]. cbn [orb].
    apply conn_loop_path; auto. intros g x Hg Hx. injection Hg as <-. injection Hx as <-. exact E2.
  - rewrite Z.eqb_refl. cbn [orb].
    apply conn_loop_path; auto. intros g x Hg Hx. injection Hg as <-. injection Hx as <-. exact E1.
Qed.

Lemma path_of : forall l vs, length vs = S (length l) ->
  (forall i e a b, nth_error l i = Some e -> nth_error vs i = Some a -> nth_error vs (S i) = Some b -> edge_joins m e a b /\ a <> b) ->
  (forall i a c, nth_error vs i = Some a -> nth_error vs (S (S i)) = Some c -> c <> a) -> path l vs.
Proof.
  induction l as [|e l IH]; intros vs HL H1 H2.
  - destruct vs as [|? [|? ?]]; simpl in *; try lia; auto.
  - destruct vs as [|a [|b t]]; simpl in HL; try lia. cbn [path].
    destruct (H1 0%nat e a b) as [A B]; auto. split; auto. split; auto. split.
    + destruct t as [|c t]; auto. apply (H2 0%nat a c); auto.
    + apply IH; [simpl; lia| |].
      * intros i f x y Hf Hx Hy. apply (H1 (S i) f x y); auto.
      * intros i x y Hx Hy. apply (H2 (S i) x y); auto.
Qed.

Lemma conn_vert_polygon l vs : (3 <= length l)%nat -> NoDup vs -> polygon (edge_joins m) l vs ->
  conn_vert m l = Ok (tl vs ++ firstn 1 vs).
Proof.
  intros H3 HN [HL HP]. destruct vs as [|v vs]; [simpl in HL; lia|].
  set (ws := v :: vs) in *.
  assert (Hws : forall i, (i < length l)%nat -> nth_error (ws ++ [v]) i = nth_error ws i) by (intros; apply nth_error_app1; lia).
  assert (Hlast : nth_error (ws ++ [v]) (length l) = Some v).
  { rewrite nth_error_app2 by lia. replace (length l - length ws)%nat with 0%nat by lia. reflexivity. }
  assert (Hinj : forall i j x, (i < length l)%nat -> (j < length l)%nat -> nth_error ws i = Some x -> nth_error ws j = Some x -> i = j).
  { intros i j x Hi Hj A B. apply (proj1 (NoDup_nth_error ws) HN); [lia|congruence]. }
  assert (Hpos : forall i x, nth_error (ws ++ [v]) i = Some x -> ((i < length l)%nat /\ nth_error ws i = Some x) \/ (i = length l /\ x = v)).
  { intros i x Hx. assert (Hi : (i < length (ws ++ [v]))%nat) by (apply nth_error_Some; congruence).
    rewrite app_length in Hi. simpl length in Hi at 2.
    destruct (Nat.lt_ge_cases i (length l)) as [Hl|Hl]; [left; rewrite Hws in Hx by auto; auto|].
    right. assert (i = length l) by lia. subst i. rewrite Hlast in Hx. split; congruence. }
  assert (Hv0 : nth_error ws 0 = Some v) by reflexivity.
  change (tl ws ++ firstn 1 ws) with (tl (ws ++ [v])).
  apply conn_vert_path; [lia|]. apply path_of.
  - rewrite app_length. simpl length at 2. lia.
  - intros i e a b He Ha Hb. assert (Hi : (i < length l)%nat) by (apply nth_error_Some; congruence).
    rewrite Hws in Ha by auto. split.
    + apply (HP i); auto.
    + intros ->. destruct (Hpos _ _ Hb) as [[Hj Hb']|[Hj ->]].
      * assert (i = S i) by eauto. lia.
      * assert (i = 0%nat) by (apply (Hinj i 0%nat v); auto; lia). lia.
  - intros i a c Ha Hc. destruct (Hpos _ _ Ha) as [[Hi Ha']|[Hi ->]].
    + intros ->. destruct (Hpos _ _ Hc) as [[Hj Hb']|[Hj ->]].
      * assert (i = S (S i)) by eauto. lia.
      * assert (i = 0%nat) by (apply (Hinj i 0%nat v); auto; lia). lia.
    + exfalso. assert (Hl : (S (S i) < length (ws ++ [v]))%nat) by (apply nth_error_Some; congruence).
      rewrite app_length in Hl. simpl length in Hl at 2. lia.
Qed.
End Conn.

(** ** GetOffBorderVert *)
Lemma get_off_border_never n : forall setBorders set m, (forall m, exists m', setBorders m = Ok m') ->
  get_off_border n setBorders set m = OutOfFuel.
Proof.
  induction n as [|n IH]; intros sb set m H; cbn [get_off_border]; auto.
  destruct set; cbn [bind]; auto. destruct (H m) as [m' E]. rewrite E. cbn [bind]. auto.
Qed.

Lemma omap_concat A B (f : A -> outcome (list B)) (P : A -> B -> Prop) l :
  (forall a, In a l -> exists b, f a = Ok b /\ forall x, In x b <-> P a x) ->
  exists bs, omap_list f l = Ok bs /\ forall x, In x (concat bs) <-> exists a, In a l /\ P a x.
Proof.
  induction l as [|a l IH]; intros H; cbn [omap_list].
  - exists []. split; auto. intros x. simpl. split; [tauto|intros [? [[] _]]].
  - destruct (H a (or_introl eq_refl)) as [b [Eb Hb]]. rewrite Eb. cbn [bind].
    destruct IH as [bs [E Hbs]]; [intros; apply H; right; auto|]. rewrite E. cbn [bind].
    exists (b :: bs). split; auto. intros x. simpl. rewrite in_app_iff, Hb, Hbs. split.
    + intros [Hx|[c [Hc Hx]]]; [exists a|exists c]; auto.
    + intros [c [[<-|Hc] Hx]]; [left|right]; eauto.
Qed.
Lemma omap_concat2 A B C (f : A -> outcome (list B * list C)) (P : A -> B -> Prop) (Q : A -> C -> Prop) l :
  (forall a, In a l -> exists b c, f a = Ok (b, c) /\ (forall x, In x b <-> P a x) /\ (forall x, In x c <-> Q a x)) ->
  exists bs, omap_list f l = Ok bs /\ (forall x, In x (concat (map fst bs)) <-> exists a, In a l /\ P a x) /\
    (forall x, In x (concat (map snd bs)) <-> exists a, In a l /\ Q a x).
Proof.
  induction l as [|a l IH]; intros H; cbn [omap_list].
  - exists []. split; auto. split; intros x; simpl; (split; [tauto|intros [? [[] _]]]).
  - destruct (H a (or_introl eq_refl)) as [b [c [Eb [Hb Hc]]]]. rewrite Eb. cbn [bind].
    destruct IH as [bs [E [H1 H2]]]; [intros; apply H; right; auto|]. rewrite E. cbn [bind].
    exists ((b, c) :: bs). split; auto. split; intros x; simpl; rewrite in_app_iff.
    + rewrite Hb, H1. split.
      * intros [Hx|[d [Hd Hx]]]; [exists a|exists d]; auto.
      * intros [d [[<-|Hd] Hx]]; [left|right]; eauto.
    + rewrite Hc, H2. split.
      * intros [Hx|[d [Hd Hx]]]; [exists a|exists d]; auto.
      * intros [d [[<-|Hd] Hx]]; [left|right]; eauto.
Qed.

Section Off.
Variable m : mesh.
Hypothesis W : well_connected m.
Lemma ev_vert e n : EV m e n -> has_vert m n.
Proof.
  destruct W as [_ [[_ [M2 _]] [_ [X2 _]]]]. intros H. apply M2 in H; [apply lists_has in H; exact H|].
  intros ->. apply (X2 e); auto.
Qed.
Lemma se_edge s e : SE m s e -> has_edge m e.
Proof.
  destruct W as [_ [[_ [_ [_ [M4 _]]]] [_ [_ [X3 _]]]]]. intros H. apply M4 in H; [apply lists_has in H; exact H|].
  intros ->. apply (X3 s); auto.
Qed.
Lemma vs_surf v s : VS m v s -> has_surf m s.
Proof.
  destruct W as [_ [[_ [_ [_ [_ [_ M6]]]]] [_ [_ [_ [X4 _]]]]]]. intros H. apply M6 in H; [apply lists_has in H; exact H|].
  intros ->. apply (X4 v); auto.
Qed.

Lemma off_verts_ok el : (forall e, In e el -> has_edge m e) ->
  exists r, off_verts m el = Ok r /\ forall n, In n r <-> inner_vert m n /\ exists e, In e el /\ EV m e n.
Proof.
  pose proof W as [[_ [_ [Ue [Un _]]]] _]. intros H. unfold off_verts.
  destruct (@omap_concat _ _ (fun e => do ed <- isearch ed_index (edges m) e;
    do vs <- omap_list (fun v => do ve <- isearch ve_index (verts m) v;
                                 Ok (if ve_border ve then [] else [v])) (ed_vertind ed);
    Ok (concat vs)) (fun e n => inner_vert m n /\ EV m e n) el) as [bs [E Hbs]].
  { intros e He. destruct (isearch_ok ed_index (edges m) (H e He)) as [x [Ex [Ix Xx]]]. rewrite Ex. cbn [bind].
    assert (Ho : forall n, In n (ed_vertind x) <-> EV m e n) by (apply (@owner _ ed_index ed_vertind (edges m) e x Ue Ix Xx)).
    destruct (@omap_concat _ _ (fun v => do ve <- isearch ve_index (verts m) v; Ok (if ve_border ve then [] else [v]))
      (fun n k => k = n /\ inner_vert m n) (ed_vertind x)) as [vs [Ev Hv]].
    { intros n Hn. apply Ho, ev_vert in Hn.
      destruct (isearch_ok ve_index (verts m) Hn) as [y [Ey [Iy Xy]]]. rewrite Ey. cbn [bind].
      eexists. split; [reflexivity|]. intros k. destruct (ve_border y) eqn:Eb; simpl.
      - split; [tauto|]. intros [_ [z [Iz [Xz Bz]]]].
        assert (y = z) by (eapply (@NoDup_idx_inj _ ve_index); eauto; congruence). congruence.
      - split; [intros [->|[]]; split; auto; exists y; auto|intros [-> _]; auto]. }
    rewrite Ev. cbn [bind]. eexists. split; [reflexivity|]. intros n. rewrite Hv. split.
    - intros [k [Hk [-> Hi]]]. split; auto. apply Ho; auto.
    - intros [Hi Hn]. exists n. rewrite Ho. auto. }
  rewrite E. cbn [bind]. eexists. split; [reflexivity|]. intros n. rewrite Hbs. split.
  - intros [e [He [Hi Hn]]]. split; eauto.
  - intros [Hi [e [He Hn]]]. eauto.
Qed.

Lemma test_eval (outer : Z -> bool) o i : o = -1 \/ o = 0 \/ o = 1 -> (o = -1 -> forall i, outer i = true) ->
  (if ((o =? 0) || (o =? 1))%bool then Ok (outer i) else if o =? -1 then Ok true else Throw) = Ok (outer i).
Proof. intros [->|[->| ->]] H; simpl; auto. rewrite H; auto. Qed.

Lemma off_border_3d_ok outer o : o = -1 \/ o = 0 \/ o = 1 -> (o = -1 -> forall i, outer i = true) ->
  exists vs os, off_border_3d outer o m = Ok (vs, os) /\
    (forall n, In n vs <-> inner_vert m n /\ exists v s e, border_volu m (fun i => outer i = true) v /\ VS m v s /\ SE m s e /\ EV m e n) /\
    (forall v, In v os <-> border_volu m (fun i => outer i = true) v).
Proof.
  pose proof W as [[Uv [Us [Ue [Un _]]]] _]. intros Ho Ht. unfold off_border_3d.
  match goal with |- context [omap_list ?f (volus m)] =>
    destruct (@omap_concat2 _ _ _ f
      (fun v n => inner_vert m n /\ vo_border v = true /\ outer (vo_index v) = true /\ exists s e, VS m (vo_index v) s /\ SE m s e /\ EV m e n)
      (fun v i => i = vo_index v /\ vo_border v = true /\ outer (vo_index v) = true) (volus m)) as [bs [E [H1 H2]]] end.
  { intros v Hv. destruct (vo_border v) eqn:Eb.
    2:{ exists [], []. split; auto. split; intros x; simpl; split; try tauto; intros [_ [? _]]; discriminate. }
    rewrite test_eval by auto. cbn [bind]. destruct (outer (vo_index v)) eqn:Et.
    2:{ exists [], []. split; auto. split; intros x; simpl; split; try tauto; intros [_ [_ H]]; [destruct H as [? _]|]; discriminate. }
    assert (Hvs : forall s, In s (vo_surfind v) <-> VS m (vo_index v) s) by (apply (@owner _ vo_index vo_surfind (volus m) _ v Uv Hv eq_refl)).
    destruct (@omap_concat _ _ (fun s => do su <- isearch su_index (surfs m) s; off_verts m (su_edgeind su))
      (fun s n => inner_vert m n /\ exists e, SE m s e /\ EV m e n) (vo_surfind v)) as [cs [Ec Hc]].
    { intros s Hs. apply Hvs, vs_surf in Hs.
      destruct (isearch_ok su_index (surfs m) Hs) as [x [Ex [Ix Xx]]]. rewrite Ex. cbn [bind].
      assert (Hse : forall e, In e (su_edgeind x) <-> SE m s e) by (apply (@owner _ su_index su_edgeind (surfs m) s x Us Ix Xx)).
      destruct (@off_verts_ok (su_edgeind x)) as [r [Er Hr]].
      { intros e He. apply Hse in He. eapply se_edge; eauto. }
      exists r. split; auto. intros n. rewrite Hr. split; intros [A [e [B C]]]; (split; [auto|]); exists e; (split; [apply Hse|]; auto). }
    rewrite Ec. cbn [bind]. eexists _, _. split; [reflexivity|]. split.
    - intros n. rewrite Hc. split.
      + intros [s [Hs [Hn [e He]]]]. repeat apply conj; auto. exists s, e. rewrite <- Hvs. tauto.
      + intros [Hn [_ [_ [s [e He]]]]]. exists s. rewrite Hvs. split; [tauto|]. split; auto. exists e. tauto.
    - intros i. simpl. split; [intros [<-|[]]; auto|intros [-> _]; auto]. }
  rewrite E. cbn [bind]. eexists _, _. split; [reflexivity|]. split.
  - intros n. rewrite H1. split.
    + intros [v [Hv [Hn [Hb [Hq [s [e He]]]]]]]. split; auto. exists (vo_index v), s, e. split; auto. exists v. auto.
    + intros [Hn [v [s [e [[x [Hx [Ex [Bx Tx]]]] He]]]]]. exists x. split; auto. split; auto. split; auto.
      rewrite Ex. split; auto. exists s, e. auto.
  - intros i. rewrite H2. split.
    + intros [v [Hv [-> [Hb Hq]]]]. exists v. auto.
    + intros [x [Hx [Ex [Bx Tx]]]]. exists x. rewrite Ex. auto.
Qed.

Lemma neighbours_2d_ok s : In s (surfs m) -> (forall e, SE m (su_index s) e -> exists x a b, In x (edges m) /\ ed_index x = e /\ ed_surfind x = [a; b]) ->
  exists r, neighbours_2d m s = Ok r /\ forall k, In k r <-> k <> 0 /\ inner_surf m k /\ exists e, SE m (su_index s) e /\ ES m e k.
Proof.
  pose proof W as [[Uv [Us [Ue [Un [_ [Zs _]]]]]] _]. intros Hs H2. unfold neighbours_2d.
  assert (Hse : forall e, In e (su_edgeind s) <-> SE m (su_index s) e) by (apply (@owner _ su_index su_edgeind (surfs m) _ s Us Hs eq_refl)).
  match goal with |- context [omap_list ?f (su_edgeind s)] =>
    destruct (@omap_concat _ _ f (fun e k => k <> 0 /\ inner_surf m k /\ ES m e k) (su_edgeind s)) as [bs [E Hbs]] end.
  { intros e He. apply Hse in He. destruct (H2 e He) as [x [a [b [Hx [<- Ex]]]]].
    rewrite (isearch_is _ _ _ Ue Hx). cbn [bind]. rewrite Ex.
    change (at_ [a; b] 0) with (Ok a). change (at_ [a; b] 1) with (Ok b). cbn [bind].
    assert (Ho : forall k, In k [a; b] <-> ES m (ed_index x) k)
      by (rewrite <- Ex; apply (@owner _ ed_index ed_surfind (edges m) _ x Ue Hx eq_refl)).
    match goal with |- context [omap_list ?f [a; b]] =>
      destruct (@omap_concat _ _ f (fun j k => k = j /\ j <> 0 /\ inner_surf m j) [a; b]) as [cs [Ec Hc]] end.
    { intros j Hj. destruct (Z.eqb_spec j 0) as [->|Hj0].
      { exists []. split; auto. simpl. intros k. split; [tauto|]. intros [_ [? _]]; congruence. }
      apply Ho in Hj. pose proof (es_surf W Hj Hj0) as Hh.
      destruct (isearch_ok su_index (surfs m) Hh) as [y [Ey [Iy Xy]]]. rewrite Ey. cbn [bind].
      eexists. split; [reflexivity|]. intros k. destruct (su_border y) eqn:Eb; simpl.
      - split; [tauto|]. intros [_ [_ [z [Iz [Xz Bz]]]]].
        assert (y = z) by (eapply (@NoDup_idx_inj _ su_index); eauto; congruence). congruence.
      - split; [intros [->|[]]; split; auto; split; auto; exists y; auto|intros [-> _]; auto]. }
    rewrite Ec. cbn [bind]. eexists. split; [reflexivity|]. intros k. rewrite Hc. split.
    - intros [j [Hj [-> [Hz Hi]]]]. split; auto. split; auto. apply Ho; auto.
    - intros [Hz [Hi Hk]]. exists k. rewrite Ho. auto. }
  rewrite E. cbn [bind]. eexists. split; [reflexivity|]. intros k. rewrite Hbs. split.
  - intros [e [He [Hz [Hi Hk]]]]. split; auto. split; auto. exists e. rewrite <- Hse. auto.
  - intros [Hz [Hi [e [He Hk]]]]. exists e. rewrite Hse. auto.
Qed.

Lemma off_border_2d_ok outer o : o = -1 \/ o = 0 \/ o = 1 -> (o = -1 -> forall i, outer i = true) ->
  (o = 0 -> forall x, In x (edges m) -> exists a b, ed_surfind x = [a; b]) ->
  exists vs os, off_border_2d outer o m = Ok (vs, os) /\
    (forall n, In n vs <-> inner_vert m n /\ exists s e, border_surf m (fun i => outer i = true) s /\ SE m s e /\ EV m e n) /\
    (forall k, In k os <->
       (o <> 0 /\ border_surf m (fun i => outer i = true) k) \/
       (o = 0 /\ k <> 0 /\ inner_surf m k /\ exists s e, border_surf m (fun i => outer i = true) s /\ SE m s e /\ ES m e k)).
Proof.
  pose proof W as [[Uv [Us [Ue [Un _]]]] _]. intros Ho Ht Hss. unfold off_border_2d.
  match goal with |- context [omap_list ?f (surfs m)] =>
    destruct (@omap_concat2 _ _ _ f
      (fun s n => inner_vert m n /\ su_border s = true /\ outer (su_index s) = true /\ exists e, SE m (su_index s) e /\ EV m e n)
      (fun s k => su_border s = true /\ outer (su_index s) = true /\
         ((o <> 0 /\ k = su_index s) \/ (o = 0 /\ k <> 0 /\ inner_surf m k /\ exists e, SE m (su_index s) e /\ ES m e k))) (surfs m)) as [bs [E [H1 H2]]] end.
  { intros s Hs. destruct (su_border s) eqn:Eb.
    2:{ exists [], []. split; auto. split; intros x; simpl; split; try tauto; [intros [_ [? _]]|intros [? _]]; discriminate. }
    rewrite test_eval by auto. cbn [bind]. destruct (outer (su_index s)) eqn:Et.
    2:{ exists [], []. split; auto. split; intros x; simpl; split; try tauto; [intros [_ [_ [? _]]]|intros [_ [? _]]]; discriminate. }
    assert (Hse : forall e, In e (su_edgeind s) <-> SE m (su_index s) e) by (apply (@owner _ su_index su_edgeind (surfs m) _ s Us Hs eq_refl)).
    destruct (@off_verts_ok (su_edgeind s)) as [r [Er Hr]].
    { intros e He. apply Hse in He. eapply se_edge; eauto. }
    assert (HR : forall n, In n r <-> inner_vert m n /\ true = true /\ true = true /\ exists e, SE m (su_index s) e /\ EV m e n).
    { intros n. rewrite Hr. split.
      - intros [A [e [B C]]]. repeat apply conj; auto. exists e. rewrite <- Hse. auto.
      - intros [A [_ [_ [e [B C]]]]]. split; auto. exists e. rewrite Hse. auto. }
    destruct (Z.eqb_spec o 0) as [Eo|Eo].
    - destruct (@neighbours_2d_ok s Hs) as [q [Eq Hq]].
      { intros e He. apply se_edge in He. destruct He as [x [Hx Xx]]. destruct (Hss Eo x Hx) as [a [b Eab]]. exists x, a, b. auto. }
      rewrite Eq. cbn [bind]. rewrite Er. cbn [bind]. exists r, q. split; auto. split; auto.
      intros k. rewrite Hq. tauto.
    - cbn [bind]. rewrite Er. cbn [bind]. exists r, [su_index s]. split; auto. split; auto.
      intros k. simpl. intuition congruence. }
  rewrite E. cbn [bind]. eexists _, _. split; [reflexivity|]. split.
  - intros n. rewrite H1. split.
    + intros [s [Hs [Hn [Hb [Hq [e He]]]]]]. split; auto. exists (su_index s), e. split; auto. exists s. auto.
    + intros [Hn [s [e [[x [Hx [Ex [Bx Tx]]]] He]]]]. exists x. split; auto. split; auto. split; auto.
      rewrite Ex. split; auto. exists e. auto.
  - intros k. rewrite H2. split.
    + intros [s [Hs [Hb [Hq [[Ho' ->]|[Ho' [Hz [Hi [e He]]]]]]]]].
      * left. split; auto. exists s. auto.
      * right. repeat apply conj; auto. exists (su_index s), e. split; auto. exists s. auto.
    + intros [[Ho' [x [Hx [Ex [Bx Tx]]]]]|[Ho' [Hz [Hi [s [e [[x [Hx [Ex [Bx Tx]]]] He]]]]]]].
      * exists x. rewrite Ex. auto 6.
      * exists x. rewrite Ex. split; auto. split; auto. split; auto. right. repeat apply conj; auto. exists e. auto.
Qed.
End Off.
