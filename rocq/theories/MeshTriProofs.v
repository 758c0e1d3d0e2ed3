(** Lemmas about splitting one surface into triangles. *)
From Verif Require Import Base Containers Mesh Flood Edit Order MeshTri SpecMesh SpecOrder SpecMeshTri ContainersProofs MeshProofs FloodProofs CloseProofs TetgenProofs SpawnProofs MergeProofs.
From Coq Require Import Permutation.
Import Mesh.
Set Implicit Arguments.
Open Scope Z_scope.

(** ** Writes one after the other *)
Section Acc.
Variables (A K : Type) (idx : A -> Z) (key : K -> Z) (g : K -> A -> A).
Hypothesis gi : forall k a, idx (g k a) = idx a.
Definition acc (ks : list K) (a : A) : A := fold_left (fun a k => if key k =? idx a then g k a else a) ks a.
Lemma acc_idx ks : forall a, idx (acc ks a) = idx a.
Proof using gi. induction ks as [|k ks IH]; intros a; [reflexivity|]. unfold acc in *. simpl. rewrite IH. destruct (key k =? idx a); auto. Qed.
Lemma acc_app ks k a : acc (ks ++ [k]) a = if key k =? idx a then g k (acc ks a) else acc ks a.
Proof using gi. unfold acc at 1. rewrite fold_left_app. simpl. fold (acc ks a). rewrite acc_idx. reflexivity. Qed.
Lemma acc_none ks a : (forall k, In k ks -> key k <> idx a) -> acc ks a = a.
Proof using.
  induction ks as [|k ks IH]; intros H; [reflexivity|]. unfold acc. simpl. destruct (Z.eqb_spec (key k) (idx a)) as [E|_]; [exfalso; eapply H; simpl; eauto|].
  apply IH. intros; apply H; simpl; auto.
Qed.
Lemma acc_one ks k a : NoDup (map key ks) -> In k ks -> key k = idx a -> acc ks a = g k a.
Proof using gi.
  revert a. induction ks as [|x ks IH]; intros a N H E; [destruct H|]. simpl in N. inversion N as [|? ? N1 N2]; subst. unfold acc. simpl. destruct H as [->|H].
  - rewrite E, Z.eqb_refl. apply acc_none. rewrite gi. intros y Hy Q. apply N1. rewrite E, <- Q. apply in_map. auto.
  - destruct (Z.eqb_spec (key x) (idx a)) as [Q|_]; [exfalso; apply N1; rewrite Q, <- E; apply in_map; auto|]. apply IH; auto.
Qed.
Lemma modify_acc l0 l ks k : map idx l0 = map idx l -> NoDup (map idx l) -> In (key k) (map idx l) ->
  modify (map (acc ks) l) (find idx l0 (key k)) (g k) = Ok (map (acc (ks ++ [k])) l).
Proof using gi.
  intros E N I. assert (Q : map idx (map (acc ks) l) = map idx l) by (rewrite map_map; apply map_ext; apply acc_idx).
  rewrite <- (@find_map_idx _ idx l0 (map (acc ks) l)) by congruence. rewrite modify_find by (rewrite Q; auto). f_equal. unfold on. rewrite map_map.
  apply map_ext. intros a. rewrite acc_app, acc_idx, Z.eqb_sym. reflexivity.
Qed.
End Acc.
Lemma push_In A K (idx : A -> Z) (key : K -> Z) (get : A -> list Z) (set : list Z -> A -> A) (val : K -> Z) ks :
  (forall l a, get (set l a) = l) -> (forall l a, idx (set l a) = idx a) ->
  forall a x, In x (get (acc idx key (fun k => add_to get set (val k)) ks a)) <-> In x (get a) \/ exists k, In k ks /\ key k = idx a /\ x = val k.
Proof.
  intros Gs Is. induction ks as [|k ks IH]; intros a x.
  - simpl. split; [auto|]. intros [H|[k [[] _]]]. exact H.
  - unfold acc in *. simpl. rewrite IH. destruct (Z.eqb_spec (key k) (idx a)) as [E|E].
    + unfold add_to. rewrite Gs, Is, in_app_iff. simpl. split.
      * intros [[H|[<-|[]]]|[j [H1 [H2 H3]]]]; [auto|right; exists k; auto|right; exists j; auto].
      * intros [H|[j [[<-|H1] [H2 H3]]]]; [auto|auto|right; exists j; auto].
    + split; [intros [H|[j [H1 H2]]]; [auto|right; exists j; auto]|]. intros [H|[j [[<-|H1] [H2 H3]]]]; [auto|contradiction|right; exists j; auto].
Qed.
Lemma for_upto S (P : nat -> S -> Prop) (body : Z -> S -> outcome S) n : forall s0, P 0%nat s0 ->
  (forall j s, (j < n)%nat -> P j s -> exists s', body (Z.of_nat j) s = Ok s' /\ P (j + 1)%nat s') ->
  exists s', for_each (upto n 0) body s0 = Ok s' /\ P n s'.
Proof.
  intros s0 H0 H. assert (G : forall k j s, (j + k = n)%nat -> P j s -> exists s', for_each (upto k (Z.of_nat j)) body s = Ok s' /\ P n s').
  { induction k as [|k IH]; intros j s E Pj.
    - exists s. rewrite Nat.add_0_r in E. subst j. auto.
    - destruct (H j s) as [s1 [E1 P1]]; [lia|auto|]. destruct (IH (j + 1)%nat s1) as [s2 [E2 P2]]; [lia|auto|].
      exists s2. split; auto. cbn [upto for_each]. rewrite E1. cbn [bind]. replace (Z.of_nat j + 1) with (Z.of_nat (j + 1)) by lia. exact E2. }
  exact (G n 0%nat s0 eq_refl H0).
Qed.
Lemma add_cells_ok m cells i (l : list volu) ks : map vo_index (volus m) = map vo_index l -> NoDup (map vo_index l) ->
  (forall c, In c cells -> c <> 0 -> In c (map vo_index l)) ->
  add_cells m cells i (map (acc vo_index fst (fun p : Z * Z => add_to vo_surfind vo_set_surfind (snd p)) ks) l) =
  Ok (map (acc vo_index fst (fun p : Z * Z => add_to vo_surfind vo_set_surfind (snd p)) (ks ++ map (fun c => (c, i)) (filter (fun c => negb (c =? 0)) cells))) l).
Proof.
  intros E N. revert ks. induction cells as [|c cells IH]; intros ks H.
  - simpl. rewrite app_nil_r. reflexivity.
  - unfold add_cells in *. cbn [for_each filter]. destruct (Z.eqb_spec c 0) as [->|Q]; cbn [negb].
    + cbn [bind]. apply IH. intros; apply H; simpl; auto.
    + pose proof (@modify_acc volu (Z * Z) vo_index fst (fun p => add_to vo_surfind vo_set_surfind (snd p)) ltac:(reflexivity) (volus m) l ks (c, i) E N) as K.
      cbn [fst snd] in K. rewrite K by (apply H; simpl; auto). cbn [bind]. rewrite IH by (intros; apply H; simpl; auto). cbn [map]. rewrite <- app_assoc. reflexivity.
Qed.

Lemma lists_map A (idx : A -> Z) get (f : A -> A) l i x : (forall a, idx (f a) = idx a) ->
  lists idx get (map f l) i x <-> exists a, In a l /\ idx a = i /\ In x (get (f a)).
Proof.
  intros H. unfold lists. split.
  - intros [a [A1 [A2 A3]]]. apply in_map_iff in A1. destruct A1 as [b [<- B]]. rewrite H in A2. exists b. auto.
  - intros [a [A1 [A2 A3]]]. exists (f a). rewrite H. split; [apply in_map|]; auto.
Qed.
Lemma lists_app A (idx : A -> Z) get l1 l2 i x : lists idx get (l1 ++ l2) i x <-> lists idx get l1 i x \/ lists idx get l2 i x.
Proof.
  unfold lists. split.
  - intros [a [A1 A2]]. apply in_app_iff in A1. destruct A1; [left|right]; exists a; auto.
  - intros [[a [A1 A2]]|[a [A1 A2]]]; exists a; rewrite in_app_iff; auto.
Qed.

Lemma NoDup_fresh (f : nat -> Z) b (ks : list nat) (l : list Z) : NoDup l -> (forall x, In x l -> x <= b) -> NoDup ks -> (forall k, In k ks -> b < f k) -> (forall j k, f j = f k -> j = k) -> NoDup (l ++ map f ks).
Proof.
  intros N L Nk B I. apply NoDup_app2; auto.
  - clear - Nk I. induction Nk as [|k ks H _ IH]; simpl; constructor; auto. rewrite in_map_iff. intros [j [E J]]. apply I in E. subst j. auto.
  - intros x X H. apply in_map_iff in H. destruct H as [k [<- K]]. specialize (L _ X). specialize (B _ K). lia.
Qed.
Lemma has_idx A (idx : A -> Z) l i : (exists a, In a l /\ idx a = i) <-> In i (map idx l).
Proof. symmetry. apply in_map_idx. Qed.
Lemma joins_sym m0 e a b : edge_joins m0 e a b -> edge_joins m0 e b a.
Proof. intros [H|H]; [right|left]; auto. Qed.
Lemma tri_polygon m0 a b e x y z : edge_joins m0 a x y -> edge_joins m0 b y z -> edge_joins m0 e z x -> x <> y -> y <> z -> z <> x ->
  (3 <= length [a; b; e])%nat /\ exists l, NoDup l /\ polygon (edge_joins m0) [a; b; e] l.
Proof.
  intros H1 H2 H3 D1 D2 D3. split; [simpl; lia|]. exists [x; y; z]. split.
  - constructor; [simpl; intros [E|[E|[]]]; congruence|]. constructor; [simpl; intros [E|[]]; congruence|]. constructor; [simpl; tauto|constructor].
  - split; [reflexivity|]. intros i e' p q. destruct i as [|[|[|i]]]; cbn [nth_error tl firstn app]; intros E1 E2 E3; try (injection E1 as <-; injection E2 as <-; injection E3 as <-; auto).
    destruct i; discriminate E1.
Qed.

(** ** The polygon *)
Section Split.
Variables (m : mesh) (s : surf) (vs : list Z).
Let n := length (su_edgeind s).
Hypotheses (W : well_connected m) (Hs : In s (surfs m)) (N3 : (3 <= n)%nat) (ND : NoDup vs)
  (P : polygon (edge_joins m) (su_edgeind s) vs).
Definition ev (k : nat) : Z := nth k (su_edgeind s) 0.
Definition nxt (k : nat) : nat := if (k + 1 =? n)%nat then 0%nat else (k + 1)%nat.
Definition pv (k : nat) : Z := nth k vs 0.
Definition cv (k : nat) : Z := pv (nxt k).
Lemma len_vs : length vs = n. Proof using All. apply P. Qed.
Lemma nxt_lt k : (k < n)%nat -> (nxt k < n)%nat. Proof using All. unfold nxt. destruct (Nat.eqb_spec (k + 1) n); lia. Qed.
Lemma pv_nth k : (k < n)%nat -> nth_error vs k = Some (pv k).
Proof using All. intros H. apply nth_error_nth'. rewrite len_vs. exact H. Qed.
Lemma cv_nth k : (k < n)%nat -> nth_error (tl vs ++ firstn 1 vs) k = Some (cv k).
Proof using All.
  intros H. pose proof len_vs as L. unfold cv, pv, nxt. destruct vs as [|v r]; [simpl in L; lia|]. cbn [tl firstn]. simpl in L.
  destruct (Nat.eqb_spec (k + 1) n) as [E|E].
  - rewrite nth_error_app2 by lia. replace (k - length r)%nat with 0%nat by lia. reflexivity.
  - rewrite nth_error_app1 by lia. rewrite Nat.add_1_r. cbn [nth]. apply nth_error_nth'. lia.
Qed.
Lemma ev_nth k : (k < n)%nat -> nth_error (su_edgeind s) k = Some (ev k).
Proof using All. intros H. apply nth_error_nth'. exact H. Qed.
Lemma pv_inj j k : (j < n)%nat -> (k < n)%nat -> pv j = pv k -> j = k.
Proof using All. intros H1 H2 E. apply (proj1 (NoDup_nth_error vs) ND); [rewrite len_vs; auto|]. rewrite !pv_nth by auto. congruence. Qed.
Lemma cv_inj j k : (j < n)%nat -> (k < n)%nat -> cv j = cv k -> j = k.
Proof using All.
  intros H1 H2 E. apply pv_inj in E; try apply nxt_lt; auto. unfold nxt in E.
  destruct (Nat.eqb_spec (j + 1) n), (Nat.eqb_spec (k + 1) n); lia.
Qed.
Lemma nxt_ne k : (k < n)%nat -> nxt k <> k. Proof using All. unfold nxt. destruct (Nat.eqb_spec (k + 1) n); lia. Qed.
Definition rec (k : nat) (e : edge) : Prop :=
  In e (edges m) /\ ed_index e = ev k /\ (ed_vertind e = [pv k; cv k] \/ ed_vertind e = [cv k; pv k]).
Lemma rec_ex k : (k < n)%nat -> exists e, rec k e /\ at_ (edges m) (find ed_index (edges m) (ev k)) = Ok e.
Proof using All.
  intros H. destruct P as [_ J]. specialize (J k _ _ _ (ev_nth H) (pv_nth H) (cv_nth H)).
  destruct J as [[e [J1 [J2 J3]]]|[e [J1 [J2 J3]]]]; exists e; (split; [split; [auto|split; auto]|]); rewrite <- J2;
    (destruct (find_at ed_index (edges m) (ex_intro _ e (conj J1 eq_refl))) as [a [A1 [A2 A3]]]; rewrite A1; f_equal;
     apply (NoDup_idx_inj ed_index (edges m)); auto; apply W).
Qed.
Let es := find_list ed_index (edges m) (su_edgeind s).
Lemma es_at k : (k < n)%nat -> at_ es (Z.of_nat k) = Ok (find ed_index (edges m) (ev k)).
Proof using All. intros H. apply at_Ok. split; [lia|]. rewrite Nat2Z.id. unfold es, find_list. rewrite nth_error_map, ev_nth by auto. reflexivity. Qed.
Lemma es_len : length es = n. Proof using All. unfold es, find_list. rewrite map_length. reflexivity. Qed.
Definition points (k : nat) (ll : Z) : Prop := forall e, rec k e -> at_ (ed_vertind e) ll = Ok (cv k).
Lemma end_of_rec v k e : rec k e -> end_of v e = Ok ((v =? pv k) || (v =? cv k))%bool \/ end_of v e = Ok ((v =? cv k) || (v =? pv k))%bool.
Proof using All. intros [_ [_ [E|E]]]; unfold end_of; rewrite E; [left|right]; reflexivity. Qed.
Lemma end_of_val v k e : rec k e -> end_of v e = Ok ((v =? pv k) || (v =? cv k))%bool.
Proof using All. intros R. destruct (end_of_rec v R) as [E|E]; rewrite E; auto. rewrite orb_comm. reflexivity. Qed.
Lemma rec_same k e f : rec k e -> rec k f -> e = f.
Proof using All. intros [H1 [H2 _]] [H3 [H4 _]]. apply (NoDup_idx_inj ed_index (edges m)); auto; [apply W|congruence]. Qed.
Lemma first_ok : exists ll, first_end m es = Ok ll /\ (ll = 0 \/ ll = 1) /\ points 0 ll.
Proof using All.
  assert (H0 : (0 < n)%nat) by (lia). assert (H1 : (1 < n)%nat) by (lia).
  destruct (rec_ex H0) as [e [R0 E0]]. destruct (rec_ex H1) as [f [R1 E1]].
  unfold first_end. rewrite (es_at H0 : at_ es 0 = _). cbn [bind]. rewrite E0. cbn [bind]. rewrite (es_at H1 : at_ es 1 = _). cbn [bind]. rewrite E1. cbn [bind].
  assert (C0 : cv 0 = pv 1) by (unfold cv, nxt; destruct (Nat.eqb_spec (0 + 1) n); [lia|reflexivity]).
  assert (Q1 : pv 0 <> pv 1) by (intros Q; apply pv_inj in Q; auto; lia).
  assert (Q2 : pv 0 <> cv 1).
  { intros Q. apply pv_inj in Q; auto; [|apply nxt_lt; auto]. unfold nxt in Q. destruct (Nat.eqb_spec (1 + 1) n); lia. }
  pose proof R0 as [_ [_ V]]. destruct V as [V|V].
  - rewrite V. change (at_ [pv 0; cv 0] 0) with (Ok (pv 0)). cbn [bind]. rewrite (end_of_val _ R1). cbn [bind].
    destruct (Z.eqb_spec (pv 0) (pv 1)); [contradiction|]. destruct (Z.eqb_spec (pv 0) (cv 1)); [contradiction|]. cbn [orb].
    exists 1. split; [reflexivity|]. split; [auto|]. intros e' R'. rewrite (rec_same R' R0), V. reflexivity.
  - rewrite V. change (at_ [cv 0; pv 0] 0) with (Ok (cv 0)). cbn [bind]. rewrite (end_of_val _ R1). cbn [bind]. rewrite C0, Z.eqb_refl. cbn [orb].
    exists 0. split; [reflexivity|]. split; [auto|]. intros e' R'. rewrite (rec_same R' R0), V. reflexivity.
Qed.
Lemma next_ok k ll : (k < n)%nat -> ll = 0 \/ ll = 1 -> points k ll ->
  exists l', next_end m es (Z.of_nat n) (Z.of_nat k) ll = Ok l' /\ (l' = 0 \/ l' = 1) /\ ((k + 1 < n)%nat -> points (k + 1) l').
Proof using All.
  intros Hk Hl Hp. unfold next_end. destruct (Z.ltb_spec (Z.of_nat k) (Z.of_nat n - 1)) as [Q|Q]; [|exists ll; split; [auto|split; [auto|lia]]].
  assert (H1 : (k + 1 < n)%nat) by lia. destruct (rec_ex Hk) as [e [R0 E0]]. destruct (rec_ex H1) as [f [R1 E1]].
  rewrite (es_at Hk). cbn [bind]. rewrite E0. cbn [bind]. replace (Z.of_nat k + 1) with (Z.of_nat (k + 1)) by lia. rewrite (es_at H1). cbn [bind]. rewrite E1. cbn [bind].
  assert (C0 : cv k = pv (k + 1)) by (unfold cv, nxt; destruct (Nat.eqb_spec (k + 1) n); [lia|reflexivity]).
  assert (Q1 : cv (k + 1) <> pv k).
  { intros Z. apply pv_inj in Z; auto; [|apply nxt_lt; auto]. unfold nxt in Z. destruct (Nat.eqb_spec (k + 1 + 1) n); lia. }
  assert (Q2 : cv (k + 1) <> cv k) by (intros Z; apply cv_inj in Z; auto; lia).
  assert (B1 : end_of (cv (k + 1)) e = Ok false).
  { rewrite (end_of_val _ R0). destruct (Z.eqb_spec (cv (k + 1)) (pv k)); [contradiction|]. destruct (Z.eqb_spec (cv (k + 1)) (cv k)); [contradiction|]. reflexivity. }
  assert (B2 : end_of (pv (k + 1)) e = Ok true) by (rewrite (end_of_val _ R0), <- C0, Z.eqb_refl, orb_true_r; reflexivity).
  pose proof R1 as [_ [_ V]]. destruct V as [V|V], Hl as [-> | ->]; rewrite V.
  - change (at_ [pv (k + 1); cv (k + 1)] 0) with (Ok (pv (k + 1))). cbn [bind]. rewrite B2. cbn [bind]. exists 1. split; [reflexivity|]. split; auto. intros _ e' R'. rewrite (rec_same R' R1), V. reflexivity.
  - change (at_ [pv (k + 1); cv (k + 1)] 1) with (Ok (cv (k + 1))). cbn [bind]. rewrite B1. cbn [bind]. exists 1. split; [reflexivity|]. split; auto. intros _ e' R'. rewrite (rec_same R' R1), V. reflexivity.
  - change (at_ [cv (k + 1); pv (k + 1)] 0) with (Ok (cv (k + 1))). cbn [bind]. rewrite B1. cbn [bind]. exists 0. split; [reflexivity|]. split; auto. intros _ e' R'. rewrite (rec_same R' R1), V. reflexivity.
  - change (at_ [cv (k + 1); pv (k + 1)] 1) with (Ok (pv (k + 1))). cbn [bind]. rewrite B2. cbn [bind]. exists 0. split; [reflexivity|]. split; auto. intros _ e' R'. rewrite (rec_same R' R1), V. reflexivity.
Qed.
Lemma ev_inj j k : (j < n)%nat -> (k < n)%nat -> ev j = ev k -> j = k.
Proof using All.
  intros Hj Hk E. destruct (rec_ex Hj) as [e [[R1 [R2 R3]] E0]]. destruct (rec_ex Hk) as [f [[S1 [S2 S3]] E1]].
  assert (e = f) by (rewrite E in E0; congruence). subst f.
  assert (D : (pv j = pv k /\ cv j = cv k) \/ (pv j = cv k /\ cv j = pv k)) by (destruct R3 as [R3|R3], S3 as [S3|S3]; rewrite R3 in S3; injection S3 as -> ->; auto).
  destruct D as [[D _]|[D1 D2]]; [apply pv_inj; auto|]. unfold cv in *. apply pv_inj in D1, D2; auto using nxt_lt. unfold nxt in *.
  destruct (Nat.eqb_spec (j + 1) n), (Nat.eqb_spec (k + 1) n); lia.
Qed.
Lemma corner_ev k : (k < n)%nat -> EV m (ev k) (cv k).
Proof using All. intros H. destruct (rec_ex H) as [e [[R1 [R2 R3]] _]]. exists e. split; auto. split; auto. destruct R3 as [-> | ->]; simpl; auto. Qed.
Lemma corner_vert k : (k < n)%nat -> In (cv k) (map ve_index (verts m)).
Proof using All.
  intros H. pose proof (corner_ev H) as E. destruct W as [_ [M X]]. assert (Z0 : cv k <> 0) by (intros Q; rewrite Q in E; apply X in E; auto).
  destruct M as [_ [M _]]. apply M in E; auto. destruct E as [a [A1 [A2 _]]]. rewrite <- A2. apply in_map. auto.
Qed.

(** ** The loop *)
Variables (out new : mesh) (V ne ns : Z).
Hypotheses (I1 : map ve_index (verts out) = map ve_index (verts m)) (I2 : map ed_index (edges out) = map ed_index (edges m))
  (I3 : map su_index (surfs out) = map su_index (surfs m)) (I4 : map vo_index (volus out) = map vo_index (volus m)).
Definition Ek (k : nat) : Z := ne + 1 + Z.of_nat k.
Definition Sk (k : nat) : Z := ns + Z.of_nat k.
Definition cells_of : list Z := filter (fun c => negb (c =? 0)) (su_voluind s).
Definition cellpairs (ks : list nat) : list (Z * Z) := flat_map (fun k => map (fun c => (c, Sk k)) cells_of) ks.
Definition new_edge (k : nat) : edge :=
  mkEdge (Ek k) false [if (k =? 0)%nat then su_index s else Sk k; if (k + 1 =? n)%nat then su_index s else Sk (k + 1)] [V; cv k].
Definition new_surf (k : nat) : surf := mkSurf (Sk k) (su_border s) (su_ordered s) (su_voluind s) [ne + Z.of_nat k; Ek k; ev k].
Definition cut (t : surf) : surf := if su_index t =? su_index s then su_set_edgeind [Ek 0; Ek (n - 1); ev 0] t else t.
Definition vert_acc ks := acc ve_index cv (fun k => add_to ve_edgeind ve_set_edgeind (Ek k)) ks.
Definition edge_acc ks := acc ed_index ev (fun k x => ed_set_surfind (replace_all (su_index s) (Sk k) (ed_surfind x)) x) ks.
Definition volu_acc ks := acc vo_index fst (fun p : Z * Z => add_to vo_surfind vo_set_surfind (snd p)) (cellpairs ks).
Definition loop_state (j : nat) (st : mesh * mesh * Z) : Prop :=
  let '(o, w, ll) := st in
  o = mkMesh (map (volu_acc (seq 1 (j - 1))) (volus out)) (if (j =? 0)%nat then surfs out else map cut (surfs out))
        (map (edge_acc (seq 1 (j - 1))) (edges out)) (map (vert_acc (seq 0 j)) (verts out)) (meshDim out) /\
  w = mkMesh (volus new) (surfs new ++ map new_surf (seq 1 (j - 1))) (edges new ++ map new_edge (seq 0 j)) (verts new) (meshDim new) /\
  (ll = 0 \/ ll = 1) /\ ((j < n)%nat -> points j ll).
Lemma map_acc_nil A K (idx : A -> Z) (key : K -> Z) g (l : list A) : map (acc idx key g []) l = l.
Proof using All. apply map_id. Qed.
Lemma seq_end a j : seq a (j + 1) = seq a j ++ [(a + j)%nat].
Proof using All. rewrite seq_app. reflexivity. Qed.
Lemma split_loop ll : first_end m es = Ok ll -> exists l', 
  for_each (upto n 0) (split_edge m (find su_index (surfs m) (su_index s)) s es V ne ns) (out, new, ll) =
  Ok (mkMesh (map (volu_acc (seq 1 (n - 1))) (volus out)) (map cut (surfs out)) (map (edge_acc (seq 1 (n - 1))) (edges out)) (map (vert_acc (seq 0 n)) (verts out)) (meshDim out),
      mkMesh (volus new) (surfs new ++ map new_surf (seq 1 (n - 1))) (edges new ++ map new_edge (seq 0 n)) (verts new) (meshDim new), l').
Proof using All.
  intros E0. destruct first_ok as [ll0 [F1 [F2 F3]]]. assert (ll0 = ll) by congruence. subst ll0.
  destruct (@for_upto _ loop_state (split_edge m (find su_index (surfs m) (su_index s)) s es V ne ns) n (out, new, ll)) as [[[o w] l'] [E [E1 [E2 _]]]].
  - split; [|split; [|split; [auto|intros _; exact F3]]].
    + unfold vert_acc, edge_acc, volu_acc. cbn [seq Nat.sub]. unfold cellpairs. cbn [flat_map]. rewrite !map_acc_nil. destruct out; reflexivity.
    + cbn [seq Nat.sub map]. rewrite !app_nil_r. destruct new; reflexivity.
  - intros j [[o w] l] Hj [-> [-> [Hl Hp]]]. specialize (Hp Hj). unfold split_edge. rewrite es_len.
    destruct (rec_ex Hj) as [e [R Ea]]. rewrite (es_at Hj). cbn [bind]. rewrite Ea. cbn [bind]. rewrite (Hp e R). cbn [bind].
    cbn [verts edges surfs volus meshDim]. unfold vert_acc at 1.
    pose proof (@modify_acc vert nat ve_index cv (fun k => add_to ve_edgeind ve_set_edgeind (Ek k)) ltac:(reflexivity) (verts m) (verts out) (seq 0 j) j (eq_sym I1)) as MV.
    rewrite I1 in MV. specialize (MV (proj1 (proj2 (proj2 (proj2 (proj1 W))))) (corner_vert Hj)). unfold Ek at 2 in MV.
    rewrite MV. cbn [bind]. destruct (next_ok Hj Hl Hp) as [l2 [X1 [X2 X3]]].
    destruct R as [R1 [R2 R3]]. rewrite R2.
    assert (EK : (if Z.of_nat j =? 0 then su_index s else ns + Z.of_nat j) = (if (j =? 0)%nat then su_index s else Sk j)) by (destruct (Z.eqb_spec (Z.of_nat j) 0), (Nat.eqb_spec j 0); try lia; reflexivity).
    assert (EK2 : (if Z.of_nat j =? Z.of_nat n - 1 then su_index s else ns + Z.of_nat j + 1) = (if (j + 1 =? n)%nat then su_index s else Sk (j + 1)))
      by (destruct (Z.eqb_spec (Z.of_nat j) (Z.of_nat n - 1)), (Nat.eqb_spec (j + 1) n); try lia; unfold Sk; lia).
    rewrite EK, EK2.
    destruct (Z.eqb_spec (Z.of_nat j) 0) as [J0|J0].
    + assert (j = 0%nat) by lia. subst j. cbn [Nat.eqb].
      rewrite <- (find_map_idx su_index (surfs m) (surfs out) (su_index s) I3). rewrite modify_find.
      2:{ rewrite I3. apply W. }
      2:{ rewrite I3. apply in_map. exact Hs. }
      cbn [bind fst snd]. rewrite X1. cbn [bind]. eexists. split; [reflexivity|]. split; [|split; [|split; [auto|exact X3]]].
      * f_equal. unfold on. apply map_ext. intros t. unfold cut. destruct (su_index t =? su_index s); [|reflexivity]. f_equal. unfold Ek. f_equal; [lia|]. f_equal. lia.
      * f_equal. rewrite <- app_assoc. reflexivity.
    + unfold edge_acc at 1.
      pose proof (@modify_acc edge nat ed_index ev (fun k x => ed_set_surfind (replace_all (su_index s) (Sk k) (ed_surfind x)) x) ltac:(reflexivity) (edges m) (edges out) (seq 1 (j - 1)) j (eq_sym I2)) as ME.
      rewrite I2 in ME. specialize (ME (proj1 (proj2 (proj2 (proj1 W)))) ltac:(rewrite <- R2; apply in_map; exact R1)). change (ns + Z.of_nat j) with (Sk j). rewrite ME. cbn [bind].
      assert (Hc : forall c, In c (su_voluind s) -> c <> 0 -> In c (map vo_index (volus out))).
      { intros c Hc C0. rewrite I4. destruct W as [_ [[_ [_ [_ [_ [M5 _]]]]] _]].
        assert (Q : SV m (su_index s) c) by (exists s; auto). apply M5 in Q; auto. destruct Q as [a [A1 [A2 _]]]. rewrite <- A2. apply in_map. exact A1. }
      unfold volu_acc at 1. rewrite add_cells_ok; [|auto|rewrite I4; apply W|exact Hc]. cbn [bind fst snd]. rewrite X1. cbn [bind].
      eexists. split; [reflexivity|]. split; [|split; [|split; [auto|exact X3]]].
      * destruct (Nat.eqb_spec j 0); [lia|]. destruct (Nat.eqb_spec (j + 1) 0); [lia|]. replace (j + 1 - 1)%nat with (j - 1 + 1)%nat by lia. rewrite (seq_end 1 (j - 1)).
        replace (1 + (j - 1))%nat with j by lia. rewrite (seq_end 0 j). f_equal.
        unfold volu_acc, cellpairs. rewrite flat_map_app. cbn [flat_map]. rewrite app_nil_r. reflexivity.
      * replace (j + 1 - 1)%nat with (j - 1 + 1)%nat by lia. rewrite (seq_end 1 (j - 1)). replace (1 + (j - 1))%nat with j by lia. rewrite (seq_end 0 j).
        rewrite !map_app, <- !app_assoc. cbn [map]. f_equal. repeat f_equal. unfold new_surf, Sk, Ek. do 3 f_equal. lia.
  - exists l'. rewrite E. cbn [loop_state] in E1, E2. rewrite E1, E2. destruct (Nat.eqb_spec n 0); [lia|]. reflexivity.
Qed.

(** ** The corners *)
Lemma vs_pv x : In x vs <-> exists k, (k < n)%nat /\ x = pv k.
Proof using All.
  pose proof len_vs as L. split.
  - intros H. destruct (In_nth vs x 0 H) as [k [K1 K2]]. exists k. rewrite L in K1. auto.
  - intros [k [K ->]]. apply nth_In. rewrite L. exact K.
Qed.
Lemma corners_ok : exists l, omap_list (at_ (edges m)) es = Ok l /\ length (tighten (flat_map ed_vertind l)) = n.
Proof using All.
  destruct (@omap_list_ok Z edge (at_ (edges m)) (fun p e => at_ (edges m) p = Ok e) es) as [l [E F]].
  - intros p Hp. unfold es, find_list in Hp. apply in_map_iff in Hp. destruct Hp as [x [<- Hx]]. destruct (In_nth _ _ 0 Hx) as [k [K1 K2]].
    destruct (rec_ex K1) as [e [_ Ea]]. exists e. unfold ev in Ea. rewrite K2 in Ea. auto.
  - exists l. split; auto. rewrite <- len_vs. apply Permutation_length. apply NoDup_Permutation; [apply tighten_NoDup|exact ND|].
    intros x. rewrite tighten_In, in_flat_map, vs_pv. split.
    + intros [e [He Hx]]. assert (Hp : exists p, In p es /\ at_ (edges m) p = Ok e).
      { clear - F He. induction F as [|p y ps ys A F IH]; [destruct He|]. destruct He as [<-|He]; [exists p; simpl; auto|]. destruct (IH He) as [q [Q1 Q2]]. exists q. simpl. auto. }
      destruct Hp as [p [Hp Ea]]. unfold es, find_list in Hp. apply in_map_iff in Hp. destruct Hp as [y [<- Hy]]. destruct (In_nth _ _ 0 Hy) as [k [K1 K2]].
      destruct (rec_ex K1) as [e' [[R1 [R2 R3]] Ea']]. unfold ev in Ea'. rewrite K2 in Ea'. assert (e' = e) by congruence. subst e'.
      destruct R3 as [R3|R3]; rewrite R3 in Hx; destruct Hx as [<-|[<-|[]]]; [exists k|exists (nxt k)|exists (nxt k)|exists k]; auto using nxt_lt.
    + intros [k [K ->]]. destruct (rec_ex K) as [e [R Ea]]. exists e. split; [|destruct R as [_ [_ [-> | ->]]]; simpl; auto].
      assert (Hp : In (find ed_index (edges m) (ev k)) es) by (unfold es, find_list; apply in_map; apply nth_In; exact K).
      clear - F Hp Ea. induction F as [|p y ps ys A F IH]; [destruct Hp|]. destruct Hp as [->|Hp]; [left; congruence|right; auto].
Qed.

(** ** The mesh before and after *)
Let c := concatenate out new.
Let n1 := (n - 1)%nat.
Definition hub : vert := mkVert V false (map (fun k => ne + 1 + k) (upto n 0)).
Definition after : mesh := concatenate
  (mkMesh (map (volu_acc (seq 1 n1)) (volus out)) (map cut (surfs out)) (map (edge_acc (seq 1 n1)) (edges out)) (map (vert_acc (seq 0 n)) (verts out)) (meshDim out))
  (mkMesh (volus new) (surfs new ++ map new_surf (seq 1 n1)) (edges new ++ map new_edge (seq 0 n)) (verts new ++ [hub]) (meshDim new)).
Hypotheses (Wc : well_connected c) (So : In s (surfs out)) (Vn : volus new = [])
  (Evs : map (fun e => (ed_index e, ed_vertind e)) (edges out) = map (fun e => (ed_index e, ed_vertind e)) (edges m))
  (Be : 0 <= ne) (Bs : 0 <= ns) (Bv : 0 < V)
  (Le : forall i, has_edge c i -> i <= ne) (Ls : forall i, has_surf c i -> i <= ns) (Lv : forall i, has_vert c i -> i < V)
  (Nv : forall a, In a (verts new) -> ~ In (ve_index a) (map ve_index (verts m)))
  (Ne : forall a, In a (edges new) -> ~ In (ed_index a) (map ed_index (edges m)))
  (Ns : forall a, In a (surfs new) -> ~ In (su_index a) (map su_index (surfs m))).
Lemma in_seq1 k : In k (seq 1 n1) <-> (1 <= k < n)%nat.
Proof using All. rewrite in_seq. subst n1. lia. Qed.
Lemma in_seq0 k : In k (seq 0 n) <-> (k < n)%nat.
Proof using All. rewrite in_seq. lia. Qed.
Lemma hub_edges e : In e (ve_edgeind hub) <-> exists k, (k < n)%nat /\ e = Ek k.
Proof using All.
  unfold hub. cbn [ve_edgeind]. rewrite in_map_iff. split.
  - intros [k [<- K]]. apply upto_In in K. exists (Z.to_nat k). unfold Ek. split; lia.
  - intros [k [K ->]]. exists (Z.of_nat k). split; [reflexivity|]. apply upto_In. lia.
Qed.
Lemma after_VE v e : VE after v e <-> VE c v e \/ (exists k, (k < n)%nat /\ v = cv k /\ e = Ek k) \/ (v = V /\ exists k, (k < n)%nat /\ e = Ek k).
Proof using All.
  unfold VE, after, c, concatenate. cbn [verts]. rewrite !lists_app, lists_map by (apply acc_idx; reflexivity). split.
  - intros [[a [A1 [A2 A3]]]|[H|[a [[<-|[]] [A2 A3]]]]].
    + apply (push_In ve_index cv ve_edgeind ve_set_edgeind Ek (seq 0 n)) in A3; [|reflexivity|reflexivity]. destruct A3 as [A3|[k [K1 [K2 ->]]]]; [left; left; exists a; auto|].
      right; left. exists k. rewrite <- in_seq0. split; auto. split; congruence.
    + auto.
    + right; right. split; auto. apply hub_edges. auto.
  - intros [[[a [A1 [A2 A3]]]|H]|[[k [K1 [K2 ->]]]|[-> H]]].
    + left. exists a. split; auto. split; auto. apply (push_In ve_index cv ve_edgeind ve_set_edgeind Ek (seq 0 n)); auto.
    + auto.
    + left. pose proof (corner_vert K1) as Hc. rewrite <- I1 in Hc. apply in_map_idx in Hc. destruct Hc as [a [A1 A2]]. exists a. split; auto. split; [congruence|].
      apply (push_In ve_index cv ve_edgeind ve_set_edgeind Ek (seq 0 n)); auto. right. exists k. rewrite in_seq0. auto.
    + right; right. exists hub. split; [simpl; auto|]. split; auto. apply hub_edges. auto.
Qed.
Lemma edge_acc_ends ks a : ed_vertind (edge_acc ks a) = ed_vertind a.
Proof using All. unfold edge_acc, acc. revert a. induction ks as [|k ks IH]; intros a; [reflexivity|]. cbn [fold_left]. rewrite IH. destruct (ev k =? ed_index a); reflexivity. Qed.
Lemma edge_acc_idx ks a : ed_index (edge_acc ks a) = ed_index a.
Proof using All. apply acc_idx. reflexivity. Qed.
Lemma after_EV e v : EV after e v <-> EV c e v \/ exists k, (k < n)%nat /\ e = Ek k /\ (v = V \/ v = cv k).
Proof using All.
  unfold EV, after, c, concatenate. cbn [edges]. rewrite !lists_app, lists_map by (apply edge_acc_idx). split.
  - intros [[a [A1 [A2 A3]]]|[H|[a [A1 [A2 A3]]]]].
    + rewrite edge_acc_ends in A3. left; left; exists a; auto.
    + auto.
    + apply in_map_iff in A1. destruct A1 as [k [<- K]]. rewrite in_seq0 in K. right. exists k. split; auto. split; [auto|]. destruct A3 as [<-|[<-|[]]]; auto.
  - intros [[[a [A1 [A2 A3]]]|H]|[k [K1 [-> K2]]]].
    + left. exists a. rewrite edge_acc_ends. auto.
    + auto.
    + right; right. exists (new_edge k). split; [apply in_map; apply in_seq0; auto|]. split; [reflexivity|]. simpl. destruct K2 as [-> | ->]; auto.
Qed.
Lemma edge_acc_surfs a : (forall k, (1 <= k < n)%nat -> ev k = ed_index a -> ed_surfind (edge_acc (seq 1 n1) a) = replace_all (su_index s) (Sk k) (ed_surfind a)) /\
  ((forall k, (1 <= k < n)%nat -> ev k <> ed_index a) -> edge_acc (seq 1 n1) a = a).
Proof using All.
  split.
  - intros k K E. unfold edge_acc. rewrite (@acc_one _ _ ed_index ev (fun k x => ed_set_surfind (replace_all (su_index s) (Sk k) (ed_surfind x)) x) ltac:(reflexivity) (seq 1 n1) k a); auto.
    + apply NoDup_nth_error. intros i j Hi E2. rewrite map_length, seq_length in Hi. rewrite !nth_error_map in E2.
      rewrite (nth_error_nth' (seq 1 n1) 0%nat) in E2 by (rewrite seq_length; auto). rewrite seq_nth in E2 by auto. simpl in E2.
      destruct (nth_error (seq 1 n1) j) as [y|] eqn:Ey; [|discriminate E2]. simpl in E2. assert (Hy : In y (seq 1 n1)) by (eapply nth_error_In; eauto).
      assert (Hj : (j < n1)%nat) by (rewrite <- (seq_length n1 1); apply nth_error_Some; congruence).
      rewrite (nth_error_nth' (seq 1 n1) 0%nat), seq_nth in Ey by (rewrite ?seq_length; auto). injection Ey as <-.
      injection E2 as E2. apply ev_inj in E2; subst n1; lia.
    + apply in_seq1; auto.
  - intros H. apply acc_none. intros k K. apply H. apply in_seq1. auto.
Qed.
Lemma side_dec i : (exists k, (1 <= k < n)%nat /\ i = ev k) \/ (forall k, (1 <= k < n)%nat -> ev k <> i).
Proof using All.
  destruct (in_dec Z.eq_dec i (map ev (seq 1 n1))) as [H|H].
  - apply in_map_iff in H. destruct H as [k [<- K]]. apply in_seq1 in K. left. exists k. auto.
  - right. intros k K <-. apply H. apply in_map. apply in_seq1. auto.
Qed.
Lemma after_ES e i : ES after e i <-> (ES c e i /\ (i <> su_index s \/ forall k, (1 <= k < n)%nat -> ev k <> e)) \/ (exists k, (1 <= k < n)%nat /\ e = ev k /\ i = Sk k /\ ES c e (su_index s)) \/
  (exists k, (k < n)%nat /\ e = Ek k /\ (i = (if (k =? 0)%nat then su_index s else Sk k) \/ i = (if (k + 1 =? n)%nat then su_index s else Sk (k + 1)))).
Proof using All.
  assert (Hn : forall a, In a (edges new) -> forall k, (1 <= k < n)%nat -> ev k <> ed_index a).
  { intros a Ha k K E. apply (Ne _ Ha). rewrite <- E. assert (K' : (k < n)%nat) by lia. destruct (rec_ex K') as [x [[X1 [X2 _]] _]]. rewrite <- X2. apply in_map. auto. }
  unfold ES, after, c, concatenate. cbn [edges]. rewrite !lists_app, lists_map by (apply edge_acc_idx). split.
  - intros [[a [A1 [A2 A3]]]|[[a [A1 [A2 A3]]]|[a [A1 [A2 A3]]]]].
    + destruct (side_dec e) as [[k [K1 K2]]|K].
      * rewrite (proj1 (edge_acc_surfs a) k K1) in A3 by congruence. apply replace_all_In in A3. destruct A3 as [[A3 A4]|[-> A3]].
        -- left. split; [left; exists a; auto|auto].
        -- right; left. exists k. split; auto. split; auto. split; auto. exists a. rewrite in_app_iff. auto.
      * rewrite (proj2 (edge_acc_surfs a)) in A3 by (intros; rewrite A2; auto). left. split; [left; exists a; auto|auto].
    + left. split; [right; exists a; auto|]. right. rewrite <- A2. apply Hn. auto.
    + apply in_map_iff in A1. destruct A1 as [k [<- K]]. rewrite in_seq0 in K. right; right. exists k. split; auto. split; auto. destruct A3 as [<-|[<-|[]]]; auto.
  - intros [[[[a [A1 [A2 A3]]]|H] D]|[[k [K1 [K2 [-> [a [A1 [A2 A3]]]]]]]|[k [K1 [-> K2]]]]].
    + left. exists a. split; auto. split; auto. destruct (side_dec e) as [[k [K1 K2]]|K].
      * rewrite (proj1 (edge_acc_surfs a) k K1) by congruence. apply replace_all_In. left. split; auto. destruct D as [D|D]; auto. exfalso. apply (D k K1). auto.
      * rewrite (proj2 (edge_acc_surfs a)) by (intros; rewrite A2; auto). auto.
    + auto.
    + apply in_app_iff in A1. destruct A1 as [A1|A1]; [|exfalso; apply (Hn a A1 k K1); congruence].
      left. exists a. split; auto. split; auto. rewrite (proj1 (edge_acc_surfs a) k K1) by congruence. apply replace_all_In. right. auto.
    + right; right. exists (new_edge k). split; [apply in_map; apply in_seq0; auto|]. split; auto. simpl. destruct K2 as [-> | ->]; auto.
Qed.
Lemma cut_idx t : su_index (cut t) = su_index t.
Proof using All. unfold cut. destruct (su_index t =? su_index s); reflexivity. Qed.
Lemma so_same t : In t (surfs out) -> su_index t = su_index s -> t = s.
Proof using All. intros H E. apply (NoDup_idx_inj su_index (surfs out)); auto. rewrite I3. apply W. Qed.
Definition tris : list surf := cut s :: map new_surf (seq 1 n1).
Lemma after_surfs t : In t (surfs after) <-> (In t (surfs c) /\ su_index t <> su_index s) \/ In t tris.
Proof using All.
  unfold after, c, concatenate. cbn [surfs]. rewrite !in_app_iff, in_map_iff. unfold tris. cbn [In]. split.
  - intros [[a [<- A]]|[H|H]].
    + destruct (Z.eq_dec (su_index a) (su_index s)) as [E|E].
      * right; left. rewrite (so_same _ A E). reflexivity.
      * left. rewrite cut_idx. split; auto. left. unfold cut. destruct (Z.eqb_spec (su_index a) (su_index s)); [contradiction|exact A].
    + left. split; auto. intros E. apply (Ns _ H). rewrite E. apply in_map. exact Hs.
    + auto.
  - intros [[[H|H] E]|[<-|H]]; [|auto| |auto].
    + left. exists t. split; auto. unfold cut. destruct (Z.eqb_spec (su_index t) (su_index s)); [contradiction|reflexivity].
    + left. exists s. auto.
Qed.
Lemma cut_s : cut s = su_set_edgeind [Ek 0; Ek (n - 1); ev 0] s.
Proof using All. unfold cut. rewrite Z.eqb_refl. reflexivity. Qed.
Lemma tris_in t : In t tris <-> t = su_set_edgeind [Ek 0; Ek (n - 1); ev 0] s \/ exists k, (1 <= k < n)%nat /\ t = new_surf k.
Proof using All.
  unfold tris. rewrite cut_s. cbn [In]. rewrite in_map_iff. split.
  - intros [<-|[k [<- K]]]; [auto|right; exists k; split; auto; apply in_seq1; auto].
  - intros [->|[k [K ->]]]; [auto|right; exists k; split; auto; apply in_seq1; auto].
Qed.
Lemma Ek_pred k : (1 <= k)%nat -> ne + Z.of_nat k = Ek (k - 1).
Proof using All. intros H. unfold Ek. lia. Qed.
Lemma after_SE i e : SE after i e <-> (SE c i e /\ i <> su_index s) \/ (i = su_index s /\ (e = Ek 0 \/ e = Ek (n - 1) \/ e = ev 0)) \/
  exists k, (1 <= k < n)%nat /\ i = Sk k /\ (e = Ek (k - 1) \/ e = Ek k \/ e = ev k).
Proof using All.
  unfold SE, lists. split.
  - intros [a [A1 [A2 A3]]]. apply after_surfs in A1. destruct A1 as [[A1 A4]|A1]; [left; split; [exists a; auto|congruence]|].
    apply tris_in in A1. destruct A1 as [->|[k [K ->]]].
    + right; left. split; [auto|]. destruct A3 as [<-|[<-|[<-|[]]]]; auto.
    + right; right. exists k. split; auto. split; auto. cbn [new_surf su_edgeind] in A3. rewrite Ek_pred in A3 by lia. destruct A3 as [<-|[<-|[<-|[]]]]; auto.
  - intros [[[a [A1 [A2 A3]]] D]|[[-> D]|[k [K [-> D]]]]].
    + exists a. split; [apply after_surfs; left; split; auto; congruence|auto].
    + eexists. split; [apply after_surfs; right; apply tris_in; left; reflexivity|]. split; [reflexivity|]. simpl. destruct D as [->|[->| ->]]; auto.
    + exists (new_surf k). split; [apply after_surfs; right; apply tris_in; right; exists k; auto|]. split; auto. cbn [new_surf su_edgeind]. rewrite Ek_pred by lia. destruct D as [->|[->| ->]]; simpl; auto.
Qed.
Lemma after_SV i v : SV after i v <-> SV c i v \/ exists k, (1 <= k < n)%nat /\ i = Sk k /\ In v (su_voluind s).
Proof using All.
  unfold SV, lists. split.
  - intros [a [A1 [A2 A3]]]. apply after_surfs in A1. destruct A1 as [[A1 A4]|A1]; [left; exists a; auto|].
    apply tris_in in A1. destruct A1 as [->|[k [K ->]]].
    + left. exists s. split; [unfold c, concatenate; cbn [surfs]; apply in_app_iff; auto|auto].
    + right. exists k. auto.
  - intros [[a [A1 [A2 A3]]]|[k [K [-> D]]]].
    + destruct (Z.eq_dec (su_index a) (su_index s)) as [E|E].
      * assert (a = s). { apply (NoDup_idx_inj su_index (surfs c)); auto; [apply Wc|unfold c, concatenate; cbn [surfs]; apply in_app_iff; auto]. }
        subst a. eexists. split; [apply after_surfs; right; apply tris_in; left; reflexivity|]. auto.
      * exists a. split; [apply after_surfs; left; auto|auto].
    + exists (new_surf k). split; [apply after_surfs; right; apply tris_in; right; exists k; auto|]. auto.
Qed.
Lemma cells_In v : In v cells_of <-> In v (su_voluind s) /\ v <> 0.
Proof using All. unfold cells_of. rewrite filter_In. destruct (Z.eqb_spec v 0); cbn [negb]; intuition congruence. Qed.
Lemma after_VS v i : VS after v i <-> VS c v i \/ exists k, (1 <= k < n)%nat /\ i = Sk k /\ In v (su_voluind s) /\ v <> 0.
Proof using All.
  unfold VS, after, c, concatenate. cbn [volus]. rewrite !lists_app, lists_map by (apply acc_idx; reflexivity). rewrite Vn.
  assert (Z0 : forall v i, ~ lists vo_index vo_surfind [] v i) by (intros ? ? [? [[] _]]). split.
  - intros [[a [A1 [A2 A3]]]|H]; [|destruct (Z0 _ _ H)].
    apply (push_In vo_index (@fst Z Z) vo_surfind vo_set_surfind (@snd Z Z)) in A3; [|reflexivity|reflexivity]. destruct A3 as [A3|[[q j] [K1 [K2 K3]]]]; [left; left; exists a; auto|].
    cbn [fst snd] in K2, K3. subst q j. unfold cellpairs in K1. apply in_flat_map in K1. destruct K1 as [k [K1 K4]]. apply in_map_iff in K4. destruct K4 as [q [E Q]]. injection E as E1 E2.
    right. exists k. split; [apply in_seq1; auto|]. split; [auto|]. apply cells_In. rewrite <- A2, <- E1. exact Q.
  - intros [[[a [A1 [A2 A3]]]|H]|[k [K1 [-> K2]]]]; [| destruct (Z0 _ _ H)|].
    + left. exists a. split; auto. split; auto. apply (push_In vo_index (@fst Z Z) vo_surfind vo_set_surfind (@snd Z Z)); auto.
    + left. assert (Q : SV m (su_index s) v) by (exists s; tauto). destruct W as [_ [[_ [_ [_ [_ [M5 _]]]]] _]]. apply M5 in Q; [|tauto]. destruct Q as [b [B1 [B2 _]]].
      assert (Hb : In v (map vo_index (volus out))) by (rewrite I4, <- B2; apply in_map; auto). apply in_map_idx in Hb. destruct Hb as [a [A1 A2]].
      exists a. split; auto. split; auto. apply (push_In vo_index (@fst Z Z) vo_surfind vo_set_surfind (@snd Z Z)); auto. right. exists (v, Sk k). cbn [fst snd]. split; [|auto].
      unfold cellpairs. apply in_flat_map. exists k. rewrite in_seq1. split; auto. apply in_map_iff. exists v. rewrite cells_In. auto.
Qed.

(** ** Consistency of the result *)
Lemma has_s : has_surf c (su_index s).
Proof using All. exists s. split; auto. unfold c, concatenate. cbn [surfs]. apply in_app_iff. auto. Qed.
Lemma s_pos : su_index s <> 0.
Proof using All. intros E. destruct Wc as [[_ [_ [_ [_ [_ [Z0 _]]]]]] _]. apply Z0. rewrite <- E. apply has_s. Qed.
Lemma has_ev k : (k < n)%nat -> has_edge c (ev k).
Proof using All.
  intros K. destruct (rec_ex K) as [x [[X1 [X2 _]] _]]. assert (H : In (ev k) (map ed_index (edges out))) by (rewrite I2, <- X2; apply in_map; auto).
  apply in_map_idx in H. destruct H as [a [A1 A2]]. exists a. split; auto. unfold c, concatenate. cbn [edges]. apply in_app_iff. auto.
Qed.
Lemma has_cv k : (k < n)%nat -> has_vert c (cv k).
Proof using All.
  intros K. pose proof (corner_vert K) as H. rewrite <- I1 in H.
  apply in_map_idx in H. destruct H as [a [A1 A2]]. exists a. split; auto. unfold c, concatenate. cbn [verts]. apply in_app_iff. auto.
Qed.
Lemma has_pv k : (k < n)%nat -> has_vert c (pv k).
Proof using All.
  intros K. destruct k as [|k].
  - replace (pv 0) with (cv (n - 1)); [apply has_cv; lia|]. unfold cv, nxt. destruct (Nat.eqb_spec (n - 1 + 1) n); [reflexivity|lia].
  - replace (pv (S k)) with (cv k); [apply has_cv; lia|]. unfold cv, nxt. destruct (Nat.eqb_spec (k + 1) n); [lia|]. rewrite Nat.add_1_r. reflexivity.
Qed.
Lemma SE_s e : SE c (su_index s) e <-> exists k, (k < n)%nat /\ e = ev k.
Proof using All.
  split.
  - intros [a [A1 [A2 A3]]]. assert (a = s). { apply (NoDup_idx_inj su_index (surfs c)); auto; [apply Wc|unfold c, concatenate; cbn [surfs]; apply in_app_iff; auto]. }
    subst a. destruct (In_nth _ _ 0 A3) as [k [K1 K2]]. exists k. auto.
  - intros [k [K ->]]. exists s. split; [unfold c, concatenate; cbn [surfs]; apply in_app_iff; auto|]. split; auto. apply nth_In. exact K.
Qed.
Lemma Ek_inj j k : Ek j = Ek k -> j = k. Proof using All. unfold Ek. lia. Qed.
Lemma Sk_inj j k : Sk j = Sk k -> j = k. Proof using All. unfold Sk. lia. Qed.
Lemma after_edges_idx : map ed_index (edges after) = map ed_index (edges c) ++ map Ek (seq 0 n).
Proof using All.
  unfold after, c, concatenate. cbn [edges]. rewrite !map_app, !map_map. rewrite (map_ext _ _ (edge_acc_idx (seq 1 n1))). rewrite <- app_assoc. reflexivity.
Qed.
Lemma after_surfs_idx : map su_index (surfs after) = map su_index (surfs c) ++ map Sk (seq 1 n1).
Proof using All.
  unfold after, c, concatenate. cbn [surfs]. rewrite !map_app, !map_map. rewrite (map_ext _ _ cut_idx). rewrite <- app_assoc. reflexivity.
Qed.
Lemma after_verts_idx : map ve_index (verts after) = map ve_index (verts c) ++ [V].
Proof using All.
  unfold after, c, concatenate. cbn [verts]. rewrite !map_app, !map_map. rewrite (map_ext (fun x => ve_index (vert_acc (seq 0 n) x)) ve_index) by (intros; apply acc_idx; reflexivity).
  rewrite <- app_assoc. reflexivity.
Qed.
Lemma after_volus_idx : map vo_index (volus after) = map vo_index (volus c).
Proof using All.
  unfold after, c, concatenate. cbn [volus]. rewrite !map_app, !map_map. rewrite (map_ext (fun x => vo_index (volu_acc (seq 1 n1) x)) vo_index) by (intros; apply acc_idx; reflexivity). reflexivity.
Qed.
Lemma after_unique : unique_indices after.
Proof using All.
  destruct Wc as [[U1 [U2 [U3 [U4 [U5 [U6 [U7 U8]]]]]]] _]. unfold unique_indices, has_volu, has_surf, has_edge, has_vert in *. rewrite !has_idx in *.
  rewrite after_volus_idx, after_surfs_idx, after_edges_idx, after_verts_idx. split; [auto|]. split; [|split; [|split; [|split; [auto|split; [|split]]]]].
  - apply NoDup_fresh with (b := ns); auto using Sk_inj, seq_NoDup; [intros x X; apply Ls; apply has_idx; auto|]. intros k K. apply in_seq1 in K. unfold Sk. lia.
  - apply NoDup_fresh with (b := ne); auto using Ek_inj, seq_NoDup; [intros x X; apply Le; apply has_idx; auto|]. intros k K. unfold Ek. lia.
  - apply NoDup_app2; auto; [repeat constructor; simpl; tauto|]. intros x X [<-|[]]. apply has_idx in X. apply Lv in X. lia.
  - rewrite in_app_iff. intros [H|H]; [auto|]. apply in_map_iff in H. destruct H as [k [E K]]. apply in_seq1 in K. unfold Sk in E. lia.
  - rewrite in_app_iff. intros [H|H]; [auto|]. apply in_map_iff in H. destruct H as [k [E K]]. unfold Ek in E. lia.
  - rewrite in_app_iff. intros [H|[E|[]]]; [auto|]. lia.
Qed.
Lemma ES_ev k : (k < n)%nat -> ES c (ev k) (su_index s).
Proof using All.
  intros K. destruct Wc as [U [[_ [_ [_ [M4 _]]]] _]]. apply M4; [apply SE_s; exists k; auto|]. intros E. pose proof (has_ev K) as H. rewrite E in H. apply U in H. exact H.
Qed.
Lemma after_well : well_connected after.
Proof using All.
  split; [apply after_unique|]. pose proof s_pos as Sp. destruct Wc as [U [[M1 [M2 [M3 [M4 [M5 M6]]]]] [X1 [X2 [X3 [X4 X5]]]]]]. split.
  - split; [|split; [|split; [|split; [|split]]]].
    + intros v e. rewrite after_VE, after_EV. intros [H|[[k [K1 [-> ->]]]|[-> [k [K1 ->]]]]] E; [auto| |]; right; exists k; auto.
    + intros v e. rewrite after_VE, after_EV. intros [H|[k [K1 [-> [-> | ->]]]]] E; [auto|right; right; split; auto; exists k; auto|right; left; exists k; auto].
    + intros e i. rewrite after_ES, after_SE. intros [[H D]|[[k [K1 [-> [-> H]]]]|[k [K1 [-> D]]]]] E.
      * apply M3 in H; auto. destruct (Z.eq_dec i (su_index s)) as [->|Q]; [|auto]. right; left. split; auto. right; right.
        apply SE_s in H. destruct H as [k [K ->]]. destruct k as [|k]; [auto|]. destruct D as [D|D]; [contradiction|]. exfalso. apply (D (S k)); [lia|auto].
      * right; right. exists k. auto.
      * destruct D as [D|D].
        -- destruct (Nat.eqb_spec k 0) as [->|Q]; [right; left; auto|]. right; right. exists k. split; [lia|auto].
        -- destruct (Nat.eqb_spec (k + 1) n) as [Q|Q]; [right; left; split; auto; right; left; f_equal; lia|]. right; right. exists (k + 1)%nat. split; [lia|]. split; auto. left. f_equal. lia.
    + intros e i. rewrite after_ES, after_SE. intros [[H D]|[[-> D]|[k [K [-> D]]]]] E.
      * left. auto.
      * destruct D as [->|[->| ->]].
        -- right; right. exists 0%nat. split; [lia|]. split; auto.
        -- right; right. exists (n - 1)%nat. split; [lia|]. split; auto. right. destruct (Nat.eqb_spec (n - 1 + 1) n); [auto|lia].
        -- left. split; [apply ES_ev; lia|]. right. intros k K Q. apply ev_inj in Q; lia.
      * destruct D as [->|[->| ->]].
        -- right; right. exists (k - 1)%nat. split; [lia|]. split; auto. right. destruct (Nat.eqb_spec (k - 1 + 1) n); [lia|]. f_equal. lia.
        -- right; right. exists k. split; [lia|]. split; auto. left. destruct (Nat.eqb_spec k 0); [lia|auto].
        -- right; left. exists k. split; auto. split; auto. split; auto. apply ES_ev. lia.
    + intros i v. rewrite after_SV, after_VS. intros [H|[k [K [-> H]]]] E; [auto|right; exists k; auto].
    + intros i v. rewrite after_SV, after_VS. intros [H|[k [K [-> [H Q]]]]] E; [auto|right; exists k; auto].
  - assert (Ep : forall k, Ek k <> 0) by (intros k; unfold Ek; lia). assert (Sp' : forall k, (1 <= k)%nat -> Sk k <> 0) by (intros k K; unfold Sk; lia).
    split; [|split; [|split; [|split]]].
    + intros v. rewrite after_VE. intros [H|[[k [K1 [_ E]]]|[_ [k [K1 E]]]]]; [eapply X1; eauto|symmetry in E; exact (Ep k E)|symmetry in E; exact (Ep k E)].
    + intros e. rewrite after_EV. intros [H|[k [K1 [_ [E|E]]]]]; [eapply X2; eauto|lia|]. pose proof (has_cv K1) as Q. rewrite <- E in Q. apply U in Q. exact Q.
    + intros i. rewrite after_SE. assert (Vp : forall k, (k < n)%nat -> ev k <> 0) by (intros k K Q; pose proof (has_ev K) as R; rewrite Q in R; apply U in R; exact R).
      intros [[H _]|[[_ [E|[E|E]]]|[k [K [_ [E|[E|E]]]]]]]; symmetry in E || idtac; try (eapply Ep; exact E); [eapply X3; exact H|eapply Vp; [|exact E]; lia|eapply Vp; [|exact E]; lia].
    + intros v. rewrite after_VS. intros [H|[k [K [E _]]]]; [eapply X4; eauto|]. symmetry in E. revert E. apply Sp'. lia.
    + intros Q e. rewrite after_ES. assert (Q' : volus c <> []).
      { intros Z0. apply Q. apply (map_eq_nil vo_index). rewrite after_volus_idx, Z0. reflexivity. }
      intros [[H _]|[[k [K [_ [E _]]]]|[k [K [_ [E|E]]]]]].
      * exact (X5 Q' _ H).
      * symmetry in E. revert E. apply Sp'. lia.
      * destruct (Nat.eqb_spec k 0); [auto|]. symmetry in E. revert E. apply Sp'. lia.
      * destruct (Nat.eqb_spec (k + 1) n); [auto|]. symmetry in E. revert E. apply Sp'. lia.
Qed.
Lemma joins_kept e a b : edge_joins c e a b -> edge_joins after e a b.
Proof using All.
  assert (G : forall a b, edge_is c e a b -> edge_is after e a b).
  { intros a' b' [x [H1 [H2 H3]]]. unfold c, concatenate in H1. cbn [edges] in H1. apply in_app_iff in H1. destruct H1 as [H1|H1].
    - exists (edge_acc (seq 1 n1) x). split; [unfold after, concatenate; cbn [edges]; apply in_app_iff; left; apply in_map; auto|]. rewrite edge_acc_idx, edge_acc_ends. auto.
    - exists x. split; auto. unfold after, concatenate; cbn [edges]. rewrite !in_app_iff. auto. }
  intros [H|H]; [left|right]; auto.
Qed.
Lemma joins_m e a b : edge_joins m e a b -> edge_joins c e a b.
Proof using All.
  assert (G : forall a b, edge_is m e a b -> edge_is c e a b).
  { intros a' b' [x [H1 [H2 H3]]]. assert (Q : In (e, [a'; b']) (map (fun e => (ed_index e, ed_vertind e)) (edges out))) by (rewrite Evs; apply in_map_iff; exists x; split; [congruence|auto]).
    apply in_map_iff in Q. destruct Q as [y [Y1 Y2]]. injection Y1 as Y3 Y4. exists y. split; [unfold c, concatenate; cbn [edges]; apply in_app_iff; auto|auto]. }
  intros [H|H]; [left|right]; auto.
Qed.
Lemma spoke k : (k < n)%nat -> edge_joins after (Ek k) V (cv k).
Proof using All.
  intros K. left. exists (new_edge k). split; [|auto]. unfold after, concatenate. cbn [edges]. rewrite !in_app_iff. right; right. apply in_map. apply in_seq0. auto.
Qed.
Lemma side_joins k : (k < n)%nat -> edge_joins after (ev k) (pv k) (cv k).
Proof using All. intros K. apply joins_kept, joins_m. destruct P as [_ J]. eapply J; eauto using ev_nth, pv_nth, cv_nth. Qed.
Lemma V_other x : has_vert c x -> x <> V.
Proof using All. intros H E. apply Lv in H. lia. Qed.
Lemma cv_last : cv (n - 1) = pv 0.
Proof using All. unfold cv, nxt. destruct (Nat.eqb_spec (n - 1 + 1) n); [reflexivity|lia]. Qed.
Lemma cv_pred k : (1 <= k < n)%nat -> cv (k - 1) = pv k.
Proof using All. intros K. unfold cv, nxt. destruct (Nat.eqb_spec (k - 1 + 1) n); [lia|]. f_equal. lia. Qed.
Lemma after_polygonal : polygonal c -> polygonal after.
Proof using All.
  intros Pc t Ht. apply after_surfs in Ht. destruct Ht as [[Ht _]|Ht].
  - destruct (Pc t Ht) as [Q1 [l [Q2 [Q3 Q4]]]]. split; auto. exists l. split; auto. split; auto. intros. apply joins_kept. eapply Q4; eauto.
  - apply tris_in in Ht. destruct Ht as [->|[k [K ->]]]; cbn [su_edgeind su_set_edgeind new_surf].
    + apply tri_polygon with (x := cv 0) (y := V) (z := cv (n - 1)).
      * apply joins_sym, spoke; lia.
      * apply spoke; lia.
      * rewrite cv_last. apply side_joins; lia.
      * apply V_other, has_cv; lia.
      * apply not_eq_sym, V_other, has_cv; lia.
      * intros E. apply cv_inj in E; lia.
    + rewrite Ek_pred by lia. apply tri_polygon with (x := cv (k - 1)) (y := V) (z := cv k).
      * apply joins_sym, spoke; lia.
      * apply spoke; lia.
      * rewrite cv_pred by lia. apply joins_sym, side_joins; lia.
      * apply V_other, has_cv; lia.
      * apply not_eq_sym, V_other, has_cv; lia.
      * intros E. apply cv_inj in E; lia.
Qed.
Hypotheses (Lem : forall i, has_edge m i -> i <= ne) (Lsm : forall i, has_surf m i -> i <= ns) (Lvm : forall i, has_vert m i -> i < V).
Lemma after_fan : fan_of m after s vs V tris.
Proof using All.
  split; [intros H; apply Lvm in H; lia|]. split; [apply has_idx; rewrite after_verts_idx, in_app_iff; simpl; auto|]. split; [unfold tris; cbn [length]; rewrite map_length, seq_length; subst n1; lia|].
  assert (Ef : forall k, ~ has_edge m (Ek k)) by (intros k H; apply Lem in H; unfold Ek in H; lia).
  intros k t E. assert (Ht : In t tris) by (eapply nth_error_In; eauto). split; [apply after_surfs; auto|].
  destruct k as [|k].
  - injection E as <-. rewrite cut_s. split; [reflexivity|]. split; [reflexivity|]. exists (Ek 0), (Ek (n - 1)), (ev 0), (pv 0), (cv 0).
    assert (K : (0 < n)%nat) by lia. split; [reflexivity|]. split; [apply ev_nth; auto|]. split; [apply pv_nth; auto|]. split; [apply cv_nth; auto|]. split; [auto|]. split; [auto|].
    right. split; [apply spoke; auto|]. rewrite <- cv_last. apply spoke. lia.
  - unfold tris in E. cbn [nth_error] in E. rewrite nth_error_map in E. destruct (nth_error (seq 1 n1) k) as [j|] eqn:Ej; [|discriminate E]. injection E as <-.
    assert (Hj : (k < n1)%nat) by (rewrite <- (seq_length n1 1); apply nth_error_Some; congruence).
    rewrite (nth_error_nth' (seq 1 n1) 0%nat), seq_nth in Ej by (rewrite ?seq_length; auto). injection Ej as <-.
    assert (K : (1 <= S k < n)%nat) by (unfold n1 in Hj; lia). change (1 + k)%nat with (S k). split; [reflexivity|]. split; [cbn [Nat.eqb]; intros H; apply Lsm in H; cbn [new_surf su_index] in H; unfold Sk in H; lia|].
    exists (Ek (S k - 1)), (Ek (S k)), (ev (S k)), (pv (S k)), (cv (S k)).
    assert (K' : (S k < n)%nat) by lia. split; [cbn [new_surf su_edgeind]; rewrite Ek_pred by lia; reflexivity|]. split; [apply ev_nth; auto|]. split; [apply pv_nth; auto|]. split; [apply cv_nth; auto|]. split; [auto|]. split; [auto|].
    left. split; [|apply spoke; auto]. rewrite <- (cv_pred K). apply spoke. lia.
Qed.
Lemma after_ends : exists l, map (fun e => (ed_index e, ed_vertind e)) (edges after) = map (fun e => (ed_index e, ed_vertind e)) (edges m) ++ l.
Proof using All.
  unfold after, concatenate. cbn [edges]. rewrite map_app. eexists. f_equal. rewrite map_map, <- Evs. apply map_ext. intros a. rewrite edge_acc_idx, edge_acc_ends. reflexivity.
Qed.
Lemma after_all :
  well_connected after /\ (polygonal c -> polygonal after) /\ fan_of m after s vs V tris /\
  (forall t, In t (surfs after) <-> (In t (surfs c) /\ su_index t <> su_index s) \/ In t tris) /\
  (exists l, map (fun e => (ed_index e, ed_vertind e)) (edges after) = map (fun e => (ed_index e, ed_vertind e)) (edges m) ++ l) /\
  (forall e, has_edge after e -> has_edge c e \/ exists x, In x vs /\ edge_joins after e V x) /\
  map ve_index (verts after) = map ve_index (verts c) ++ [V] /\
  (forall e a b, edge_joins c e a b -> edge_joins after e a b).
Proof using All.
  split; [apply after_well|]. split; [apply after_polygonal|]. split; [apply after_fan|]. split; [apply after_surfs|]. split; [apply after_ends|]. split; [|split; [apply after_verts_idx|apply joins_kept]].
  intros e H. unfold has_edge in *. rewrite has_idx, after_edges_idx, in_app_iff in H. destruct H as [H|H]; [left; apply has_idx; auto|]. apply in_map_iff in H. destruct H as [k [<- K]]. apply in_seq0 in K.
  right. exists (cv k). split; [apply vs_pv; exists (nxt k); auto using nxt_lt|apply spoke; auto].
Qed.
End Split.
