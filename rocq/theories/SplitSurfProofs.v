(** Ordering and splitting surfaces: the mesh after one step. *)
From Verif Require Import Base Containers ContainersProofs Mesh SpecMesh MeshProofs SwitchProofs FloodProofs
  Order SpecOrder OrderProofs OrderMeshProofs SplitSurf SpecSplitSurf.
From Verif Require MergeProofs MeshTriProofs SpawnProofs.
Import Mesh.
Set Implicit Arguments.
Open Scope Z_scope.

(** ** Lists *)
Lemma length_upd A (l : list A) n a : length (upd l n a) = length l.
Proof. revert n. induction l as [|x r IH]; intros [|n]; simpl; auto. Qed.
Lemma map_upd_same A B (f : A -> B) l n a s : nth_error l n = Some s -> f a = f s -> map f (upd l n a) = map f l.
Proof.
  revert n. induction l as [|x r IH]; intros [|n] H E; simpl in *; try discriminate; auto.
  - injection H as ->. rewrite E. reflexivity.
  - rewrite (IH n); auto.
Qed.
Lemma In_upd A (l : list A) n a x s : nth_error l n = Some s -> In x (upd l n a) -> x = a \/ In x l.
Proof.
  revert n. induction l as [|y r IH]; intros [|n] H I; simpl in *; try discriminate.
  - destruct I as [<-|I]; auto.
  - destruct I as [<-|I]; [auto|]. destruct (IH n H I); auto.
Qed.
Lemma In_upd_new A (l : list A) n a s : nth_error l n = Some s -> In a (upd l n a).
Proof. revert n. induction l as [|y r IH]; intros [|n] H; simpl in *; try discriminate; eauto. Qed.
Lemma In_upd_old A (idx : A -> Z) l n a x s : nth_error l n = Some s -> In x l -> idx x <> idx s -> In x (upd l n a).
Proof.
  revert n. induction l as [|y r IH]; intros [|n] H I D; simpl in *; try discriminate; auto.
  - injection H as ->. destruct I as [<-|I]; [congruence|auto].
  - destruct I as [<-|I]; [left; auto|right; eauto].
Qed.
Lemma In_upd_other A (idx : A -> Z) l n a x s : NoDup (map idx l) -> nth_error l n = Some s -> idx a = idx s ->
  In x (upd l n a) -> x = a \/ (In x l /\ idx x <> idx s).
Proof.
  revert n. induction l as [|y r IH]; intros [|n] N H E I; simpl in *; try discriminate.
  - injection H as ->. inversion N as [|? ? N1 N2]; subst. destruct I as [<-|I]; auto. right. split; auto.
    intros D. apply N1. rewrite <- D. apply in_map; auto.
  - inversion N as [|? ? N1 N2]; subst. destruct I as [<-|I].
    + right. split; auto. intros D. apply N1. rewrite D. apply in_map. eapply nth_error_In; eauto.
    + destruct (IH n N2 H E I) as [->|[? ?]]; auto.
Qed.
Lemma lists_upd A (idx : A -> Z) get l n a s i x : NoDup (map idx l) -> nth_error l n = Some s -> idx a = idx s ->
  lists idx get (upd l n a) i x <-> (i <> idx s /\ lists idx get l i x) \/ (i = idx s /\ In x (get a)).
Proof.
  intros N H E. unfold lists. split.
  - intros [y [I [<- X]]]. destruct (@In_upd_other _ idx l n a y s N H E I) as [->|[I' D]].
    + right. split; auto.
    + left. split; auto. exists y. auto.
  - intros [[D [y [I [<- X]]]]|[-> X]].
    + exists y. split; auto. eapply (@In_upd_old _ idx); eauto.
    + exists a. split; [eapply In_upd_new; eauto|]. auto.
Qed.
Lemma lists_app A (idx : A -> Z) get l1 l2 i x :
  lists idx get (l1 ++ l2) i x <-> lists idx get l1 i x \/ lists idx get l2 i x.
Proof.
  unfold lists. split.
  - intros [a [I H]]. apply in_app_iff in I as [I|I]; [left|right]; exists a; auto.
  - intros [[a [I H]]|[a [I H]]]; exists a; rewrite in_app_iff; auto.
Qed.
Lemma lists_one A (idx : A -> Z) get a i x : lists idx get [a] i x <-> i = idx a /\ In x (get a).
Proof. unfold lists. split; [intros [b [[<-|[]] [<- H]]]; auto|intros [-> H]; exists a; simpl; auto]. Qed.
Lemma skipn_upd_app A (l more : list A) n a : skipn (length l) (upd l n a ++ more) = more.
Proof. rewrite <- (length_upd l n a), skipn_app, skipn_all, Nat.sub_diag. reflexivity. Qed.
Lemma skipn_upd A (l : list A) n a k : (n < k)%nat -> skipn k (upd l n a) = skipn k l.
Proof.
  revert n k. induction l as [|x r IH]; intros n [|k] H; simpl; auto; try lia.
  destruct n as [|n]; simpl; auto. apply IH. lia.
Qed.
Lemma at_nth A (l : list A) n a : nth_error l n = Some a -> at_ l (Z.of_nat n) = Ok a.
Proof. intros H. apply at_Ok. rewrite Nat2Z.id. split; auto. lia. Qed.
Lemma modify_nth A (l : list A) n a f : nth_error l n = Some a -> modify l (Z.of_nat n) f = Ok (upd l n (f a)).
Proof. intros H. unfold modify. rewrite (at_nth _ _ H). simpl. rewrite Nat2Z.id. reflexivity. Qed.
Lemma tighten_le l r : (forall e, In e l -> In e r) -> NoDup r -> (length (tighten l) <= length r)%nat.
Proof. intros H N. apply NoDup_incl_length; [apply SpawnProofs.tighten_NoDup|]. intros e He. apply H, tighten_In, He. Qed.

(** ** The shape of edges depends on their ends only *)
Definition same_ends (m m' : mesh) : Prop :=
  map (fun e => (ed_index e, ed_vertind e)) (edges m') = map (fun e => (ed_index e, ed_vertind e)) (edges m).
Lemma same_ends_is m m' e a b : same_ends m m' -> edge_is m e a b -> edge_is m' e a b.
Proof.
  intros E [x [I [Ei Ev]]].
  assert (H : In (e, [a; b]) (map (fun e => (ed_index e, ed_vertind e)) (edges m))).
  { apply in_map_iff. exists x. split; auto. congruence. }
  rewrite <- E in H. apply in_map_iff in H as [y [Ey I']]. injection Ey as E1 E2. exists y. auto.
Qed.
Lemma same_ends_sym m m' : same_ends m m' -> same_ends m' m.
Proof. unfold same_ends. auto. Qed.
Lemma same_ends_iff m m' : same_ends m m' -> forall e a b, edge_is m' e a b <-> edge_is m e a b.
Proof. intros E e a b. split; apply same_ends_is; auto. apply same_ends_sym; auto. Qed.
Lemma same_joins m m' : same_ends m m' -> forall e a b, edge_joins m' e a b <-> edge_joins m e a b.
Proof. intros E e a b. unfold edge_joins. rewrite !(same_ends_iff E). tauto. Qed.
Lemma same_touches m m' : same_ends m m' -> forall e a, edge_touches m' e a <-> edge_touches m e a.
Proof. intros E e a. unfold edge_touches. split; intros [w H]; exists w; revert H; apply same_joins; auto. apply same_ends_sym; auto. Qed.
Lemma same_meet m m' l : same_ends m m' -> forall e f, edges_meet m' l e f <-> edges_meet m l e f.
Proof.
  intros E e f. unfold edges_meet. split; intros [H1 [H2 [v [H3 H4]]]]; split; auto; split; auto; exists v.
  - rewrite (same_touches E) in H3, H4. auto.
  - rewrite !(same_touches E). auto.
Qed.
Lemma meet_list m l l' : (forall e, In e l' <-> In e l) -> forall e f, edges_meet m l' e f <-> edges_meet m l e f.
Proof. intros H e f. unfold edges_meet. rewrite !H. tauto. Qed.
Lemma reach_iff A (R S : A -> A -> Prop) : (forall x y, R x y <-> S x y) -> forall x y, reach R x y <-> reach S x y.
Proof. intros H x y. split; apply reach_mono; intros; apply H; auto. Qed.
Lemma simple_loops_same m m' l l' : same_ends m m' -> (forall e, In e l' <-> In e l) -> simple_loops m l -> simple_loops m' l'.
Proof.
  intros E H [H1 H2]. split.
  - intros e He. apply H in He. destruct (H1 e He) as [a [b [H3 H4]]]. exists a, b. split; auto. apply (same_ends_iff E); auto.
  - intros e v He Hv. apply H in He. rewrite (same_touches E) in Hv. destruct (H2 e v He Hv) as [f [F1 [F2 [F3 F4]]]].
    exists f. split; [apply H; auto|]. split; auto. split; [apply (same_touches E); auto|].
    intros g Hg Hgv. apply F4; [apply H; auto|]. revert Hgv. apply (same_touches E).
Qed.
Lemma at_most_same m m' k l l' : same_ends m m' -> (forall e, In e l' <-> In e l) -> at_most m k l -> at_most m' k l'.
Proof.
  intros E H A es N I D. apply A; auto.
  - intros e He. apply H, I, He.
  - intros e f He Hf Hne R. apply (D e f He Hf Hne). revert R. apply reach_mono. intros x y R.
    apply (same_meet l' E). apply (meet_list m l l' H). exact R.
Qed.
Lemma one_polygon_same m m' l : same_ends m m' -> one_polygon m l -> one_polygon m' l.
Proof.
  intros E [N [vs [H1 [H2 H3]]]]. split; auto. exists vs. split; auto. split; auto.
  intros i e a b X Y Z. apply (same_joins E). eauto.
Qed.

(** ** The part left out by the walk *)
Lemma reach_In m l e f : In e l -> reach (edges_meet m l) e f -> In f l.
Proof. intros H R. induction R; auto. destruct H0 as [_ [H0 _]]. auto. Qed.
Lemma reach_snoc A (R : A -> A -> Prop) x y z : reach R x y -> reach R y z -> reach R x z.
Proof. intros H1 H2. revert H1. induction H2 as [|a b c _ IH S]; intros H1; auto. eapply reach_step; [apply IH; auto|exact S]. Qed.
Lemma meet_sym m l e f : edges_meet m l e f -> edges_meet m l f e.
Proof. intros [H1 [H2 [v [H3 H4]]]]. split; auto. split; auto. exists v. auto. Qed.
Lemma reach_sym m l e f : reach (edges_meet m l) e f -> reach (edges_meet m l) f e.
Proof.
  induction 1; [constructor|]. eapply reach_snoc; [|exact IHreach]. econstructor; [constructor|]. apply meet_sym; auto.
Qed.
Section Rest.
Variables (m : mesh) (full l : list Z) (e0 : Z).
Hypothesis I0 : In e0 full.
Hypothesis Hl : forall e, In e l <-> In e full /\ reach (edges_meet m full) e0 e.
Let rest := left_out full l.
Lemma rest_In e : In e rest <-> In e full /\ ~ In e l.
Proof. unfold rest, left_out. rewrite filter_In, negb_true_iff, mem_z_not_In. tauto. Qed.
Lemma rest_meet e f : In e rest -> edges_meet m full e f -> edges_meet m rest e f.
Proof.
  intros He [_ [Hf M]]. split; auto. split; auto. apply rest_In. split; auto. intros Hfl. apply rest_In in He as [He1 He2].
  apply He2, Hl. split; auto. apply Hl in Hfl as [_ R]. eapply reach_step; [exact R|]. apply meet_sym. split; auto.
Qed.
Lemma rest_reach e f : In e rest -> reach (edges_meet m full) e f -> reach (edges_meet m rest) e f.
Proof.
  intros He R. induction R; [constructor|]. pose proof (IHR He) as H1. econstructor; [exact H1|]. apply rest_meet; auto.
  eapply reach_In; eauto.
Qed.
Lemma rest_simple : simple_loops m full -> simple_loops m rest.
Proof.
  intros [H1 H2]. split.
  - intros e He. apply H1. apply rest_In in He. tauto.
  - intros e v He Hv. destruct (H2 e v (proj1 (proj1 (rest_In e) He)) Hv) as [f [F1 [F2 [F3 F4]]]].
    exists f. split; [|split; auto; split; auto].
    + assert (M : edges_meet m rest e f); [|apply M]. apply rest_meet; auto. apply rest_In in He. split; [tauto|]. split; auto.
      exists v. auto.
    + intros g Hg. apply F4. apply rest_In in Hg. tauto.
Qed.
Lemma rest_at_most k : at_most m (S k) full -> at_most m k rest.
Proof.
  intros A es N I D. apply le_S_n. change (S (length es)) with (length (e0 :: es)). apply A.
  - constructor; auto. intros H. apply I, rest_In in H as [_ H]. apply H, Hl. split; auto. constructor.
  - intros e [<-|He]; auto. apply I, rest_In in He. tauto.
  - assert (X : forall f, In f es -> ~ reach (edges_meet m full) e0 f).
    { intros f Hf R. apply I, rest_In in Hf as [H1 H2]. apply H2, Hl. auto. }
    intros e f [<-|He] [<-|Hf] Hne R.
    + congruence.
    + apply (X f Hf R).
    + apply (X e He). apply reach_sym. exact R.
    + apply (D e f He Hf Hne). apply rest_reach; auto.
Qed.
Lemma rest_some : ~ (forall e, In e full -> reach (edges_meet m full) e0 e) -> rest <> [].
Proof.
  intros H E. apply H. intros e He. destruct (in_dec Z.eq_dec e l) as [L|L]; [apply Hl in L; tauto|].
  assert (In e rest) by (apply rest_In; auto). rewrite E in *. contradiction.
Qed.
End Rest.
