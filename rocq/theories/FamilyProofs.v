(** Lemmas about family links. *)
From Coq Require Import ZArith List Bool Lia.
From Verif Require Import Base Mesh Family SpecFamily.
Import ListNotations.
Local Open Scope Z_scope.
Set Implicit Arguments.

Fixpoint rep {A} (n : nat) (f : A -> A) (x : A) : A :=
  match n with O => x | S n' => f (rep n' f x) end.

Lemma times_app x l l' : times x (l ++ l') = (times x l + times x l')%nat.
Proof. apply count_occ_app. Qed.

Lemma times_one x y : times x [y] = if y =? x then 1%nat else 0%nat.
Proof.
  unfold times. cbn [count_occ]. destruct (Z.eq_dec y x), (Z.eqb_spec y x); congruence.
Qed.

Lemma times_cons x y l : times x (y :: l) = ((if Z.eqb y x then 1 else 0) + times x l)%nat.
Proof.
  unfold times. cbn [count_occ]. destruct (Z.eq_dec y x), (Z.eqb_spec y x); try reflexivity; congruence.
Qed.

Lemma times_in x l : (0 < times x l)%nat <-> In x l.
Proof. unfold times. rewrite (count_occ_In Z.eq_dec l x). unfold gt. reflexivity. Qed.

Lemma times_zero x l : times x l = 0%nat <-> ~ In x l.
Proof. unfold times. symmetry. apply count_occ_not_In. Qed.

Lemma list_two (P : list Z -> Prop) :
  P [] -> (forall x, P [x]) -> (forall x y l, P l -> P (y :: l) -> P (x :: y :: l)) ->
  forall l, P l.
Proof.
  intros P0 P1 P2. enough (H : forall l, P l /\ forall x, P (x :: l)) by (intro l; apply H).
  induction l as [|y l [IH IH']]; split; auto.
Qed.

Lemma erase_child_other c d l : d <> c -> times d (erase_child c l) = times d l.
Proof.
  intro N. induction l as [|x|x y l IH IH'] using list_two; cbn [erase_child].
  - reflexivity.
  - destruct (Z.eqb_spec c x); [|reflexivity]. subst. rewrite times_one.
    destruct (Z.eqb_spec x d); [congruence | reflexivity].
  - destruct (Z.eqb_spec c x) as [->|E].
    + rewrite !times_cons, IH. destruct (Z.eqb_spec x d); [congruence | lia].
    + change (times d (x :: erase_child c (y :: l)) = times d (x :: y :: l)).
      rewrite (times_cons d x), (times_cons d x), IH'. reflexivity.
Qed.

Lemma erase_child_less c l : (times c (erase_child c l) <= times c l - 1)%nat.
Proof.
  induction l as [|x|x y l IH IH'] using list_two; cbn [erase_child].
  - cbn. lia.
  - destruct (Z.eqb_spec c x).
    + cbn. lia.
    + rewrite times_one. destruct (Z.eqb_spec x c); [congruence | lia].
  - destruct (Z.eqb_spec c x) as [->|E].
    + rewrite !times_cons, Z.eqb_refl. destruct (y =? x); lia.
    + change (times c (x :: erase_child c (y :: l)) <= times c (x :: y :: l) - 1)%nat.
      rewrite (times_cons c x), (times_cons c x).
      destruct (Z.eqb_spec x c); [congruence | lia].
Qed.

Lemma erase_parent_other p d l : d <> p -> times d (erase_parent p l) = times d l.
Proof.
  intro N. induction l as [|x l IH]; cbn [erase_parent]; [reflexivity|].
  destruct (Z.eqb_spec p x) as [->|E].
  - rewrite times_cons. destruct (Z.eqb_spec x d); [congruence | lia].
  - rewrite !times_cons, IH. reflexivity.
Qed.

Lemma erase_parent_less p l : times p (erase_parent p l) = (times p l - 1)%nat.
Proof.
  induction l as [|x l IH]; cbn [erase_parent]; [reflexivity|].
  destruct (Z.eqb_spec p x) as [->|E].
  - rewrite times_cons, Z.eqb_refl. lia.
  - rewrite !times_cons, IH. destruct (Z.eqb_spec x p); [congruence | lia].
Qed.

Lemma iter_erase_child c n l :
  let r := rep n (erase_child c) l in
  (forall d, d <> c -> times d r = times d l) /\ (times c r <= times c l - n)%nat.
Proof.
  cbn zeta. induction n as [|n [IH1 IH2]]; cbn [rep].
  - split; [reflexivity | lia].
  - split.
    + intros d N. rewrite erase_child_other by assumption. auto.
    + pose proof (erase_child_less c (rep n (erase_child c) l)). lia.
Qed.

Lemma iter_erase_parent p n l :
  let r := rep n (erase_parent p) l in
  (forall d, d <> p -> times d r = times d l) /\ times p r = (times p l - n)%nat.
Proof.
  cbn zeta. induction n as [|n [IH1 IH2]]; cbn [rep].
  - split; [reflexivity | lia].
  - split.
    + intros d N. rewrite erase_parent_other by assumption. auto.
    + rewrite erase_parent_less. lia.
Qed.

Lemma iter_children m n t :
  let r := rep n (fun t => t_remove_child t m) t in
  childmesh r = rep n (erase_child m) (childmesh t) /\
  parentmesh r = parentmesh t /\ parentconn r = parentconn t /\ nParents r = nParents t.
Proof.
  cbn zeta. induction n as [|n (IH1 & IH2 & IH3 & IH4)]; cbn [rep]; [auto 9|].
  generalize dependent (rep n (fun t => t_remove_child t m) t). intros r IH1 IH2 IH3 IH4.
  unfold t_remove_child. cbn [childmesh parentmesh parentconn nParents]. rewrite IH1. auto.
Qed.

Lemma iter_parents m n t :
  let r := rep n (fun t => t_remove_parent t m) t in
  parentmesh r = rep n (erase_parent m) (parentmesh t) /\
  childmesh r = childmesh t /\ parentconn r = parentconn t /\
  (n = 0%nat /\ nParents r = nParents t \/ nParents r = Z.of_nat (length (parentmesh r))).
Proof.
  cbn zeta. induction n as [|n (IH1 & IH2 & IH3 & IH4)]; cbn [rep]; [auto 9|].
  generalize dependent (rep n (fun t => t_remove_parent t m) t). intros r IH1 IH2 IH3 IH4.
  unfold t_remove_parent. cbn [childmesh parentmesh parentconn nParents]. rewrite IH1. auto.
Qed.

Lemma put_same f a x : put f a x a = x.
Proof. unfold put. now rewrite Z.eqb_refl. Qed.
Lemma put_other f a x b : b <> a -> put f a x b = f b.
Proof. intro N. unfold put. destruct (Z.eqb_spec b a); congruence. Qed.

Lemma put_tree_alive f a t b : alive (put_tree f a t b) = alive (f b).
Proof. unfold put_tree, put. destruct (Z.eqb_spec b a); cbn; congruence. Qed.

Lemma put_tree_tree f a t b :
  mtree (put_tree f a t b) = if b =? a then t else mtree (f b).
Proof. unfold put_tree, put. destruct (b =? a); reflexivity. Qed.

Lemma deref_ok f a x : deref f a = Ok x -> alive (f a) = true /\ x = f a.
Proof. unfold deref. destruct (alive (f a)); [|discriminate]. intro H. injection H as <-. auto. Qed.

Lemma deref_alive f a : alive (f a) = true -> deref f a = Ok (f a).
Proof. unfold deref. now intros ->. Qed.

Lemma each_ok change l : forall f,
  (forall a, In a l -> alive (f a) = true) ->
  exists f', each_relative change l f = Ok f' /\
    forall a, f' a = mkMember (alive (f a)) (rep (times a l) change (mtree (f a)))
                              (depset (f a)) (topo (f a)).
Proof.
  induction l as [|b r IH]; intros f A.
  - exists f. split; [reflexivity|]. intro a. cbn. destruct (f a); reflexivity.
  - cbn [each_relative]. rewrite deref_alive by (apply A; now left). cbn [bind].
    destruct (IH (put_tree f b (change (mtree (f b))))) as (f' & E & S).
    { intros a I. rewrite put_tree_alive. apply A. now right. }
    exists f'. split; [exact E|]. intro a. rewrite S, put_tree_alive, put_tree_tree, times_cons.
    destruct (Z.eqb_spec a b) as [->|N].
    + rewrite Z.eqb_refl. unfold put_tree. rewrite put_same. cbn [depset topo Nat.add].
      f_equal. clear. induction (times b r) as [|n IH]; [reflexivity|].
      cbn [rep]. rewrite IH. reflexivity.
    + destruct (Z.eqb_spec b a); [congruence|]. unfold put_tree. rewrite put_other by assumption.
      reflexivity.
Qed.

Lemma each_alive change l : forall f f',
  each_relative change l f = Ok f' -> forall a, In a l -> alive (f a) = true.
Proof.
  induction l as [|b r IH]; intros f f' E a I; [easy|].
  cbn [each_relative] in E. unfold deref in E. destruct (alive (f b)) eqn:B; [|discriminate].
  cbn [bind] in E. destruct I as [<-|I]; [exact B|].
  rewrite <- (put_tree_alive f b (change (mtree (f b))) a). eapply IH; eauto.
Qed.

(** What RemoveFromFamily leaves at every address. *)
Definition left_by (m : Z) (f f' : family) : Prop :=
  forall a, alive (f' a) = alive (f a) /\ depset (f' a) = depset (f a) /\
    topo (f' a) = topo (f a) /\ parentconn (mtree (f' a)) = parentconn (mtree (f a)) /\
    (forall d, d <> m -> times d (parents_of f' a) = times d (parents_of f a) /\
                         times d (children_of f' a) = times d (children_of f a)) /\
    (times m (children_of f' a) <= times m (children_of f a) - times a (parents_of f m))%nat /\
    (a <> m ->
     times m (parents_of f' a) = (times m (parents_of f a) - times a (children_of f m))%nat) /\
    (parents_of f' a = parents_of f a /\ nParents (mtree (f' a)) = nParents (mtree (f a)) \/
     nParents (mtree (f' a)) = Z.of_nat (length (parents_of f' a))) /\
    (times a (children_of f m) = 0%nat -> a <> m -> parents_of f' a = parents_of f a) /\
    (times a (parents_of f m) = 0%nat -> children_of f' a = children_of f a).

Lemma remove_ok m f :
  (forall a, In a (parents_of f m) \/ In a (children_of f m) -> alive (f a) = true) ->
  exists f', remove_from_family m f = Ok f' /\ left_by m f f'.
Proof.
  intro A. unfold remove_from_family.
  destruct (@each_ok (fun t => t_remove_child t m) (parentmesh (mtree (f m))) f) as (f1 & E1 & S1).
  { intros a I. apply A. now left. }
  rewrite E1. cbn [bind].
  assert (C1 : forall a, childmesh (mtree (f1 a)) =
                rep (times a (parents_of f m)) (erase_child m) (children_of f a) /\
                parentmesh (mtree (f1 a)) = parents_of f a /\
                parentconn (mtree (f1 a)) = parentconn (mtree (f a)) /\
                nParents (mtree (f1 a)) = nParents (mtree (f a))).
  { intro a. rewrite S1. cbn [mtree]. apply iter_children. }
  assert (L1 : forall a, alive (f1 a) = alive (f a) /\ depset (f1 a) = depset (f a) /\
                         topo (f1 a) = topo (f a)) by (intro a; rewrite S1; auto).
  destruct (C1 m) as (Cm & _).
  destruct (iter_erase_child m (times m (parents_of f m)) (children_of f m)) as (Co & Cs).
  assert (In1 : forall a, In a (childmesh (mtree (f1 m))) -> In a (children_of f m)).
  { intros a I. rewrite Cm in I. apply times_in. apply times_in in I.
    destruct (Z.eq_dec a m) as [->|N].
    - lia.
    - rewrite <- (Co a N). exact I. }
  destruct (@each_ok (fun t => t_remove_parent t m) (childmesh (mtree (f1 m))) f1)
    as (f2 & E2 & S2).
  { intros a I. rewrite (proj1 (L1 a)). apply A. right. now apply In1. }
  exists f2. split; [exact E2|].
  intro a.
  assert (P2 := iter_parents m (times a (childmesh (mtree (f1 m)))) (mtree (f1 a))).
  cbn zeta in P2.
  assert (M2 : mtree (f2 a) = rep (times a (childmesh (mtree (f1 m))))
                                (fun t => t_remove_parent t m) (mtree (f1 a)))
    by (rewrite S2; reflexivity).
  rewrite <- M2 in P2. destruct P2 as (Q1 & Q2 & Q3 & Q4).
  destruct (C1 a) as (D1 & D2 & D3 & D4).
  destruct (iter_erase_parent m (times a (childmesh (mtree (f1 m)))) (parents_of f a))
    as (Po & Ps).
  destruct (iter_erase_child m (times a (parents_of f m)) (children_of f a)) as (Ko & Ks).
  rewrite D2 in Q1. rewrite D1 in Q2. rewrite D3 in Q3. rewrite D4 in Q4.
  change (parents_of f2 a = rep (times a (childmesh (mtree (f1 m)))) (erase_parent m)
                              (parents_of f a)) in Q1.
  change (children_of f2 a = rep (times a (parents_of f m)) (erase_child m)
                               (children_of f a)) in Q2.
  rewrite Q1, Q2, Q3.
  split; [rewrite S2; cbn [alive]; apply L1|].
  split; [rewrite S2; cbn [depset]; apply L1|].
  split; [rewrite S2; cbn [topo]; apply L1|].
  split; [reflexivity|].
  split; [intros d N; split; [apply Po | apply Ko]; assumption|].
  split; [exact Ks|].
  split.
  { intro N. rewrite Ps. rewrite Cm. rewrite (Co a N). reflexivity. }
  split.
  { destruct Q4 as [(Z0 & Q4)|Q4].
    - left. rewrite Z0. cbn [rep]. split; [reflexivity | exact Q4].
    - right. rewrite Q4. unfold parents_of in Q1 at 1. rewrite Q1. reflexivity. }
  split.
  { intros Z0 N. rewrite Cm, (Co a N), Z0. reflexivity. }
  { intros Z0. rewrite Z0. reflexivity. }
Qed.

Lemma remove_alive m f f' :
  remove_from_family m f = Ok f' -> (forall a, In a (parents_of f m) -> alive (f a) = true) /\
  exists f1, each_relative (fun t => t_remove_child t m) (parents_of f m) f = Ok f1 /\
             each_relative (fun t => t_remove_parent t m) (children_of f1 m) f1 = Ok f'.
Proof.
  unfold remove_from_family, parents_of, children_of. intro E.
  destruct (each_relative (fun t => t_remove_child t m) (parentmesh (mtree (f m))) f)
    as [f1| | |] eqn:E1; try discriminate.
  cbn [bind] in E. split; [intros a I; eapply each_alive; eauto | eauto].
Qed.

(** ** Steps *)

(** The four ways of linking give one more link in both directions and touch
    nothing else of the lists. *)
Definition links (f f' : family) (m p : Z) (conn : list Z) : Prop :=
  (forall a, alive (f' a) = alive (f a)) /\ alive (f m) = true /\ alive (f p) = true /\
  (forall a, parents_of f' a = parents_of f a ++ if a =? m then [p] else []) /\
  (forall a, children_of f' a = children_of f a ++ if a =? p then [m] else []) /\
  (forall a, parentconn (mtree (f' a)) =
             parentconn (mtree (f a)) ++ if a =? m then [conn] else []).

Lemma app_if (b : bool) (l : list Z) x : (if b then l ++ [x] else l) = l ++ if b then [x] else [].
Proof. destruct b; [reflexivity | now rewrite app_nil_r]. Qed.
Lemma app_if2 (b : bool) (l : list (list Z)) x :
  (if b then l ++ [x] else l) = l ++ if b then [x] else [].
Proof. destruct b; [reflexivity | now rewrite app_nil_r]. Qed.

Lemma links_of_trees f f' m p conn :
  (forall a, alive (f' a) = alive (f a)) -> alive (f m) = true -> alive (f p) = true ->
  (forall a, parents_of f' a = if a =? m then parents_of f a ++ [p] else parents_of f a) ->
  (forall a, children_of f' a = if a =? p then children_of f a ++ [m] else children_of f a) ->
  (forall a, parentconn (mtree (f' a)) =
     if a =? m then parentconn (mtree (f a)) ++ [conn] else parentconn (mtree (f a))) ->
  links f f' m p conn.
Proof.
  intros A M P L1 L2 L3. unfold links. repeat split; try assumption; intro a.
  - rewrite L1. apply app_if.
  - rewrite L2. apply app_if.
  - rewrite L3. apply app_if2.
Qed.

Ltac trees := repeat rewrite put_tree_tree;
  repeat match goal with
  | |- context [?x =? ?y] => destruct (Z.eqb_spec x y); subst
  end; cbn [parentmesh childmesh parentconn t_add_parent t_add_child]; try congruence;
  try reflexivity.

Lemma set_dep_lists x :
  alive (set_dep_once x) = alive x /\
  parentmesh (mtree (set_dep_once x)) = parentmesh (mtree x) /\
  childmesh (mtree (set_dep_once x)) = childmesh (mtree x) /\
  parentconn (mtree (set_dep_once x)) = parentconn (mtree x) /\
  nParents (mtree (set_dep_once x)) = nParents (mtree x) /\
  topo (set_dep_once x) = topo x.
Proof. unfold set_dep_once, set_dep. destruct (depset x); cbn; auto 7. Qed.

Lemma put_dep f a b :
  let f0 := put f a (set_dep_once (f a)) in
  alive (f0 b) = alive (f b) /\ parents_of f0 b = parents_of f b /\
  children_of f0 b = children_of f b /\
  parentconn (mtree (f0 b)) = parentconn (mtree (f b)) /\
  nParents (mtree (f0 b)) = nParents (mtree (f b)) /\ topo (f0 b) = topo (f b).
Proof.
  cbn zeta. unfold parents_of, children_of. destruct (Z.eq_dec b a) as [->|N].
  - rewrite put_same. apply set_dep_lists.
  - rewrite put_other by assumption. auto 7.
Qed.

Lemma add_conn_some t p conn t' :
  t_add_parent_conn t p conn = Some t' ->
  length conn = length (elemind t) /\
  parentmesh t' = parentmesh t ++ [p] /\ childmesh t' = childmesh t /\
  parentconn t' = parentconn t ++ [conn] /\
  nParents t' = Z.of_nat (length (parentmesh t')).
Proof.
  unfold t_add_parent_conn. destruct (Z.eqb_spec (Z.of_nat (length conn)) (Z.of_nat (length (elemind t))));
    [|discriminate].
  intro H. injection H as <-. cbn. repeat split. lia.
Qed.

Lemma step_add_child f a c f' th :
  fstep (FAddChild a c) f = Ok (f', th) -> links f f' c a [] /\ th = false.
Proof.
  cbn [fstep]. intro H. destruct (deref f a) as [x| | |] eqn:D; try discriminate. cbn [bind] in H.
  apply deref_ok in D as (Aa & ->).
  destruct (deref _ c) as [y| | |] eqn:D2 in H; try discriminate. cbn [bind] in H.
  apply deref_ok in D2 as (Ac & ->). rewrite put_tree_alive in Ac.
  injection H as <- <-. split; [|reflexivity].
  apply links_of_trees; try assumption; intro b.
  - now rewrite !put_tree_alive.
  - unfold parents_of. trees.
  - unfold children_of. trees.
  - trees.
Qed.

Lemma step_add_parent f a p f' th :
  fstep (FAddParent a p) f = Ok (f', th) -> links f f' a p [] /\ th = false.
Proof.
  cbn [fstep]. intro H. destruct (deref f a) as [x| | |] eqn:D; try discriminate. cbn [bind] in H.
  apply deref_ok in D as (Aa & ->).
  destruct (deref _ p) as [y| | |] eqn:D2 in H; try discriminate. cbn [bind] in H.
  apply deref_ok in D2 as (Ap & ->). rewrite put_tree_alive in Ap.
  injection H as <- <-. split; [|reflexivity].
  apply links_of_trees; try assumption; intro b.
  - now rewrite !put_tree_alive.
  - unfold parents_of. trees.
  - unfold children_of. trees.
  - trees.
Qed.

Lemma step_add_child_conn f a c conn f' :
  fstep (FAddChildConn a c conn) f = Ok (f', false) -> links f f' c a conn.
Proof.
  cbn [fstep]. intro H. destruct (deref f a) as [x| | |] eqn:D; try discriminate. cbn [bind] in H.
  apply deref_ok in D as (Aa & ->).
  destruct (deref _ c) as [y| | |] eqn:D2 in H; try discriminate. cbn [bind] in H.
  apply deref_ok in D2 as (Ac & ->). rewrite put_tree_alive in Ac.
  destruct (t_add_parent_conn _ a conn) as [t|] eqn:T in H; [|discriminate].
  injection H as <-. apply add_conn_some in T as (_ & T1 & T2 & T3 & _).
  rewrite put_tree_tree in T1, T2, T3.
  assert (Pd := put_dep f a). cbn zeta in Pd. unfold parents_of, children_of in Pd.
  rewrite (proj1 (Pd c)) in Ac.
  assert (U1 : parentmesh t = parentmesh (mtree (f c)) ++ [a]).
  { rewrite T1. destruct (Pd c) as (_ & P2 & _), (Pd a) as (_ & P2' & _).
    destruct (Z.eqb_spec c a); subst; cbn [parentmesh t_add_child]; congruence. }
  assert (U2 : childmesh t = if c =? a then childmesh (mtree (f a)) ++ [c]
                             else childmesh (mtree (f c))).
  { rewrite T2. destruct (Pd c) as (_ & _ & P2 & _), (Pd a) as (_ & _ & P2' & _).
    destruct (Z.eqb_spec c a); subst; cbn [childmesh t_add_child]; congruence. }
  assert (U3 : parentconn t = parentconn (mtree (f c)) ++ [conn]).
  { rewrite T3. destruct (Pd c) as (_ & _ & _ & P2 & _), (Pd a) as (_ & _ & _ & P2' & _).
    destruct (Z.eqb_spec c a); subst; cbn [parentconn t_add_child]; congruence. }
  clear T1 T2 T3.
  apply links_of_trees; try assumption; intro b;
    destruct (Pd b) as (P1 & P2 & P3 & P4 & _ & _).
  - now rewrite !put_tree_alive.
  - unfold parents_of. trees; destruct (Pd a) as (_ & Q2 & _); congruence.
  - unfold children_of. destruct (Pd a) as (_ & _ & Q2 & _). trees; try congruence.
  - trees; destruct (Pd a) as (_ & _ & _ & Q2 & _); congruence.
Qed.

Lemma step_add_parent_conn f a p conn f' th :
  fstep (FAddParentConn a p conn) f = Ok (f', th) ->
  if th then f' = put f a (set_dep_once (f a)) else links f f' a p conn.
Proof.
  cbn [fstep]. intro H. destruct (deref f a) as [x| | |] eqn:D; try discriminate. cbn [bind] in H.
  apply deref_ok in D as (Aa & ->).
  destruct (t_add_parent_conn _ p conn) as [t|] eqn:T in H; [|now injection H as <- <-].
  destruct (deref _ p) as [y| | |] eqn:D2 in H; try discriminate. cbn [bind] in H.
  apply deref_ok in D2 as (Ap & ->). rewrite put_tree_alive in Ap.
  injection H as <- <-. apply add_conn_some in T as (_ & T1 & T2 & T3 & _).
  assert (Pd := put_dep f a). cbn zeta in Pd. unfold parents_of, children_of in Pd.
  rewrite (proj1 (Pd p)) in Ap. rewrite put_same in T1, T2, T3.
  destruct (set_dep_lists (f a)) as (_ & S1 & S2 & S3 & _).
  rewrite S1 in T1. rewrite S2 in T2. rewrite S3 in T3.
  apply links_of_trees; try assumption; intro b;
    destruct (Pd b) as (P1 & P2 & P3 & P4 & _ & _).
  - now rewrite !put_tree_alive.
  - unfold parents_of. trees.
  - unfold children_of. trees; rewrite ?T2; congruence.
  - trees.
Qed.

Lemma step_destroy f a f' th :
  fstep (FDestroy a) f = Ok (f', th) ->
  alive (f a) = true /\ th = false /\
  exists f1, remove_from_family a f = Ok f1 /\
             f' = put f1 a (mkMember false (mtree (f1 a)) (depset (f1 a)) (topo (f1 a))).
Proof.
  cbn [fstep]. intro H. destruct (deref f a) as [x| | |] eqn:D; try discriminate. cbn [bind] in H.
  apply deref_ok in D as (Aa & ->).
  destruct (remove_from_family a f) as [f1| | |] eqn:R; try discriminate. cbn [bind] in H.
  injection H as <- <-. eauto 6.
Qed.

Lemma step_clear f a f' th :
  fstep (FClear a) f = Ok (f', th) ->
  alive (f a) = true /\ parents_of f a = [] /\ children_of f a = [] /\ th = false /\
  exists m, f' = put f a (mkMember true (mkTree (nParents (mtree (f a))) [] [] [] []) false m).
Proof.
  cbn [fstep]. unfold parents_of, children_of. intro H.
  destruct (deref f a) as [x| | |] eqn:D; try discriminate. cbn [bind] in H.
  apply deref_ok in D as (Aa & ->).
  destruct (parentmesh (mtree (f a))); [|discriminate].
  destruct (childmesh (mtree (f a))); [|discriminate].
  injection H as <- <-. eauto 7.
Qed.

(** ** The invariant *)

Lemma links_keep f f' m p conn :
  links f f' m p conn -> mutual_links f -> no_dangling f -> mutual_links f' /\ no_dangling f'.
Proof.
  intros (A & Am & Ap & P & C & _) S N. split.
  - intros x y Ax Ay. rewrite P, C, !times_app. rewrite A in Ax, Ay. rewrite (S x y Ax Ay).
    f_equal. destruct (Z.eqb_spec x m), (Z.eqb_spec y p); subst; rewrite ?times_one, ?Z.eqb_refl;
      try reflexivity.
    + destruct (Z.eqb_spec p y); [congruence | reflexivity].
    + destruct (Z.eqb_spec m x); [congruence | reflexivity].
  - intros x y Ax I. rewrite A in *. rewrite P, C in I.
    destruct I as [I|I]; apply in_app_iff in I as [I|I].
    + apply (N x); auto.
    + destruct (x =? m); [destruct I as [<-|[]]; exact Ap | easy].
    + apply (N x); auto.
    + destruct (x =? p); [destruct I as [<-|[]]; exact Am | easy].
Qed.

Lemma destroy_keep f a f' th :
  fstep (FDestroy a) f = Ok (f', th) -> mutual_links f -> no_dangling f ->
  mutual_links f' /\ no_dangling f'.
Proof.
  intros H S N. apply step_destroy in H as (Aa & -> & f1 & R & ->).
  destruct (@remove_ok a f) as (f1' & R' & L). { intros b I. now apply (N a). }
  rewrite R in R'. injection R' as <-.
  set (f' := put _ _ _).
  assert (D : alive (f' a) = false) by (unfold f'; rewrite put_same; reflexivity).
  assert (O : forall b, b <> a -> f' b = f1 b) by (intros b Nb; unfold f'; now apply put_other).
  assert (Out : forall b, alive (f' b) = true -> b <> a /\ alive (f b) = true).
  { intros b Ab. assert (Nb : b <> a) by congruence. split; [exact Nb|].
    rewrite (O b Nb) in Ab. rewrite <- Ab. symmetry. apply L. }
  assert (Clean : forall b, alive (f' b) = true ->
            times a (parents_of f' b) = 0%nat /\ times a (children_of f' b) = 0%nat).
  { intros b Ab. destruct (Out b Ab) as (Nb & Ab0). unfold parents_of, children_of. rewrite (O b Nb).
    destruct (L b) as (_ & _ & _ & _ & _ & L6 & L7 & _).
    unfold parents_of, children_of in L6, L7. rewrite (L7 Nb).
    pose proof (S b a Ab0 Aa). pose proof (S a b Aa Ab0). unfold parents_of, children_of in *. lia. }
  split.
  - intros x y Ax Ay. destruct (Out x Ax) as (Nx & Ax0), (Out y Ay) as (Ny & Ay0).
    unfold parents_of, children_of. rewrite (O x Nx), (O y Ny).
    destruct (L x) as (_ & _ & _ & _ & L5 & _). destruct (L y) as (_ & _ & _ & _ & L5' & _).
    destruct (L5 y Ny) as (E1 & _). destruct (L5' x Nx) as (_ & E2).
    unfold parents_of, children_of in E1, E2. rewrite E1, E2. now apply S.
  - intros x b Ax I. destruct (Out x Ax) as (Nx & Ax0).
    destruct (Clean x Ax) as (Z1 & Z2).
    assert (Nb : b <> a).
    { intros ->. destruct I as [I|I]; apply times_in in I; lia. }
    rewrite (O b Nb). rewrite (proj1 (L b)). apply (N x); [exact Ax0|].
    destruct (L x) as (_ & _ & _ & _ & L5 & _). destruct (L5 b Nb) as (E1 & E2).
    unfold parents_of, children_of in I. rewrite (O x Nx) in I.
    destruct I as [I|I]; apply times_in in I; [left|right]; apply times_in;
      unfold parents_of, children_of in *; lia.
Qed.

Lemma reach_links f : reach f -> mutual_links f /\ no_dangling f.
Proof.
  induction 1 as [|f o f' th R IH E Or].
  - split; intros m p A; discriminate.
  - destruct IH as (S & N). destruct o; cbn [ordinary] in Or; try easy.
    + (* new *)
      cbn [fstep] in E. destruct (alive (f a)) eqn:Aa; [discriminate|]. injection E as <- <-.
      assert (K : forall b, parents_of (put f a (mkMember true no_tree false m)) b =
                            (if b =? a then [] else parents_of f b) /\
                            children_of (put f a (mkMember true no_tree false m)) b =
                            (if b =? a then [] else children_of f b)).
      { intro b. unfold parents_of, children_of, put. destruct (b =? a); auto. }
      assert (Al : forall b, b <> a -> alive (put f a (mkMember true no_tree false m) b) = alive (f b)).
      { intros b Nb. now rewrite put_other. }
      split.
      * intros x y Ax Ay. rewrite (proj1 (K x)), (proj2 (K y)).
        destruct (Z.eqb_spec x a) as [->|Nx], (Z.eqb_spec y a) as [->|Ny]; try reflexivity.
        -- rewrite Al in Ay by assumption. symmetry. apply times_zero. intro I.
           assert (alive (f a) = true) by (apply (N y); auto). congruence.
        -- rewrite Al in Ax by assumption. apply times_zero. intro I.
           assert (alive (f a) = true) by (apply (N x); auto). congruence.
        -- rewrite Al in Ax, Ay by assumption. now apply S.
      * intros x y Ax I. destruct (Z.eq_dec y a) as [->|Ny]; [now rewrite put_same|].
        rewrite Al by assumption. rewrite (proj1 (K x)), (proj2 (K x)) in I.
        destruct (Z.eqb_spec x a) as [->|Nx]; [now destruct I as [[]|[]]|].
        rewrite Al in Ax by assumption. apply (N x); auto.
    + apply step_add_child in E as (L & _). eapply links_keep; eauto.
    + apply step_add_parent in E as (L & _). eapply links_keep; eauto.
    + subst th. apply step_add_child_conn in E. eapply links_keep; eauto.
    + apply step_add_parent_conn in E. destruct th; [|eapply links_keep; eauto].
      subst f'. assert (Pd := put_dep f a). cbn zeta in Pd.
      split.
      * intros x y Ax Ay. destruct (Pd x) as (A1 & P1 & _), (Pd y) as (A2 & _ & C2 & _).
        rewrite A1 in Ax. rewrite A2 in Ay. rewrite P1, C2. now apply S.
      * intros x y Ax I. destruct (Pd x) as (A1 & P1 & C1 & _), (Pd y) as (A2 & _).
        rewrite A1 in Ax. rewrite A2. rewrite P1, C1 in I. now apply (N x).
    + eapply destroy_keep; eauto.
    + apply step_clear in E as (Aa & P0 & C0 & -> & m & ->).
      assert (K : forall b, parents_of (put f a (mkMember true
                     (mkTree (nParents (mtree (f a))) [] [] [] []) false m)) b = parents_of f b /\
                   children_of (put f a (mkMember true
                     (mkTree (nParents (mtree (f a))) [] [] [] []) false m)) b = children_of f b /\
                   alive (put f a (mkMember true
                     (mkTree (nParents (mtree (f a))) [] [] [] []) false m) b) = alive (f b)).
      { intro b. destruct (Z.eq_dec b a) as [->|Nb].
        - unfold parents_of at 1, children_of at 1. rewrite put_same. cbn. rewrite P0, C0. auto.
        - unfold parents_of at 1, children_of at 1. rewrite put_other by assumption. auto. }
      split.
      * intros x y Ax Ay. destruct (K x) as (P1 & _ & A1), (K y) as (_ & C2 & A2).
        rewrite A1 in Ax. rewrite A2 in Ay. rewrite P1, C2. now apply S.
      * intros x y Ax I. destruct (K x) as (P1 & C1 & A1), (K y) as (_ & _ & A2).
        rewrite A1 in Ax. rewrite A2. rewrite P1, C1 in I. now apply (N x).
Qed.

(** ** Alignment of the connection lists *)

Lemma step_add_child_conn_threw f a c conn f' :
  fstep (FAddChildConn a c conn) f = Ok (f', true) ->
  (forall b, alive (f' b) = alive (f b) /\ parents_of f' b = parents_of f b /\
             parentconn (mtree (f' b)) = parentconn (mtree (f b))) /\
  children_of f' a = children_of f a ++ [c].
Proof.
  cbn [fstep]. intro H. destruct (deref f a) as [x| | |] eqn:D; try discriminate. cbn [bind] in H.
  apply deref_ok in D as (Aa & ->).
  destruct (deref _ c) as [y| | |] eqn:D2 in H; try discriminate. cbn [bind] in H.
  destruct (t_add_parent_conn _ a conn) as [t|] eqn:T in H; [discriminate|].
  injection H as <-. assert (Pd := put_dep f a). cbn zeta in Pd.
  split.
  - intro b. destruct (Pd b) as (P1 & P2 & P3 & P4 & _ & _).
    rewrite put_tree_alive. unfold parents_of in *. rewrite put_tree_tree.
    destruct (Z.eqb_spec b a); subst; cbn [parentmesh parentconn t_add_child]; auto.
  - unfold children_of at 1. rewrite put_tree_tree, Z.eqb_refl. cbn [childmesh t_add_child].
    destruct (Pd a) as (_ & _ & P3 & _). unfold children_of in P3. now rewrite P3.
Qed.

Lemma links_of_app L L' a : links_of (L ++ L') a = links_of L a ++ links_of L' a.
Proof. unfold links_of. now rewrite filter_app, map_app. Qed.

Lemma links_of_one m p conn a :
  links_of [(m, (p, conn))] a = if a =? m then [(p, conn)] else [].
Proof.
  unfold links_of. cbn [filter fst]. rewrite Z.eqb_sym. destruct (a =? m); reflexivity.
Qed.

Lemma links_of_without L a b : b <> a ->
  links_of (filter (fun x => negb (fst x =? a)) L) b = links_of L b.
Proof.
  intro N. unfold links_of. f_equal. induction L as [|x L IH]; [reflexivity|]. cbn [filter].
  destruct (Z.eqb_spec (fst x) a) as [E|E]; cbn [negb].
  - destruct (Z.eqb_spec (fst x) b); [congruence | exact IH].
  - cbn [filter]. destruct (fst x =? b); [f_equal|]; exact IH.
Qed.

Lemma links_of_gone L a : links_of (filter (fun x => negb (fst x =? a)) L) a = [].
Proof.
  unfold links_of. induction L as [|x L IH]; [reflexivity|]. cbn [filter].
  destruct (Z.eqb_spec (fst x) a) as [E|E]; cbn [negb]; [exact IH|].
  cbn [filter]. destruct (Z.eqb_spec (fst x) a); [congruence | exact IH].
Qed.

Definition recorded (f : family) (L : list (Z * (Z * list Z))) : Prop :=
  forall a, if alive (f a)
            then parents_of f a = map fst (links_of L a) /\
                 parentconn (mtree (f a)) = map snd (links_of L a)
            else links_of L a = [].

Lemma links_record f f' L m p conn :
  links f f' m p conn -> recorded f L -> recorded f' (L ++ [(m, (p, conn))]).
Proof.
  intros (A & Am & _ & P & _ & K) R a. rewrite A, P, K, links_of_app, links_of_one.
  specialize (R a). destruct (alive (f a)) eqn:Aa.
  - destruct R as (R1 & R2). rewrite R1, R2, !map_app. destruct (a =? m); auto.
  - rewrite R. destruct (Z.eqb_spec a m); [congruence | reflexivity].
Qed.

Lemma same_record f f' L :
  (forall b, alive (f' b) = alive (f b) /\ parents_of f' b = parents_of f b /\
             parentconn (mtree (f' b)) = parentconn (mtree (f b))) ->
  recorded f L -> recorded f' (L ++ []).
Proof.
  intros S R a. rewrite app_nil_r. destruct (S a) as (S1 & S2 & S3). rewrite S1, S2, S3. apply R.
Qed.

Lemma grown_recorded f L : grown f L -> recorded f L.
Proof.
  induction 1 as [|f L o f' th G IH E K|f L a f' th G IH C E].
  - intro a. reflexivity.
  - destruct o; try easy.
    + cbn [fstep] in E. destruct (alive (f a)) eqn:Aa; [discriminate|]. injection E as <- <-.
      cbn [new_links]. rewrite app_nil_r. intro b. specialize (IH b).
      destruct (Z.eq_dec b a) as [->|N].
      * unfold parents_of. rewrite put_same. rewrite Aa in IH. rewrite IH. cbn. auto.
      * unfold parents_of. rewrite put_other by assumption. exact IH.
    + apply step_add_child in E as (E & ->). eapply links_record; eauto.
    + apply step_add_parent in E as (E & ->). eapply links_record; eauto.
    + destruct th.
      * apply step_add_child_conn_threw in E as (E & _). cbn [new_links]. eapply same_record; eauto.
      * apply step_add_child_conn in E. eapply links_record; eauto.
    + apply step_add_parent_conn in E. destruct th.
      * subst f'. cbn [new_links]. eapply same_record; [|eassumption]. intro b.
        destruct (put_dep f a b) as (P1 & P2 & _ & P4 & _). auto.
      * eapply links_record; eauto.
  - apply step_destroy in E as (Aa & -> & f1 & R & ->).
    destruct (remove_alive _ _ R) as (Al & _).
    destruct (@remove_ok a f) as (f1' & R' & Lb).
    { intros b [I|I]; [now apply Al | now rewrite C in I]. }
    rewrite R in R'. injection R' as <-.
    intro b. destruct (Z.eq_dec b a) as [->|N].
    + rewrite put_same. cbn [alive]. apply links_of_gone.
    + unfold parents_of. rewrite put_other by assumption. rewrite links_of_without by assumption.
      destruct (Lb b) as (L1 & _ & _ & L4 & _ & _ & _ & _ & L9 & _). rewrite L1, L4.
      rewrite C in L9. unfold parents_of in L9. rewrite (L9 eq_refl N). exact (IH b).
Qed.

(** ** The count of parents *)

Definition counts (t : tree) : Prop := nParents t = Z.of_nat (length (parentmesh t)).

Lemma each_inv (P : tree -> Prop) change :
  (forall t, P t -> P (change t)) ->
  forall l f f', (forall a, P (mtree (f a))) -> each_relative change l f = Ok f' ->
                 forall a, P (mtree (f' a)).
Proof.
  intros K l. induction l as [|b r IH]; intros f f' A E; cbn [each_relative] in E.
  - injection E as <-. exact A.
  - destruct (deref f b) as [x| | |] eqn:D; try discriminate. cbn [bind] in E.
    apply deref_ok in D as (_ & ->). refine (IH _ _ _ E).
    intro a. rewrite put_tree_tree. destruct (a =? b); auto.
Qed.

Lemma remove_counts m f f' :
  remove_from_family m f = Ok f' -> (forall a, counts (mtree (f a))) ->
  forall a, counts (mtree (f' a)).
Proof.
  intros E A. apply remove_alive in E as (_ & f1 & E1 & E2).
  eapply each_inv; [| |exact E2].
  - intros t _. reflexivity.
  - eapply each_inv; [| |exact E1]; [|exact A]. intros t H. exact H.
Qed.

Lemma put_counts f a x : (forall b, counts (mtree (f b))) -> counts (mtree x) ->
  forall b, counts (mtree (put f a x b)).
Proof. intros A X b. unfold put. destruct (b =? a); auto. Qed.
Lemma put_tree_counts f a t : (forall b, counts (mtree (f b))) -> counts t ->
  forall b, counts (mtree (put_tree f a t b)).
Proof. intros A X b. rewrite put_tree_tree. destruct (b =? a); auto. Qed.

Lemma set_dep_counts x : counts (mtree x) -> counts (mtree (set_dep_once x)).
Proof.
  destruct (set_dep_lists x) as (_ & S1 & _ & _ & S4 & _). unfold counts. now rewrite S1, S4.
Qed.

Lemma add_conn_counts t p conn t' : t_add_parent_conn t p conn = Some t' -> counts t'.
Proof. intro H. now apply add_conn_some in H as (_ & _ & _ & _ & H). Qed.

Lemma counted_counts f : counted f -> forall a, counts (mtree (f a)).
Proof.
  induction 1 as [|f o f' th G IH E K]; [reflexivity|].
  destruct o; try easy; cbn [fstep] in E.
  - destruct (alive (f a)); [discriminate|]. injection E as <- <-. now apply put_counts.
  - destruct (deref f a) as [x| | |] eqn:D; try discriminate. cbn [bind] in E.
    apply deref_ok in D as (Aa & ->).
    destruct (deref _ c) as [y| | |] eqn:D2 in E; try discriminate. cbn [bind] in E.
    assert (H1 : forall b, counts (mtree (put_tree (put f a (set_dep_once (f a))) a
        (t_add_child (mtree (put f a (set_dep_once (f a)) a)) c) b))).
    { apply put_tree_counts.
      - apply put_counts; [exact IH | now apply set_dep_counts].
      - rewrite put_same. apply (set_dep_counts (f a)). apply IH. }
    destruct (t_add_parent_conn _ a conn) as [t|] eqn:T in E; injection E as <- <-; [|exact H1].
    apply put_tree_counts; [exact H1|]. eapply add_conn_counts; eauto.
  - destruct (deref f a) as [x| | |] eqn:D; try discriminate. cbn [bind] in E.
    apply deref_ok in D as (Aa & ->).
    assert (H1 : forall b, counts (mtree (put f a (set_dep_once (f a)) b)))
      by (apply put_counts; [exact IH | now apply set_dep_counts]).
    destruct (t_add_parent_conn _ p conn) as [t|] eqn:T in E; [|injection E as <- <-; exact H1].
    destruct (deref _ p) as [y| | |] eqn:D2 in E; try discriminate. cbn [bind] in E.
    apply deref_ok in D2 as (_ & ->). injection E as <- <-.
    assert (H2 : forall b, counts (mtree (put_tree (put f a (set_dep_once (f a))) a t b)))
      by (apply put_tree_counts; [exact H1 | eapply add_conn_counts; eauto]).
    apply put_tree_counts; [exact H2|]. apply (H2 p).
  - destruct (deref f a) as [x| | |]; try discriminate. cbn [bind] in E.
    destruct (remove_from_family a f) as [f1| | |] eqn:R; try discriminate. cbn [bind] in E.
    injection E as <- <-. assert (H1 := remove_counts a f R IH).
    apply put_counts; [exact H1 | apply (H1 a)].
  - destruct (deref f a) as [x| | |]; try discriminate. cbn [bind] in E.
    destruct (remove_from_family a f) as [f1| | |] eqn:R; try discriminate. cbn [bind] in E.
    injection E as <- <-. exact (remove_counts a f R IH).
  - destruct (deref f a) as [x| | |] eqn:D; try discriminate. cbn [bind] in E.
    apply deref_ok in D as (Aa & ->). destruct (alive (f b)); [discriminate|].
    injection E as <- <-. apply put_counts; auto.
  - change (fstep (FClear a) f = Ok (f', th)) in E.
    apply step_clear in E as (_ & P & _ & _ & m & ->). apply put_counts; [exact IH|].
    cbn [mtree]. specialize (IH a). unfold counts, parents_of in *. rewrite P in IH. exact IH.
Qed.
