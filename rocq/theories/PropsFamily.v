(** Properties C44 to C46 and C66: mesh families. *)
From Coq Require Import ZArith List Bool Lia QArith Qabs.
From Verif Require Import Base Mesh MeshProofs FloodProofs Edit Family SpecFamily
  FamilyProofs FamilyMapProofs.
Import ListNotations.
Local Open Scope Z_scope.
Set Implicit Arguments.

(** ** C44: links are symmetric *)

Lemma reach_run os : forall f f', reach f -> frun os f = Ok f' ->
  Forall (fun o => match o with FLeave _ | FCopy _ _ | FAddChildConn _ _ _ => False | _ => True end) os ->
  reach f'.
Proof.
  induction os as [|o os IH]; intros f f' R E K; cbn [frun] in E.
  - now injection E as <-.
  - inversion K as [|? ? K1 K2]; subst. destruct (fstep o f) as [[f1 th]| | |] eqn:S; try discriminate.
    cbn [bind fst] in E. eapply IH; [|exact E|exact K2].
    eapply reach_step; [exact R | exact S|]. destruct o; easy.
Qed.

(** Through any history of construction, linking (with or without connection
    lists) and destruction, parents and children agree, with multiplicity. *)
Theorem C44_partial f : reach f ->
  (forall m p, alive (f m) = true -> alive (f p) = true ->
               (In p (parents_of f m) <-> In m (children_of f p))) /\
  mutual_links f.
Proof.
  intro R. destruct (reach_links R) as (S & _). split; [|exact S].
  intros m p Am Ap. specialize (S m p Am Ap). rewrite <- !times_in. rewrite S. reflexivity.
Qed.
Print Assumptions C44_partial.

(** Destruction is always possible, and afterwards no mesh that exists refers to
    the one destroyed, nor to any other destroyed mesh. *)
Theorem C44_no_dangling f a : reach f -> alive (f a) = true ->
  exists f', fstep (FDestroy a) f = Ok (f', false) /\ no_dangling f' /\
    alive (f' a) = false /\
    forall b, b <> a -> alive (f' b) = alive (f b) /\
      (forall d, d <> a -> times d (parents_of f' b) = times d (parents_of f b) /\
                           times d (children_of f' b) = times d (children_of f b)).
Proof.
  intros R A. destruct (reach_links R) as (S & N).
  destruct (@remove_ok a f) as (f1 & E & L). { intros b I. now apply (N a). }
  assert (F : fstep (FDestroy a) f =
              Ok (put f1 a (mkMember false (mtree (f1 a)) (depset (f1 a)) (topo (f1 a))), false)).
  { cbn [fstep]. rewrite (deref_alive f a A). cbn [bind]. rewrite E. reflexivity. }
  eexists. split; [exact F|].
  destruct (@destroy_keep f a _ _ F S N) as (_ & N'). split; [exact N'|].
  split; [now rewrite put_same|].
  intros b Nb. unfold parents_of, children_of. rewrite put_other by assumption.
  destruct (L b) as (L1 & _ & _ & _ & L5 & _). split; [exact L1 | exact L5].
Qed.
Print Assumptions C44_no_dangling.

(** While only meshes without children are destroyed, the parents of a mesh are
    those it was linked to, in order, each with the list given for it. *)
Theorem C44_aligned_partial f L a : grown f L -> alive (f a) = true ->
  parents_of f a = map fst (links_of L a) /\
  parentconn (mtree (f a)) = map snd (links_of L a).
Proof. intros G A. pose proof (grown_recorded G a) as R. now rewrite A in R. Qed.
Print Assumptions C44_aligned_partial.

(** The number of parents agrees with the list when every link has a connection
    list. *)
Theorem C44_count_partial f a : counted f ->
  nParents (mtree (f a)) = Z.of_nat (length (parents_of f a)).
Proof. intro C. apply (counted_counts C a). Qed.
Print Assumptions C44_count_partial.

(** A mesh of one or of two cells, as seen by the family code. *)
Definition cell_mesh (l : list Z) : mesh :=
  mkMesh (map (fun i => mkVolu i false []) l) [] [] [] 3.
Definition story : list fop :=
  [FNew 1 (cell_mesh [10]); FNew 2 (cell_mesh [20; 21]); FNew 3 (cell_mesh [5; 6]);
   FAddParentConn 3 1 [10; 10]; FAddParentConn 3 2 [20; 21]; FAddChild 2 1].
(** The memory after a history. *)
Definition after (os : list fop) : family :=
  match frun os nobody with Ok f => f | _ => nobody end.
Definition goes (os : list fop) : bool := match frun os nobody with Ok _ => true | _ => false end.
Lemma goes_ok os : goes os = true -> frun os nobody = Ok (after os).
Proof. unfold goes, after. now destruct (frun os nobody). Qed.
Ltac by_vm := repeat (match goal with |- _ /\ _ => split end); vm_compute; auto.

Example C44_used : frun story nobody = Ok (after story) /\ reach (after story) /\
  parents_of (after story) 3 = [1; 2] /\ children_of (after story) 2 = [3; 1] /\
  alive (after story 2) = true.
Proof.
  assert (E : frun story nobody = Ok (after story)) by (apply goes_ok; vm_compute; reflexivity).
  split; [exact E|]. split; [|by_vm].
  apply (@reach_run story nobody); [apply reach_start | exact E | repeat constructor].
Qed.
Lemma grown_run os : forall f L, grown f L ->
  Forall (fun o => match o with FDestroy _ | FLeave _ | FCopy _ _ | FClear _ => False | _ => True end) os ->
  forall f', frun os f = Ok f' -> exists L', grown f' (L ++ L').
Proof.
  induction os as [|o os IH]; intros f L G K f' E; cbn [frun] in E.
  - injection E as <-. exists []. now rewrite app_nil_r.
  - inversion K as [|? ? K1 K2]; subst. destruct (fstep o f) as [[f1 th]| | |] eqn:S; try discriminate.
    cbn [bind fst] in E. destruct (IH f1 _ (@grown_add _ _ o _ _ G S K1) K2 f' E) as (L' & G').
    exists (new_links o th ++ L'). now rewrite app_assoc.
Qed.
Example C44_aligned_used : exists L, grown (after story) L /\ alive (after story 3) = true /\
  links_of L 3 = [(1, [10; 10]); (2, [20; 21])].
Proof.
  assert (E : frun story nobody = Ok (after story)) by (apply goes_ok; vm_compute; reflexivity).
  destruct (@grown_run story nobody [] grown_start) with (f' := after story) as (L & G);
    [repeat constructor | exact E|].
  exists L. split; [exact G|]. split; [vm_compute; reflexivity|].
  destruct (grown_recorded G 3) as (P & C). cbn [app] in *.
  change (parents_of (after story) 3 = map fst (links_of L 3)) in P.
  assert (P' : parents_of (after story) 3 = [1; 2]) by (vm_compute; reflexivity).
  assert (C' : parentconn (mtree (after story 3)) = [[10; 10]; [20; 21]]) by (vm_compute; reflexivity).
  rewrite P' in P. rewrite C' in C. destruct (links_of L 3) as [|[a b] [|[c d] [|? ?]]]; try discriminate.
  cbn in P, C. congruence.
Qed.
Example C44_count_used : counted (after (removelast story)) /\
  nParents (mtree (after (removelast story) 3)) = 2.
Proof.
  split; [|vm_compute; reflexivity].
  assert (G : forall os f f', counted f -> frun os f = Ok f' ->
    Forall (fun o => match o with FAddChild _ _ | FAddParent _ _ => False | _ => True end) os -> counted f').
  { induction os as [|o os IH]; intros f f' R E K; cbn [frun] in E; [now injection E as <-|].
    inversion K as [|? ? K1 K2]; subst. destruct (fstep o f) as [[f1 th]| | |] eqn:S; try discriminate.
    cbn [bind fst] in E. eapply IH; [|exact E|exact K2]. exact (@counted_step _ o _ _ R S K1). }
  apply (G (removelast story) nobody); [apply counted_start | | repeat constructor].
  apply goes_ok. vm_compute. reflexivity.
Qed.

(** Destroying a parent leaves the connection lists as they were: the parent that
    moves up is read with the list of the one that is gone. *)
Theorem C44_aligned_refuted : exists f, frun (story ++ [FDestroy 1]) nobody = Ok f /\ reach f /\
  parents_of f 3 = [2] /\ nth_error (parentconn (mtree (f 3))) 0 = Some [10; 10].
Proof.
  exists (after (story ++ [FDestroy 1])).
  assert (E : frun (story ++ [FDestroy 1]) nobody = Ok (after (story ++ [FDestroy 1])))
    by (apply goes_ok; vm_compute; reflexivity).
  split; [exact E|]. split; [|by_vm].
  apply (@reach_run (story ++ [FDestroy 1]) nobody); [apply reach_start | exact E | repeat constructor].
Qed.
Print Assumptions C44_aligned_refuted.

(** AddChild with a connection list throws whenever the child has not yet listed
    its own elements, and then leaves the child listed by a parent it does not
    know. *)
Theorem C44_throw_refuted f a c conn :
  alive (f a) = true -> alive (f c) = true -> a <> c -> conn <> [] ->
  elemind (mtree (f c)) = [] ->
  exists f', fstep (FAddChildConn a c conn) f = Ok (f', true) /\
    In c (children_of f' a) /\ parents_of f' c = parents_of f c.
Proof.
  intros Aa Ac N C E. destruct (fstep (FAddChildConn a c conn) f) as [[f' th]| | |] eqn:F.
  - assert (th = true).
    { cbn [fstep] in F. rewrite (deref_alive f a Aa) in F. cbn [bind] in F.
      assert (T : forall t, mtree (put_tree (put f a (set_dep_once (f a))) a t c) = mtree (f c)).
      { intro t. rewrite put_tree_tree. destruct (Z.eqb_spec c a); [congruence|].
        now rewrite put_other by congruence. }
      rewrite deref_alive in F
        by (rewrite put_tree_alive, put_other by congruence; exact Ac).
      cbn [bind] in F. rewrite T in F. unfold t_add_parent_conn in F. rewrite E in F.
      destruct conn as [|x r]; [congruence|]. cbn [length Z.of_nat] in F.
      destruct (Z.eqb_spec (Z.pos (Pos.of_succ_nat (length r))) 0); [lia|].
      now injection F as _ <-. }
    subst th. apply step_add_child_conn_threw in F as (S & K). exists f'. split; [reflexivity|].
    split; [rewrite K; apply in_app_iff; right; now left | apply S].
  - exfalso. cbn [fstep] in F. rewrite (deref_alive f a Aa) in F. cbn [bind] in F.
    rewrite deref_alive in F by (rewrite put_tree_alive, put_other by congruence; exact Ac).
    cbn [bind] in F. destruct (t_add_parent_conn _ _ _); discriminate.
  - exfalso. cbn [fstep] in F. rewrite (deref_alive f a Aa) in F. cbn [bind] in F.
    rewrite deref_alive in F by (rewrite put_tree_alive, put_other by congruence; exact Ac).
    cbn [bind] in F. destruct (t_add_parent_conn _ _ _); discriminate.
  - exfalso. cbn [fstep] in F. rewrite (deref_alive f a Aa) in F. cbn [bind] in F.
    rewrite deref_alive in F by (rewrite put_tree_alive, put_other by congruence; exact Ac).
    cbn [bind] in F. destruct (t_add_parent_conn _ _ _); discriminate.
Qed.
Print Assumptions C44_throw_refuted.
Example C44_throw_used : let f := after [FNew 1 (cell_mesh [10]); FNew 3 (cell_mesh [5; 6])] in
  alive (f 1) = true /\ alive (f 3) = true /\ elemind (mtree (f 3)) = [] /\ ([10; 10] : list Z) <> [].
Proof. cbn zeta. do 3 (split; [vm_compute; reflexivity|]). discriminate. Qed.

(** RemoveFromFamily called on its own: the relatives forget the mesh, the mesh
    still lists them, and destroying one of them first leaves it with the address
    of a mesh that no longer exists, which its own destructor follows. *)
Theorem C44_leave_refuted : exists f g, frun (story ++ [FLeave 3]) nobody = Ok f /\
  parents_of f 3 = [1; 2] /\ children_of f 1 = [] /\ children_of f 2 = [1] /\
  frun (story ++ [FLeave 3; FDestroy 1]) nobody = Ok g /\ In 1 (parents_of g 3) /\
  alive (g 1) = false /\ fstep (FDestroy 3) g = UB.
Proof.
  exists (after (story ++ [FLeave 3])), (after (story ++ [FLeave 3; FDestroy 1])).
  split; [apply goes_ok; vm_compute; reflexivity|]. do 3 (split; [vm_compute; reflexivity|]).
  split; [apply goes_ok; vm_compute; reflexivity|]. by_vm.
Qed.
Print Assumptions C44_leave_refuted.

(** A copy lists the parents of the original but they do not list it: once one of
    them is destroyed the copy cannot be destroyed safely. *)
Theorem C44_copy_refuted : exists f g, frun (story ++ [FCopy 3 4]) nobody = Ok f /\
  parents_of f 4 = [1; 2] /\ children_of f 1 = [3] /\
  frun (story ++ [FCopy 3 4; FDestroy 1]) nobody = Ok g /\ fstep (FDestroy 4) g = UB.
Proof.
  exists (after (story ++ [FCopy 3 4])), (after (story ++ [FCopy 3 4; FDestroy 1])).
  split; [apply goes_ok; vm_compute; reflexivity|]. do 2 (split; [vm_compute; reflexivity|]).
  split; [apply goes_ok; vm_compute; reflexivity|]. by_vm.
Qed.
Print Assumptions C44_copy_refuted.

(** A parent added without a connection list is not counted. *)
Theorem C44_count_refuted : exists f,
  frun [FNew 1 (cell_mesh [10]); FNew 3 (cell_mesh [5; 6]); FAddParent 3 1] nobody = Ok f /\
  reach f /\ parents_of f 3 = [1] /\ nParents (mtree (f 3)) = 0.
Proof.
  set (os := [FNew 1 (cell_mesh [10]); FNew 3 (cell_mesh [5; 6]); FAddParent 3 1]).
  exists (after os). assert (E : frun os nobody = Ok (after os)) by (apply goes_ok; vm_compute; reflexivity).
  split; [exact E|]. split; [|by_vm].
  apply (@reach_run os nobody); [apply reach_start | exact E | repeat constructor].
Qed.
Print Assumptions C44_count_refuted.

(** Clearing a mesh that has a relative is undefined. *)
Theorem C44_clear_refuted f a : alive (f a) = true ->
  parents_of f a <> [] \/ children_of f a <> [] -> fstep (FClear a) f = UB.
Proof.
  intros A H. cbn [fstep]. rewrite (deref_alive f a A). cbn [bind]. unfold parents_of, children_of in H.
  destruct (parentmesh (mtree (f a))); [|reflexivity].
  destruct (childmesh (mtree (f a))); [|reflexivity]. destruct H; congruence.
Qed.
Print Assumptions C44_clear_refuted.
Example C44_clear_used : alive (after story 3) = true /\ parents_of (after story) 3 <> [].
Proof. split; [vm_compute; reflexivity | vm_compute; discriminate]. Qed.

(** ** C45: boundaries of parents *)

(** SurfInParent gives the first parent in which the two sides are in different
    cells, and -1 when there is none. *)
Theorem C45_first m t s v0 v1 : family_ready m t -> In s (surfs m) -> sides s v0 v1 ->
  exists r, surf_in_parent m t (su_index s) = Ok r /\
    ((r = -1 /\ forall i, Z.of_nat i < nParents t -> ~ apart m t i v0 v1) \/
     (exists i, r = Z.of_nat i /\ Z.of_nat i < nParents t /\ apart m t i v0 v1 /\
                forall i', (i' < i)%nat -> ~ apart m t i' v0 v1)).
Proof. intros R I Sd. exact (@surf_in_parent_ok m t R s v0 v1 I Sd). Qed.
Print Assumptions C45_first.

Lemma positions_loop m t : family_ready m t -> forall l (ii : nat),
  (forall s, In s l -> In s (surfs m)) ->
  exists r, surfs_in_parent_loop m t l (Z.of_nat ii) = Ok r /\
    forall p, In p r <-> exists k s v0 v1 i, p = Z.of_nat (ii + k) /\ nth_error l k = Some s /\
                sides s v0 v1 /\ Z.of_nat i < nParents t /\ apart m t i v0 v1.
Proof.
  intro R. induction l as [|s l IH]; intros ii K; cbn [surfs_in_parent_loop].
  - exists []. split; [reflexivity|]. intro p. split; [easy|].
    intros ([|k] & s & v0 & v1 & i & _ & H & _); discriminate.
  - destruct R as (R1 & R2 & R3 & R4).
    destruct (R3 s (K s (or_introl eq_refl))) as (v0 & v1 & Sd).
    destruct (@surf_in_parent_ok m t (conj R1 (conj R2 (conj R3 R4))) s v0 v1) as (j & J & C);
      [apply K; now left | exact Sd|].
    rewrite J. cbn [bind]. replace (Z.of_nat ii + 1) with (Z.of_nat (S ii)) by lia.
    destruct (IH (S ii)) as (r & E & P); [intros; apply K; now right|]. rewrite E. cbn [bind].
    eexists. split; [reflexivity|]. intro p.
    assert (Old : In p r <-> exists k s0 w0 w1 i, p = Z.of_nat (ii + S k) /\ nth_error l k = Some s0 /\
                sides s0 w0 w1 /\ Z.of_nat i < nParents t /\ apart m t i w0 w1).
    { rewrite P. split; intros (k & s0 & w0 & w1 & i & -> & H); exists k, s0, w0, w1, i;
        (split; [f_equal; lia | exact H]). }
    destruct (Z.leb_spec 0 j) as [L|L].
    + destruct C as [(-> & _)|(i & -> & Ib & A & _)]; [lia|]. cbn [In]. rewrite Old. split.
      * intros [<-|(k & s0 & w0 & w1 & i0 & -> & H)].
        -- exists 0%nat, s, v0, v1, i. split; [f_equal; lia | auto].
        -- exists (S k), s0, w0, w1, i0. auto.
      * intros ([|k] & s0 & w0 & w1 & i0 & -> & H & H'); cbn in H.
        -- left. lia.
        -- right. exists k, s0, w0, w1, i0. auto.
    + destruct C as [(-> & N)|(i & -> & _)]; [|lia]. rewrite Old. split.
      * intros (k & s0 & w0 & w1 & i0 & -> & H). exists (S k), s0, w0, w1, i0. auto.
      * intros ([|k] & s0 & w0 & w1 & i0 & -> & H & H'); cbn in H.
        -- exfalso. injection H as <-. destruct H' as (Sd' & Ib & A).
           destruct Sd as (q & Sd), Sd' as (q' & Sd'). rewrite Sd in Sd'. injection Sd' as <- <- _.
           exact (N i0 Ib A).
        -- exists k, s0, w0, w1, i0. auto.
Qed.

(** The list form gives the positions of exactly the surfaces between different
    cells of some parent. *)
Theorem C45_positions m t : family_ready m t ->
  exists r, surfs_in_parent m t = Ok r /\
    forall p, In p r <-> exists k s v0 v1 i, p = Z.of_nat k /\ nth_error (surfs m) k = Some s /\
                sides s v0 v1 /\ Z.of_nat i < nParents t /\ apart m t i v0 v1.
Proof. intro R. exact (@positions_loop m t R (surfs m) 0 (fun s H => H)). Qed.
Print Assumptions C45_positions.

Definition on_bound (m : mesh) (t : tree) (h : cells) (outer : bool) (v0 v1 : Z) : Prop :=
  exists j q0 q1, Z.of_nat j < nParents t /\
    parent_target m t h j v0 q0 /\ parent_target m t h j v1 q1 /\
    exactly_one (at_bound outer q0) (at_bound outer q1).
Definition should_list (m : mesh) (t : tree) (h : cells) (ibb outer : bool) (v0 v1 : Z) : Prop :=
  ((v0 = 0 \/ v1 = 0) /\ ibb = true) \/ (v0 <> 0 /\ v1 <> 0 /\ on_bound m t h outer v0 v1).
Definition sides_known (m : mesh) : Prop :=
  forall s v0 v1, In s (surfs m) -> sides s v0 v1 -> (v0 = 0 \/ inside m v0) /\ (v1 = 0 \/ inside m v1).

Lemma xorb_bound outer q0 q1 : xorb (near (bound_of outer) q0) (near (bound_of outer) q1) = true <->
  exactly_one (at_bound outer q0) (at_bound outer q1).
Proof.
  unfold exactly_one. rewrite <- !near_bound.
  destruct (near (bound_of outer) q0), (near (bound_of outer) q1); cbn; intuition discriminate.
Qed.

Lemma one_surface m t h ibb outer s v0 v1 :
  family_ready m t -> parents_ready t h -> sides_known m -> In s (surfs m) -> sides s v0 v1 ->
  exists b vs, surf_on_bound1 m t h ibb outer s = Ok (b, vs) /\
    (b = true <-> should_list m t h ibb outer v0 v1) /\
    (b = false -> vs = []) /\
    (forall v, In v vs -> v <> 0 /\ (v = v0 \/ v = v1) /\
       (v0 <> 0 -> v1 <> 0 -> exists j q, Z.of_nat j < nParents t /\ parent_target m t h j v q /\
                                          at_bound outer q)) /\
    (b = true -> (v0 <> 0 \/ v1 <> 0) -> length vs = 1%nat).
Proof.
  intros R PR SK I Sd. unfold surf_on_bound1. destruct (SK s v0 v1 I Sd) as (K0 & K1).
  destruct Sd as (rest & E). pose proof E as E'. rewrite E.
  change (at_ (v0 :: v1 :: rest) 0) with (Ok v0). change (at_ (v0 :: v1 :: rest) 1) with (Ok v1).
  cbn [bind].
  destruct (Z.eqb_spec v0 0) as [Z0|Z0]; [|destruct (Z.eqb_spec v1 0) as [Z1|Z1]]; cbn [orb].
  - exists ibb. eexists. split; [reflexivity|]. destruct (Z.eqb_spec v1 0) as [Z1|Z1]; destruct ibb; cbn.
    + unfold should_list. split; [intuition|]. split; [easy|]. split; [easy|]. intros _ [|]; lia.
    + unfold should_list. split; [intuition congruence|]. repeat split; easy.
    + unfold should_list. split; [intuition|]. split; [easy|]. split; [|auto].
      intros v [<-|[]]. repeat split; auto. intros; lia.
    + unfold should_list. split; [intuition congruence|]. repeat split; easy.
  - exists ibb. eexists. split; [reflexivity|]. destruct ibb; cbn.
    + unfold should_list. split; [intuition|]. split; [easy|]. split; [|auto].
      intros v [<-|[]]. repeat split; auto. intros; lia.
    + unfold should_list. split; [intuition congruence|]. repeat split; easy.
  - destruct K0 as [K0|K0]; [lia|]. destruct K1 as [K1|K1]; [lia|].
    destruct (@surf_in_parent_ok m t R s v0 v1) as (j & J & C); [exact I | now exists rest|].
    rewrite J. cbn [bind].
    destruct R as (R1 & R2 & R3 & R4 & R5). pose proof (conj R1 (conj R2 (conj R3 (conj R4 R5)))) as R.
    assert (Sl : should_list m t h ibb outer v0 v1 <-> on_bound m t h outer v0 v1).
    { unfold should_list. intuition. }
    destruct (Z.leb_spec 0 j) as [L|L].
    + destruct (@parent_values_ok m t R h PR v0 K0 (Z.to_nat (nParents t)) 0) as (l0 & P0 & L0 & N0); [lia|].
      destruct (@parent_values_ok m t R h PR v1 K1 (Z.to_nat (nParents t)) 0) as (l1 & P1 & L1 & N1); [lia|].
      change (Z.of_nat 0) with 0 in P0, P1. rewrite P0. cbn [bind]. rewrite P1. cbn [bind].
      pose proof (@first_bound_spec (bound_of outer) l0 l1 ltac:(congruence)) as F.
      destruct (first_bound (bound_of outer) l0 l1) as [[x0 x1]|].
      * destruct F as (i & X0 & X1 & X). exists true. eexists. split; [reflexivity|].
        assert (B : (i < Z.to_nat (nParents t))%nat) by (rewrite <- L0; apply nth_error_Some; congruence).
        apply N0 in X0. apply N1 in X1. cbn [Nat.add] in X0, X1.
        split.
        { rewrite Sl. split; [|reflexivity]. intros _. exists i, x0, x1. split; [lia|].
          split; [exact X0|]. split; [exact X1|]. now apply xorb_bound. }
        split; [easy|].
        destruct (near (bound_of outer) x1) eqn:B1.
        { split; [|reflexivity]. intros v [<-|[]]. repeat split; auto. intros _ _.
          exists i, x1. split; [lia|]. split; [exact X1 | now apply near_bound]. }
        destruct (near (bound_of outer) x0) eqn:B0; [|discriminate].
        { split; [|reflexivity]. intros v [<-|[]]. repeat split; auto. intros _ _.
          exists i, x0. split; [lia|]. split; [exact X0 | now apply near_bound]. }
      * exists false, []. split; [reflexivity|]. split; [|repeat split; easy].
        rewrite Sl. split; [discriminate|]. intros (i & q0 & q1 & B & T0 & T1 & O).
        destruct (@nth_ex _ l0 i) as (x0 & X0); [lia|]. destruct (@nth_ex _ l1 i) as (x1 & X1); [lia|].
        specialize (F i x0 x1 X0 X1). apply N0 in X0. apply N1 in X1. cbn [Nat.add] in X0, X1.
        rewrite (parent_target_unique R PR X0 T0), (parent_target_unique R PR X1 T1) in F.
        apply xorb_bound in O. congruence.
    + exists false, []. split; [reflexivity|]. split; [|repeat split; easy].
      rewrite Sl. split; [discriminate|]. intros (i & q0 & q1 & B & T0 & T1 & O). exfalso.
      destruct C as [(-> & C)|(i' & -> & _)]; [|lia]. apply (C i B). right. right.
      pose proof T0 as (c0 & p0 & x0 & L0 & P0 & I0 & X0 & Y0).
      pose proof T1 as (c1 & p1 & x1 & L1 & P1 & I1 & X1 & Y1).
      exists c0, c1. split; [exact L0|]. split; [exact L1|]. intros ->.
      assert (T1' : parent_target m t h i v0 q1).
      { exists c1, p1, x1. auto 6. }
      rewrite (parent_target_unique R PR T1' T0) in O.
      destruct O as [(O1 & O2)|(O1 & O2)]; tauto.
Qed.

(** SurfOnParentBound lists exactly the surfaces on the border of the mesh, if
    they are asked for, and those between a cell of a parent whose target is at
    the bound and one whose target is not. *)
Theorem C45_bound m t h ibb outer :
  family_ready m t -> parents_ready t h -> sides_known m ->
  exists l vs, surf_on_bound m t h ibb outer = Ok (l, vs) /\
    (forall i, In i l <-> exists s v0 v1, In s (surfs m) /\ su_index s = i /\ sides s v0 v1 /\
                                          should_list m t h ibb outer v0 v1) /\
    (forall v, In v vs -> exists s v0 v1, In s (surfs m) /\ In (su_index s) l /\ sides s v0 v1 /\
       v <> 0 /\ (v = v0 \/ v = v1) /\
       (v0 <> 0 -> v1 <> 0 -> exists j q, Z.of_nat j < nParents t /\ parent_target m t h j v q /\
                                          at_bound outer q)).
Proof.
  intros R PR SK. unfold surf_on_bound.
  enough (G : forall l0, (forall s, In s l0 -> In s (surfs m)) ->
    exists l vs, surf_on_bound_loop m t h ibb outer l0 = Ok (l, vs) /\
    (forall i, In i l <-> exists s v0 v1, In s l0 /\ su_index s = i /\ sides s v0 v1 /\
                                          should_list m t h ibb outer v0 v1) /\
    (forall v, In v vs -> exists s v0 v1, In s l0 /\ In (su_index s) l /\ sides s v0 v1 /\
       v <> 0 /\ (v = v0 \/ v = v1) /\
       (v0 <> 0 -> v1 <> 0 -> exists j q, Z.of_nat j < nParents t /\ parent_target m t h j v q /\
                                          at_bound outer q))).
  { exact (G (surfs m) (fun s H => H)). }
  induction l0 as [|s l0 IH]; intro K; cbn [surf_on_bound_loop].
  - exists [], []. split; [reflexivity|]. split; [|easy]. intro i. split; [easy|].
    intros (s & _ & _ & [] & _).
  - destruct R as (R1 & R2 & R3 & R4 & R5). pose proof (conj R1 (conj R2 (conj R3 (conj R4 R5)))) as R.
    pose proof (K s (or_introl eq_refl)) as Is. destruct (R3 s Is) as (v0 & v1 & Sd).
    destruct (@one_surface m t h ibb outer s v0 v1 R PR SK Is Sd) as (b & vs & E & B & Bf & V & _).
    destruct IH as (l & ws & EL & Li & Lv); [intros; apply K; now right|].
    rewrite E. cbn [bind]. rewrite EL. cbn [bind fst snd].
    eexists. eexists. split; [reflexivity|]. split.
    + intro i. rewrite in_app_iff, Li. split.
      * intros [I|(s' & w0 & w1 & I & H)].
        -- destruct b; [|easy]. destruct I as [<-|[]]. exists s, v0, v1.
           split; [now left|]. split; [reflexivity|]. split; [exact Sd | now apply B].
        -- exists s', w0, w1. split; [now right | exact H].
      * intros (s' & w0 & w1 & [<-|I] & Ei & Sd' & H).
        -- left. destruct Sd as (q & Sd), Sd' as (q' & Sd'). rewrite Sd in Sd'. injection Sd' as <- <- _.
           apply B in H. subst b. now left.
        -- right. exists s', w0, w1. auto.
    + intros v I. apply in_app_iff in I as [I|I].
      * assert (b = true) as -> by (destruct b; [reflexivity|]; rewrite Bf in I by reflexivity; easy).
        exists s, v0, v1. split; [now left|]. split; [now left|]. split; [exact Sd|].
        destruct (V v I) as (V1 & V2 & V3). auto.
      * destruct (Lv v I) as (s' & w0 & w1 & I' & L' & H). exists s', w0, w1.
        split; [now right|]. split; [apply in_app_iff; now right | exact H].
Qed.
Print Assumptions C45_bound.

(** Two volumes side by side in a row, in two cells of one parent. *)
Definition row_mesh : mesh :=
  mkMesh [mkVolu 1 false [1; 2]; mkVolu 2 false [2; 3]]
         [mkSurf 1 true false [0; 1] []; mkSurf 2 false false [1; 2] []; mkSurf 3 true false [2; 0] []]
         [] [] 3.
Definition row_tree : tree := mkTree 1 [1; 2] [7] [] [[10; 11]].
Definition row_cells : cells :=
  fun p => if p =? 7 then [mkCell 10 1 0 0 0; mkCell 11 2 0 1 0] else [].
Example C45_used : family_ready row_mesh row_tree /\ parents_ready row_tree row_cells /\
  sides_known row_mesh /\ surf_in_parent row_mesh row_tree 2 = Ok 0 /\
  surf_on_bound row_mesh row_tree row_cells false true = Ok ([2], [1]) /\
  surf_on_bound row_mesh row_tree row_cells true false = Ok ([1; 2; 3], [1; 2; 2]).
Proof.
  split; [|split; [|split; [|repeat split]]].
  - unfold family_ready. cbn. split; [repeat constructor; cbn; intuition discriminate|].
    split; [repeat constructor; cbn; intuition discriminate|].
    split; [|split; [lia|]].
    + intros s [<-|[<-|[<-|[]]]]; do 2 eexists; eexists; reflexivity.
    + intros row [<-|[]]. reflexivity.
  - unfold parents_ready. cbn. split; [lia|]. intros [|j] p H; [|destruct j; discriminate].
    injection H as <-. cbn. split; [repeat constructor; cbn; intuition discriminate|].
    intros row H c I. injection H as <-. exact I.
  - intros s v0 v1 I (r & S). unfold inside. cbn in *.
    destruct I as [<-|[<-|[<-|[]]]]; cbn in S; injection S as <- <- _; auto.
Qed.

(** ** C66: boundaries of parents in two dimensions *)

Lemma no_volume_no_parent m t s : volus m = [] ->
  (forall x, In x (surfs m) -> exists v0 v1, sides x v0 v1) -> surf_in_parent m t s = Ok (-1).
Proof.
  intros V S2. unfold surf_in_parent.
  destruct (find_spec su_index (surfs m) s) as [[F _]|(q & x & F & Q & _)]; rewrite F.
  - reflexivity.
  - destruct (Z.leb_spec 0 (Z.of_nat q)); [|lia]. rewrite (at_nat _ _ Q). cbn [bind].
    destruct (S2 x (nth_error_In _ _ Q)) as (v0 & v1 & r & E). rewrite E.
    change (at_ (v0 :: v1 :: r) 0) with (Ok v0). change (at_ (v0 :: v1 :: r) 1) with (Ok v1).
    cbn [bind]. rewrite V. change (find vo_index [] v0) with (-1). change (find vo_index [] v1) with (-1).
    generalize 0. induction (Z.to_nat (nParents t)) as [|n IH]; intro j; [reflexivity|].
    cbn [in_parent_loop]. change (negb (-1 =? -1)) with false. cbn [xorb bind]. apply IH.
Qed.

(** A two-dimensional mesh has no volumes, so no edge between two of its surfaces
    is ever listed, whatever the parents and their targets are. *)
Theorem C66_never m t h ibb outer l ss : volus m = [] ->
  (forall x, In x (surfs m) -> exists v0 v1, sides x v0 v1) ->
  edge_on_bound m t h ibb outer = Ok (l, ss) ->
  forall i, In i l -> exists e s0 s1 r, In e (edges m) /\ ed_index e = i /\
    ed_surfind e = s0 :: s1 :: r /\ (s0 = 0 \/ s1 = 0) /\ ibb = true.
Proof.
  intros V S2. unfold edge_on_bound. revert l ss.
  induction (edges m) as [|e es IH]; intros l ss E i I; cbn [edge_on_bound_loop] in E.
  - injection E as <- <-. easy.
  - destruct (edge_on_bound1 m t h ibb outer e) as [[b a]| | |] eqn:E1; try discriminate.
    cbn [bind] in E. destruct (edge_on_bound_loop m t h ibb outer es) as [[l' ss']| | |]; try discriminate.
    cbn [bind fst snd] in E. injection E as <- <-. apply in_app_iff in I as [I|I].
    + destruct b; [|easy]. destruct I as [<-|[]]. exists e.
      unfold edge_on_bound1 in E1.
      destruct (ed_surfind e) as [|s0 [|s1 r]]; try discriminate.
      exists s0, s1, r. split; [now left|]. split; [reflexivity|]. split; [reflexivity|].
      change (at_ (s0 :: s1 :: r) 0) with (Ok s0) in E1.
      change (at_ (s0 :: s1 :: r) 1) with (Ok s1) in E1. cbn [bind] in E1.
      destruct (Z.eqb_spec s0 0) as [Z0|Z0]; [|destruct (Z.eqb_spec s1 0) as [Z1|Z1]]; cbn [orb] in E1.
      * injection E1 as -> _. auto.
      * injection E1 as -> _. auto.
      * rewrite (@no_volume_no_parent m t (ed_index e) V S2) in E1. discriminate.
    + destruct (IH l' ss' eq_refl i I) as (e' & s0 & s1 & r & I' & H). exists e', s0, s1, r.
      split; [now right | exact H].
Qed.
Print Assumptions C66_never.

(** Two squares side by side, in two cells of a parent with targets 0 and 1. *)
Definition flat_mesh : mesh :=
  mkMesh [] [mkSurf 1 true false [0; 0] [1; 2]; mkSurf 2 true false [0; 0] [2; 3]]
         [mkEdge 1 true [0; 1] []; mkEdge 2 false [1; 2] []; mkEdge 3 true [2; 0] []] [] 2.
Theorem C66_refuted : meshDim flat_mesh = 2 /\
  elm_on_bound flat_mesh row_tree row_cells false true = Ok ([], []) /\
  parent_values row_cells row_tree Target (find su_index (surfs flat_mesh) 1) 1 0 = Ok [0%Q] /\
  parent_values row_cells row_tree Target (find su_index (surfs flat_mesh) 2) 1 0 = Ok [1%Q].
Proof. repeat split. Qed.
Print Assumptions C66_refuted.
Example C66_used : volus flat_mesh = [] /\
  (forall x, In x (surfs flat_mesh) -> exists v0 v1, sides x v0 v1) /\
  edge_on_bound flat_mesh row_tree row_cells true true = Ok ([1; 3], [1; 2]).
Proof.
  split; [reflexivity|]. split; [|reflexivity].
  intros x [<-|[<-|[]]]; do 2 eexists; eexists; reflexivity.
Qed.

(** ** C46: values return to the parent cells they came from *)

(** Every cell of every parent has one constraint.  Each child element is given
    the position of the constraint of its own cell. *)
Theorem C46_numbering_partial t h : map_ready t h ->
  exists pm, return_parent_map h t [] = Ok pm /\
    NoDup (parentcases pm) /\
    Z.of_nat (length (parentcases pm)) = count_volu_parent h t /\
    (forall j p x, nth_error (parentmesh t) j = Some p -> In x (h p) ->
                   In (Z.of_nat j, ce_index x) (parentcases pm)) /\
    (forall k a b, nth_error (parentcases pm) k = Some (a, b) ->
       exists j p x, a = Z.of_nat j /\ nth_error (parentmesh t) j = Some p /\ In x (h p) /\
         ce_index x = b /\ nth_error (voluVals pm) k = Some (ce_volume x * ce_target x)%Q) /\
    length (voluVals pm) = length (parentcases pm) /\
    length (currind pm) = (length (parentmesh t) * length (elemind t))%nat /\
    length (parentpos pm) = (length (parentmesh t) * length (elemind t))%nat /\
    forall j p e el row c, nth_error (parentmesh t) j = Some p ->
      nth_error (elemind t) e = Some el -> nth_error (parentconn t) j = Some row ->
      nth_error row e = Some c ->
      nth_error (currind pm) (j * length (elemind t) + e) = Some el /\
      exists pos, nth_error (parentpos pm) (j * length (elemind t) + e) = Some (Z.of_nat pos) /\
                  nth_error (parentcases pm) pos = Some (Z.of_nat j, c).
Proof.
  intro R. destruct (return_map_ok R []) as (pm & E & D1 & D2 & D3 & D4 & D5).
  exists pm. split; [exact E|]. destruct R as (HN & HL & HW). rewrite D1.
  split.
  { apply cases_from_nodup. intros p I. apply In_nth_error in I as (j & J). now apply (HW j p). }
  split. { rewrite count_length, cases_from_length. reflexivity. }
  split. { intros j p x J I. exact (@cases_from_in h (parentmesh t) 0 j p x J I). }
  split.
  { intros k a b H. apply cases_from_nth in H as (j & p & x & A & J & I & X & F).
    exists j, p, x. repeat split; auto. rewrite D2. cbn [app]. rewrite nth_error_map, F. reflexivity. }
  split. { rewrite D2. cbn [app]. now rewrite map_length, cases_from_length. }
  split; [exact D3|]. split; [exact D4|].
  intros j p e el row c J Ee Rr C. rewrite <- Ee. apply (D5 j e row c); auto.
  - apply nth_error_Some. congruence.
  - apply nth_error_Some. congruence.
Qed.
Print Assumptions C46_numbering_partial.

(** MapVolu2Parent writes the value of each case to the cell it names and leaves
    every other cell and field alone. *)
Theorem C46_write t k fillIn cs h :
  NoDup (parentmesh t) -> NoDup cs -> valid_cases t h cs ->
  (forall p, In p (parentmesh t) -> NoDup (map ce_index (h p))) ->
  (length cs <= length fillIn)%nat ->
  exists h', map_to_parent t k fillIn cs 0 h = Ok h' /\
    forall q, length (h' q) = length (h q) /\
      forall pos x, nth_error (h q) pos = Some x -> exists y, nth_error (h' q) pos = Some y /\
        (forall n a, nth_error cs n = Some (a, ce_index x) ->
                     nth_error (parentmesh t) (Z.to_nat a) = Some q ->
                     exists v, nth_error fillIn n = Some v /\ same_but k v x y) /\
        ((forall n a, nth_error cs n = Some (a, ce_index x) ->
                      nth_error (parentmesh t) (Z.to_nat a) = Some q -> False) -> y = x).
Proof.
  intros UP N V U B. exact (@map_to_parent_ok t k fillIn UP cs 0 h N V U B).
Qed.
Print Assumptions C46_write.

(** Both together: with the cases of ReturnParentMap, every cell of every parent
    receives the value at its own constraint's position, and no other mesh
    changes. *)
Theorem C46_partial t k fillIn h pm :
  map_ready t h -> NoDup (parentmesh t) -> return_parent_map h t [] = Ok pm ->
  (length (parentcases pm) <= length fillIn)%nat ->
  exists h', map_to_parent t k fillIn (parentcases pm) 0 h = Ok h' /\
    (forall q, ~ In q (parentmesh t) -> forall pos, nth_error (h' q) pos = nth_error (h q) pos) /\
    forall j p pos x, nth_error (parentmesh t) j = Some p -> nth_error (h p) pos = Some x ->
      exists n v y, nth_error (parentcases pm) n = Some (Z.of_nat j, ce_index x) /\
        nth_error fillIn n = Some v /\ nth_error (h' p) pos = Some y /\ same_but k v x y.
Proof.
  intros R UP E B. destruct (C46_numbering_partial R) as (pm' & E' & N & _ & Cin & Cnth & _).
  rewrite E in E'. injection E' as <-. destruct R as (HN & HL & HW).
  destruct (@C46_write t k fillIn (parentcases pm) h UP N) as (h' & M & K); auto.
  { intros a b I. apply In_nth_error in I as (q & Q).
    destruct (Cnth q a b Q) as (j & p & x & -> & J & I & X & _). split; [lia|].
    exists p. rewrite Nat2Z.id. split; [exact J|]. apply in_map_iff. eauto. }
  { intros p I. apply In_nth_error in I as (j & J). now apply (HW j p). }
  exists h'. split; [exact M|]. split.
  - intros q Nq pos. destruct (K q) as (KL & KN). destruct (nth_error (h q) pos) as [x|] eqn:X.
    + destruct (KN pos x X) as (y & Y & _ & Y2). rewrite Y. f_equal. apply Y2. intros n a _ H.
      apply Nq. eapply nth_error_In; eauto.
    + apply nth_error_None. rewrite KL. now apply nth_error_None.
  - intros j p pos x J X. destruct (K p) as (_ & KN). destruct (KN pos x X) as (y & Y & Y1 & _).
    pose proof (Cin j p x J (nth_error_In _ _ X)) as I. apply In_nth_error in I as (n & Hn).
    destruct (Y1 n _ Hn) as (v & Fv & Sb); [now rewrite Nat2Z.id|]. exists n, v, y. auto.
Qed.
Print Assumptions C46_partial.

(** MapVolu2Self, likewise, on the mesh's own volumes. *)
Theorem C46_self k fillIn es l : NoDup es -> (forall e, In e es -> In e (map ce_index l)) ->
  NoDup (map ce_index l) -> (length es <= length fillIn)%nat ->
  exists l', map_to_self k fillIn es 0 l = Ok l' /\ length l' = length l /\
    forall pos x, nth_error l pos = Some x -> exists y, nth_error l' pos = Some y /\
      (forall n, nth_error es n = Some (ce_index x) ->
                 exists v, nth_error fillIn n = Some v /\ same_but k v x y) /\
      (~ In (ce_index x) es -> y = x).
Proof. intros N V U B. exact (@map_to_self_ok k fillIn es 0 l N V U B). Qed.
Print Assumptions C46_self.

Definition two_tree : tree := mkTree 2 [1; 2] [7; 8] [] [[10; 11]; [20; 20]].
Definition two_cells : cells := fun p =>
  if p =? 7 then [mkCell 10 1 0 0 0; mkCell 11 2 0 1 0]
  else if p =? 8 then [mkCell 20 3 0 (1 # 2) 0] else [].
Example C46_used : map_ready two_tree two_cells /\ NoDup (parentmesh two_tree) /\
  exists pm, return_parent_map two_cells two_tree [] = Ok pm /\
    parentcases pm = [(0, 10); (0, 11); (1, 20)] /\ parentpos pm = [0; 1; 2; 2] /\
    exists h', map_to_parent two_tree Fill [4%Q; 5%Q; 6%Q] (parentcases pm) 0 two_cells = Ok h' /\
               h' 8 = [mkCell 20 3 6 (1 # 2) 0].
Proof.
  split; [|split; [repeat constructor; cbn; intuition discriminate|]].
  - unfold map_ready. cbn. split; [reflexivity|]. split; [reflexivity|].
    intros [|[|j]] p H; [| |destruct j; discriminate]; injection H as <-; cbn;
      (split; [repeat constructor; cbn; intuition discriminate|]);
      intros row H; injection H as <-; (split; [reflexivity|]); cbn; intuition.
  - eexists. split; [reflexivity|]. split; [reflexivity|]. split; [reflexivity|].
    eexists. split; reflexivity.
Qed.
Example C46_self_used : map_to_self Error [4%Q; 5%Q] [11; 10] 0 (two_cells 7) =
  Ok [mkCell 10 1 0 0 5; mkCell 11 2 0 1 4].
Proof. reflexivity. Qed.

(** An element whose cell is missing from its parent is not reported: it is given
    the last constraint of the parent before, or -1. *)
Theorem C46_missing_refuted : exists pm,
  return_parent_map two_cells (mkTree 2 [1; 2] [7; 8] [] [[10; 99]; [20; 99]]) [] = Ok pm /\
  parentpos pm = [0; -1; 2; 1] /\ nth_error (parentcases pm) 1 = Some (0, 11).
Proof. eexists. split; [reflexivity|]. split; reflexivity. Qed.
Print Assumptions C46_missing_refuted.

(** The values vector is not cleared, so in a vector used before, the values are
    not those of the constraints at their positions. *)
Theorem C46_values_refuted t h q vals pm : map_ready t h ->
  return_parent_map h t (q :: vals) = Ok pm ->
  length (voluVals pm) = (S (length vals) + length (parentcases pm))%nat /\
  nth_error (voluVals pm) 0 = Some q.
Proof.
  intros R E. destruct (return_map_ok R (q :: vals)) as (pm' & E' & D1 & D2 & _).
  rewrite E in E'. injection E' as <-. rewrite D1, D2. split; [|reflexivity].
  rewrite app_length, map_length, cases_from_length. cbn. lia.
Qed.
Print Assumptions C46_values_refuted.

(** Once a parent has been destroyed, the elements are looked up in the wrong
    cells: here the two volumes of the child lie in cells 20 and 21 of the parent
    that is left, and both are given the position -1. *)
Theorem C46_destroyed_refuted : exists f pm, frun (story ++ [FDestroy 1]) nobody = Ok f /\
  return_parent_map (fun p => if p =? 2 then [mkCell 20 1 0 1 0; mkCell 21 1 0 1 0] else [])
                    (mtree (f 3)) [] = Ok pm /\
  parentcases pm = [(0, 20); (0, 21)] /\ parentpos pm = [-1; -1].
Proof.
  exists (after (story ++ [FDestroy 1])). eexists.
  split; [apply goes_ok; vm_compute; reflexivity|]. split; [vm_compute; reflexivity|].
  split; reflexivity.
Qed.
Print Assumptions C46_destroyed_refuted.

(** ** C66 and C46: what the functions for two dimensions do *)

Lemma first_bound_eq_spec b x : forall y, match first_bound_eq b x y with Some (p, q) => first_at_bound b x y p q | None => forall p q, ~ first_at_bound b x y p q end.
Proof.
  assert (Fe : forall x y, first_bound_eq b x y = match x, y with
    | x0 :: r0, x1 :: r1 => if negb (Qeq_bool x0 x1) && (Qeq_bool x0 b || Qeq_bool x1 b) then Some (x0, x1) else first_bound_eq b r0 r1 | _, _ => None end) by (intros [|] ?; reflexivity).
  induction x as [|x0 x IH]; intros y; rewrite Fe; [intros p q ([|i] & H & _); discriminate|].
  destruct y as [|y0 y]; [intros p q ([|i] & _ & H & _); discriminate|].
  destruct (negb (Qeq_bool x0 y0) && (Qeq_bool x0 b || Qeq_bool y0 b)) eqn:E.
  - apply andb_true_iff in E as [E1 E2]. apply negb_true_iff, Qeq_bool_neq in E1. apply orb_true_iff in E2. rewrite !Qeq_bool_iff in E2.
    exists 0%nat. split; auto. split; auto. split; auto. split; auto. intros j. lia.
  - assert (N : x0 == y0 \/ (~ x0 == b /\ ~ y0 == b)).
    { apply andb_false_iff in E as [E|E]; [left; apply Qeq_bool_iff; now apply negb_false_iff in E|right]. apply orb_false_iff in E as [E1 E2]. split; now apply Qeq_bool_neq. }
    assert (L : forall p q, first_at_bound b (x0 :: x) (y0 :: y) p q <-> first_at_bound b x y p q).
    { intros p q. split.
      - intros (i & H1 & H2 & H3 & H4 & H5). destruct i as [|i]; [injection H1 as ->; injection H2 as ->; tauto|]. exists i. split; auto. split; auto. split; auto. split; auto.
        intros j p' q' Hj. apply (H5 (S j)). lia.
      - intros (i & H1 & H2 & H3 & H4 & H5). exists (S i). split; auto. split; auto. split; auto. split; auto.
        intros [|j] p' q' Hj X Y; [injection X as <-; injection Y as <-; auto|]. apply (H5 j); auto. lia. }
    specialize (IH y). destruct (first_bound_eq b x y) as [[p q]|]; [apply L; auto|]. intros p q H. apply L in H. eapply IH; eauto.
Qed.
Lemma first_at_bound_fun b x y p q p' q' : first_at_bound b x y p q -> first_at_bound b x y p' q' -> p = p' /\ q = q'.
Proof.
  intros (i & H1 & H2 & H3 & H4 & H5) (j & K1 & K2 & K3 & K4 & K5). destruct (Nat.lt_trichotomy i j) as [L|[->|L]].
  - destruct (K5 i p q L H1 H2); tauto.
  - split; congruence.
  - destruct (H5 j p' q' L K1 K2); tauto.
Qed.
(** C66: exactly what is listed.  An edge with a side outside is listed when asked for; an
    edge between two surfaces is listed when it is a [crossing], which asks about the surface
    that has the index of the edge; then the sides at the bound are listed, without the
    surfaces on the border when the bound is 1. *)
Theorem C66_listed m t h ibb outer l ss : NoDup (map su_index (surfs m)) -> edge_on_bound m t h ibb outer = Ok (l, ss) ->
  (forall i, In i l <-> exists e, In e (edges m) /\ ed_index e = i /\
     ((exists s0 s1 r, ed_surfind e = s0 :: s1 :: r /\ (s0 = 0 \/ s1 = 0) /\ ibb = true) \/ exists s0 s1 p q, crossing m t h outer e s0 s1 p q)) /\
  (forall s, In s ss <-> exists e s0 s1, In e (edges m) /\
     (((exists r, ed_surfind e = s0 :: s1 :: r) /\ (s0 = 0 \/ s1 = 0) /\ ibb = true /\ s <> 0 /\ (s = s0 \/ s = s1)) \/
      exists p q, crossing m t h outer e s0 s1 p q /\ (outer = true \/ not_border m s) /\
        ((s = s0 /\ p == if outer then 0 else 1) \/ (s = s1 /\ q == if outer then 0 else 1))%Q)).
Proof.
  intros U. unfold edge_on_bound.
  assert (One : forall e b a, edge_on_bound1 m t h ibb outer e = Ok (b, a) ->
     (b = true <-> ((exists s0 s1 r, ed_surfind e = s0 :: s1 :: r /\ (s0 = 0 \/ s1 = 0) /\ ibb = true) \/ exists s0 s1 p q, crossing m t h outer e s0 s1 p q)) /\
     (forall s, In s a <-> exists s0 s1, (((exists r, ed_surfind e = s0 :: s1 :: r) /\ (s0 = 0 \/ s1 = 0) /\ ibb = true /\ s <> 0 /\ (s = s0 \/ s = s1)) \/
      exists p q, crossing m t h outer e s0 s1 p q /\ (outer = true \/ not_border m s) /\
        ((s = s0 /\ p == if outer then 0 else 1) \/ (s = s1 /\ q == if outer then 0 else 1))%Q))).
  { intros e b a E. unfold edge_on_bound1 in E. assert (Es : exists s0 s1 r, ed_surfind e = s0 :: s1 :: r) by (destruct (ed_surfind e) as [|s0 [|s1 r]]; try discriminate; eauto).
    destruct Es as (s0 & s1 & r & Es). rewrite Es in E. change (at_ (s0 :: s1 :: r) 0) with (Ok s0) in E. change (at_ (s0 :: s1 :: r) 1) with (Ok s1) in E. cbn [bind] in E.
    assert (Two : forall u v p q, crossing m t h outer e u v p q -> u = s0 /\ v = s1) by (intros u v p q ((r' & H) & _); rewrite Es in H; injection H as -> -> _; auto).
    destruct ((s0 =? 0) || (s1 =? 0)) eqn:Z.
    - assert (Z' : s0 = 0 \/ s1 = 0) by (apply orb_true_iff in Z; rewrite !Z.eqb_eq in Z; auto). injection E as <- <-.
      assert (No : forall u v p q, ~ crossing m t h outer e u v p q) by (intros u v p q C; destruct (Two _ _ _ _ C) as [-> ->]; destruct C as (_ & ? & ? & _); tauto).
      split.
      + split; [intros ->; left; exists s0, s1, r; auto|]. intros [(u & v & r' & _ & _ & H)|(u & v & p & q & C)]; [auto|now apply No in C].
      + intros s. split.
        * intros I. exists s0, s1. left. split; [now exists r|]. split; auto. destruct ibb; cbn [andb app] in I; [|easy]. split; auto.
          apply in_app_iff in I as [I|I]; [destruct (Z.eqb_spec s0 0)|destruct (Z.eqb_spec s1 0)]; cbn in I; try easy; destruct I as [<-|[]]; auto.
        * intros (u & v & [((r' & H) & _ & -> & N & O)|(p & q & C & _)]); [|now apply No in C]. rewrite Es in H. injection H as <- <- _. cbn [andb].
          apply in_app_iff. destruct O as [->| ->]; [left; destruct (Z.eqb_spec s0 0)|right; destruct (Z.eqb_spec s1 0)]; cbn; tauto.
    - apply orb_false_iff in Z as [Z0 Z1]. apply Z.eqb_neq in Z0, Z1. destruct (surf_in_parent m t (ed_index e)) as [j| | |] eqn:Ej; try discriminate. cbn [bind] in E.
      assert (Nz : forall u v r', ed_surfind e = u :: v :: r' -> ~ (u = 0 \/ v = 0)) by (intros u v r' H; rewrite Es in H; injection H as <- <- _; tauto).
      destruct (Z.leb_spec 0 j) as [J|J].
      + destruct (parent_values h t Target (find su_index (surfs m) s0) _ 0) as [x| | |] eqn:Ex; try discriminate. cbn [bind] in E.
        destruct (parent_values h t Target (find su_index (surfs m) s1) _ 0) as [y| | |] eqn:Ey; try discriminate. cbn [bind] in E.
        assert (Cr : forall p q, crossing m t h outer e s0 s1 p q <-> first_at_bound (bound_of outer) x y p q).
        { intros p q. split; [intros (_ & _ & _ & _ & x' & y' & X & Y & F); rewrite Ex in X; rewrite Ey in Y; injection X as <-; injection Y as <-; auto|].
          intros F. split; [exists r; auto|]. split; auto. split; auto. split; [exists j; auto|]. exists x, y. auto. }
        generalize (first_bound_eq_spec (bound_of outer) x y). destruct (first_bound_eq (bound_of outer) x y) as [[p q]|] eqn:Ef; intros F.
        * assert (Ad : forall s k, add_side m outer s = Ok k -> forall z, In z k <-> z = s /\ (outer = true \/ not_border m s)).
          { intros s k A z. unfold add_side in A. destruct outer; [injection A as <-; cbn; intuition auto|]. destruct (isearch su_index (surfs m) s) as [su| | |] eqn:Q; try discriminate. cbn [bind] in A. injection A as <-.
            assert (B : In su (surfs m) /\ su_index su = s).
            { unfold isearch in Q. destruct (find_spec su_index (surfs m) s) as [[Fx _]|(pp & xx & Fx & Hx & Ix)]; rewrite Fx in Q; [discriminate|]. rewrite (at_nat _ _ Hx) in Q. injection Q as <-. split; auto. eapply nth_error_In; eauto. }
            destruct B as [B1 B2]. destruct (su_border su) eqn:Bo; cbn; split; try easy.
            - intros [-> [K|(su' & I' & E' & Bf)]]; [discriminate|]. rewrite (NoDup_idx_inj su_index (surfs m) su' su U I' B1) in Bf by congruence. congruence.
            - intros [<-|[]]. split; auto. right. exists su. auto.
            - intros [-> _]. auto. }
          set (f1 := if Qeq_bool q (bound_of outer) then add_side m outer s1 else Ok []) in *. set (f0 := if Qeq_bool p (bound_of outer) then add_side m outer s0 else Ok []) in *.
          destruct f1 as [a1| | |] eqn:A1; try discriminate. cbn [bind] in E. destruct f0 as [a0| | |] eqn:A0; try discriminate. cbn [bind] in E. injection E as <- <-.
          assert (M1 : forall z, In z a1 <-> z = s1 /\ q == bound_of outer /\ (outer = true \/ not_border m s1)).
          { intros z. unfold f1 in A1. destruct (Qeq_bool q (bound_of outer)) eqn:Q; [apply Qeq_bool_iff in Q; rewrite (Ad _ _ A1); tauto|]. injection A1 as <-. apply Qeq_bool_neq in Q. cbn. tauto. }
          assert (M0 : forall z, In z a0 <-> z = s0 /\ p == bound_of outer /\ (outer = true \/ not_border m s0)).
          { intros z. unfold f0 in A0. destruct (Qeq_bool p (bound_of outer)) eqn:Q; [apply Qeq_bool_iff in Q; rewrite (Ad _ _ A0); tauto|]. injection A0 as <-. apply Qeq_bool_neq in Q. cbn. tauto. }
          split; [split; auto; intros _; right; exists s0, s1, p, q; now apply Cr|].
          intros s. rewrite in_app_iff, M1, M0. split.
          { intros H. exists s0, s1. right. exists p, q. split; [now apply Cr|]. destruct H as [(-> & H1 & H2)|(-> & H1 & H2)]; (split; [auto|]); [right|left]; auto. }
          { intros (u & v & [((r' & H) & N & _)|(p' & q' & C & B & H)]); [destruct (Nz _ _ _ H N)|]. destruct (Two _ _ _ _ C) as [-> ->]. apply Cr in C. destruct (first_at_bound_fun F C) as [<- <-].
            destruct H as [[-> H]|[-> H]]; auto. }
        * injection E as <- <-. split; [split; [discriminate|]|].
          { intros [(u & v & r' & H & N & _)|(u & v & p & q & C)]; [destruct (Nz _ _ _ H N)|]. destruct (Two _ _ _ _ C) as [-> ->]. apply Cr in C. now apply F in C. }
          { intros s. split; [easy|]. intros (u & v & [((r' & H) & N & _)|(p & q & C & _)]); [destruct (Nz _ _ _ H N)|]. destruct (Two _ _ _ _ C) as [-> ->]. apply Cr in C. now apply F in C. }
      + injection E as <- <-. assert (No : forall u v p q, ~ crossing m t h outer e u v p q) by (intros u v p q (_ & _ & _ & (j' & H & Hj) & _); rewrite Ej in H; injection H as <-; lia).
        split; [split; [discriminate|]|].
        { intros [(u & v & r' & H & N & _)|(u & v & p & q & C)]; [destruct (Nz _ _ _ H N)|now apply No in C]. }
        { intros s. split; [easy|]. intros (u & v & [((r' & H) & N & _)|(p & q & C & _)]); [destruct (Nz _ _ _ H N)|now apply No in C]. } }
  revert l ss. induction (edges m) as [|e es IH]; intros l ss E; cbn [edge_on_bound_loop] in E.
  - injection E as <- <-. split; intros i; (split; [easy|]); intros (e & H); [destruct H as [[] _]|destruct H as (s0 & s1 & [] & _)].
  - destruct (edge_on_bound1 m t h ibb outer e) as [[b a]| | |] eqn:E1; try discriminate. cbn [bind] in E.
    destruct (edge_on_bound_loop m t h ibb outer es) as [[l' ss']| | |]; try discriminate. cbn [bind fst snd] in E. injection E as <- <-.
    destruct (One e b a E1) as [O1 O2]. destruct (IH l' ss' eq_refl) as [I1 I2]. split.
    + intros i. rewrite in_app_iff, I1. split.
      * intros [I|(e' & I & H)]; [|exists e'; split; [now right|auto]]. destruct b; [|easy]. destruct I as [<-|[]]. exists e. split; [now left|]. split; auto. now apply O1.
      * intros (e' & [<-|I] & <- & H); [left; apply O1 in H; subst b; now left|right; exists e'; auto].
    + intros s. rewrite in_app_iff, O2, I2. split.
      * intros [(s0 & s1 & H)|(e' & s0 & s1 & I & H)]; [exists e, s0, s1; split; [now left|auto]|exists e', s0, s1; split; [now right|auto]].
      * intros (e' & s0 & s1 & [<-|I] & H); [left; exists s0, s1; auto|right; exists e', s0, s1; auto].
Qed.
Print Assumptions C66_listed.
(** A surface with the index of the edge decides: here surface 1 is between cells with
    targets 0 and 1 and so edge 1 is listed, with the sides of edge 1. *)
Definition mixed_mesh : mesh :=
  mkMesh [mkVolu 1 false []; mkVolu 2 false []] [mkSurf 1 false true [1; 2] []; mkSurf 2 true true [1; 0] []] [mkEdge 1 false [1; 2] []; mkEdge 2 false [2; 1] []; mkEdge 3 true [0; 2] []] [] 3.
Example C66_listed_used : NoDup (map su_index (surfs mixed_mesh)) /\
  edge_on_bound mixed_mesh row_tree row_cells true true = Ok ([1; 2; 3], [1; 1; 2]) /\ edge_on_bound mixed_mesh row_tree row_cells false false = Ok ([1; 2], []).
Proof. split; [repeat constructor; cbn; intuition discriminate|]. split; reflexivity. Qed.

(** C46: once SetMeshDepElm has listed the elements, ParentElementIndex gives for each of
    them the cell recorded at its position, and refuses parents that do not exist and
    meshes of other dimensions. *)
Theorem C46_lookup x j row p c v : let t := mtree (set_dep x) in
  meshDim (topo x) = 2 \/ meshDim (topo x) = 3 -> NoDup (elemind t) -> nth_error (elemind t) p = Some c ->
  nth_error (parentconn t) j = Some row -> nth_error row p = Some v -> parent_element_index (topo x) t c (Z.of_nat j) = Ok v.
Proof.
  intros t D N P R V. unfold parent_element_index. assert (j < length (parentconn t))%nat by (apply nth_error_Some; congruence).
  destruct (Z.leb_spec (Z.of_nat (length (parentconn t))) (Z.of_nat j)); [lia|]. destruct (Z.ltb_spec (Z.of_nat j) 0); [lia|]. cbn [orb].
  unfold t, set_dep, mtree, elemind, dep_elements in N, P. unfold conn_at. rewrite (at_nat _ _ R). cbn [bind].
  destruct D as [D|D]; rewrite D in *; cbn [Z.eqb Pos.eqb] in *; rewrite nth_error_map in P.
  - destruct (nth_error (surfs (topo x)) p) as [s|] eqn:Hs; [|discriminate]. injection P as <-. rewrite (@find_pos _ su_index _ p s N Hs). apply at_nat. auto.
  - destruct (nth_error (volus (topo x)) p) as [s|] eqn:Hs; [|discriminate]. injection P as <-. rewrite (@find_pos _ vo_index _ p s N Hs). apply at_nat. auto.
Qed.
Print Assumptions C46_lookup.
Theorem C46_no_parent m t c j : parent_element_index m t c j = Throw \/
  (0 <= j < Z.of_nat (length (parentconn t)) /\ (meshDim m = 2 \/ meshDim m = 3)).
Proof.
  unfold parent_element_index. destruct (Z.leb_spec (Z.of_nat (length (parentconn t))) j); [left; reflexivity|]. destruct (Z.ltb_spec j 0); [left; reflexivity|]. cbn [orb].
  destruct (Z.eqb_spec (meshDim m) 3); [right; lia|]. destruct (Z.eqb_spec (meshDim m) 2); [right; lia|]. now left.
Qed.
Print Assumptions C46_no_parent.
Example C46_lookup_used : let x := mkMember true (mkTree 1 [] [7] [] [[10; 11]]) false flat_mesh in
  meshDim (topo x) = 2 /\ NoDup (elemind (mtree (set_dep x))) /\ nth_error (elemind (mtree (set_dep x))) 1 = Some 2 /\ parent_element_index (topo x) (mtree (set_dep x)) 2 0 = Ok 11.
Proof. split; [reflexivity|]. split; [repeat constructor; cbn; intuition discriminate|]. split; reflexivity. Qed.
