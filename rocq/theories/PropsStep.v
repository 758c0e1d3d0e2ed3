(** C101 and C102: limits on the steps of snaxels. *)
From Verif Require Import Base Containers Mesh Flood Edit Num Snake StepLimit SpecMesh SpecGroup SpecSnake SpecStep
  ContainersProofs MeshProofs FloodProofs StepProofs SpawnStepProofs MeshCheck SnakeProofs PropsSnake PropsSpawn.
Import Mesh.
Set Implicit Arguments.
Open Scope Z_scope.

(** The positions of a value in a list. *)
Definition where_is (l : list Z) (k : Z) : list Z := rng_of (map (fun z => q_snax 0 0 0 0 0 z 0) l) k.
Lemma where_legal l : findall_of l (where_is l).
Proof.
  intros k. unfold where_is. destruct (rng_of_legal (map (fun z => q_snax 0 0 0 0 0 z 0) l) k) as [H1 H2]. split; auto.
  intro p. rewrite H2. split; intros [H0 H]; (split; [auto|]).
  - destruct H as [s [Hs He]]. rewrite nth_error_map in Hs. destruct (nth_error l (Z.to_nat p)); [|discriminate].
    injection Hs as <-. simpl in He. congruence.
  - exists (q_snax 0 0 0 0 0 k 0). rewrite nth_error_map, H. auto.
Qed.

Lemma lists_found {A} (idx : A -> Z) (get : A -> list Z) l i x :
  existsb (fun a => (idx a =? i) && mem_z x (get a)) l = true -> lists idx get l i x.
Proof.
  intros H. apply existsb_exists in H. destruct H as [a [Ha H]]. apply andb_prop in H. destruct H as [H1 H2].
  exists a. split; auto. split; [apply Z.eqb_eq; auto|apply mem_z_In; auto].
Qed.

(** ** C101 *)
(** Each edge has a limit in (0,1]: the mean, over the parent cells it touches, of the
    shortest edge of the parent cell, divided by its own length. *)
Theorem C101_limits : forall findall m len parents,
  well_connected m -> length len = length (edges m) -> (forall x, In x len -> (0 < x)%Q) ->
  (forall conn, findall_of conn (findall conn)) ->
  (forall cells conn, In (cells, conn) parents -> NoDup cells /\ length conn = length (volus m)) ->
  exists lims, set_limits findall m len parents = Ok lims /\ length lims = length (edges m) /\
    forall q a l x, nth_error (edges m) q = Some a -> nth_error len q = Some l -> nth_error lims q = Some x ->
      (0 < x <= 1)%Q /\
      exists ks xs, NoDup ks /\ (forall k, In k ks <-> shares m parents (ed_index a) k) /\
        Forall2 (shortest m len parents) ks xs /\ (ks = [] -> x == 1) /\ (ks <> [] -> x * l == qsum xs / count ks).
Proof. intros findall m len parents W L P Lg Pa. exact (set_limits_ok len W L findall P parents Lg Pa). Qed.
Print Assumptions C101_limits.

(** With these limits no snaxel moves further in space, in one update, than the given
    fraction of the length of its edge; on an edge inside one parent cell, than that
    fraction of the shortest edge of the parent cell. *)
Theorem C101_motion : forall findall m len parents lims maxD dt (l l' : list qsnax),
  well_connected m -> length len = length (edges m) -> (forall x, In x len -> (0 < x)%Q) ->
  (forall conn, findall_of conn (findall conn)) ->
  (forall cells conn, In (cells, conn) parents -> NoDup cells /\ length conn = length (volus m)) ->
  (0 <= maxD)%Q -> (forall s, In s l -> in01 (sx_d s)) ->
  set_limits findall m len parents = Ok lims ->
  @update_distance Qn (map ed_index (edges m)) lims true maxD dt l = Ok l' ->
  forall n s s' y, nth_error l n = Some s -> nth_error l' n = Some s' -> edge_length m len (sx_edge s) y ->
    (Qabs (sx_d s' - sx_d s) * y <= maxD * y)%Q /\
    forall k x, (forall k', shares m parents (sx_edge s) k' <-> k' = k) -> shortest m len parents k x ->
      (Qabs (sx_d s' - sx_d s) * y <= maxD * x)%Q.
Proof.
  intros findall m len parents lims maxD dt l l' W L P Lg Pa MD D01 R U n s s' y Hs Hs' Hy.
  destruct (set_limits_ok len W L findall P parents Lg Pa) as [lims' [R' [Ll Spec]]]. rewrite R in R'. injection R' as <-.
  assert (Hdt : exists t, nth_error dt n = Some t).
  { assert (K : length dt = length l).
    { unfold update_distance in U. destruct (Nat.eqb_spec (length dt) (length l)); auto. discriminate. }
    destruct (nth_error dt n) eqn:E; [eauto|]. apply nth_error_None in E. rewrite K in E.
    apply nth_error_None in E. congruence. }
  destruct Hdt as [t Ht]. destruct (C34_on_edge _ _ _ _ _ _ U) as [_ C]. destruct (C n s s' t Hs Hs' Ht) as [_ [_ [lim [[p [x [Hp [Hx El]]]] [Bd _]]]]].
  destruct Hy as [q [a [Hq [Ea Hl]]]].
  assert (p = q).
  { destruct W as [[_ [_ [Un _]]] _]. apply (proj1 (NoDup_nth_error (map ed_index (edges m)))); auto.
    - apply nth_error_Some. congruence.
    - rewrite Hp, nth_error_map, Hq. simpl. congruence. }
  subst p. destruct (Spec q a y x Hq Hl Hx) as [Hx01 [ks [xs [Nk [Ik [Fk [_ Kn]]]]]]].
  assert (Py : (0 < y)%Q) by (apply P; eapply nth_error_In; eauto).
  destruct Hx01 as [X0 X1]. change (x : Q) with x in *.
  assert (Hlim : (0 <= lim)%Q) by (rewrite El; apply Qmult_le_0_compat; [apply Qlt_le_weak; exact X0|exact MD]).
  pose proof (Bd Hlim (D01 s (nth_error_In _ _ Hs))) as B. rewrite El in B. clear Bd.
  set (dd := Qabs (sx_d s' - sx_d s)) in *.
  assert (By : (dd * y <= x * maxD * y)%Q) by (apply Qmult_le_compat_r; [exact B|apply Qlt_le_weak; exact Py]).
  clearbody dd. clear - By X0 X1 MD Py Ik Nk Fk Kn Ea. split.
  { eapply Qle_trans; [exact By|]. apply Qmult_le_compat_r; [|apply Qlt_le_weak; exact Py].
    rewrite <- (Qmult_1_l maxD) at 2. apply Qmult_le_compat_r; [exact X1|exact MD]. }
  intros k x0 Hk Hsh. rewrite Ea in Ik.
  assert (Hks : ks = [k]).
  { assert (I : In k ks) by (apply Ik, Hk; reflexivity).
    destruct ks as [|k1 [|k2 r]]; [destruct I| |].
    - f_equal. apply Hk, Ik. simpl. auto.
    - exfalso. assert (k1 = k) by (apply Hk, Ik; simpl; auto). assert (k2 = k) by (apply Hk, Ik; simpl; auto). subst.
      inversion Nk as [|? ? N1 _]. apply N1. simpl. auto. }
  subst ks. inversion Fk as [|? x1 ? r1 S1 F1]; subst. inversion F1; subst.
  assert (E1 : x1 == x0).
  { destruct S1 as [[e1 [A1 B1]] C1]. destruct Hsh as [[e0 [A0 B0]] C0].
    pose proof (C1 _ _ A0 B0). pose proof (C0 _ _ A1 B1). lra. }
  specialize (Kn ltac:(discriminate)). unfold qsum, count in Kn. simpl in Kn. change (inject_Z 1) with 1%Q in Kn.
  assert (Kx : x * y == x0) by (rewrite Kn, E1; field). rewrite <- Kx.
  eapply Qle_trans; [exact By|]. apply Qle_lteq. right. ring.
Qed.
Print Assumptions C101_motion.

(** Two parent cells on [ball]: the cells at vertex 5 and those at vertex 6. *)
Definition ball_parents : list (list Z * list Z) := [([1; 2], [1; 1; 1; 2; 2; 2; 2])].
Definition ball_len : list Q := [2; 2; 2; 1; 2; 2; 2; 2; 2; 2; 2; 2; 2; 2]%Q.
Definition same_q (l l' : list Q) : bool := forallb (fun p => Qeq_bool (fst p) (snd p)) (combine l l') && (length l =? length l')%nat.
Example C101_used : well_connected ball /\ length ball_len = length (edges ball) /\ (forall x, In x ball_len -> (0 < x)%Q) /\
  (forall conn, findall_of conn (where_is conn)) /\
  (forall cells conn, In (cells, conn) ball_parents -> NoDup cells /\ length conn = length (volus ball)) /\
  exists lims, set_limits where_is ball ball_len ball_parents = Ok lims /\
    same_q lims [3#4; 3#4; 3#4; 1; 1; 3#4; 3#4; 1#2; 1; 3#4; 1#2; 1; 1#2; 1]%Q = true.
Proof.
  split; [exact ball_connected|]. split; [reflexivity|]. split.
  { intros x Hx. unfold ball_len in Hx. simpl in Hx. decompose [or] Hx; subst; try reflexivity; contradiction. }
  split; [exact where_legal|]. split.
  { intros cells conn [E|[]]. injection E as <- <-. split; [repeat constructor; simpl; lia|reflexivity]. }
  eexists. split; [vm_compute; reflexivity|vm_compute; reflexivity].
Qed.
(** The comment of the function promises the same limit in space for all edges of a parent
    cell.  An edge it shares with another parent cell gets another: here 1 for edge 8 and
    3/2 for edge 1, both on cells of parent cell 1. *)
Theorem C101_border_refuted : exists lims x y,
  set_limits where_is ball ball_len ball_parents = Ok lims /\
  shares ball ball_parents 8 (0%nat, 1) /\ shares ball ball_parents 1 (0%nat, 1) /\
  nth_error lims 7 = Some x /\ nth_error lims 0 = Some y /\ x * 2 == 1 /\ y * 2 == 3 # 2.
Proof.
  do 3 eexists. split; [vm_compute; reflexivity|]. split; [|split; [|split; [reflexivity|split; [reflexivity|split; reflexivity]]]].
  - exists [1; 2], [1; 1; 1; 2; 2; 2; 2], 0%nat, (mkVolu 1 true [1; 3; 6; 11]), 3. do 5 (split; [simpl; auto|]).
    apply lists_found. reflexivity.
  - exists [1; 2], [1; 1; 1; 2; 2; 2; 2], 0%nat, (mkVolu 1 true [1; 3; 6; 11]), 1. do 5 (split; [simpl; auto|]).
    apply lists_found. reflexivity.
Qed.
Print Assumptions C101_border_refuted.

(** ** C102 *)
(** missing: edges with several snaxels, see the refutation below. *)
Theorem C102_step_partial : forall rng m len (l : list qsnax) step minIndex,
  well_connected m -> length len = length (edges m) -> (forall x, In x len -> (0 < x)%Q) ->
  legal_rng l rng -> (forall s, In s l -> length (siblings l s) = 1%nat) ->
  (forall s, In s l -> EV m (sx_edge s) (sx_from s) /\ EV m (sx_edge s) (sx_to s)) ->
  (forall s, In s l -> minIndex < sx_index s -> sx_d s == 0 \/ sx_d s == 1) -> (@neps Qn <= step < 1 # 2)%Q ->
  exists l', take_spawn_steps rng m len minIndex step l = Ok l' /\ Forall2 (stepped m len step minIndex) l l'.
Proof. intros rng m len l step minIndex W L P Lg Al On New St. exact (steps_alone len W L P Lg Al On New St). Qed.
Print Assumptions C102_step_partial.
Definition fresh : list qsnax := [q_snax 1 (1 # 3) 1 2 1 1 1; q_snax 2 0 1 1 5 4 1; q_snax 3 1 1 3 1 2 1].
Example C102_used : well_connected ball /\ legal_rng fresh (rng_of fresh) /\ (forall s, In s fresh -> length (siblings fresh s) = 1%nat) /\
  (forall s, In s fresh -> EV ball (sx_edge s) (sx_from s) /\ EV ball (sx_edge s) (sx_to s)) /\
  (forall s, In s fresh -> 1 < sx_index s -> sx_d s == 0 \/ sx_d s == 1) /\ (@neps Qn <= 1 # 4 < 1 # 2)%Q /\
  exists l', take_spawn_steps (rng_of fresh) ball ball_len 1 (1 # 4) fresh = Ok l' /\
    same_q (map (fun s => sx_d s) l') [1 # 3; 1 # 4; 7 # 8]%Q = true.
Proof.
  split; [exact ball_connected|]. split; [apply rng_of_legal|].
  split; [intros s [<-|[<-|[<-|[]]]]; reflexivity|].
  split; [intros s [<-|[<-|[<-|[]]]]; split; apply lists_found; reflexivity|].
  split; [intros s [<-|[<-|[<-|[]]]] H; simpl in *; [lia|left; reflexivity|right; reflexivity]|].
  split; [split; [discriminate|reflexivity]|].
  eexists. split; [vm_compute; reflexivity|vm_compute; reflexivity].
Qed.
(** Two new snaxels at the two ends of an edge: each is put back at its vertex, because the
    distance of the other, measured from the other end, is taken for a neighbour's. *)
Definition facing : list qsnax := [q_snax 1 0 1 1 2 1 1; q_snax 2 0 1 2 1 1 2].
Theorem C102_facing_refuted : (forall s, In s facing -> EV ball (sx_edge s) (sx_from s) /\ EV ball (sx_edge s) (sx_to s)) /\
  legal_rng facing (rng_of facing) /\
  exists l', take_spawn_steps (rng_of facing) ball ball_len 0 (1 # 4) facing = Ok l' /\
    forall s, In s l' -> sx_d s == 0.
Proof.
  split; [intros s [<-|[<-|[]]]; split; apply lists_found; reflexivity|]. split; [apply rng_of_legal|].
  eexists. split; [vm_compute; reflexivity|]. intros s [<-|[<-|[]]]; reflexivity.
Qed.
Print Assumptions C102_facing_refuted.
