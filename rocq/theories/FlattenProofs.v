(** Lemmas for C111. *)
From Coq Require Import Lia.
From Verif Require Import Base Containers Mesh Order MeshTri SplitSurf Flatten SpecMesh SpecOrder SpecMeshTri SpecSplitSurf SpecFlatten
  ContainersProofs MeshProofs OrderProofs OrderMeshProofs SwitchProofs MergeProofs SplitSurfProofs SplitSurfLoop SpecTriangulate WalkProofs.
Import Mesh.
Set Implicit Arguments.
Open Scope Z_scope.

(** ** Polygons are walked whole *)
Lemma outline_reach0 m s vs : outlined m s vs -> forall i e0 e, nth_error (su_edgeind s) 0 = Some e0 ->
  nth_error (su_edgeind s) i = Some e -> reach (edges_meet m (su_edgeind s)) e0 e.
Proof.
  intros O. induction i as [|i IH]; intros e0 e E0 E; [assert (e0 = e) by congruence; subst; constructor|].
  destruct (nth_error (su_edgeind s) i) as [f|] eqn:Ef.
  2:{ apply nth_error_None in Ef. assert (S i < length (su_edgeind s))%nat by (apply nth_error_Some; congruence). lia. }
  eapply reach_step; [apply (IH e0 f); auto|]. split; [eapply nth_error_In; eauto|]. split; [eapply nth_error_In; eauto|].
  destruct (outline_at O i Ef) as (a & b & A & B & J). destruct (outline_at O (S i) E) as (c & d & C & D & J').
  assert (L : (S i < length vs)%nat) by (apply nth_error_Some; congruence).
  unfold succ_mod in B. destruct (Nat.eqb_spec (i + 1) (length vs)); [lia|]. rewrite Nat.add_1_r, C in B. injection B as <-.
  exists c. split; [exists a; destruct J; [right|left]; auto|exists d; auto].
Qed.
Lemma outline_reach m s vs e f : outlined m s vs -> In e (su_edgeind s) -> In f (su_edgeind s) -> reach (edges_meet m (su_edgeind s)) e f.
Proof.
  intros O Ie If. apply In_nth_error in Ie as [i Ei]. apply In_nth_error in If as [j Ej].
  destruct (nth_error (su_edgeind s) 0) as [e0|] eqn:E0; [|destruct (su_edgeind s); [destruct i; discriminate|discriminate]].
  eapply reach_snoc; [apply reach_sym|]; eapply outline_reach0; eauto.
Qed.
(** A set of edges that is one polygon. *)
Definition whole (m : mesh) (l : list Z) : Prop :=
  l <> [] /\ simple_loops m l /\ forall e f, In e l -> In f l -> reach (edges_meet m l) e f.
Lemma outline_whole m s vs : NoDup (map ed_index (edges m)) -> outlined m s vs -> whole m (su_edgeind s).
Proof.
  intros U O. split; [destruct (outline_len O) as [L1 L2]; destruct (su_edgeind s); [simpl in L1; lia|discriminate]|].
  split; [exact (outline_loops U O)|]. intros e f. apply (@outline_reach m s vs e f O).
Qed.
Lemma whole_same m m' l l' : same_ends m m' -> (forall e, In e l' <-> In e l) -> whole m l -> whole m' l'.
Proof.
  intros E I (N & H1 & H2). split; [|split].
  - intros ->. destruct l as [|x r]; [congruence|]. apply (proj2 (I x)). simpl; auto.
  - apply (@simple_loops_same m m' l l'); auto.
  - intros e f Ie If. apply I in Ie. apply I in If. specialize (H2 e f Ie If).
    apply (@reach_iff _ (edges_meet m l) (edges_meet m' l')); auto.
    intros x y. rewrite (@same_meet m m' l' E x y). symmetry. apply meet_list; auto.
Qed.

(** ** Ordering surfaces that are whole polygons *)
Section Whole.
Variable table : list Z -> Z -> list nat.
Hypothesis Ht : forall l, is_table l (table l).
Variable m : mesh.
Hypothesis Hu : NoDup (map ed_index (edges m)).

Lemma whole_order l : whole m l -> exists r vs, surf_order m table l = Ok (ordered, r) /\ (forall e, In e r <-> In e l) /\
  NoDup r /\ NoDup vs /\ polygon (edge_joins m) r vs.
Proof using Ht Hu.
  intros (N & S1 & R). destruct (@surface_order m table l Hu Ht N S1) as (c & r & vs & e0 & E & I0 & _ & P & N1 & N2 & M & C & O).
  assert (c = ordered) as -> by (apply O; intros; apply R; auto).
  exists r, vs. split; auto. split; auto. intros e. rewrite M. split; [tauto|]. intros I. split; auto.
Qed.
(** What a pass writes into a surface. *)
Definition walked (s : surf) : surf :=
  if su_ordered s then s else
  match surf_order m table (su_edgeind s) with Ok (_, l) => su_write l true s | _ => s end.
Hypothesis Hw : forall s, In s (surfs m) -> su_ordered s = false -> whole m (su_edgeind s).

Lemma order_surface_whole n s ss cap fuel : nth_error ss n = Some s -> In s (surfs m) -> su_ordered s = false ->
  order_surface table (S fuel) (Z.of_nat n) (with_surfs m ss) cap = Ok (with_surfs m (upd ss n (walked s)), cap, -1).
Proof using Ht Hu Hw.
  intros E I O. cbn [order_surface]. change (surfs (with_surfs m ss)) with ss. rewrite (at_nth _ _ E). cbn [bind].
  destruct (whole_order (Hw s I O)) as (r & vs & Q & _). change (surf_order (with_surfs m ss) table (su_edgeind s)) with (surf_order m table (su_edgeind s)).
  rewrite Q. cbn [bind]. change (negb (ordered =? truncated)) with true. cbn iota. rewrite (modify_nth _ _ _ E). cbn [bind].
  unfold walked. rewrite O, Q. reflexivity.
Qed.
Lemma pass_whole : forall k done todo cap fuel pairs, length todo = k -> surfs m = done ++ todo -> (k < fuel)%nat ->
  order_pass table fuel (Z.of_nat (length done)) (with_surfs m (map walked done ++ todo)) cap pairs = Ok (with_surfs m (map walked (surfs m)), cap, pairs).
Proof using Ht Hu Hw.
  induction k as [|k IH]; intros done todo cap fuel pairs L E F; (destruct fuel as [|fuel]; [lia|]); cbn [order_pass];
    change (surfs (with_surfs m (map walked done ++ todo))) with (map walked done ++ todo); rewrite app_length, map_length.
  - destruct todo; [|discriminate]. rewrite app_nil_r in *. rewrite E. simpl length. rewrite Nat.add_0_r, Z.ltb_irrefl. reflexivity.
  - destruct todo as [|s todo]; [discriminate|]. destruct (Z.ltb_spec (Z.of_nat (length done)) (Z.of_nat (length done + length (s :: todo)))); [|simpl in *; lia].
    assert (En : nth_error (map walked done ++ s :: todo) (length done) = Some s).
    { rewrite nth_error_app2 by (rewrite map_length; auto). rewrite map_length, Nat.sub_diag. reflexivity. }
    assert (Is : In s (surfs m)) by (rewrite E; apply in_or_app; right; left; auto).
    rewrite (at_nth _ _ En). cbn [bind].
    assert (EE : surfs m = (done ++ [s]) ++ todo) by (rewrite <- app_assoc; exact E).
    assert (LL : Z.of_nat (length done) + 1 = Z.of_nat (length (done ++ [s]))) by (rewrite app_length; simpl; lia).
    assert (UU : forall x, upd (map walked done ++ s :: todo) (length done) x = map walked done ++ x :: todo).
    { intros x. replace (length done) with (length (map walked done)) by apply map_length. clear. induction (map walked done) as [|y r IH]; simpl; auto. rewrite IH. reflexivity. }
    destruct (su_ordered s) eqn:O.
    + replace (map walked done ++ s :: todo) with (map walked (done ++ [s]) ++ todo) in *.
      2:{ rewrite map_app, <- app_assoc. simpl. unfold walked at 2. rewrite O. reflexivity. }
      rewrite LL. apply IH; auto; simpl in L; lia.
    + rewrite (@order_surface_whole (length done) s _ cap _ En Is O). cbn [bind]. change (-1 <? -1) with false. cbn iota.
      rewrite UU. replace (map walked done ++ walked s :: todo) with (map walked (done ++ [s]) ++ todo) by (rewrite map_app, <- app_assoc; reflexivity).
      rewrite LL. apply IH; auto; simpl in L; lia.
Qed.
Lemma order_edges_whole cap fuel : (length (surfs m) < fuel)%nat ->
  order_edges table fuel m cap = Ok (with_surfs m (map walked (surfs m)), cap, []).
Proof using Ht Hu Hw.
  intros F. unfold order_edges. destruct (surfs m) as [|s0 r0] eqn:Es.
  - destruct m as [a b c d e]. simpl in *. subst. reflexivity.
  - rewrite <- Es in *. destruct fuel as [|fuel]; [lia|]. unfold order_passes; fold order_passes.
    assert (Q := @pass_whole (length (surfs m)) [] (surfs m) cap (S fuel) [] eq_refl eq_refl F).
    cbn [map app length] in Q. assert (Em : with_surfs m (surfs m) = m) by (destruct m; reflexivity). rewrite Em in Q.
    change (Z.of_nat 0) with 0 in Q. rewrite Q. cbn [bind]. rewrite Z.eqb_refl. reflexivity.
Qed.
Lemma walked_spec s : In s (surfs m) -> (su_ordered s = true -> one_polygon m (su_edgeind s)) ->
  su_index (walked s) = su_index s /\ su_border (walked s) = su_border s /\ su_voluind (walked s) = su_voluind s /\
  (forall e, In e (su_edgeind (walked s)) <-> In e (su_edgeind s)) /\ su_ordered (walked s) = true /\ one_polygon m (su_edgeind (walked s)).
Proof using Ht Hu Hw.
  intros I H. unfold walked. destruct (su_ordered s) eqn:O; [rewrite O; repeat split; auto; apply H; auto|].
  destruct (whole_order (Hw s I O)) as (r & vs & Q & M & N1 & N2 & P). rewrite Q. simpl. split; auto. split; auto. split; auto. split; auto. split; auto.
  split; auto. exists vs. auto.
Qed.
End Whole.
