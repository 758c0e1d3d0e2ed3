(** The lists of objects to remove from a snake, C117. *)
From Coq Require Import Lia Sorted.
From Verif Require Import Base Containers ContainersProofs Mesh SpecMesh MeshProofs FloodProofs CropProofs MeshCheck Detect Removal.
Set Implicit Arguments.
Open Scope Z_scope.

Lemma ex_cons (P : connec -> Prop) c l : (exists d, In d (c :: l) /\ P d) <-> P c \/ exists d, In d l /\ P d.
Proof. split; [intros (d & [<-|H] & X); eauto|intros [H|(d & H & X)]; [exists c|exists d]; simpl; auto]. Qed.
Lemma low_fold l : forall es vs es1 vs1, fold_left put_low l (es, vs) = (es1, vs1) ->
  (forall i, In i es1 <-> In i es \/ exists c, In c l /\ cn_type c = 2 /\ In i (cn_rmv c)) /\
  (forall i, In i vs1 <-> In i vs \/ exists c, In c l /\ (cn_type c = 1 \/ cn_type c = 5) /\ In i (cn_rmv c)).
Proof.
  induction l as [|c l IH]; intros es vs es1 vs1 H; cbn [fold_left] in H.
  - injection H as <- <-. split; intros i; (split; [auto|intros [A|(c & [] & _)]; exact A]).
  - cbn [put_low] in H. destruct (Z.eqb_spec (cn_type c) 2) as [T2|T2]; [|destruct (Z.eqb_spec (cn_type c) 3) as [T3|T3]; [|destruct (Z.eqb_spec (cn_type c) 5) as [T5|T5]; [|destruct (Z.eqb_spec (cn_type c) 1) as [T1|T1]]]];
      cbn [orb] in H; apply IH in H; destruct H as [A B]; (split; intros i; [rewrite A|rewrite B]; rewrite ex_cons, ?in_app_iff; clear A B;
      match goal with |- context [exists d, In d l /\ ?P d] => generalize (exists d, In d l /\ P d) | |- context [@ex connec ?Q] => generalize (@ex connec Q) end; intros E; intuition lia).
Qed.
Lemma high_fold l : forall ss vs ss1 vs1, fold_left put_high l (ss, vs) = (ss1, vs1) ->
  (forall i, In i ss1 <-> In i ss \/ exists c, In c l /\ cn_type c = 3 /\ In i (cn_rmv c)) /\
  (forall i, In i vs1 <-> In i vs \/ exists c, In c l /\ cn_type c = 4 /\ In i (cn_rmv c)).
Proof.
  induction l as [|c l IH]; intros ss vs ss1 vs1 H; cbn [fold_left] in H.
  - injection H as <- <-. split; intros i; (split; [auto|intros [A|(c & [] & _)]; exact A]).
  - cbn [put_high] in H. destruct (Z.eqb_spec (cn_type c) 3) as [T2|T2]; [|destruct (Z.eqb_spec (cn_type c) 4) as [T3|T3]];
      apply IH in H; destruct H as [A B]; (split; intros i; [rewrite A|rewrite B]; rewrite ex_cons, ?in_app_iff; clear A B;
      match goal with |- context [exists d, In d l /\ ?P d] => generalize (exists d, In d l /\ P d) | |- context [@ex connec ?Q] => generalize (@ex connec Q) end; intros E; intuition lia).
Qed.
(** Every list holds exactly the indices that records of its type remove, in increasing order
    and once each. *)
Theorem C117_lists l : exists es vs ss bs, low_removals l = (es, vs) /\ high_removals l = (ss, bs) /\
  StronglySorted Z.lt es /\ StronglySorted Z.lt vs /\ StronglySorted Z.lt ss /\ StronglySorted Z.lt bs /\
  (forall i, In i es <-> exists c, In c l /\ cn_type c = 2 /\ In i (cn_rmv c)) /\
  (forall i, In i vs <-> exists c, In c l /\ (cn_type c = 1 \/ cn_type c = 5) /\ In i (cn_rmv c)) /\
  (forall i, In i ss <-> exists c, In c l /\ cn_type c = 3 /\ In i (cn_rmv c)) /\
  (forall i, In i bs <-> exists c, In c l /\ cn_type c = 4 /\ In i (cn_rmv c)).
Proof.
  unfold low_removals, high_removals.
  destruct (fold_left put_low l ([], [])) as [es vs] eqn:L. destruct (fold_left put_high l ([], [])) as [ss bs] eqn:H.
  apply low_fold in L. apply high_fold in H. destruct L as [L1 L2], H as [H1 H2].
  exists (tighten es), (tighten vs), (tighten ss), (tighten bs). split; [reflexivity|]. split; [reflexivity|].
  split; [apply tighten_strict|]. split; [apply tighten_strict|]. split; [apply tighten_strict|]. split; [apply tighten_strict|].
  split; [intros i; rewrite tighten_In, L1; simpl; tauto|]. split; [intros i; rewrite tighten_In, L2; simpl; tauto|].
  split; [intros i; rewrite tighten_In, H1; simpl; tauto|intros i; rewrite tighten_In, H2; simpl; tauto].
Qed.
Print Assumptions C117_lists.
Lemma bare_eq l : forall out, fold_left (fun out s => if (length (su_edgeind s) =? 0)%nat then out ++ [su_index s] else out) l out
  = out ++ map su_index (filter (fun s => (length (su_edgeind s) =? 0)%nat) l).
Proof.
  induction l as [|s l IH]; intros out; cbn [fold_left filter]; [rewrite app_nil_r; reflexivity|]. rewrite IH.
  destruct (length (su_edgeind s) =? 0)%nat; [rewrite <- app_assoc|]; reflexivity.
Qed.
Lemma bare_In m i : In i (bare_surfs m) <-> exists s, In s (surfs m) /\ su_index s = i /\ su_edgeind s = [].
Proof.
  unfold bare_surfs. rewrite bare_eq. cbn [app]. rewrite in_map_iff. split.
  - intros (s & <- & H). apply filter_In in H. destruct H as [H E]. apply Nat.eqb_eq, length_zero_iff_nil in E. eauto.
  - intros (s & H & <- & E). exists s. split; [reflexivity|]. apply filter_In. rewrite E. auto.
Qed.
(** The surfaces without edges are all found, once each, and volumes refer to the other
    surfaces only; edges and vertices keep their references. *)
Theorem C117_bare m rmv : well_connected m ->
  exists m1 del, drop_bare m = Ok (m1, del) /\ well_connected m1 /\ NoDup del /\
    (forall i, In i del <-> exists s, In s (surfs m) /\ su_index s = i /\ su_edgeind s = []) /\
    (forall v s, VS m1 v s <-> VS m v s /\ ~ In s del) /\ (forall s v, SV m1 s v <-> SV m s v /\ ~ In s del) /\
    (forall v s, VS m1 v s -> exists e, SE m1 s e) /\
    (forall n e, VE m1 n e <-> VE m n e) /\ (forall e n, EV m1 e n <-> EV m e n) /\
    (forall e s, ES m1 e s <-> ES m e s) /\ (forall s e, SE m1 s e <-> SE m s e) /\
    map su_index (surfs m1) = map su_index (surfs m) /\ map vo_index (volus m1) = map vo_index (volus m) /\
    StronglySorted Z.lt (all_surfs rmv del) /\ (forall i, In i (all_surfs rmv del) <-> In i rmv \/ In i del).
Proof.
  intros W. assert (U : NoDup (map su_index (surfs m))) by (destruct W as [U _]; apply U).
  destruct (@removes3 (bare_surfs m) m W) as (m1 & E & W1 & O & (R1 & R2 & R3 & R4 & _ & R6) & S).
  { intros i Hi. apply bare_In in Hi. destruct Hi as (s & A & B & _). exists s. auto. }
  unfold drop_bare. rewrite E. cbn [bind]. exists m1, (bare_surfs m). unfold T in *.
  assert (none : forall s e, SE m s e -> ~ In s (bare_surfs m)).
  { intros i e (s & A & B & C) H. apply bare_In in H. destruct H as (t & A1 & B1 & C1).
    assert (s = t) as -> by (eapply (@NoDup_idx_inj _ su_index); eauto; congruence). rewrite C1 in C. destruct C. }
  assert (SEm : forall s e, SE m1 s e <-> SE m s e) by (intros s e; rewrite R4; split; [tauto|]; intros H; split; [exact H|split; [exact I|eapply none; exact H]]).
  split; [reflexivity|]. split; [exact W1|].
  split. { unfold bare_surfs. rewrite bare_eq. cbn [app]. clear - U. induction (surfs m) as [|s l IH]; [constructor|]. inversion U; subst. cbn [filter].
    destruct (length (su_edgeind s) =? 0)%nat; [|auto]. cbn [map]. constructor; [|auto]. intros H. apply H1. apply in_map_iff in H. destruct H as (t & A & B). apply filter_In in B. rewrite <- A. apply in_map. tauto. }
  split; [intros i; apply bare_In|]. split; [intros v s; rewrite R6; tauto|]. split; [intros s v; apply S|].
  split. { intros v s H. apply R6 in H. destruct H as (H & N & _).
    assert (K : has_surf m s). { destruct W as (_ & M & X). destruct M as (_ & _ & _ & _ & _ & M). destruct (Z.eq_dec s 0) as [->|Z0]; [exfalso; destruct X as (_ & _ & _ & X & _); exact (X v H)|].
      destruct (M s v H Z0) as (t & A & B & _). exists t. auto. }
    destruct K as (t & A & B). destruct (su_edgeind t) as [|e r] eqn:Q; [exfalso; apply N, bare_In; eauto|]. exists e. apply SEm. exists t. rewrite Q. simpl; auto. }
  split; [intros n e; rewrite R1; tauto|]. split; [intros e n; rewrite R2; tauto|].
  split. { intros e s. rewrite R3. split; [tauto|]. intros H. split; [exact H|]. split; [exact I|]. intros D.
    destruct (Z.eq_dec s 0) as [->|Z0].
    - apply bare_In in D. destruct D as (t & A & B & _). destruct W as ((_ & _ & _ & _ & _ & X & _) & _). apply X. exists t. auto.
    - destruct W as (_ & (_ & _ & M & _) & _). exact (none s e (M e s H Z0) D). }
  split; [exact SEm|]. destruct O as (O1 & O2 & _). split; [exact O2|]. split; [exact O1|].
  split; [apply tighten_strict|]. intros i. unfold all_surfs. rewrite tighten_In, in_app_iff. tauto.
Qed.
Print Assumptions C117_bare.
(** A volume with three faces, two of them without edges. *)
Definition with_bare : mesh := mkMesh [mkVolu 1 false [3; 1; 2]; mkVolu 2 false [2]] [mkSurf 1 false true [1; 0] [1; 2; 3]; mkSurf 3 false true [1; 0] []; mkSurf 2 false true [2; 1] []]
  [mkEdge 1 false [1] [1; 2]; mkEdge 2 false [1] [2; 3]; mkEdge 3 false [1] [3; 1]]
  [mkVert 1 false [1; 3]; mkVert 2 false [1; 2]; mkVert 3 false [2; 3]] 3.
Example C117_case : well_connected with_bare /\ (exists m1, drop_bare with_bare = Ok (m1, [3; 2]) /\ volus m1 = [mkVolu 1 false [1]; mkVolu 2 false []]) /\
  all_surfs [7; 2] [3; 2] = [2; 3; 7] /\
  low_removals [mkConnec 9 2 [9; 4]; mkConnec 1 1 [2]; mkConnec 4 2 [4]; mkConnec 3 3 [8]; mkConnec 5 5 [1; 2]] = ([4; 9], [1; 2]).
Proof. split; [apply well_connectedb_spec; vm_compute; reflexivity|]. split; [eexists; split; vm_compute; reflexivity|]. split; reflexivity. Qed.
