(** Checks for the examples: a mesh that is consistent, and a vertex inside one. *)
From Verif Require Import Base Containers Mesh SpecMesh SpecSpawn MeshProofs.
Set Implicit Arguments.
Open Scope Z_scope.

Section Lists.
Variables (A : Type) (idx : A -> Z) (get : A -> list Z).
Definition listsb (l : list A) (i x : Z) : bool := existsb (fun a => (idx a =? i) && mem_z x (get a)) l.
Lemma listsb_spec l i x : listsb l i x = true <-> lists idx get l i x.
Proof.
  unfold listsb. rewrite existsb_exists. split; intros [a [Ha H]]; exists a.
  - apply andb_true_iff in H. destruct H as [H1 H2]. apply Z.eqb_eq in H1. apply mem_z_In in H2. auto.
  - destruct H as [H1 H2]. split; auto. apply andb_true_iff. split; [apply Z.eqb_eq|apply mem_z_In]; auto.
Qed.
(** Every pair of the relation passes the test. *)
Definition allb (P : Z -> Z -> bool) (l : list A) : bool := forallb (fun a => forallb (P (idx a)) (get a)) l.
Lemma allb_spec P l : allb P l = true -> forall i x, lists idx get l i x -> P i x = true.
Proof.
  intros H i x [a [Ha [<- Hx]]]. unfold allb in H. rewrite forallb_forall in H. specialize (H a Ha). rewrite forallb_forall in H. auto.
Qed.
End Lists.
Fixpoint nodupb (l : list Z) : bool := match l with [] => true | x :: r => negb (mem_z x r) && nodupb r end.
Lemma nodupb_spec l : nodupb l = true -> NoDup l.
Proof.
  induction l as [|x r IH]; simpl; intros H; constructor; apply andb_true_iff in H; destruct H as [H1 H2]; auto.
  intros C. apply mem_z_In in C. rewrite C in H1. discriminate.
Qed.
Definition freeb {A} (idx : A -> Z) (l : list A) : bool := nodupb (map idx l) && negb (mem_z 0 (map idx l)).
Lemma freeb_spec A (idx : A -> Z) l : freeb idx l = true -> NoDup (map idx l) /\ ~ exists a, In a l /\ idx a = 0.
Proof.
  unfold freeb. intros H. apply andb_true_iff in H. destruct H as [H1 H2]. split; [apply nodupb_spec; auto|].
  intros [a [Ha E]]. apply (in_map idx) in Ha. rewrite E in Ha. apply mem_z_In in Ha. rewrite Ha in H2. discriminate.
Qed.
Definition well_connectedb (m : mesh) : bool :=
  freeb vo_index (volus m) && freeb su_index (surfs m) && freeb ed_index (edges m) && freeb ve_index (verts m) &&
  allb ve_index ve_edgeind (fun v e => negb (e =? 0) && listsb ed_index ed_vertind (edges m) e v) (verts m) &&
  allb ed_index ed_vertind (fun e v => negb (v =? 0) && listsb ve_index ve_edgeind (verts m) v e) (edges m) &&
  allb ed_index ed_surfind (fun e s => negb (s =? 0) && listsb su_index su_edgeind (surfs m) s e) (edges m) &&
  allb su_index su_edgeind (fun s e => negb (e =? 0) && listsb ed_index ed_surfind (edges m) e s) (surfs m) &&
  allb su_index su_voluind (fun s v => (v =? 0) || listsb vo_index vo_surfind (volus m) v s) (surfs m) &&
  allb vo_index vo_surfind (fun v s => negb (s =? 0) && listsb su_index su_voluind (surfs m) s v) (volus m).
Lemma well_connectedb_spec m : well_connectedb m = true -> well_connected m.
Proof.
  unfold well_connectedb. rewrite !andb_true_iff. intros [[[[[[[[[F1 F2] F3] F4] R1] R2] R3] R4] R5] R6].
  apply freeb_spec in F1. apply freeb_spec in F2. apply freeb_spec in F3. apply freeb_spec in F4.
  assert (B : forall a b, negb (a =? 0) && b = true -> a <> 0 /\ b = true).
  { intros a b H. apply andb_true_iff in H. destruct H as [H1 H2]. split; auto. intros ->. discriminate. }
  assert (G1 := @allb_spec _ _ _ _ _ R1). assert (G2 := @allb_spec _ _ _ _ _ R2). assert (G3 := @allb_spec _ _ _ _ _ R3).
  assert (G4 := @allb_spec _ _ _ _ _ R4). assert (G5 := @allb_spec _ _ _ _ _ R5). assert (G6 := @allb_spec _ _ _ _ _ R6).
  cbv beta in G1, G2, G3, G4, G5, G6.
  split; [unfold unique_indices; tauto|]. split.
  - unfold mutual. repeat apply conj.
    + intros v e H _. apply G1, B in H. apply listsb_spec. tauto.
    + intros v e H _. apply G2, B in H. apply listsb_spec. tauto.
    + intros v e H _. apply G3, B in H. apply listsb_spec. tauto.
    + intros v e H _. apply G4, B in H. apply listsb_spec. tauto.
    + intros v e H N. apply G5 in H. apply orb_true_iff in H. destruct H as [H|H]; [apply Z.eqb_eq in H; contradiction|]. apply listsb_spec. auto.
    + intros v e H _. apply G6, B in H. apply listsb_spec. tauto.
  - unfold exterior_only. repeat apply conj.
    + intros v H. apply G1, B in H. tauto.
    + intros v H. apply G2, B in H. tauto.
    + intros v H. apply G4, B in H. tauto.
    + intros v H. apply G6, B in H. tauto.
    + intros _ v H. apply G3, B in H. tauto.
Qed.

Definition touchesb (m : mesh) (v f : Z) : bool :=
  existsb (fun x => (ve_index x =? v) && existsb (fun e => listsb ed_index ed_surfind (edges m) e f) (ve_edgeind x)) (verts m).
Lemma touchesb_spec m v f : touchesb m v f = true <-> touches m v f.
Proof.
  unfold touchesb. rewrite existsb_exists. split.
  - intros [x [Hx H]]. apply andb_true_iff in H. destruct H as [H1 H2]. apply Z.eqb_eq in H1. apply existsb_exists in H2.
    destruct H2 as [e [He H2]]. exists e. split; [exists x; auto|apply listsb_spec; auto].
  - intros [e [[x [Hx [Ix He]]] H]]. exists x. split; auto. apply andb_true_iff. split; [apply Z.eqb_eq; auto|].
    apply existsb_exists. exists e. split; auto. apply listsb_spec. auto.
Qed.
Definition interiorb (m : mesh) (v : Z) : bool :=
  mem_z v (map ve_index (verts m)) &&
  forallb (fun x => negb (ve_index x =? v) || nodupb (ve_edgeind x)) (verts m) &&
  forallb (fun e => negb (listsb ve_index ve_edgeind (verts m) v (ed_index e)) ||
     match ed_vertind e with [a; b] => ((a =? v) && negb (b =? v)) || ((b =? v) && negb (a =? v)) | _ => false end) (edges m) &&
  forallb (fun s => negb (touchesb m v (su_index s)) ||
     (nodupb (su_edgeind s) &&
      match filter (listsb ve_index ve_edgeind (verts m) v) (su_edgeind s) with [a; b] => true | _ => false end &&
      match su_voluind s with [c; d] => negb (c =? d) && negb (c =? 0) && negb (d =? 0) | _ => false end)) (surfs m).
Lemma interiorb_spec m v : interiorb m v = true -> interior m v.
Proof.
  unfold interiorb. rewrite !andb_true_iff. intros [[[H1 H2] H3] H4].
  rewrite forallb_forall in H2, H3, H4. split; [|split; [|split]].
  - apply mem_z_In, in_map_iff in H1. destruct H1 as [x [E Hx]]. exists x. auto.
  - intros x Hx E. specialize (H2 x Hx). apply orb_true_iff in H2. destruct H2 as [H|H]; [|apply nodupb_spec; auto].
    rewrite E, Z.eqb_refl in H. discriminate.
  - intros e He H. specialize (H3 e He). apply listsb_spec in H. rewrite H in H3. simpl in H3.
    destruct (ed_vertind e) as [|a [|b [|c q]]]; try discriminate H3.
    apply orb_true_iff in H3. destruct H3 as [K|K]; apply andb_true_iff in K; destruct K as [K1 K2]; apply Z.eqb_eq in K1; apply negb_true_iff, Z.eqb_neq in K2; subst.
    + exists b. auto.
    + exists a. auto.
  - intros s Hs T. specialize (H4 s Hs). apply touchesb_spec in T. rewrite T in H4. simpl in H4.
    apply andb_true_iff in H4. destruct H4 as [K K3]. apply andb_true_iff in K. destruct K as [K1 K2].
    apply nodupb_spec in K1. split; auto. split.
    + destruct (filter (listsb ve_index ve_edgeind (verts m) v) (su_edgeind s)) as [|a [|b [|c q]]] eqn:F; try discriminate K2.
      exists a, b. assert (D : NoDup [a; b]) by (rewrite <- F; apply NoDup_filter; auto).
      inversion D as [|? ? D1 _]; subst. split; [intros ->; apply D1; simpl; auto|].
      intros e. unfold VE. rewrite <- listsb_spec, <- filter_In, F. simpl. intuition.
    + destruct (su_voluind s) as [|c [|d [|x q]]]; try discriminate K3. exists c, d.
      apply andb_true_iff in K3. destruct K3 as [K K6]. apply andb_true_iff in K. destruct K as [K4 K5].
      apply negb_true_iff, Z.eqb_neq in K4. apply negb_true_iff, Z.eqb_neq in K5. apply negb_true_iff, Z.eqb_neq in K6. auto.
Qed.
