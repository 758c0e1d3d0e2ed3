(** Proofs about Orient.v. *)
From Verif Require Import Base Mesh Edit Order SpecMesh SpecOrder SpecEdit MeshProofs FloodProofs EditProofs PropsEdit OrderMeshProofs PropsOrder Orient SpecOrient.
Import Mesh.
Set Implicit Arguments.
Open Scope Z_scope.

Definition tf (f : Z -> bool) (s : surf) : surf := if f (su_index s) then turn s else s.
Lemma tf_idx f s : su_index (tf f s) = su_index s.
Proof. unfold tf. destruct (f (su_index s)); reflexivity. Qed.
Lemma tf_edges f s : su_edgeind (tf f s) = su_edgeind s.
Proof. unfold tf. destruct (f (su_index s)); reflexivity. Qed.
Lemma tf_volus f s a b : su_voluind s = [a; b] -> su_voluind (tf f s) = if f (su_index s) then [b; a] else [a; b].
Proof. intros E. unfold tf. destruct (f (su_index s)); simpl; rewrite E; reflexivity. Qed.
Lemma tf_In f s v : In v (su_voluind (tf f s)) <-> In v (su_voluind s).
Proof. unfold tf. destruct (f (su_index s)); simpl; [rewrite <- in_rev|]; tauto. Qed.

Lemma upd_map A B (idx : A -> Z) (h : A -> B) (phi : B -> B) l q a :
  NoDup (map idx l) -> nth_error l q = Some a ->
  upd (map h l) q (phi (h a)) = map (fun x => if idx x =? idx a then phi (h x) else h x) l.
Proof.
  revert q. induction l as [|x r IH]; intros [|q] N H; simpl in *; try discriminate.
  - injection H as ->. rewrite Z.eqb_refl. f_equal. inversion N as [|? ? N1 N2]; subst. apply map_ext_in. intros y Hy.
    destruct (Z.eqb_spec (idx y) (idx a)) as [E|]; auto. exfalso. apply N1. rewrite <- E. apply in_map; auto.
  - inversion N as [|? ? N1 N2]; subst. destruct (Z.eqb_spec (idx x) (idx a)) as [E|E].
    + exfalso. apply N1. rewrite E. apply in_map. eapply nth_error_In; eauto.
    + f_equal. apply IH; auto.
Qed.
Lemma at_map A B (h : A -> B) l p a : at_ l p = Ok a -> at_ (map h l) p = Ok (h a).
Proof. intros H. apply at_Ok in H as [H0 H]. apply at_Ok. split; auto. rewrite nth_error_map, H. reflexivity. Qed.

(** The decision to flip, in terms of a shared cell. *)
Lemma flip_spec a0 a1 b0 b1 v r : a0 <> a1 -> b0 <> b1 -> v <> 0 -> (v = a0 \/ v = a1) -> (v = b0 \/ v = b1) -> (r = 1 \/ r = -1) ->
  (let t0 := (((b0 =? a0) || (b1 =? a0)) && negb (a0 =? 0))%bool in
   let t1 := (((b0 =? a1) || (b1 =? a1)) && negb (a1 =? 0))%bool in
   ((r =? -1) && ((t0 && negb (b0 =? a0)) || (t1 && negb (b1 =? a1)))) || ((r =? 1) && ((t0 && (b0 =? a0)) || (t1 && (b1 =? a1)))))%bool
  = Bool.eqb (r =? 1) (Bool.eqb (a0 =? v) (b0 =? v)).
Proof.
  intros Ha Hb Hv Va Vb Hr.
  destruct Hr; subst r; destruct Va, Vb; subst; cbn [Z.eqb Pos.eqb];
  repeat match goal with |- context [?x =? ?y] => destruct (Z.eqb_spec x y); try (exfalso; congruence) end; reflexivity.
Qed.

Lemma first_b s f p q v : su_voluind s = [p; q] -> p <> q -> (v = p \/ v = q) ->
  (first_side (tf f s) v <-> xorb (f (su_index s)) (p =? v) = true).
Proof.
  intros E Hpq Hv. unfold first_side. rewrite (tf_volus f s E).
  destruct (f (su_index s)); simpl; destruct (Z.eqb_spec p v); split; intros H; try discriminate; try reflexivity;
    try (injection H as H); try (f_equal; destruct Hv; congruence); exfalso; destruct Hv; congruence.
Qed.

Lemma polygon_follows join (l vs : list Z) e : polygon join l vs -> In e l -> exists a b, join e a b /\ follows vs a b.
Proof.
  intros [L P] H. apply In_nth_error in H as [i H].
  assert (I : (i < length vs)%nat) by (rewrite L; apply nth_error_Some; congruence).
  destruct (nth_error vs i) as [a|] eqn:A; [|apply nth_error_None in A; lia].
  destruct (nth_error (tl vs ++ firstn 1 vs) i) as [b|] eqn:B.
  - exists a, b. split; [eapply P; eauto|]. exists i. auto.
  - exfalso. apply nth_error_None in B. rewrite app_length in B. destruct vs; simpl in *; lia.
Qed.

Lemma F2_nth A B (P : A -> B -> Prop) l l' n a : Forall2 P l l' -> nth_error l n = Some a -> exists b, nth_error l' n = Some b /\ P a b.
Proof.
  intros F. revert n. induction F as [|x y l l' H F IH]; intros [|n] E; simpl in *; try discriminate.
  - injection E as <-. exists y. auto.
  - apply IH; auto.
Qed.

Section O.
Variable m : mesh.
Hypothesis HW : well_connected m.
Hypothesis HF : faces m.

Lemma nd_s : NoDup (map su_index (surfs m)).
Proof using HW. destruct HW as [[_ [H _]] _]. exact H. Qed.
Lemma nd_e : NoDup (map ed_index (edges m)).
Proof using HW. destruct HW as [[_ [_ [H _]]] _]. exact H. Qed.
Definition pos (s : surf) : Z := find su_index (surfs m) (su_index s).
Lemma at_pos s : In s (surfs m) -> at_ (surfs m) (pos s) = Ok s.
Proof using HW.
  intros H. destruct (@find_at _ su_index (surfs m) (su_index s)) as [a [A [I E]]]; [exists s; auto|].
  unfold pos. rewrite A. f_equal. eapply NoDup_idx_inj; eauto. apply nd_s.
Qed.
Lemma modify_pos B (h : surf -> B) phi s : In s (surfs m) ->
  modify (map h (surfs m)) (pos s) phi = Ok (map (fun x => if su_index x =? su_index s then phi (h x) else h x) (surfs m)).
Proof using HW.
  intros H. unfold modify. rewrite (at_map h _ _ (at_pos _ H)). cbn [bind]. f_equal.
  apply upd_map; [apply nd_s|]. pose proof (at_pos _ H) as A. apply at_Ok in A. tauto.
Qed.

Lemma corners_turned g s vs : corners (turned g m) s vs <-> corners m s vs.
Proof. unfold corners. reflexivity. Qed.
Lemma corners_tf g s vs : corners m (tf g s) vs <-> corners m s vs.
Proof. unfold corners. rewrite tf_edges. reflexivity. Qed.

Lemma edge_unique e a b a' b' : edge_is m e a b -> edge_is m e a' b' -> a = a' /\ b = b'.
Proof using HW.
  intros [x [X1 [X2 X3]]] [y [Y1 [Y2 Y3]]]. assert (x = y) by (eapply NoDup_idx_inj; [apply nd_e| | |]; eauto; congruence).
  subst y. rewrite X3 in Y3. injection Y3; auto.
Qed.
Lemma runs s vs e a b : corners m s vs -> In e (su_edgeind s) -> edge_is m e a b -> follows vs a b \/ follows vs b a.
Proof using HW.
  intros [_ [_ P]] He E. destruct (polygon_follows _ P He) as [x [y [J F]]].
  destruct J as [J|J]; destruct (edge_unique E J); subst; auto.
Qed.

(** The comparison of two surfaces, as a boolean. *)
Lemma alike_b g s t e a b v vs ws r p q u w : oriented (turned g m) -> In s (surfs m) -> In t (surfs m) -> su_index s <> su_index t ->
  In e (su_edgeind s) -> In e (su_edgeind t) -> edge_is m e a b -> v <> 0 -> corners m s vs -> corners m t ws ->
  su_voluind s = [p; q] -> p <> q -> su_voluind t = [u; w] -> u <> w -> (v = p \/ v = q) -> (v = u \/ v = w) ->
  (r = 1 <-> (follows vs a b <-> follows ws a b)) ->
  (r =? 1) = xorb (xorb (g (su_index s)) (p =? v)) (xorb (g (su_index t)) (u =? v)).
Proof using HW.
  intros O Is It Ne Es Et E Hv Cs Ct Vs Npq Vt Nuw Ivs Ivt R.
  assert (A : alike (turned g m) (tf g s) (tf g t)).
  { apply O; [apply in_map_iff; exists s; auto|apply in_map_iff; exists t; auto|rewrite !tf_idx; auto]. }
  specialize (A e a b v vs ws). rewrite !tf_edges, !tf_In, !corners_turned, !corners_tf in A.
  specialize (A Es Et E Hv).
  assert (X1 : In v (su_voluind s)) by (rewrite Vs; simpl; intuition).
  assert (X2 : In v (su_voluind t)) by (rewrite Vt; simpl; intuition).
  specialize (A X1 X2 Cs Ct). rewrite (first_b s g Vs Npq Ivs), (first_b t g Vt Nuw Ivt) in A. rewrite <- R in A.
  destruct (xorb (g (su_index s)) (p =? v)), (xorb (g (su_index t)) (u =? v)); simpl; destruct (Z.eqb_spec r 1) as [E1|E1]; auto; exfalso.
  - apply A in E1. tauto.
  - apply E1, A. intros [X _]. specialize (X eq_refl). discriminate.
  - apply E1, A. intros [_ X]. specialize (X eq_refl). discriminate.
  - apply A in E1. tauto.
Qed.
(** Turning adjacent surfaces together keeps them alike. *)
Lemma oriented_shift g h : oriented (turned g m) ->
  (forall s t, In s (surfs m) -> In t (surfs m) -> adjacent s t ->
     xorb (h (su_index s)) (g (su_index s)) = xorb (h (su_index t)) (g (su_index t))) ->
  oriented (turned h m).
Proof using HW HF.
  intros O H s' t' Is It Ne. apply in_map_iff in Is as [s [<- Is]]. apply in_map_iff in It as [t [<- It]].
  change (if h (su_index s) then turn s else s) with (tf h s) in *. change (if h (su_index t) then turn t else t) with (tf h t) in *.
  rewrite !tf_idx in Ne.
  intros e a b v vs ws Es Et E Hv Vs Vt Cs Ct. rewrite tf_edges in Es, Et. rewrite tf_In in Vs, Vt.
  change (corners m (tf h s) vs) in Cs. change (corners m (tf h t) ws) in Ct. change (edge_is m e a b) in E.
  rewrite corners_tf in Cs, Ct.
  destruct (HF _ Is) as [_ [p [q [Ps Npq]]]]. destruct (HF _ It) as [_ [u [w [Pt Nuw]]]].
  assert (Ivs : v = p \/ v = q) by (rewrite Ps in Vs; simpl in Vs; intuition).
  assert (Ivt : v = u \/ v = w) by (rewrite Pt in Vt; simpl in Vt; intuition).
  specialize (H s t Is It). assert (AD : adjacent s t) by (split; auto; exists e, v; auto). specialize (H AD).
  destruct (@C24_compare vs ws a b (proj1 Cs) (proj1 Ct) (proj1 (proj2 Cs)) (proj1 (proj2 Ct)) (@runs s vs _ a b Cs Es E) (@runs t ws _ a b Ct Et E)) as [r [_ [_ R]]].
  pose proof (alike_b O Is It Ne Es Et E Hv Cs Ct Ps Npq Pt Nuw Ivs Ivt R) as X.
  rewrite (first_b s h Ps Npq Ivs), (first_b t h Pt Nuw Ivt), <- R.
  destruct (Z.eqb_spec r 1) as [E1|E1];
  destruct (h (su_index s)), (h (su_index t)), (g (su_index s)), (g (su_index t)), (p =? v), (u =? v); simpl in *; try discriminate;
    (split; [intros ?; intros [Y1 Y2]; try (specialize (Y1 eq_refl)); try (specialize (Y2 eq_refl)); try discriminate; try contradiction
            |intros Y; try assumption; exfalso; apply Y; tauto]).
Qed.

(** ** One surface seen from another *)
Definition known f (o : Z -> Z) : Prop :=
  (forall s, In s (surfs m) -> o (su_index s) = 0 -> f (su_index s) = false) /\
  (forall g, oriented (turned g m) -> exists sigma : Z -> bool, forall s, In s (surfs m) -> o (su_index s) <> 0 ->
     f (su_index s) = xorb (g (su_index s)) (sigma (Z.abs (o (su_index s))))).
Definition ext (o o' : Z -> Z) (new : list surf) (k : Z) : Prop :=
  NoDup new /\ (forall s, In s new -> In s (surfs m) /\ o (su_index s) = 0) /\
  (forall s, In s (surfs m) -> o (su_index s) <> 0 -> o' (su_index s) = o (su_index s)) /\
  (forall s, In s (surfs m) -> o (su_index s) = 0 -> (In s new /\ o' (su_index s) <> 0 /\ Z.abs (o' (su_index s)) = k) \/ (~ In s new /\ o' (su_index s) = 0)).
Lemma ext_refl o k : ext o o [] k.
Proof. split; [constructor|]. split; [intros s []|]. split; auto. Qed.
Lemma ext_trans o o1 o2 n1 n2 k : ext o o1 n1 k -> ext o1 o2 n2 k -> ext o o2 (n1 ++ n2) k.
Proof.
  intros [N1 [A1 [B1 C1]]] [N2 [A2 [B2 C2]]].
  assert (D : forall s, In s n1 -> o1 (su_index s) <> 0).
  { intros s H. destruct (A1 s H) as [I Z0]. destruct (C1 s I Z0) as [[_ [X _]]|[X _]]; auto. }
  split; [|split; [|split]].
  - clear - N1 N2 A2 D. induction n1 as [|x r IH]; simpl; auto. inversion N1; subst. constructor; [|apply IH; auto; intros; apply D; right; auto].
    rewrite in_app_iff. intros [X|X]; auto. apply A2 in X as [_ X]. apply (D x); simpl; auto.
  - intros s H. apply in_app_iff in H as [H|H]; auto. destruct (A2 s H) as [I X]. split; auto.
    destruct (Z.eq_dec (o (su_index s)) 0) as [|Y]; auto. rewrite <- (B1 s I Y). auto.
  - intros s I Y. rewrite (B2 s I); [apply B1; auto|]. rewrite (B1 s I Y). auto.
  - intros s I Y. destruct (C1 s I Y) as [[X1 [X2 X3]]|[X1 X2]].
    + left. rewrite (B2 s I X2). split; auto. apply in_app_iff; auto.
    + destruct (C2 s I X2) as [[Y1 Y2]|[Y1 Y2]]; [left|right]; split; auto; rewrite in_app_iff; tauto.
Qed.
Definition SS f := map (tf f) (surfs m).
Definition OO (o : Z -> Z) := map (fun s => o (su_index s)) (surfs m).

Variable ords : list (list Z).
Hypothesis HO : Forall2 (corners m) (surfs m) ords.
Lemma at_ords s : In s (surfs m) -> exists vs, at_ ords (pos s) = Ok vs /\ corners m s vs.
Proof using HW HO.
  intros H. pose proof (at_pos _ H) as A. apply at_Ok in A as [A0 A].
  assert (X : exists vs, nth_error ords (Z.to_nat (pos s)) = Some vs /\ corners m s vs).
  { eapply F2_nth; eauto. }
  destruct X as [vs [X1 X2]]. exists vs. split; auto. apply at_Ok. auto.
Qed.

Lemma visit_spec e a b c x f o nxt : In e (edges m) -> ed_vertind e = [a; b] -> In c (surfs m) -> In x (surfs m) ->
  In (ed_index e) (su_edgeind c) -> In (ed_index e) (su_edgeind x) -> o (su_index c) <> 0 -> known f o ->
  exists f' o' new, visit m ords e (pos c) (su_index x) (SS f, OO o, nxt) = Ok (SS f', OO o', nxt ++ map pos new) /\
    known f' o' /\ ext o o' new (Z.abs (o (su_index c))) /\
    (su_index c <> su_index x -> forall v, v <> 0 -> In v (su_voluind c) -> In v (su_voluind x) -> o' (su_index x) <> 0).
Proof using HW HF HO.
  intros Ie Ve Ic Ix Ec Ex Oc [K1 K2].
  destruct (HF _ Ic) as [_ [p [q [Pc Npq]]]]. destruct (HF _ Ix) as [_ [u [w [Px Nuw]]]].
  destruct (at_ords _ Ic) as [vs [Avs Cvs]]. destruct (at_ords _ Ix) as [ws [Aws Cws]].
  assert (E : edge_is m (ed_index e) a b) by (exists e; auto).
  unfold visit. fold (pos x). unfold SS at 1 2, OO at 1.
  rewrite (at_map (tf f) _ _ (at_pos _ Ic)), (at_map (tf f) _ _ (at_pos _ Ix)). cbn [bind].
  rewrite (tf_volus f c Pc), (tf_volus f x Px).
  assert (ON : forall A (d : bool) (y z : A), at_ (if d then [z; y] else [y; z]) 0 = Ok (if d then z else y) /\ at_ (if d then [z; y] else [y; z]) 1 = Ok (if d then y else z)) by (intros ? []; auto).
  rewrite (proj1 (ON _ _ p q)), (proj2 (ON _ _ p q)), (proj1 (ON _ _ u w)), (proj2 (ON _ _ u w)). cbn [bind]. clear ON.
  rewrite (at_map (fun s => o (su_index s)) _ _ (at_pos _ Ix)). cbn [bind]. rewrite tf_idx.
  set (a0 := if f (su_index c) then q else p). set (a1 := if f (su_index c) then p else q).
  set (b0 := if f (su_index x) then w else u). set (b1 := if f (su_index x) then u else w).
  assert (Na : a0 <> a1) by (subst a0 a1; destruct (f (su_index c)); auto).
  assert (Nb : b0 <> b1) by (subst b0 b1; destruct (f (su_index x)); auto).
  assert (Sa : forall v, In v (su_voluind c) <-> v = a0 \/ v = a1).
  { intros v. rewrite Pc. subst a0 a1. destruct (f (su_index c)); simpl; split; intros H; repeat destruct H as [H|H]; auto; contradiction. }
  assert (Sb : forall v, In v (su_voluind x) <-> v = b0 \/ v = b1).
  { intros v. rewrite Px. subst b0 b1. destruct (f (su_index x)); simpl; split; intros H; repeat destruct H as [H|H]; auto; contradiction. }
  assert (SH : (((((b0 =? a0) || (b1 =? a0)) && negb (a0 =? 0)) || (((b0 =? a1) || (b1 =? a1)) && negb (a1 =? 0)))%bool = true) <->
               exists v, v <> 0 /\ In v (su_voluind c) /\ In v (su_voluind x)).
  { rewrite Bool.orb_true_iff, !Bool.andb_true_iff, !Bool.orb_true_iff, !Bool.negb_true_iff, !Z.eqb_eq, !Z.eqb_neq. split.
    - intros [[H0 H1]|[H0 H1]]; [exists a0|exists a1]; rewrite Sa, Sb; intuition.
    - intros [v [V0 [V1 V2]]]. apply Sa in V1. apply Sb in V2. destruct V1 as [V1|V1]; subst v; [left|right]; intuition. }
  destruct (Z.eqb_spec (su_index x) (su_index c)) as [Exc|Nxc].
  { cbn [negb andb]. exists f, o, []. rewrite app_nil_r. split; [reflexivity|]. split; [split; auto|]. split; [apply ext_refl|]. intros H; congruence. }
  cbn [negb andb].
  match goal with |- context [if (?t && _)%bool then _ else _] => destruct t eqn:T end.
  2:{ cbn [andb]. exists f, o, []. rewrite app_nil_r. split; [reflexivity|]. split; [split; auto|]. split; [apply ext_refl|].
      intros _ v V0 V1 V2. exfalso. assert (X : false = true) by (apply SH; exists v; auto). discriminate. }
  cbn [andb]. destruct (Z.eqb_spec (o (su_index x)) 0) as [Ox|Ox].
  2:{ exists f, o, []. rewrite app_nil_r. split; [reflexivity|]. split; [split; auto|]. split; [apply ext_refl|]. auto. }
  rewrite Avs, Aws. cbn [bind]. rewrite Ve.
  change (at_ [a; b] 0) with (Ok a). change (at_ [a; b] 1) with (Ok b). cbn [bind].
  destruct (@C24_compare vs ws a b (proj1 Cvs) (proj1 Cws) (proj1 (proj2 Cvs)) (proj1 (proj2 Cws)) (@runs c vs _ a b Cvs Ec E) (@runs x ws _ a b Cws Ex E)) as [r [Rr [R1 R2]]].
  rewrite Rr. cbn [bind]. unfold OO at 1. rewrite (at_map (fun s => o (su_index s)) _ _ (at_pos _ Ic)). cbn [bind].
  destruct (proj1 SH eq_refl) as [v [V0 [V1 V2]]].
  pose proof (@flip_spec a0 a1 b0 b1 v r Na Nb V0 (proj1 (Sa v) V1) (proj1 (Sb v) V2) R1) as FS. cbv zeta in FS. rewrite FS. clear FS T.
  assert (Fx : f (su_index x) = false) by (apply K1; auto).
  set (fl := Bool.eqb (r =? 1) (Bool.eqb (a0 =? v) (b0 =? v))).
  set (f' := fun i => if i =? su_index x then fl else f i).
  set (o' := fun i => if i =? su_index x then -1 * r * o (su_index c) else o i).
  assert (M1 : (if fl then modify (SS f) (pos x) flip_volus else Ok (SS f)) = Ok (SS f')).
  { destruct fl eqn:Efl.
    - unfold SS. rewrite (modify_pos (tf f) flip_volus _ Ix). f_equal. apply map_ext_in. intros y Iy. subst f'. unfold tf. cbv beta.
      destruct (Z.eqb_spec (su_index y) (su_index x)) as [Ey|Ey]; auto.
      rewrite Ey, Fx. assert (y = x) by (eapply NoDup_idx_inj; [apply nd_s| | |]; eauto). subst y. unfold flip_volus, turn. rewrite Px. reflexivity.
    - f_equal. unfold SS. apply map_ext_in. intros y Iy. subst f'. unfold tf. cbv beta.
      destruct (Z.eqb_spec (su_index y) (su_index x)) as [Ey|Ey]; auto. rewrite Ey, Fx. reflexivity. }
  rewrite M1. cbn [bind]. unfold OO at 1. rewrite (modify_pos (fun s => o (su_index s)) _ _ Ix). cbn [bind].
  assert (Onz : -1 * r * o (su_index c) <> 0) by (clear - R1 Oc; destruct R1; subst r; lia).
  assert (Oabs : Z.abs (-1 * r * o (su_index c)) = Z.abs (o (su_index c))) by (clear - R1 Oc; destruct R1; subst r; lia).
  assert (Ox' : o' (su_index x) = -1 * r * o (su_index c)) by (subst o'; cbv beta; rewrite Z.eqb_refl; reflexivity).
  exists f', o', [x]. split; [reflexivity|]. split; [split|split].
  - intros s Is. subst f' o'. cbv beta. destruct (Z.eqb_spec (su_index s) (su_index x)); intros; [contradiction|]. apply K1; auto.
  - intros g Og. destruct (K2 g Og) as [sigma Hs]. exists sigma. intros s Is. subst f' o'. cbv beta.
    destruct (Z.eqb_spec (su_index s) (su_index x)) as [Es|Es]; intros Hnz; [|apply Hs; auto]. rewrite Es, Oabs.
    assert (Nidx : su_index c <> su_index x) by congruence.
    assert (Vc : v = p \/ v = q) by (rewrite Pc in V1; simpl in V1; intuition).
    assert (Vx : v = u \/ v = w) by (rewrite Px in V2; simpl in V2; intuition).
    pose proof (alike_b Og Ic Ix Nidx Ec Ex E V0 Cvs Cws Pc Npq Px Nuw Vc Vx R2) as AB.
    pose proof (Hs c Ic Oc) as Hc.
    assert (A0 : (a0 =? v) = xorb (f (su_index c)) (p =? v)).
    { subst a0. destruct (f (su_index c)); simpl; destruct (Z.eqb_spec p v), (Z.eqb_spec q v); auto; exfalso; destruct Vc; congruence. }
    assert (B0 : (b0 =? v) = (u =? v)) by (subst b0; rewrite Fx; reflexivity).
    subst fl. rewrite AB, A0, B0, Hc.
    destruct (g (su_index c)), (g (su_index x)), (p =? v), (u =? v), (sigma (Z.abs (o (su_index c)))); reflexivity.
  - split; [repeat constructor; auto|]. split; [intros s [<-|[]]; auto|]. split.
    + intros s Is Hnz. subst o'. cbv beta. destruct (Z.eqb_spec (su_index s) (su_index x)) as [Es|]; auto. exfalso. congruence.
    + intros s Is H0. subst o'. cbv beta. destruct (Z.eqb_spec (su_index s) (su_index x)) as [Es|Es].
      * left. assert (s = x) by (eapply NoDup_idx_inj; [apply nd_s| | |]; eauto). subst s. simpl; auto.
      * right. split; auto. intros [<-|[]]. auto.
  - intros _ _ _ _ _. rewrite Ox'. auto.
Qed.
End O.
