(** Proofs about Orient.v: the flood and the direction of the blocks. *)
From Verif Require Import Base Mesh Edit Order SpecMesh SpecOrder SpecEdit MeshProofs FloodProofs EditProofs PropsEdit OrderMeshProofs PropsOrder Orient SpecOrient OrientProofs.
Import Mesh.
Set Implicit Arguments.
Open Scope Z_scope.

Lemma for_each_map A B S (h : A -> B) (body : B -> S -> outcome S) l s : for_each (map h l) body s = for_each l (fun a => body (h a)) s.
Proof. revert s. induction l as [|a r IH]; intros s; simpl; auto. destruct (body (h a) s); simpl; auto. Qed.
Lemma NoDup_app_disj A (l l' : list A) : NoDup l -> NoDup l' -> (forall x, In x l -> In x l' -> False) -> NoDup (l ++ l').
Proof.
  intros N N' D. induction N as [|x l H N IH]; simpl; auto. constructor.
  - rewrite in_app_iff. intros [X|X]; auto. apply (D x); simpl; auto.
  - apply IH. intros y Y. apply D. simpl; auto.
Qed.

Section W.
Variable m : mesh.
Hypothesis HW : well_connected m.
Hypothesis HF : faces m.
Variable ords : list (list Z).
Hypothesis HO : Forall2 (corners m) (surfs m) ords.

Definition pre (Q : list surf) (k : Z) (o : Z -> Z) : Prop := forall s, In s Q -> In s (surfs m) /\ o (su_index s) <> 0 /\ Z.abs (o (su_index s)) = k.
Definition reached (T : surf -> Prop) (o : Z -> Z) : Prop := forall t, In t (surfs m) -> T t -> o (su_index t) <> 0.
Definition step_ok (Q : list surf) (k : Z) (body : state -> outcome state) (T : surf -> Prop) : Prop :=
  forall f o nxt, known m f o -> pre Q k o -> exists f' o' new,
    body (SS m f, OO m o, nxt) = Ok (SS m f', OO m o', nxt ++ map (pos m) new) /\ known m f' o' /\ ext m o o' new k /\ reached T o'.
Lemma ext_pre Q k o o' new : ext m o o' new k -> pre Q k o -> pre Q k o'.
Proof. intros [_ [_ [E _]]] P s Hs. destruct (P s Hs) as [A [B C]]. rewrite (E s A B). auto. Qed.
Lemma ext_reached T k o o' new : ext m o o' new k -> reached T o -> reached T o'.
Proof. intros [_ [_ [E _]]] P t A B. rewrite (E t A (P t A B)). auto. Qed.
Lemma loop_ok A (Q : list surf) k (body : A -> state -> outcome state) (T : A -> surf -> Prop) l :
  (forall a, In a l -> step_ok Q k (body a) (T a)) -> step_ok Q k (for_each l body) (fun t => exists a, In a l /\ T a t).
Proof.
  induction l as [|a r IH]; intros H f o nxt K P.
  - exists f, o, []. simpl. rewrite app_nil_r. split; auto. split; auto. split; [apply ext_refl|]. intros t _ [a [[] _]].
  - destruct (H a (or_introl eq_refl) f o nxt K P) as [f1 [o1 [n1 [R1 [K1 [E1 T1]]]]]].
    destruct (IH (fun b Hb => H b (or_intror Hb)) f1 o1 (nxt ++ map (pos m) n1) K1 (ext_pre E1 P)) as [f2 [o2 [n2 [R2 [K2 [E2 T2]]]]]].
    exists f2, o2, (n1 ++ n2). cbn [for_each]. rewrite R1. cbn [bind]. rewrite R2, map_app, app_assoc. split; auto. split; auto.
    split; [eapply ext_trans; eauto|]. intros t It [b [[<-|Hb] Tb]].
    + eapply (ext_reached E2); eauto.
    + apply T2; auto. exists b. auto.
Qed.

Lemma edge_of s ei : In s (surfs m) -> In ei (su_edgeind s) -> exists e a b, at_ (edges m) (find ed_index (edges m) ei) = Ok e /\
  In e (edges m) /\ ed_index e = ei /\ ed_vertind e = [a; b].
Proof using HW HF.
  intros Is Ie. destruct (HF s Is) as [[vs [_ [_ P]]] _]. destruct (polygon_follows _ P Ie) as [a [b [J _]]].
  assert (X : exists x y, edge_is m ei x y) by (destruct J; eauto). destruct X as [x [y [e [E1 [E2 E3]]]]].
  destruct (@find_at _ ed_index (edges m) ei) as [e' [A [I' E']]]; [exists e; auto|].
  assert (e' = e) by (eapply NoDup_idx_inj; [apply (nd_e HW)| | |]; eauto; congruence). subst e'.
  exists e, x, y. auto.
Qed.
Lemma surf_of s e x : In s (surfs m) -> In e (edges m) -> In x (ed_surfind e) -> exists sx, In sx (surfs m) /\ su_index sx = x /\ In (ed_index e) (su_edgeind sx).
Proof using HW HF.
  intros Is Ie Ix. destruct HW as [U [M X]].
  assert (VN : volus m <> []).
  { destruct (HF s Is) as [_ [a [b [E N]]]].
    assert (Y : exists v, v <> 0 /\ In v (su_voluind s)).
    { rewrite E. destruct (Z.eq_dec a 0); [exists b|exists a]; simpl; split; auto; congruence. }
    destruct Y as [v [V1 V2]]. destruct M as [_ [_ [_ [_ [M _]]]]].
    destruct (M (su_index s) v) as [w [W _]]; auto; [exists s; auto|]. intros Z0. rewrite Z0 in W. destruct W. }
  assert (ESx : ES m (ed_index e) x) by (exists e; auto).
  assert (Nx : x <> 0). { intros ->. destruct X as [_ [_ [_ [_ X]]]]. eapply X; eauto. }
  destruct M as [_ [_ [M _]]]. destruct (M _ _ ESx Nx) as [sx [A [B C]]]. exists sx. auto.
Qed.
Lemma surf_back e s : In s (surfs m) -> In e (edges m) -> In (ed_index e) (su_edgeind s) -> In (su_index s) (ed_surfind e).
Proof using HW.
  intros Is Ie He. destruct HW as [U [M X]].
  assert (N0 : ed_index e <> 0). { intros E. destruct U as [_ [_ [_ [_ [_ [_ [U _]]]]]]]. apply U. exists e. auto. }
  destruct M as [_ [_ [_ [M _]]]]. destruct (M (ed_index e) (su_index s)) as [e' [A [B C]]]; auto; [exists s; auto|].
  assert (e' = e) by (eapply NoDup_idx_inj; [apply (nd_e HW)| | |]; eauto). subst; auto.
Qed.

Lemma explore_ok Q k c : In c Q -> step_ok Q k (explore m ords (pos m c)) (adjacent c).
Proof using HW HF HO.
  intros Hc f o nxt K P. destruct (P c Hc) as [Ic _]. unfold explore. rewrite (at_pos HW _ Ic). cbn [bind].
  pose (T := fun ei t => su_index c <> su_index t /\ In ei (su_edgeind t) /\ exists v, v <> 0 /\ In v (su_voluind c) /\ In v (su_voluind t)).
  match goal with |- context [for_each _ ?b _] => set (body := b) end.
  assert (L : step_ok Q k (for_each (su_edgeind c) body) (fun t => exists ei, In ei (su_edgeind c) /\ T ei t)).
  { apply loop_ok. intros ei Hei f1 o1 nxt1 K1 P1. subst body. cbv beta.
    destruct (@edge_of c ei Ic Hei) as [e [a [b [A [Ie [Ee Ve]]]]]]. rewrite A. cbn [bind].
    assert (L : step_ok Q k (for_each (ed_surfind e) (fun x st => visit m ords e (pos m c) x st)) (fun t => exists x, In x (ed_surfind e) /\ (su_index t = x /\ T ei t))).
    { apply loop_ok. intros x Hx f2 o2 nxt2 K2 P2. destruct (@surf_of c e x Ic Ie Hx) as [sx [Isx [Esx Hsx]]]. subst x.
      rewrite <- Ee in Hei. destruct (P2 c Hc) as [_ [Oc Ok]].
      destruct (@visit_spec m HW HF ords HO e a b c sx f2 o2 nxt2 Ie Ve Ic Isx Hei Hsx Oc K2) as [f' [o' [new [R [K' [E' T']]]]]].
      exists f', o', new. rewrite Ok in E'. split; auto. split; auto. split; auto.
      intros t It [Et [N [_ [v [V0 [V1 V2]]]]]]. assert (t = sx) by (eapply NoDup_idx_inj; [apply (nd_s HW)| | |]; eauto). subst t. eapply T'; eauto. }
    destruct (L f1 o1 nxt1 K1 P1) as [f' [o' [new [R [K' [E' T']]]]]]. exists f', o', new. split; auto. split; auto. split; auto.
    intros t It Tt. apply T'; auto. exists (su_index t). split; auto. apply surf_back; auto. rewrite Ee. apply Tt. }
  destruct (L f o nxt K P) as [f' [o' [new [R [K' [E' T']]]]]]. exists f', o', new. split; auto. split; auto. split; auto.
  intros t It [N [e [v [A [B [V0 [V1 V2]]]]]]]. apply T'; auto. exists e. split; auto. split; auto. split; auto. exists v. auto.
Qed.

(** ** The flood *)
Definition zeros (o : Z -> Z) : list surf := filter (fun s => o (su_index s) =? 0) (surfs m).
Lemma nd_surfs : NoDup (surfs m).
Proof using HW. eapply NoDup_map_inv. apply (nd_s HW). Qed.
Lemma zeros_ext o o' new k : ext m o o' new k -> length (zeros o) = (length (zeros o') + length new)%nat.
Proof using HW.
  intros [N [A [B C]]]. rewrite <- app_length. apply Permutation_length. apply NoDup_Permutation.
  - apply NoDup_filter, nd_surfs.
  - apply NoDup_app_disj; auto; [apply NoDup_filter, nd_surfs|]. intros s H1 H2. apply filter_In in H1 as [I1 H1]. apply Z.eqb_eq in H1.
    destruct (A s H2) as [I2 H3]. destruct (C s I2 H3) as [[_ [X _]]|[X _]]; auto.
  - intros s. rewrite in_app_iff. unfold zeros. rewrite !filter_In, !Z.eqb_eq. split.
    + intros [I0 H]. destruct (C s I0 H) as [[X _]|[_ X]]; auto.
    + intros [[I0 H]|H]; [|apply A; auto]. split; auto. destruct (Z.eq_dec (o (su_index s)) 0) as [|X]; auto. rewrite <- (B s I0 X). auto.
Qed.
Lemma first_zero_map (l : list surf) (o : Z -> Z) p :
  match first_zero p (map (fun s => o (su_index s)) l) with
  | Some q => exists i s, q = p + Z.of_nat i /\ nth_error l i = Some s /\ o (su_index s) = 0
  | None => forall s, In s l -> o (su_index s) <> 0
  end.
Proof.
  revert p. induction l as [|x r IH]; intros p; simpl; [intros s []|].
  destruct (Z.eqb_spec (o (su_index x)) 0) as [E|E]; [exists 0%nat, x; split; [lia|auto]|].
  specialize (IH (p + 1)). destruct (first_zero (p + 1) _) as [q|].
  - destruct IH as [i [s [A [B C]]]]. exists (S i), s. split; [lia|auto].
  - intros s [<-|H]; auto.
Qed.
Definition heads (o : Z -> Z) (q : list surf) (nb : Z) : Prop :=
  0 <= nb /\ (forall s, In s (surfs m) -> o (su_index s) <> 0 -> 1 <= Z.abs (o (su_index s)) <= nb) /\ pre q nb o /\
  (forall s t, In s (surfs m) -> In t (surfs m) -> adjacent s t -> o (su_index s) <> 0 -> ~ In s q ->
     o (su_index t) <> 0 /\ Z.abs (o (su_index t)) = Z.abs (o (su_index s))).
Definition blocks (o : Z -> Z) (nb : Z) : Prop :=
  (forall s, In s (surfs m) -> 1 <= Z.abs (o (su_index s)) <= nb) /\
  (forall s t, In s (surfs m) -> In t (surfs m) -> adjacent s t -> Z.abs (o (su_index t)) = Z.abs (o (su_index s))).
Lemma adj_sym s t : adjacent s t -> adjacent t s.
Proof. intros [N [e [v [A [B [C [D E]]]]]]]. split; auto. exists e, v. auto. Qed.
Lemma In_dec_surf (s : surf) q : In s q \/ ~ In s q.
Proof. destruct (in_dec (fun a b : surf => ltac:(repeat decide equality) : {a = b} + {a <> b}) s q); auto. Qed.

Lemma round_heads o o' new q nb : q <> [] -> heads o q nb -> ext m o o' new nb ->
  reached (fun t => exists a, In a q /\ adjacent a t) o' -> heads o' new nb.
Proof using HW.
  intros Hq [H0 [H1 [H2 H3]]] [N [A [B C]]] R.
  assert (NB : 1 <= nb). { destruct q as [|s q]; [congruence|]. destruct (H2 s) as [I [X Y]]; [left; auto|]. specialize (H1 s I X). lia. }
  assert (V : forall s, In s (surfs m) -> o' (su_index s) <> 0 -> (o (su_index s) <> 0 /\ o' (su_index s) = o (su_index s)) \/ (In s new /\ Z.abs (o' (su_index s)) = nb)).
  { intros s I X. destruct (Z.eq_dec (o (su_index s)) 0) as [E|E]; [|left; auto].
    destruct (C s I E) as [[X1 [X2 X3]]|[X1 X2]]; auto. contradiction. }
  split; auto. split; [|split].
  - intros s I X. destruct (V s I X) as [[Y1 Y2]|[Y1 Y2]]; [rewrite Y2; apply H1; auto|rewrite Y2; lia].
  - intros s Hs. destruct (A s Hs) as [I Z0]. destruct (C s I Z0) as [[_ X]|[X _]]; [tauto|contradiction].
  - intros s t Is It Ad X Ns. destruct (V s Is X) as [[Y1 Y2]|[Y1 Y2]]; [|contradiction]. rewrite Y2.
    destruct (In_dec_surf s q) as [Q|Q].
    + assert (Ot : o' (su_index t) <> 0) by (apply R; auto; exists s; auto). split; auto.
      destruct (H2 s Q) as [_ [_ Ks]]. rewrite Ks.
      destruct (V t It Ot) as [[T1 T2]|[T1 T2]]; auto. rewrite T2. destruct (In_dec_surf t q) as [Qt|Qt]; [apply H2; auto|].
      destruct (H3 t s It Is (adj_sym Ad) T1 Qt) as [_ E]. congruence.
    + destruct (H3 s t Is It Ad Y1 Q) as [T1 T2]. rewrite (B t It T1). auto.
Qed.

Lemma flood_ok fuel : forall q f o nb, (length (zeros o) + length q <= fuel)%nat -> known m f o -> heads o q nb ->
  exists f' o' nb', flood m fuel ords (map (pos m) q) (SS m f) (OO m o) nb = Ok (SS m f', OO m o', nb') /\ known m f' o' /\ blocks o' nb' /\ 0 <= nb'.
Proof using HW HF HO.
  induction fuel as [|fuel IH]; intros q f o nb Hf K H; cbn [flood]; unfold OO at 1;
    pose proof (first_zero_map (surfs m) o 0) as FZ; destruct (first_zero 0 _) as [p|].
  - exfalso. destruct FZ as [i [s [_ [Hs H0]]]]. assert (X : In s (zeros o)) by (apply filter_In; split; [eapply nth_error_In; eauto|apply Z.eqb_eq; auto]).
    destruct (zeros o); [destruct X|simpl in Hf; lia].
  - exists f, o, nb. split; auto. split; auto. destruct H as [H0 [H1 [H2 H3]]]. split; auto. split; [intros; apply H1; auto|].
    intros s t Is It Ad. destruct (In_dec_surf s q) as [Q|Q]; [|apply H3; auto].
    destruct (In_dec_surf t q) as [Qt|Qt]; [destruct (H2 s Q) as [_ [_ E1]], (H2 t Qt) as [_ [_ E2]]; congruence|].
    symmetry. apply H3; auto. apply adj_sym; auto.
  - assert (X : exists q1 o1 nb1, q1 <> [] /\ known m f o1 /\ heads o1 q1 nb1 /\ (length (zeros o1) + length q1 = length (zeros o) + length q)%nat /\
      (match map (pos m) q with [] => do ori' <- modify (OO m o) p (fun _ => nb + 1) ; Ok ([p], ori', nb + 1) | _ => Ok (map (pos m) q, OO m o, nb) end)
      = Ok (map (pos m) q1, OO m o1, nb1)).
    { destruct q as [|c q].
      2:{ exists (c :: q), o, nb. split; [congruence|]. auto. }
      destruct FZ as [i [s [Ep [Hs Os]]]]. assert (Is : In s (surfs m)) by (eapply nth_error_In; eauto).
      assert (P : p = pos m s) by (unfold pos; rewrite (@find_pos _ su_index _ i s (nd_s HW) Hs); lia). subst p. rewrite P.
      set (o1 := fun i => if i =? su_index s then nb + 1 else o i).
      destruct H as [H0 [H1 [H2 H3]]].
      assert (O1 : forall t, In t (surfs m) -> (t = s /\ o1 (su_index t) = nb + 1) \/ (t <> s /\ o1 (su_index t) = o (su_index t))).
      { intros t It. subst o1. cbv beta. destruct (Z.eqb_spec (su_index t) (su_index s)) as [E|E]; [left|right; split; congruence].
        split; auto. eapply NoDup_idx_inj; [apply (nd_s HW)| | |]; eauto. }
      assert (EX : ext m o o1 [s] (nb + 1)).
      { split; [repeat constructor; auto|]. split; [intros t [<-|[]]; auto|]. split.
        - intros t It Ot. destruct (O1 t It) as [[-> _]|[_ E]]; auto. contradiction.
        - intros t It Ot. destruct (O1 t It) as [[-> E]|[Ne E]]; rewrite E; [left|right].
          + simpl. split; auto. lia.
          + split; auto. intros [X|[]]; auto. }
      exists [s], o1, (nb + 1). split; [congruence|]. split; [|split; [|split]].
      - destruct K as [K1 K2]. split.
        + intros t It Ot. destruct (O1 t It) as [[-> E]|[Ne E]]; [lia|]. apply K1; auto. congruence.
        + intros g Og. destruct (K2 g Og) as [sg Hg]. exists (fun k => if k =? nb + 1 then g (su_index s) else sg k).
          intros t It Ot. destruct (O1 t It) as [[-> E]|[Ne E]]; rewrite E.
          * rewrite (K1 s Is Os). replace (Z.abs (nb + 1) =? nb + 1) with true by (symmetry; apply Z.eqb_eq; lia). destruct (g (su_index s)); reflexivity.
          * rewrite E in Ot. specialize (H1 t It Ot). replace (Z.abs (o (su_index t)) =? nb + 1) with false by (symmetry; apply Z.eqb_neq; lia). apply Hg; auto.
      - split; [lia|]. split; [|split].
        + intros t It Ot. destruct (O1 t It) as [[-> E]|[Ne E]]; rewrite E in *; [lia|]. specialize (H1 t It Ot). lia.
        + intros t [<-|[]]. destruct (O1 s Is) as [[_ E]|[Ne _]]; [|congruence]. rewrite E. split; auto. lia.
        + intros a b Ia Ib Ad Oa Na. destruct (O1 a Ia) as [[-> _]|[_ Ea]]; [exfalso; apply Na; left; auto|]. rewrite Ea in Oa.
          destruct (H3 a b Ia Ib Ad Oa) as [Y1 Y2]; [intros []|]. destruct (O1 b Ib) as [[-> _]|[_ Eb]]; [contradiction|]. rewrite Ea, Eb. auto.
      - pose proof (zeros_ext EX). simpl in *. lia.
      - cbn [map]. unfold OO at 1. rewrite (modify_pos HW (fun s => o (su_index s)) _ _ Is). cbn [bind]. reflexivity. }
    destruct X as [q1 [o1 [nb1 [Q1 [K1 [Hd1 [L1 E1]]]]]]]. rewrite E1. cbn [bind].
    rewrite for_each_map.
    assert (LP : step_ok q1 nb1 (for_each q1 (fun c => explore m ords (pos m c))) (fun t => exists a, In a q1 /\ adjacent a t)).
    { apply loop_ok. intros c Hc. apply explore_ok; auto. }
    destruct (LP f o1 [] K1 (proj1 (proj2 (proj2 Hd1)))) as [f' [o' [new [R [K' [E' T']]]]]]. rewrite R. cbn [bind app].
    apply IH; auto.
    + pose proof (zeros_ext E'). destruct q1; [congruence|]. simpl in *. lia.
    + eapply round_heads; eauto.
  - exists f, o, nb. split; auto. split; auto. destruct H as [H0 [H1 [H2 H3]]]. split; auto. split; [intros; apply H1; auto|].
    intros s t Is It Ad. destruct (In_dec_surf s q) as [Q|Q]; [|apply H3; auto].
    destruct (In_dec_surf t q) as [Qt|Qt]; [destruct (H2 s Q) as [_ [_ E1]], (H2 t Qt) as [_ [_ E2]]; congruence|].
    symmetry. apply H3; auto. apply adj_sym; auto.
Qed.
End W.
