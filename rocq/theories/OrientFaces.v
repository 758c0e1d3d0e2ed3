(** Proofs about Orient.v: the whole call. *)
From Verif Require Import Base Mesh Edit Order SpecMesh SpecOrder SpecEdit MeshProofs MergeProofs FloodProofs EditProofs PropsEdit OrderMeshProofs PropsOrder Orient SpecOrient OrientProofs OrientWhole.
Import Mesh.
Set Implicit Arguments.
Open Scope Z_scope.

Lemma filter_len A (p : A -> bool) l : (length (filter p l) <= length l)%nat.
Proof. induction l as [|a r IH]; simpl; auto. destruct (p a); simpl; lia. Qed.

Section F.
Variable m : mesh.
Hypothesis HW : well_connected m.
Hypothesis HF : faces m.
Hypothesis HD : 3 <= meshDim m.

Lemma relative_ok : exists f o nb, orient_relative m = Ok (SS m f, OO m o, nb) /\ known m f o /\ blocks m o nb /\ 0 <= nb.
Proof using HW HF HD.
  unfold orient_relative.
  destruct (@omap_list_ok _ _ (fun s => ordered_verts m (su_edgeind s)) (corners m) (surfs m)) as [ords [R HO]].
  { intros s Is. destruct (HF s Is) as [[vs C] _]. exists vs. split; auto. destruct C as [C1 [C2 C3]].
    apply C22_ordered_verts; auto; [apply (nd_e HW)|]. destruct C3 as [L _]. rewrite <- L. auto. }
  rewrite R. cbn [bind]. replace (meshDim m <? 3) with false by (symmetry; apply Z.ltb_ge; auto).
  assert (E : surfs m = SS m (fun _ => false)) by (unfold SS, tf; symmetry; apply map_id).
  replace (flood m (S (length (surfs m))) ords [] (surfs m) (map (fun _ => 0) (surfs m)) 0)
    with (flood m (S (length (surfs m))) ords (map (pos m) []) (SS m (fun _ => false)) (OO m (fun _ => 0)) 0) by (rewrite <- E; reflexivity).
  apply flood_ok; auto.
  - unfold zeros. cbn [length]. rewrite Nat.add_0_r. apply Nat.le_trans with (length (surfs m)); [|auto].
    apply filter_len.
  - split; auto. intros g _. exists (fun _ => false). intros s _ X. congruence.
  - split; [lia|]. split; [intros s _ X; congruence|]. split; [intros s []|]. intros s t _ _ _ X. congruence.
Qed.

Variable facing : Z -> Z -> Z.
Definition choice f (o : Z -> Z) (l : list surf) (k : Z) (b : bool) : Prop :=
  (b = false /\ forall s, In s l -> Z.abs (o (su_index s)) = k -> exists c, c <> 0 /\ In c (su_voluind s) /\ facing (su_index s) c = 0) \/
  (exists s c, In s l /\ Z.abs (o (su_index s)) = k /\ c <> 0 /\ In c (su_voluind s) /\ facing (su_index s) c <> 0 /\
     (b = true <-> (0 < facing (su_index s) c <-> ~ first_side (tf f s) c))).
Lemma block_flip_ok f o k l : (forall s, In s l -> In s (surfs m)) ->
  exists b, block_flip facing k (map (tf f) l) (map (fun s => o (su_index s)) l) = Ok b /\ choice f o l k b.
Proof using HF.
  induction l as [|s l IH]; intros Hl.
  { exists false. split; auto. left. split; auto. intros s []. }
  destruct IH as [b [R C]]; [intros; apply Hl; right; auto|]. cbn [map block_flip].
  destruct (Z.eqb_spec k (Z.abs (o (su_index s)))) as [Ek|Ek].
  2:{ exists b. split; auto. destruct C as [[C1 C2]|[t [c [It C]]]]; [left|right].
      - split; auto. intros t [<-|It] Et; [congruence|]. auto.
      - exists t, c. split; [right; auto|auto]. }
  assert (Is : In s (surfs m)) by (apply Hl; left; auto). destruct (HF s Is) as [_ [p [q [P Npq]]]].
  rewrite (tf_volus f s P), tf_idx.
  set (x := if f (su_index s) then q else p). set (y := if f (su_index s) then p else q).
  assert (Ex : (if f (su_index s) then [q; p] else [p; q]) = [x; y]) by (subst x y; destruct (f (su_index s)); auto). rewrite Ex.
  assert (Nxy : x <> y) by (subst x y; destruct (f (su_index s)); auto).
  assert (Ixy : forall v, In v (su_voluind s) <-> v = x \/ v = y).
  { intros v. rewrite P. subst x y. destruct (f (su_index s)); simpl; split; intros H; repeat destruct H as [H|H]; auto; contradiction. }
  assert (FS : forall v, first_side (tf f s) v <-> x = v).
  { intros v. unfold first_side. rewrite (tf_volus f s P), Ex. simpl. split; congruence. }
  change (at_ [x; y] 0) with (Ok x). cbn [bind]. clearbody x y. clear Ex.
  assert (S : forall c, c <> 0 -> In c (su_voluind s) -> forall d : bool, (facing (su_index s) c <> 0 -> (d = true <-> (0 < facing (su_index s) c <-> ~ first_side (tf f s) c))) ->
    exists b0, (if facing (su_index s) c =? 0 then block_flip facing k (map (tf f) l) (map (fun s => o (su_index s)) l) else Ok d) = Ok b0 /\ choice f o (s :: l) k b0).
  { intros c Hc Ic d Hd. destruct (Z.eqb_spec (facing (su_index s) c) 0) as [E|E].
    - exists b. split; auto. destruct C as [[C1 C2]|[t [c' [It C]]]]; [left|right].
      + split; auto. intros t [<-|It] Et; [exists c; auto|]. auto.
      + exists t, c'. split; [right; auto|auto].
    - exists d. split; auto. right. exists s, c. split; [left; auto|]. split; [auto|]. split; [auto|]. split; [auto|]. split; auto. }
  destruct (Z.eqb_spec x 0) as [X0|X0].
  - change (at_ [x; y] 1) with (Ok y). cbn [bind]. apply S; [congruence|apply Ixy; auto|]. intros _.
    rewrite FS. cbn [negb]. rewrite Bool.andb_false_r, Bool.andb_true_r. cbn [orb]. rewrite Z.ltb_lt. tauto.
  - change (at_ [x; y] 0) with (Ok x). cbn [bind]. apply S; [auto|apply Ixy; auto|]. intros Nz.
    rewrite FS. cbn [negb]. rewrite Bool.andb_false_r, Bool.andb_true_r, Bool.orb_false_r. rewrite Z.ltb_lt. clear - Nz.
    split; [intros H; split; intros; [lia|congruence]|].
    intros [H1 H2]. destruct (Z_lt_le_dec (facing (su_index s) x) 0) as [|L]; auto. exfalso. apply H1; [lia|reflexivity].
Qed.

Lemma combine_maps A B C (h : A -> B) (k : A -> C) l : combine (map h l) (map k l) = map (fun a => (h a, k a)) l.
Proof. induction l; simpl; congruence. Qed.
Lemma flip_tf f h s : In s (surfs m) -> (if xorb (h (su_index s)) (f (su_index s)) then flip_volus (tf f s) else tf f s) = tf h s.
Proof using HF.
  intros Is. destruct (HF s Is) as [_ [p [q [P _]]]]. unfold tf, flip_volus, turn.
  destruct (h (su_index s)), (f (su_index s)); cbn [xorb su_voluind]; rewrite ?P; try reflexivity.
  destruct s; simpl in *; subst; reflexivity.
Qed.
Lemma surfaces_ok : exists f o nb (B : Z -> bool), known m f o /\ blocks m o nb /\
  (forall k, 1 <= k <= nb -> choice f o (surfs m) k (B k)) /\
  orient_faces m facing = Ok (turned (fun i => xorb (f i) (B (Z.abs (o i)))) m).
Proof using HW HF HD.
  destruct relative_ok as [f [o [nb [R [K [BL N]]]]]]. unfold orient_faces, orient_surfaces. rewrite R. cbn [bind].
  destruct (@omap_list_ok _ _ (fun k => block_flip facing (Z.of_nat k) (SS m f) (OO m o)) (fun k b => choice f o (surfs m) (Z.of_nat k) b) (seq 1 (Z.to_nat nb))) as [fl [Rf F]].
  { intros k _. apply block_flip_ok. auto. }
  rewrite Rf. cbn [bind].
  set (B := fun k => match at_ fl (k - 1) with Ok b => b | _ => false end).
  assert (HB : forall k, 1 <= k <= nb -> at_ fl (k - 1) = Ok (B k) /\ choice f o (surfs m) k (B k)).
  { intros k Hk. assert (E : nth_error (seq 1 (Z.to_nat nb)) (Z.to_nat (k - 1)) = Some (Z.to_nat k)).
    { rewrite (nth_error_nth' _ 0%nat) by (rewrite seq_length; lia). rewrite seq_nth by lia. f_equal. lia. }
    destruct (F2_nth _ F E) as [b [Eb C]]. assert (A : at_ fl (k - 1) = Ok b) by (apply at_Ok; split; [lia|auto]).
    subst B. cbv beta. rewrite A. split; auto. rewrite Z2Nat.id in C by lia. auto. }
  exists f, o, nb, B. split; auto. split; auto. split; [intros k Hk; apply HB; auto|].
  unfold SS, OO. rewrite combine_maps.
  rewrite (@omap_list_Ok _ _ _ (fun p => if B (Z.abs (snd p)) then flip_volus (fst p) else fst p)).
  2:{ intros p Hp. apply in_map_iff in Hp as [s [<- Is]]. cbn [fst snd]. destruct BL as [BL _]. rewrite (proj1 (HB _ (BL s Is))). reflexivity. }
  cbn [bind]. unfold turned. do 2 f_equal. rewrite map_map. apply map_ext_in. intros s Is. cbn [fst snd].
  pose proof (@flip_tf f (fun i => xorb (f i) (B (Z.abs (o i)))) s Is) as X. cbv beta in X. unfold tf at 3 in X. rewrite <- X.
  destruct (f (su_index s)), (B (Z.abs (o (su_index s)))); reflexivity.
Qed.
Lemma reach_block o nb s t : blocks m o nb -> In s (surfs m) -> reach (fun a b => In b (surfs m) /\ adjacent a b) s t ->
  In t (surfs m) /\ Z.abs (o (su_index t)) = Z.abs (o (su_index s)).
Proof.
  intros [_ B] Is R. induction R as [a|a b c R IH [Ic Ad]]; auto. destruct (IH Is) as [Ib E]. split; auto. rewrite (B b c Ib Ic Ad). auto.
Qed.
Theorem faces_oriented : exists h, orient_faces m facing = Ok (turned h m) /\
  (forall g, oriented (turned g m) -> oriented (turned h m)) /\
  (forall g, oriented (turned g m) -> truthful m g facing -> decided m facing -> turned h m = turned g m).
Proof using HW HF HD.
  destruct surfaces_ok as [f [o [nb [B [[K1 K2] [BL [HB R]]]]]]]. exists (fun i => xorb (f i) (B (Z.abs (o i)))). split; auto.
  assert (NZ : forall s, In s (surfs m) -> o (su_index s) <> 0). { intros s Is X. destruct BL as [BL _]. specialize (BL s Is). rewrite X in BL. simpl in BL. lia. }
  split.
  - intros g Og. apply (oriented_shift HW HF Og). intros s t Is It Ad. destruct (K2 g Og) as [sg Hs].
    rewrite (Hs s Is (NZ s Is)), (Hs t It (NZ t It)). destruct BL as [_ BL]. rewrite (BL s t Is It Ad).
    destruct (g (su_index s)), (g (su_index t)), (sg (Z.abs (o (su_index s)))), (B (Z.abs (o (su_index s)))); reflexivity.
  - intros g Og Tr De. destruct (K2 g Og) as [sg Hs]. unfold turned. f_equal. apply map_ext_in. intros s Is.
    assert (X : B (Z.abs (o (su_index s))) = sg (Z.abs (o (su_index s)))).
    { assert (Rk : 1 <= Z.abs (o (su_index s)) <= nb) by (apply BL; auto). specialize (HB _ Rk).
      destruct (De s Is) as [t [It [Rt Ft]]]. destruct (reach_block BL Is Rt) as [_ Et].
      destruct HB as [[_ Z0]|[u [c [Iu [Eu [C0 [Cu [Fu Bu]]]]]]]].
      - exfalso. destruct (Z0 t It Et) as [c [C0 [Ct Fc]]]. apply (Ft c); auto.
      - pose proof (Hs u Iu (NZ u Iu)) as Hu. rewrite Eu in Hu. destruct (Tr u c Iu C0 Cu) as [T1 T2]. fold (tf g u) in T1, T2.
        destruct (HF u Iu) as [_ [p [q [P Npq]]]]. assert (Cpq : c = p \/ c = q) by (rewrite P in Cu; simpl in Cu; intuition).
        rewrite (first_b u f P Npq Cpq) in Bu. rewrite (first_b u g P Npq Cpq) in T1, T2. rewrite Hu in Bu.
        set (k := Z.abs (o (su_index s))) in *. clearbody k. clear - Fu Bu T1 T2.
        assert (TT : 0 < facing (su_index u) c <-> xorb (g (su_index u)) (p =? c) = true).
        { split; auto. intros X. destruct (Z_lt_le_dec 0 (facing (su_index u) c)); auto. exfalso. apply T2; auto. lia. }
        rewrite TT in Bu. clear - Bu. destruct (B k), (sg k), (g (su_index u)), (p =? c); simpl in Bu; try reflexivity; exfalso; intuition discriminate. }
    rewrite X, (Hs s Is (NZ s Is)). destruct (g (su_index s)), (sg (Z.abs (o (su_index s)))); reflexivity.
Qed.
End F.
