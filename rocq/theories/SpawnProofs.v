(** Lemmas on spawning. *)
From Coq Require Import Permutation.
From Verif Require Import Base Containers ContainersProofs Mesh MeshProofs MergeProofs Num Snake SpecMesh Spawn SpecSpawn.
Set Implicit Arguments.
Open Scope Z_scope.

(** ** Lists and positions *)
Lemma numbered_In A (l : list A) i a : In (i, a) (numbered l) <-> exists n, nth_error l n = Some a /\ i = Z.of_nat n + 1.
Proof.
  unfold numbered. assert (G : forall (l : list A) s, In (i, a) (combine (map (fun i => Z.of_nat i + 1) (seq s (length l))) l) <->
      exists n, nth_error l n = Some a /\ i = Z.of_nat (s + n) + 1).
  { induction l0 as [|b r IH]; intros s; simpl.
    - split; [tauto|]. intros [[|n] [H _]]; discriminate.
    - rewrite IH. split.
      + intros [E|[n [H ->]]]; [injection E; intros; subst; exists O; split; auto; f_equal; lia|].
        exists (S n). split; auto. f_equal. lia.
      + intros [[|n] [H ->]]; [left; simpl in H; injection H; intros ->; do 2 f_equal; lia|].
        right. exists n. split; auto. f_equal. lia. }
  apply (G l O).
Qed.
Lemma numbered_length A (l : list A) : length (numbered l) = length l.
Proof. unfold numbered. rewrite combine_length, map_length, seq_length. lia. Qed.
Lemma numbered_fst A (l : list A) : map fst (numbered l) = map (fun i => Z.of_nat i + 1) (seq 0 (length l)).
Proof.
  unfold numbered. generalize (seq 0 (length l)) (seq_length (length l) 0). induction l as [|a r IH]; intros [|s q] E; simpl in *; try discriminate; auto.
  f_equal. apply IH. lia.
Qed.
Lemma numbered_snd A (l : list A) : map snd (numbered l) = l.
Proof.
  unfold numbered. generalize (seq 0 (length l)) (seq_length (length l) 0). induction l as [|a r IH]; intros [|s q] E; simpl in *; try discriminate; auto.
  f_equal. apply IH. lia.
Qed.
Lemma numbered_NoDup A (l : list A) : NoDup (map fst (numbered l)).
Proof. rewrite numbered_fst. apply FinFun.Injective_map_NoDup; [intros x y; lia|apply seq_NoDup]. Qed.
Lemma numbered_nth A (l : list A) n a : nth_error l n = Some a -> nth_error (numbered l) n = Some (Z.of_nat n + 1, a).
Proof.
  intros H. assert (Hl : (n < length l)%nat) by (apply nth_error_Some; congruence).
  destruct (nth_error (numbered l) n) as [[i b]|] eqn:E.
  - pose proof (f_equal (fun l => nth_error l n) (numbered_fst l)) as F. pose proof (f_equal (fun l => nth_error l n) (numbered_snd l)) as G.
    cbv beta in F, G. rewrite nth_error_map, E in F, G. simpl in F, G. rewrite H in G.
    rewrite nth_error_map in F. destruct (nth_error (seq 0 (length l)) n) as [q|] eqn:Q; [|discriminate].
    assert (q = n). { apply nth_error_nth with (d := O) in Q. rewrite seq_nth in Q by auto. lia. }
    simpl in F. congruence.
  - apply nth_error_None in E. rewrite numbered_length in E. lia.
Qed.

(** The position of [x] in [l], plus one. *)
Definition spot (l : list Z) (x : Z) : Z := find (fun y => y) l x + 1.
Lemma find_nth (l : list Z) n x : NoDup l -> nth_error l n = Some x -> find (fun y => y) l x = Z.of_nat n.
Proof.
  intros D H. destruct (find_spec (fun y : Z => y) l x) as [[_ C]|[j [a [E [H' ->]]]]].
  - exfalso. apply C. exists x. split; auto. eapply nth_error_In; eauto.
  - rewrite E. f_equal. apply (proj1 (NoDup_nth_error l) D); [apply nth_error_Some; congruence|congruence].
Qed.
Lemma spot_nth l n x : NoDup l -> nth_error l n = Some x -> spot l x = Z.of_nat n + 1.
Proof. intros D H. unfold spot. rewrite (@find_nth l n x D H). auto. Qed.
Lemma spot_inj l x y : In x l -> In y l -> spot l x = spot l y -> x = y.
Proof.
  intros Hx Hy E. unfold spot in E.
  destruct (find_spec (fun y : Z => y) l x) as [[_ C]|[j [a [Ej [H <-]]]]]; [exfalso; apply C; exists x; auto|].
  destruct (find_spec (fun y : Z => y) l y) as [[_ C]|[k [b [Ek [H' <-]]]]]; [exfalso; apply C; exists y; auto|].
  assert (j = k) by lia. congruence.
Qed.
Lemma spot_range l x : In x l -> 0 < spot l x.
Proof.
  intros H. unfold spot. destruct (find_spec (fun y : Z => y) l x) as [[_ C]|[j [a [E _]]]]; [exfalso; apply C; exists x; auto|]. lia.
Qed.
(** The positions of the keys that were found. *)
Lemma found_sub ks l : found (sub_list ks l) = map (find (fun y => y) l) (filter (fun k => mem_z k l) ks).
Proof.
  unfold found, sub_list, find_list. induction ks as [|k r IH]; simpl; auto.
  assert (E : (0 <=? find (fun y => y) l k) = mem_z k l).
  { destruct (mem_z k l) eqn:M.
    - apply mem_z_In in M. apply spot_range in M. unfold spot in M. apply Z.leb_le. lia.
    - destruct (find_spec (fun y : Z => y) l k) as [[F _]|[j [a [_ [H <-]]]]]; [rewrite F; auto|].
      exfalso. assert (X : In a l) by (eapply nth_error_In; eauto). apply mem_z_In in X. congruence. }
  rewrite E. destruct (mem_z k l); simpl; rewrite IH; auto.
Qed.
Lemma sub_spot ks l : map (fun x => x + 1) (sub_list ks l) = map (spot l) ks.
Proof. unfold sub_list, find_list. rewrite map_map. reflexivity. Qed.
Lemma found_spot ks l : map (fun x => x + 1) (found (sub_list ks l)) = map (spot l) (filter (fun k => mem_z k l) ks).
Proof. rewrite found_sub, map_map. reflexivity. Qed.

(** An index names one object. *)
Lemma lists_one A (idx : A -> Z) (get : A -> list Z) l a x :
  NoDup (map idx l) -> In a l -> (lists idx get l (idx a) x <-> In x (get a)).
Proof.
  intros D Ha. split; [|intros H; exists a; auto].
  intros [b [Hb [E H]]]. rewrite <- (NoDup_idx_inj idx l _ _ D Hb Ha E). auto.
Qed.
(** Objects looked up one after the other. *)
Lemma fetch A (idx : A -> Z) (l : list A) ks : (forall k, In k ks -> exists a, In a l /\ idx a = k) ->
  exists r, omap_list (at_ l) (find_list idx l ks) = Ok r /\ map idx r = ks /\ (forall a, In a r -> In a l).
Proof.
  induction ks as [|k q IH]; intros H.
  - exists []. simpl. tauto.
  - destruct (find_at idx l (H k (or_introl eq_refl))) as [a [E [Ha Ea]]].
    destruct IH as [r [Er [Mr Hr]]]; [intros; apply H; right; auto|].
    exists (a :: r). change (find_list idx l (k :: q)) with (find idx l k :: find_list idx l q).
    cbn [omap_list]. rewrite E. cbn [bind]. rewrite Er. split; auto. simpl. split; [congruence|].
    intros b [<-|Hb]; auto.
Qed.
Lemma concat_In A (get : A -> list Z) l x : In x (concat (map get l)) <-> exists a, In a l /\ In x (get a).
Proof. rewrite in_concat. split; [intros [y [H1 H2]]; apply in_map_iff in H1; destruct H1 as [a [<- Ha]]; eauto|intros [a [H1 H2]]; exists (get a); split; auto; apply in_map; auto]. Qed.
Lemma tighten_NoDup l : NoDup (tighten l).
Proof. pose proof (tighten_strict l) as H. induction H as [|a r Hr IH F]; constructor; auto. intros C. rewrite Forall_forall in F. specialize (F _ C). lia. Qed.

Lemma numbered_map A B (f : A -> B) l : numbered (map f l) = map (fun p => (fst p, f (snd p))) (numbered l).
Proof.
  unfold numbered. rewrite map_length. generalize (seq 0 (length l)). induction l as [|a r IH]; intros [|n q]; simpl; auto. rewrite IH. auto.
Qed.
Lemma numbered_idx A (idx : A -> Z) l ks i a : map idx l = ks -> NoDup ks -> (In (i, a) (numbered l) <-> In a l /\ i = spot ks (idx a)).
Proof.
  intros <- D. rewrite numbered_In. split.
  - intros [n [H ->]]. split; [eapply nth_error_In; eauto|]. symmetry. apply spot_nth; auto. rewrite nth_error_map, H. auto.
  - intros [H ->]. destruct (In_nth_error _ _ H) as [n Hn]. exists n. split; auto. apply spot_nth; auto. rewrite nth_error_map, Hn. auto.
Qed.
Lemma numbered_id ks i a : NoDup ks -> (In (i, a) (numbered ks) <-> In a ks /\ i = spot ks a).
Proof. intros D. apply (@numbered_idx Z (fun x => x) ks ks i a (map_id ks) D). Qed.
Lemma combine_idx A (idx : A -> Z) l : combine l (map idx l) = map (fun e => (e, idx e)) l.
Proof. induction l; simpl; auto. rewrite IHl. auto. Qed.
Lemma two_of (l : list Z) (f : Z -> bool) a b : NoDup l -> a <> b -> (forall e, (In e l /\ f e = true) <-> (e = a \/ e = b)) ->
  filter f l = [a; b] \/ filter f l = [b; a].
Proof.
  intros D Hab H. assert (P : Permutation [a; b] (filter f l)).
  { apply NoDup_Permutation; [constructor; [simpl; intuition|constructor; [auto|constructor]]|apply NoDup_filter; auto|].
    intros x. rewrite filter_In, H. simpl. intuition. }
  apply Permutation_length_2_inv in P. auto.
Qed.

(** ** One vertex *)
Section One.
Variable N : num.
Variable m : mesh.
Variable v : Z.
Hypothesis W : well_connected m.
Hypothesis I : interior m v.
Hypothesis V3 : volus m <> [].

Lemma around_ok : exists ve es ss,
  around m v = Ok (es, ss, ve_edgeind ve, tighten (concat (map ed_surfind es)), tighten (concat (map su_voluind ss))) /\
  In ve (verts m) /\ ve_index ve = v /\ NoDup (ve_edgeind ve) /\
  map ed_index es = ve_edgeind ve /\ (forall e, In e es -> In e (edges m)) /\
  map su_index ss = tighten (concat (map ed_surfind es)) /\ (forall s, In s ss -> In s (surfs m)) /\
  (forall e, VE m v e <-> In e (ve_edgeind ve)) /\
  (forall s, touches m v s <-> In s (tighten (concat (map ed_surfind es)))) /\
  (forall c, in_cell m v c <-> In c (tighten (concat (map su_voluind ss)))).
Proof.
  destruct W as [[Uc [Us [Ue [Uv [Zc [Zs [Ze Zv]]]]]]] [[M1 [M2 [M3 [M4 [M5 M6]]]]] [X1 [X2 [X3 [X4 X5]]]]]].
  destruct I as [Hv [Nv [Ends Surfs]]].
  destruct (find_at ve_index (verts m) Hv) as [ve [Ev [Hve Ive]]].
  assert (E1 : forall e, VE m v e <-> In e (ve_edgeind ve)).
  { intros e. rewrite <- Ive. apply lists_one; auto. }
  destruct (@fetch _ ed_index (edges m) (ve_edgeind ve)) as [es [Ees [Mes Hes]]].
  { intros k Hk. apply E1 in Hk. assert (k <> 0) by (intros ->; eapply X1; eauto).
    destruct (M1 _ _ Hk H) as [e [He [Ie _]]]. eauto. }
  assert (E2 : forall s, touches m v s <-> In s (tighten (concat (map ed_surfind es)))).
  { intros s. rewrite tighten_In, concat_In. split.
    - intros [e [H1 [b [Hb [Ib Hs]]]]]. apply E1 in H1. rewrite <- Mes in H1. apply in_map_iff in H1. destruct H1 as [a [Ea Ha]].
      exists a. split; auto. rewrite <- (NoDup_idx_inj ed_index (edges m) b a Ue Hb (Hes _ Ha)); auto. congruence.
    - intros [a [Ha Hs]]. exists (ed_index a). split; [apply E1; rewrite <- Mes; apply in_map; auto|]. exists a. auto. }
  destruct (@fetch _ su_index (surfs m) (tighten (concat (map ed_surfind es)))) as [ss [Ess [Mss Hss]]].
  { intros k Hk. apply E2 in Hk. destruct Hk as [e [He Hk]]. assert (k <> 0) by (intros ->; eapply (X5 V3); eauto).
    destruct (M3 _ _ Hk H) as [s [Hs [Is _]]]. eauto. }
  exists ve, es, ss. unfold around. rewrite Ev. simpl. rewrite Ees. simpl. rewrite Ess. simpl.
  split; auto. split; auto. split; auto. split; [apply Nv; auto|]. split; auto. split; auto. split; auto. split; auto.
  split; auto. split; auto.
  intros c. rewrite tighten_In, concat_In. split.
  - intros [s [H1 [b [Hb [Ib Hc]]]]]. apply E2 in H1. rewrite <- Mss in H1. apply in_map_iff in H1. destruct H1 as [a [Ea Ha]].
    exists a. split; auto. rewrite <- (NoDup_idx_inj su_index (surfs m) b a Us Hb (Hss _ Ha)); auto. congruence.
  - intros [a [Ha Hc]]. exists (su_index a). split; [apply E2; rewrite <- Mss; apply in_map; auto|]. exists a. auto.
Qed.

(** The far end of an edge of the model. *)
Definition far (e : edge) : Z := match ed_vertind e with a :: b :: _ => if a =? v then b else a | _ => 0 end.
(** The surface of the snake in one cell. *)
Definition cut (SI : list Z) (p : Z * Z) : surf :=
  match at_ (volus m) (find vo_index (volus m) (snd p)) with
  | Ok c => mkSurf (fst p) false false [1; 0] (map (spot SI) (filter (fun k => mem_z k SI) (vo_surfind c)))
  | _ => mkSurf 0 false false [] []
  end.
Lemma spawn_form : exists ve es ss,
  let EI := ve_edgeind ve in let SI := tighten (concat (map ed_surfind es)) in let VI := tighten (concat (map su_voluind ss)) in
  spawn N m v = Ok (mkSnake
    (map (fun p => @mkSnax N (fst p) n0 nhalf v (far (snd p)) (ed_index (snd p)) 0 (-1)) (numbered es))
    (numbered SI) (numbered VI)
    (mkMesh [mkVolu 1 false (map fst (numbered VI))] (map (cut SI) (numbered VI))
       (map (fun p => mkEdge (fst p) false (map (spot VI) (su_voluind (snd p))) (map (spot EI) (filter (fun k => mem_z k EI) (su_edgeind (snd p))))) (numbered ss))
       (map (fun p => mkVert (fst p) false (map (spot SI) (ed_surfind (snd p)))) (numbered es)) 0)
    (upd (repeat false (length (verts m))) (Z.to_nat (find ve_index (verts m) v)) true) false) /\
  In ve (verts m) /\ ve_index ve = v /\ NoDup EI /\ map ed_index es = EI /\ (forall e, In e es -> In e (edges m)) /\
  map su_index ss = SI /\ (forall s, In s ss -> In s (surfs m)) /\
  (forall e, VE m v e <-> In e EI) /\ (forall s, touches m v s <-> In s SI) /\ (forall c, in_cell m v c <-> In c VI).
Proof.
  destruct around_ok as [ve [es [ss [Ea [Hve [Ive [Nve [Mes [Hes [Mss [Hss [E1 [E2 E3]]]]]]]]]]]]].
  exists ve, es, ss. cbv zeta. split; [|tauto].
  destruct W as [[Uc [Us [Ue [Uv [Zc [Zs [Ze Zv]]]]]]] [[M1 [M2 [M3 [M4 [M5 M6]]]]] [X1 [X2 [X3 [X4 X5]]]]]].
  destruct I as [Hv [Nv [Ends Surfs]]].
  set (SI := tighten (concat (map ed_surfind es))) in *. set (VI := tighten (concat (map su_voluind ss))) in *.
  unfold spawn. rewrite Ea. cbn [bind].
  assert (L : (0 <? length (volus m))%nat = true) by (destruct (volus m); [congruence|auto]). rewrite L.
  assert (Ei : vert_is_in m v true (repeat false (length (verts m))) = Ok (upd (repeat false (length (verts m))) (Z.to_nat (find ve_index (verts m) v)) true)).
  { unfold vert_is_in. destruct (find_spec ve_index (verts m) v) as [[_ C]|[j [a [Ej [Hj _]]]]]; [contradiction|].
    rewrite Ej. replace (Z.of_nat j =? -1) with false by (symmetry; apply Z.eqb_neq; lia). unfold modify.
    assert (Hl : (j < length (verts m))%nat) by (apply nth_error_Some; congruence).
    destruct (at_ (repeat false (length (verts m))) (Z.of_nat j)) as [b| | |] eqn:Eb; auto;
      exfalso; unfold at_ in Eb; rewrite Nat2Z.id in Eb;
      destruct (nth_error (repeat false (length (verts m))) j) eqn:En; try (apply nth_error_None in En; rewrite repeat_length in En; lia);
      destruct (Z.of_nat j <? 0) eqn:Q; try lia; discriminate. }
  rewrite Ei. cbn [bind].
  rewrite <- Mes at 1. rewrite combine_idx, numbered_map.
  rewrite (@omap_list_Ok _ _ (spawn_snax N v) (fun p => @mkSnax N (fst p) n0 nhalf v (far (fst (snd p))) (snd (snd p)) 0 (-1))).
  2:{ intros p Hp. apply in_map_iff in Hp. destruct Hp as [[i e] [<- Hp]]. simpl.
      apply numbered_In in Hp. destruct Hp as [n [Hn _]]. apply nth_error_In in Hn.
      destruct (Ends e (Hes _ Hn)) as [w [Hw Hvw]]; [apply E1; rewrite <- Mes; apply in_map; auto|].
      unfold far. destruct Hvw as [-> | ->].
      - change (at_ [v; w] 0) with (Ok v). cbn [bind]. rewrite Z.eqb_refl. reflexivity.
      - change (at_ [w; v] 0) with (Ok w). cbn [bind]. destruct (Z.eqb_spec w v); [contradiction|]. reflexivity. }
  cbn [bind]. rewrite map_map. cbn [fst snd].
  rewrite (@omap_list_Ok _ _ (spawn_edge true (ve_edgeind ve) VI)
     (fun p => mkEdge (fst p) false (map (spot VI) (su_voluind (snd p))) (map (spot (ve_edgeind ve)) (filter (fun k => mem_z k (ve_edgeind ve)) (su_edgeind (snd p)))))).
  2:{ intros [i s] Hp. apply numbered_In in Hp. destruct Hp as [n [Hn _]]. apply nth_error_In in Hn. unfold spawn_edge. cbn [fst snd].
      destruct (Surfs s (Hss _ Hn)) as [Ds [[a [b [Hab Two]]] _]]; [apply E2; rewrite <- Mss; apply in_map; auto|].
      assert (P : filter (fun k => mem_z k (ve_edgeind ve)) (su_edgeind s) = [a; b] \/ filter (fun k => mem_z k (ve_edgeind ve)) (su_edgeind s) = [b; a]).
      { apply two_of; auto. intros e. rewrite <- Two, E1, mem_z_In. tauto. }
      assert (Lf : length (found (sub_list (su_edgeind s) (ve_edgeind ve))) = 2%nat).
      { rewrite found_sub, map_length. destruct P as [-> | ->]; auto. }
      rewrite Lf. simpl. rewrite app_nil_r, found_spot, sub_spot. reflexivity. }
  cbn [bind].
  rewrite (@omap_list_Ok _ _ (spawn_surf m SI) (cut SI)).
  2:{ intros [i c] Hp. apply numbered_In in Hp. destruct Hp as [n [Hn _]]. apply nth_error_In in Hn.
      unfold spawn_surf, cut. cbn [fst snd].
      assert (Hc : in_cell m v c) by (apply E3; auto). destruct Hc as [f [Hf Hc]].
      assert (Hf' := Hf). apply E2 in Hf'. rewrite <- Mss in Hf'. apply in_map_iff in Hf'. destruct Hf' as [s [Is Hs]].
      assert (c <> 0).
      { destruct (Surfs s (Hss _ Hs)) as [_ [_ [x [y [_ [Hx [Hy Q]]]]]]]; [rewrite Is; auto|].
        destruct Hc as [s' [Hs' [Is' Hc]]]. rewrite (NoDup_idx_inj su_index (surfs m) s' s Us Hs' (Hss _ Hs)) in Hc by congruence.
        rewrite Q in Hc. simpl in Hc. intuition congruence. }
      destruct (M5 _ _ Hc H) as [w [Hw [Iw _]]].
      destruct (@find_at _ vo_index (volus m) c) as [w' [-> _]]; [eauto|]. cbn [bind]. rewrite found_spot. reflexivity. }
  cbn [bind]. do 3 f_equal.
  apply map_ext. intros [i e]. unfold spawn_vert. cbn [fst snd]. rewrite sub_spot. reflexivity.
Qed.

Lemma spawn_ok : exists (s : snake N) fe fs fc, spawn N m v = Ok s /\ grown m v fe fs fc 1 s /\ in_step s /\ closed (k_conn s) /\
  unique_indices (k_conn s) /\ (forall e, VE m v e -> 0 < fe e) /\ (forall f, touches m v f -> 0 < fs f) /\ (forall c, in_cell m v c -> 0 < fc c) /\
  k_in s = upd (repeat false (length (verts m))) (Z.to_nat (find ve_index (verts m) v)) true /\ k_flipped s = false.
Proof.
  destruct spawn_form as [ve [es [ss [Ef [Hve [Ive [Nve [Mes [Hes [Mss [Hss [E1 [E2 E3]]]]]]]]]]]]]. cbv zeta in *.
  destruct W as [[Uc [Us [Ue [Uv [Zc [Zs [Ze Zv]]]]]]] [[M1 [M2 [M3 [M4 [M5 M6]]]]] [X1 [X2 [X3 [X4 X5]]]]]].
  destruct I as [Hv [Nv [Ends Surfs]]].
  set (EI := ve_edgeind ve) in *.
  remember (tighten (concat (map ed_surfind es))) as SI eqn:ESI. remember (tighten (concat (map su_voluind ss))) as VI eqn:EVI.
  assert (NS : NoDup SI) by (subst SI; apply tighten_NoDup). assert (NV : NoDup VI) by (subst VI; apply tighten_NoDup).
  clear ESI EVI.
  assert (A1 : forall i e, In (i, e) (numbered es) <-> In e es /\ i = spot EI (ed_index e)) by (intros; apply numbered_idx; auto).
  assert (A2 : forall i s, In (i, s) (numbered ss) <-> In s ss /\ i = spot SI (su_index s)) by (intros; apply numbered_idx; auto).
  assert (A3 : forall i c, In (i, c) (numbered VI) <-> in_cell m v c /\ i = spot VI c) by (intros; rewrite E3; apply numbered_id; auto).
  assert (B1 : forall k, VE m v k <-> exists e, In e es /\ ed_index e = k).
  { intros k. rewrite E1. rewrite <- Mes, in_map_iff. firstorder. }
  assert (B2 : forall k, touches m v k <-> exists s, In s ss /\ su_index s = k).
  { intros k. rewrite E2. rewrite <- Mss, in_map_iff. firstorder. }
  assert (C1 : forall e f, In e es -> (In f (ed_surfind e) <-> ES m (ed_index e) f)).
  { intros e f He. symmetry. apply lists_one; auto. }
  assert (C2 : forall s c, In s ss -> (In c (su_voluind s) <-> SV m (su_index s) c)).
  { intros s c Hs. symmetry. apply lists_one; auto. }
  assert (C3 : forall s e, In s ss -> (In e (su_edgeind s) <-> SE m (su_index s) e)).
  { intros s e Hs. symmetry. apply lists_one; auto. }
  assert (Vp : volus m <> []) by auto.
  assert (D1 : forall e, VE m v e -> e <> 0) by (intros e H ->; eapply X1; eauto).
  assert (D2 : forall f, touches m v f -> f <> 0) by (intros f [e [_ H]] ->; eapply X5; eauto).
  assert (D3 : forall f c, touches m v f -> SV m f c -> c <> 0).
  { intros f c Hf Hc. apply B2 in Hf as Hf'. destruct Hf' as [s [Hs <-]]. apply C2 in Hc; auto.
    destruct (Surfs s (Hss _ Hs) Hf) as [_ [_ [x [y [_ [Hx [Hy Q]]]]]]]. rewrite Q in Hc. simpl in Hc. intuition congruence. }
  assert (A4 : forall c, in_cell m v c -> exists L, cut SI (spot VI c, c) = mkSurf (spot VI c) false false [1; 0] (map (spot SI) L) /\
     forall f, In f L <-> touches m v f /\ SV m f c).
  { intros c [g [Hg Hc]]. assert (Nc : c <> 0) by eauto. destruct (M5 _ _ Hc Nc) as [w [Hw [Iw _]]].
    unfold cut. cbn [fst snd]. destruct (@find_at _ vo_index (volus m) c) as [w' [-> [Hw' Iw']]]; [eauto|].
    eexists. split; [reflexivity|]. intros f. rewrite filter_In, mem_z_In, <- E2. split.
    - intros [Hf T]. split; auto. apply M6; auto. exists w'. auto.
    - intros [T H]. split; auto. destruct (M5 _ _ H Nc) as [w2 [Hw2 [Iw2 H2]]].
      rewrite (NoDup_idx_inj vo_index (volus m) w' w2 Uc Hw' Hw2) by congruence. auto. }
  assert (A4i : forall i c, In (i, c) (numbered VI) -> su_index (cut SI (i, c)) = i).
  { intros i c Hp. apply A3 in Hp. destruct Hp as [Hc ->]. destruct (A4 c Hc) as [L [-> _]]. auto. }
  assert (Fst : forall A (l : list A) (B : Type) (g : Z * A -> B) (idx : B -> Z), (forall i a, In (i, a) (numbered l) -> idx (g (i, a)) = i) -> map idx (map g (numbered l)) = map fst (numbered l)).
  { intros A l B g idx H. rewrite map_map. apply map_ext_in. intros [i a] Hp. auto. }
  eexists. exists (spot EI), (spot SI), (spot VI). split; [exact Ef|]. split; [|split; [|split; [|split; [|split; [|split; [|split; [|split]]]]]]].
  - constructor; cbn [k_snaxs k_edges k_surfs k_conn verts edges surfs volus].
    + intros x. rewrite in_map_iff. split.
      * intros [[i e] [<- Hp]]. apply A1 in Hp. destruct Hp as [He ->]. cbn [fst snd].
        assert (VEe : VE m v (ed_index e)) by (apply B1; eauto).
        destruct (Ends e (Hes _ He) VEe) as [w [Hw Hvw]]. exists (ed_index e), w. split; auto. split.
        { split; auto. exists e. split; auto. split; auto. destruct Hvw as [-> | ->]; simpl; auto. }
        unfold far. destruct Hvw as [-> | ->]; [rewrite Z.eqb_refl|destruct (Z.eqb_spec w v); [contradiction|]]; auto.
      * intros [k [w [H [[Hw Nw] ->]]]]. apply B1 in H as H'. destruct H' as [e [He <-]].
        exists (spot EI (ed_index e), e). split; [|apply A1; auto]. cbn [fst snd].
        assert (In w (ed_vertind e)) by (revert Hw; apply (@lists_one _ ed_index ed_vertind (edges m) e w Ue (Hes _ He))).
        destruct (Ends e (Hes _ He) H) as [w' [Hw' Hvw]]. unfold far.
        destruct Hvw as [R | R]; rewrite R in *; simpl in H0.
        -- rewrite Z.eqb_refl. f_equal. intuition congruence.
        -- destruct (Z.eqb_spec w' v); [contradiction|]. f_equal. intuition congruence.
    + intros [i f]. rewrite numbered_id by auto. rewrite <- E2. split.
      * intros [H ->]. eauto.
      * intros [g [H E]]. injection E; intros; subst. auto.
    + intros [i f]. rewrite A3. split.
      * intros [H ->]. eauto.
      * intros [g [H E]]. injection E; intros; subst. auto.
    + intros i. split.
      * intros [x [Hx <-]]. apply in_map_iff in Hx. destruct Hx as [[j e] [<- Hp]]. apply A1 in Hp. destruct Hp as [He ->].
        exists (ed_index e). split; [apply B1; eauto|auto].
      * intros [k [H ->]]. apply B1 in H. destruct H as [e [He <-]]. eexists. split; [apply in_map; apply A1; split; [exact He|reflexivity]|auto].
    + intros i. split.
      * intros [x [Hx <-]]. apply in_map_iff in Hx. destruct Hx as [[j e] [<- Hp]]. apply A2 in Hp. destruct Hp as [He ->].
        exists (su_index e). split; [apply B2; eauto|auto].
      * intros [k [H ->]]. apply B2 in H. destruct H as [e [He <-]]. eexists. split; [apply in_map; apply A2; split; [exact He|reflexivity]|auto].
    + intros i. split.
      * intros [x [Hx <-]]. apply in_map_iff in Hx. destruct Hx as [[j c] [<- Hp]]. rewrite A4i by auto. apply A3 in Hp. eauto.
      * intros [c [H ->]]. exists (cut SI (spot VI c, c)). assert (In (spot VI c, c) (numbered VI)) by (apply A3; auto).
        split; [apply in_map; auto|apply A4i; auto].
    + intros i. split.
      * intros [x [[<-|[]] <-]]. auto.
      * intros ->. eexists. split; [left; reflexivity|auto].
    + intros i j. split.
      * intros [x [Hx [<- Hj]]]. apply in_map_iff in Hx. destruct Hx as [[n e] [<- Hp]]. apply A1 in Hp. destruct Hp as [He ->].
        cbn [fst snd ve_index ve_edgeind] in *. apply in_map_iff in Hj. destruct Hj as [f [<- Hf]].
        exists (ed_index e), f. repeat split; auto; [apply B1; eauto|apply C1; auto].
      * intros [k [f [H [Hf [-> ->]]]]]. apply B1 in H. destruct H as [e [He <-]].
        eexists. split; [apply in_map; apply A1; split; [exact He|reflexivity]|]. cbn [fst snd ve_index ve_edgeind]. split; auto.
        apply in_map. apply C1; auto.
    + intros i j. split.
      * intros [x [Hx [<- Hj]]]. apply in_map_iff in Hx. destruct Hx as [[n s] [<- Hp]]. apply A2 in Hp. destruct Hp as [Hs ->].
        cbn [fst snd ed_index ed_vertind] in *. apply in_map_iff in Hj. destruct Hj as [k [<- Hk]].
        apply filter_In in Hk. destruct Hk as [Hk Mk]. apply mem_z_In in Mk. apply E1 in Mk.
        exists k, (su_index s). repeat split; auto. apply M4; auto. apply C3; auto.
      * intros [k [f [H [Hf [-> ->]]]]]. assert (T : touches m v f) by (exists k; auto). apply B2 in T as T'. destruct T' as [s [Hs <-]].
        eexists. split; [apply in_map; apply A2; split; [exact Hs|reflexivity]|]. cbn [fst snd ed_index ed_vertind]. split; auto.
        apply in_map. apply filter_In. split; [apply C3; auto|apply mem_z_In, E1; auto].
    + intros i j. split.
      * intros [x [Hx [<- Hj]]]. apply in_map_iff in Hx. destruct Hx as [[n s] [<- Hp]]. apply A2 in Hp. destruct Hp as [Hs ->].
        cbn [fst snd ed_index ed_surfind] in *. apply in_map_iff in Hj. destruct Hj as [c [<- Hc]].
        exists (su_index s), c. repeat split; auto; [apply B2; eauto|apply C2; auto].
      * intros [f [c [T [H [-> ->]]]]]. apply B2 in T as T'. destruct T' as [s [Hs <-]].
        eexists. split; [apply in_map; apply A2; split; [exact Hs|reflexivity]|]. cbn [fst snd ed_index ed_surfind]. split; auto.
        apply in_map. apply C2; auto.
    + intros i j. split.
      * intros [x [Hx [<- Hj]]]. apply in_map_iff in Hx. destruct Hx as [[n c] [<- Hp]]. rewrite A4i by auto. apply A3 in Hp. destruct Hp as [Hc ->].
        destruct (A4 c Hc) as [L [R HL]]. rewrite R in Hj. cbn [su_edgeind] in Hj. apply in_map_iff in Hj. destruct Hj as [f [<- Hf]].
        apply HL in Hf. exists f, c. tauto.
      * intros [f [c [T [H [-> ->]]]]]. assert (Hc : in_cell m v c) by (exists f; auto).
        destruct (A4 c Hc) as [L [R HL]]. exists (cut SI (spot VI c, c)). split; [apply in_map, A3; auto|]. rewrite R. cbn [su_index su_edgeind]. split; auto.
        apply in_map. apply HL. auto.
    + intros i j. split.
      * intros [x [Hx [<- Hj]]]. apply in_map_iff in Hx. destruct Hx as [[n c] [<- Hp]]. rewrite A4i by auto. apply A3 in Hp. destruct Hp as [Hc ->].
        destruct (A4 c Hc) as [L [R HL]]. rewrite R in Hj. simpl in Hj. split; [eauto|intuition].
      * intros [[c [Hc ->]] H].
        destruct (A4 c Hc) as [L [R HL]]. exists (cut SI (spot VI c, c)). split; [apply in_map, A3; auto|]. rewrite R. cbn [su_index su_voluind]. split; auto.
        simpl. intuition.
    + intros i j. split.
      * intros [x [[<-|[]] [<- Hj]]]. split; auto. cbn [vo_surfind] in Hj. apply in_map_iff in Hj. destruct Hj as [[n c] [<- Hp]].
        apply A3 in Hp. destruct Hp as [Hc ->]. eauto.
      * intros [-> [c [Hc ->]]]. eexists. split; [left; reflexivity|]. split; auto. cbn [vo_surfind].
        apply in_map_iff. exists (spot VI c, c). split; auto. apply A3; auto.
    + intros e e' H H'. apply spot_inj; apply E1; auto.
    + intros e e' H H'. apply spot_inj; apply E2; auto.
    + intros e e' H H'. apply spot_inj; apply E3; auto.
  - unfold in_step. cbn [k_snaxs k_edges k_surfs k_conn verts edges surfs].
    rewrite !map_map. cbn [sx_index ve_index ed_index]. split; auto. split.
    + rewrite !numbered_fst. do 2 f_equal. rewrite <- Mss, map_length. auto.
    + rewrite <- (Fst _ _ _ (cut SI) su_index A4i). rewrite map_map. auto.
  - intros x Hx. cbn [k_conn edges] in Hx. apply in_map_iff in Hx. destruct Hx as [[i s] [<- Hp]]. apply A2 in Hp. destruct Hp as [Hs ->].
    cbn [fst snd ed_vertind ed_surfind]. assert (T : touches m v (su_index s)) by (apply B2; eauto).
    destruct (Surfs s (Hss _ Hs) T) as [Ds [[a [b [Hab Two]]] [c [d [Hcd [Hc [Hd Q]]]]]]]. split.
    + assert (P : filter (fun k => mem_z k EI) (su_edgeind s) = [a; b] \/ filter (fun k => mem_z k EI) (su_edgeind s) = [b; a]).
      { apply two_of; auto. intros e. rewrite <- Two, E1, mem_z_In. tauto. }
      assert (Ha : In a EI) by (apply E1, (proj2 (Two a)); auto). assert (Hb : In b EI) by (apply E1, (proj2 (Two b)); auto).
      pose proof (spot_range _ _ Ha). pose proof (spot_range _ _ Hb).
      assert (spot EI a <> spot EI b) by (intros E; apply Hab; apply (spot_inj EI); auto).
      destruct P as [-> | ->]; simpl; [exists (spot EI a), (spot EI b)|exists (spot EI b), (spot EI a)]; repeat split; auto; lia.
    + assert (Ic : forall x, In x (su_voluind s) -> In x VI) by (intros x Hx; apply E3; exists (su_index s); split; auto; apply C2; auto).
      rewrite Q in *. assert (Hc' : In c VI) by (apply Ic; simpl; auto). assert (Hd' : In d VI) by (apply Ic; simpl; auto).
      pose proof (spot_range _ _ Hc'). pose proof (spot_range _ _ Hd').
      assert (spot VI c <> spot VI d) by (intros E; apply Hcd; apply (spot_inj VI); auto).
      simpl. exists (spot VI c), (spot VI d). repeat split; auto; lia.
  - assert (Pos : forall A (l : list A) i, In i (map fst (numbered l)) -> i <> 0).
    { intros A l i. rewrite numbered_fst, in_map_iff. intros [n [<- _]]. lia. }
    assert (Q : forall A (l : list A) (B : Type) (g : Z * A -> B) (idx : B -> Z), (forall i a, In (i, a) (numbered l) -> idx (g (i, a)) = i) ->
       NoDup (map idx (map g (numbered l))) /\ ~ exists x, In x (map g (numbered l)) /\ idx x = 0).
    { intros A l B g idx H. pose proof (Fst A l B g idx H) as F. rewrite F. split; [apply numbered_NoDup|].
      intros [x [Hx E]]. apply (in_map idx) in Hx. rewrite F, E in Hx. apply Pos in Hx. auto. }
    destruct (Q _ VI _ (cut SI) su_index A4i) as [Q1 Q2].
    unfold unique_indices, has_volu, has_surf, has_edge, has_vert. cbn [k_conn verts edges surfs volus].
    split; [simpl; repeat constructor; simpl; tauto|]. split; [exact Q1|].
    match goal with |- NoDup (map ed_index (map ?g (numbered ss))) /\ NoDup (map ve_index (map ?h (numbered es))) /\ _ =>
      destruct (Q _ ss _ g ed_index (fun _ _ _ => eq_refl)) as [Q3 Q4]; destruct (Q _ es _ h ve_index (fun _ _ _ => eq_refl)) as [Q5 Q6] end.
    split; [exact Q3|]. split; [exact Q5|]. split; [|auto].
    intros [x [[<-|[]] E]]. discriminate E.
  - intros e H. apply spot_range. apply E1. auto.
  - intros e H. apply spot_range. apply E2. auto.
  - intros e H. apply spot_range. apply E3. auto.
  - reflexivity.
  - reflexivity.
Qed.
End One.
