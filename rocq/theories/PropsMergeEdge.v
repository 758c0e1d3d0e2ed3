(** C53: the search for snake edges on the same surface. *)
From Verif Require Import Base Containers Mesh MeshProofs MergeEdge SpecMergeEdge FamilyMapProofs.
Set Implicit Arguments.
Open Scope Z_scope.

(** ** Lemmas *)
Lemma omap_positions_from A B (f : A -> bool) (g : Z -> outcome B) (h : A -> B) (l : list A) : forall n,
  (forall q a, nth_error l q = Some a -> g (Z.of_nat (n + q)) = Ok (h a)) ->
  omap_list g (map Z.of_nat (positions_from f l n)) = Ok (map h (filter f l)).
Proof.
  induction l as [|a r IH]; intros n H; [reflexivity|]. simpl positions_from. simpl filter.
  assert (Hr : forall q b, nth_error r q = Some b -> g (Z.of_nat (S n + q)) = Ok (h b)).
  { intros q b Hq. replace (S n + q)%nat with (n + S q)%nat by lia. apply H. exact Hq. }
  destruct (f a); [|apply IH; auto].
  cbn [map omap_list]. pose proof (H 0%nat a eq_refl) as H0. rewrite Nat.add_0_r in H0. rewrite H0. cbn [bind].
  rewrite (IH _ Hr). reflexivity.
Qed.

Lemma positions_from_map A B (f : B -> bool) (g : A -> B) l : forall n,
  positions_from f (map g l) n = positions_from (fun a => f (g a)) l n.
Proof. induction l as [|a r IH]; intro n; simpl; auto. destruct (f (g a)); rewrite IH; auto. Qed.

Lemma filter_map A B (f : B -> bool) (g : A -> B) l : filter f (map g l) = map g (filter (fun a => f (g a)) l).
Proof. induction l as [|a r IH]; simpl; auto. destruct (f (g a)); simpl; rewrite IH; auto. Qed.

(** The surfaces of the edge at a position. *)
Definition row (es : list edge) (p : Z) : list Z :=
  match at_ es p with Ok e => ed_surfind e | _ => [] end.
(** The surface, the place in the sibling list and the sibling. *)
Fixpoint tagged (es : list edge) (sub : list Z) (n : Z) : list (Z * Z * Z) :=
  match sub with
  | [] => []
  | p :: r => map (fun s => (s, n, p)) (row es p) ++ tagged es r (n + 1)
  end.

Lemma gather_tagged es sub : forall n, (forall p, In p sub -> exists e, at_ es p = Ok e) ->
  gather es sub n = Ok (map (fun t => fst (fst t)) (tagged es sub n), map (fun t => snd (fst t)) (tagged es sub n)).
Proof.
  induction sub as [|p r IH]; intros n H; [reflexivity|]. cbn [gather tagged].
  destruct (H p (or_introl eq_refl)) as [e He]. rewrite He. cbn [bind].
  rewrite (IH (n + 1)) by (intros; apply H; simpl; auto). cbn [bind].
  unfold row. rewrite He, !map_app, !map_map. simpl. rewrite map_id. reflexivity.
Qed.

Lemma tagged_sub es sub : forall n t, In t (tagged es sub n) ->
  n <= snd (fst t) /\ at_ sub (snd (fst t) - n) = Ok (snd t).
Proof.
  induction sub as [|p r IH]; intros n t H; [destruct H|]. cbn [tagged] in H. apply in_app_or in H.
  destruct H as [H|H].
  - apply in_map_iff in H. destruct H as [s [<- _]]. simpl. rewrite Z.sub_diag. split; [lia | reflexivity].
  - destruct (IH _ _ H) as [H1 H2]. split; [lia|]. apply at_Ok in H2. apply at_Ok. split; [lia|].
    replace (Z.to_nat (snd (fst t) - n)) with (S (Z.to_nat (snd (fst t) - (n + 1)))) by lia. simpl. tauto.
Qed.

Lemma row_once s l : NoDup l -> forall (n p : Z),
  filter (fun t => s =? fst (fst t)) (map (fun x => (x, n, p)) l) = if mem_z s l then [(s, n, p)] else [].
Proof.
  intros Hnd n p. rewrite filter_map. simpl.
  induction l as [|x r IH]; [reflexivity|]. inversion Hnd as [|? ? Hx Hr]; subst. simpl.
  destruct (Z.eqb_spec s x) as [<-|E].
  - simpl. f_equal. rewrite (IH Hr). destruct (mem_z s r) eqn:E; auto. apply mem_z_In in E. tauto.
  - apply (IH Hr).
Qed.

Lemma tagged_filter es s sub : (forall p, NoDup (row es p)) -> forall n,
  map snd (filter (fun t => s =? fst (fst t)) (tagged es sub n)) = filter (fun p => mem_z s (row es p)) sub.
Proof.
  intro Hnd. induction sub as [|p r IH]; intro n; [reflexivity|]. cbn [tagged filter].
  rewrite filter_app, map_app, row_once, IH by auto. destruct (mem_z s (row es p)); reflexivity.
Qed.

Lemma step_to (f : Z -> Z) l : forall k fuel, (length (skipn k l) + 3 <= fuel)%nat -> (k <= length l)%nat ->
  (exists j, (k <= j < length l)%nat /\ 2 <= f (nth j l 0) /\ (forall i, (k <= i < j)%nat -> f (nth i l 0) < 2) /\
     step_to_shared fuel (map f l ++ [0]) (Z.of_nat (length l)) (Z.of_nat k) = Ok (Z.of_nat j)) \/
  ((forall j, (k <= j < length l)%nat -> f (nth j l 0) < 2) /\
     step_to_shared fuel (map f l ++ [0]) (Z.of_nat (length l)) (Z.of_nat k) = UB).
Proof.
  intros k fuel. remember (length (skipn k l)) as d eqn:Hd. revert k fuel Hd.
  induction d as [|d IH]; intros k fuel Hd Hf Hk; rewrite skipn_length in Hd; (destruct fuel as [|fuel]; [lia|]).
  - assert (k = length l) by lia. subst k. right. split; [intros; lia|]. cbn [step_to_shared].
    assert (H : at_ (map f l ++ [0]) (Z.of_nat (length l)) = Ok 0).
    { apply at_nat. rewrite nth_error_app2; rewrite map_length; [|lia]. rewrite Nat.sub_diag. reflexivity. }
    rewrite H. cbn [bind]. replace (Z.of_nat (length l) <=? Z.of_nat (length l)) with true by lia. simpl andb. cbv iota.
    destruct fuel as [|fuel]; [lia|]. cbn [step_to_shared].
    assert (H2 : at_ (map f l ++ [0]) (Z.of_nat (length l) + 1) = UB).
    { apply at_UB_iff. rewrite app_length, map_length. simpl. lia. }
    rewrite H2. reflexivity.
  - cbn [step_to_shared].
    assert (H : at_ (map f l ++ [0]) (Z.of_nat k) = Ok (f (nth k l 0))).
    { apply at_nat. rewrite nth_error_app1; [|rewrite map_length; lia].
      apply map_nth_error. apply nth_error_nth'. lia. }
    rewrite H. cbn [bind]. destruct (Z.ltb_spec (f (nth k l 0)) 2) as [L|L].
    + replace (Z.of_nat k <=? Z.of_nat (length l)) with true by lia. simpl andb. cbv iota.
      replace (Z.of_nat k + 1) with (Z.of_nat (S k)) by lia.
      destruct (IH (S k) fuel) as [[j [J1 [J2 [J3 J4]]]]|[J1 J2]]; try lia.
      { rewrite skipn_length. lia. }
      * left. exists j. repeat split; auto; try lia. intros i Hi.
        destruct (Nat.eq_dec i k) as [->|N]; auto. apply J3. lia.
      * right. split; auto. intros j Hj. destruct (Nat.eq_dec j k) as [->|N]; auto. apply J1. lia.
    + left. exists k. repeat split; auto; try lia.
Qed.

Lemma two_of A (l : list A) a : NoDup l -> In a l -> ((2 <= length l)%nat <-> exists b, b <> a /\ In b l).
Proof.
  intros Hnd Ha. split.
  - intro H2. destruct l as [|x [|y r]]; simpl in H2; try lia.
    inversion Hnd as [|? ? Hx Hr]; subst. destruct Ha as [<-|Ha].
    + exists y. split; [intros ->; apply Hx; simpl; auto | simpl; auto].
    + exists x. split; [intros ->; auto | simpl; auto].
  - intros [b [Hb1 Hb2]]. destruct l as [|x [|y r]]; simpl in *; try tauto; try lia.
    destruct Ha as [<-|[]]. destruct Hb2 as [<-|[]]. congruence.
Qed.

Section Search.
Variables (es : list edge) (keys : list Z) (cur : Z).
Hypothesis H : snake_edges es keys cur.

Definition sibs : list Z := match siblings keys cur with Ok l => l | _ => [] end.

Lemma sibs_ok : siblings keys cur = Ok sibs /\ NoDup sibs /\ forall p, In p sibs <-> same_parent keys cur p.
Proof.
  destruct H as [Hl [Hc _]]. unfold sibs, siblings.
  destruct (@at_in_range _ keys cur ltac:(lia)) as [k Hk]. rewrite Hk. cbn [bind].
  split; [reflexivity|]. split.
  - apply FinFun.Injective_map_NoDup; [intros x y Hxy; lia | apply positions_NoDup].
  - intro p. apply at_Ok in Hk. destruct Hk as [_ Hk]. rewrite in_map_iff. unfold same_parent. split.
    + intros [n [<- Hn]]. apply positions_spec in Hn. destruct Hn as [a [Ha Hn]]. apply Z.eqb_eq in Hn. subst a.
      rewrite Nat2Z.id. repeat split; try lia. exists k. auto.
    + intros [_ [Hp [k' [Hk' Hp']]]]. exists (Z.to_nat p). split; [lia|]. apply positions_spec. exists k'.
      split; auto. rewrite Hk in Hk'. injection Hk' as ->. apply Z.eqb_refl.
Qed.

Lemma sib_edge p : In p sibs -> exists e, at_ es p = Ok e.
Proof.
  destruct sibs_ok as [_ [_ S]]. intro Hp. apply S in Hp. destruct Hp as [_ [Hp [k [_ Hk]]]].
  apply at_in_range. destruct H as [Hl _]. rewrite Hl. assert (Z.to_nat p < length keys)%nat by (apply nth_error_Some; congruence). lia.
Qed.

Lemma row_lists p s : In s (row es p) <-> edge_lists es p s.
Proof.
  unfold row, edge_lists. destruct (at_ es p) as [e| | |] eqn:E; try apply at_Ok in E.
  - split; [intro Hs; exists e; destruct E; auto|]. intros [e' [_ [He' Hs]]]. destruct E as [_ E]. rewrite E in He'. injection He' as ->. auto.
  - unfold at_ in E. destruct (p <? 0); [discriminate|]. destruct (nth_error es (Z.to_nat p)); discriminate.
  - apply at_UB_iff in E. split; [intros []|]. intros [e [Hp [He _]]].
    assert (Z.to_nat p < length es)%nat by (apply nth_error_Some; congruence). lia.
  - unfold at_ in E. destruct (p <? 0); [discriminate|]. destruct (nth_error es (Z.to_nat p)); discriminate.
Qed.

Lemma row_NoDup p : NoDup (row es p).
Proof.
  unfold row. destruct (at_ es p) as [e| | |] eqn:E; try constructor.
  apply at_Ok in E. destruct H as [_ [_ Hn]]. apply Hn. eapply nth_error_In. apply E.
Qed.

Lemma cur_sib : In cur sibs.
Proof.
  destruct sibs_ok as [_ [_ S]]. apply S. destruct H as [Hl [Hc _]].
  destruct (@nth_ex _ keys (Z.to_nat cur)) as [k Hk]; [lia|]. repeat split; try lia. exists k. auto.
Qed.

Lemma shared_count s : edge_lists es cur s ->
  (2 <= count_if (Z.eqb s) (map (fun t => fst (fst t)) (tagged es sibs 0)) <-> shared_surf es keys cur s).
Proof.
  intro Hs. destruct sibs_ok as [_ [Hnd S]]. unfold count_if.
  assert (E : length (filter (Z.eqb s) (map (fun t => fst (fst t)) (tagged es sibs 0))) =
              length (filter (fun p => mem_z s (row es p)) sibs)).
  { rewrite <- (@tagged_filter es s sibs row_NoDup 0), filter_map, !map_length. reflexivity. }
  rewrite E. assert (T := @two_of _ (filter (fun p => mem_z s (row es p)) sibs) cur (NoDup_filter _ Hnd)).
  rewrite filter_In, mem_z_In, row_lists in T. specialize (T (conj cur_sib Hs)).
  transitivity (2 <= length (filter (fun p => mem_z s (row es p)) sibs))%nat; [lia|]. rewrite T.
  unfold shared_surf. split.
  - intros [b [Hb1 Hb2]]. apply filter_In in Hb2. rewrite mem_z_In, row_lists in Hb2. split; auto. exists b.
    split; [exact Hb1|]. split; [apply S|]; tauto.
  - intros [_ [p [Hp1 [Hp2 Hp3]]]]. exists p. split; auto. apply filter_In. rewrite mem_z_In, row_lists. split; auto. apply S. auto.
Qed.

Lemma search_ok sub2 :
  (exists (j : nat) s, nth_error (row es cur) j = Some s /\ shared_surf es keys cur s /\
     (forall i x, (i < j)%nat -> nth_error (row es cur) i = Some x -> ~ shared_surf es keys cur x) /\
     edge_same_surf es keys cur sub2 =
       Ok (Z.of_nat j, filter (fun p => mem_z s (row es p)) sibs)) \/
  ((forall s, ~ shared_surf es keys cur s) /\ edge_same_surf es keys cur sub2 = UB).
Proof.
  destruct sibs_ok as [Hsib [Hnd S]].
  destruct (@at_in_range _ es cur ltac:(unfold snake_edges in H; lia)) as [e He].
  assert (Hrow : row es cur = ed_surfind e) by (unfold row; rewrite He; reflexivity).
  unfold edge_same_surf. rewrite Hsib. cbn [bind]. rewrite (@gather_tagged es sibs 0) by apply sib_edge. cbn [bind].
  rewrite He. cbn [bind]. rewrite Hrow.
  set (hash := map (fun t => fst (fst t)) (tagged es sibs 0)).
  set (from := map (fun t => snd (fst t)) (tagged es sibs 0)).
  set (f := fun s => count_if (Z.eqb s) hash).
  assert (Hsh : forall x, In x (ed_surfind e) -> (2 <= f x <-> shared_surf es keys cur x)).
  { intros x Hx. apply shared_count. rewrite <- row_lists, Hrow. auto. }
  assert (Hlen : Z.of_nat (length (counts hash (ed_surfind e))) - 1 = Z.of_nat (length (ed_surfind e))).
  { unfold counts. rewrite app_length, map_length. simpl. lia. }
  rewrite Hlen. change (counts hash (ed_surfind e)) with (map f (ed_surfind e) ++ [0]).
  destruct (@step_to f (ed_surfind e) 0 (2 + length (map f (ed_surfind e) ++ [0]))) as [[j [J1 [J2 [J3 J4]]]]|[J1 J2]].
  - rewrite app_length, map_length. simpl. lia.
  - lia.
  - left. assert (Hj : nth_error (ed_surfind e) j = Some (nth j (ed_surfind e) 0)) by (apply nth_error_nth'; lia).
    exists j, (nth j (ed_surfind e) 0). split; [exact Hj|]. split; [apply Hsh; auto; apply nth_In; lia|]. split.
    + intros i x Hi Hx. rewrite <- Hsh by (eapply nth_error_In; eauto).
      pose proof (J3 i ltac:(lia)) as Hlt. rewrite (nth_error_nth _ _ 0 Hx) in Hlt. lia.
    + simpl Z.of_nat in J4. rewrite J4. cbn [bind]. replace (Z.of_nat j <? Z.of_nat (length (ed_surfind e))) with true by lia.
      rewrite (at_nat _ _ Hj). cbn [bind].
      unfold positions, hash. rewrite positions_from_map.
      rewrite (@omap_positions_from _ _ _ _ (fun t => snd t) (tagged es sibs 0) 0).
      * cbn [bind]. f_equal. f_equal. apply (@tagged_filter es _ sibs row_NoDup).
      * intros q t Hq. simpl. unfold from. rewrite (at_nat _ _ (map_nth_error _ _ _ Hq)). cbn [bind].
        pose proof (tagged_sub es sibs 0 t (nth_error_In _ _ Hq)) as Ht. rewrite Z.sub_0_r in Ht. apply Ht.
  - right. split.
    + intros s Hs. assert (Hin : In s (ed_surfind e)) by (rewrite <- Hrow; apply row_lists; apply Hs).
      apply Hsh in Hs; auto. destruct (In_nth _ _ 0 Hin) as [i [Hi Ei]]. pose proof (J1 i ltac:(lia)) as Hlt. rewrite Ei in Hlt. lia.
    + simpl Z.of_nat in J2. rewrite J2. reflexivity.
Qed.
End Search.

(** ** C53 *)

(** The search leaves the count vector exactly when no surface of the current
    edge is a surface of another snake edge on the same parent surface. *)
Theorem C53_out_of_range es keys cur sub2 :
  snake_edges es keys cur ->
  (edge_same_surf es keys cur sub2 = UB <-> forall s, ~ shared_surf es keys cur s).
Proof.
  intro H. destruct (search_ok H sub2) as [[j [s [_ [Hs [_ E]]]]]|[N E]]; rewrite E.
  - split; [discriminate | intro N; exfalso; exact (N s Hs)].
  - tauto.
Qed.
Print Assumptions C53_out_of_range.

(** Otherwise it stops at the first shared surface and lists exactly the edges
    of that parent on that surface, each once. *)
Theorem C53_partial es keys cur sub2 :
  snake_edges es keys cur -> (exists s, shared_surf es keys cur s) ->
  exists step s r e, edge_same_surf es keys cur sub2 = Ok (step, r) /\
    at_ es cur = Ok e /\ at_ (ed_surfind e) step = Ok s /\ shared_surf es keys cur s /\
    (forall i x, 0 <= i < step -> at_ (ed_surfind e) i = Ok x -> ~ shared_surf es keys cur x) /\
    NoDup r /\ (forall p, In p r <-> same_parent keys cur p /\ edge_lists es p s).
Proof.
  intros H [s0 Hs0]. destruct (search_ok H sub2) as [[j [s [Hj [Hs [Hf E]]]]]|[N _]]; [|exfalso; exact (N s0 Hs0)].
  destruct (@at_in_range _ es cur ltac:(unfold snake_edges in H; lia)) as [e He].
  assert (Hrow : row es cur = ed_surfind e) by (unfold row; rewrite He; reflexivity). rewrite Hrow in *.
  destruct (sibs_ok H) as [_ [Hnd Sp]].
  exists (Z.of_nat j), s, (filter (fun p => mem_z s (row es p)) (sibs keys cur)), e.
  split; [exact E|]. split; [exact He|]. split; [apply at_nat; auto|]. split; [exact Hs|]. split; [|split].
  - intros i x Hi Hx. apply at_Ok in Hx. apply (Hf (Z.to_nat i)); [lia | apply Hx].
  - apply NoDup_filter. auto.
  - intro p. rewrite filter_In, mem_z_In, row_lists, Sp. reflexivity.
Qed.
Print Assumptions C53_partial.

(** Three snake edges on parent surface 7; the first and third share surface 2. *)
Definition three_edges : list edge :=
  [mkEdge 1 false [1; 2] [1; 2]; mkEdge 2 false [3] [3; 4]; mkEdge 3 false [2; 4] [5; 6]].
Example C53_used : snake_edges three_edges [7; 7; 7] 0 /\
  shared_surf three_edges [7; 7; 7] 0 2 /\ edge_same_surf three_edges [7; 7; 7] 0 [] = Ok (1, [0; 2]).
Proof.
  split; [|split; [|reflexivity]].
  - split; [reflexivity|]. split; [simpl; lia|].
    intros e [<-|[<-|[<-|[]]]]; repeat constructor; simpl; intuition discriminate.
  - split; [exists (mkEdge 1 false [1; 2] [1; 2]); simpl; intuition lia|].
    exists 2. split; [lia|]. split; [split; [lia|]; split; [lia|]; exists 7; auto|].
    exists (mkEdge 3 false [2; 4] [5; 6]). simpl. intuition lia.
Qed.

(** Two snake edges on one parent surface with no surface in common, as left by
    two snakes meeting there: the search reads past the counts. *)
Theorem C53_refuted : exists es keys cur,
  snake_edges es keys cur /\ (exists p, p <> cur /\ same_parent keys cur p) /\
  edge_same_surf es keys cur [] = UB.
Proof.
  exists [mkEdge 1 false [1; 2] [1; 2]; mkEdge 2 false [3; 4] [3; 4]], [7; 7], 0. split.
  - split; [reflexivity|]. split; [simpl; lia|].
    intros e [<-|[<-|[]]]; repeat constructor; simpl; intuition discriminate.
  - split; [|reflexivity]. exists 1. split; [lia|]. split; [lia|]. split; [lia|]. exists 7. auto.
Qed.
Print Assumptions C53_refuted.
