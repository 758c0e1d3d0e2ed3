(** C58, C67 and C68: cutting a mesh along a box. *)
From Coq Require Import Reals Lra.
From Verif Require Import Base Containers ContainersProofs Mesh MeshProofs MergeProofs Edit Geom Boundary SpecBoundary SpecContainers FloodProofs FamilyMapProofs CentreProofs EditProofs.
Set Implicit Arguments.
Open Scope Z_scope.

(** ** Lemmas *)
Lemma split_loop_ok T (index : T -> Z) l out : NoDup (map index l) -> (length l <= length out)%nat ->
  forall conn ci co, (forall i, In i conn -> exists t, In t l /\ index t = i) ->
  exists a b, split_loop index l out (find_list index l conn) ci co = Ok (ci ++ a, co ++ b) /\
    dealt (marked index l out) conn a b.
Proof.
  intros Hnd Hlen. induction conn as [|i r IH]; intros ci co Hk.
  - exists [], []. rewrite !app_nil_r. split; [reflexivity | constructor].
  - destruct (Hk i (or_introl eq_refl)) as [t [Ht1 Ht2]].
    destruct (find_spec index l i) as [[Hf Hno]|[j [u [Hf [Hu1 Hu2]]]]].
    { exfalso. apply Hno. eauto. }
    cbn [find_list map split_loop]. rewrite Hf.
    replace (Z.of_nat j =? -1) with false by lia.
    assert (Hj : (j < length out)%nat).
    { assert (j < length l)%nat by (apply nth_error_Some; congruence). lia. }
    destruct (nth_ex _ Hj) as [b Hb]. rewrite (at_nat _ _ Hb). cbn [bind]. rewrite (at_nat _ _ Hu1). cbn [bind].
    assert (Hm : marked index l out i <-> b = true).
    { split.
      - intros [k [w [W1 [W2 W3]]]]. assert (k = j).
        { apply (proj1 (NoDup_nth_error (map index l)) Hnd).
          - rewrite map_length. apply nth_error_Some. congruence.
          - rewrite (map_nth_error index _ _ W1), (map_nth_error index _ _ Hu1). congruence. }
        subst k. congruence.
      - intros ->. exists j, u. auto. }
    change (map (find index l) r) with (find_list index l r). rewrite Hu2.
    destruct b.
    + destruct (IH ci (co ++ [i]) (fun k H => Hk k (or_intror H))) as [a [c [E D]]].
      exists a, (i :: c). rewrite E, <- app_assoc. split; [reflexivity|]. constructor; tauto.
    + destruct (IH (ci ++ [i]) co (fun k H => Hk k (or_intror H))) as [a [c [E D]]].
      exists (i :: a), c. rewrite E, <- app_assoc. split; [reflexivity|]. constructor; auto. rewrite Hm. discriminate.
Qed.

Lemma split_loop_throw T (index : T -> Z) l out : (length l <= length out)%nat ->
  forall conn ci co, (exists i, In i conn /\ ~ exists t, In t l /\ index t = i) ->
  split_loop index l out (find_list index l conn) ci co = Throw.
Proof.
  intros Hlen. induction conn as [|i r IH]; intros ci co [k [Hk1 Hk2]]; [destruct Hk1|].
  cbn [find_list map split_loop].
  destruct (find_spec index l i) as [[Hf Hno]|[j [u [Hf [Hu1 Hu2]]]]]; rewrite Hf; [reflexivity|].
  replace (Z.of_nat j =? -1) with false by lia.
  assert (Hj : (j < length out)%nat).
  { assert (j < length l)%nat by (apply nth_error_Some; congruence). lia. }
  destruct (nth_ex _ Hj) as [b Hb]. rewrite (at_nat _ _ Hb). cbn [bind]. rewrite (at_nat _ _ Hu1). cbn [bind].
  assert (Hr : exists i0, In i0 r /\ ~ exists t, In t l /\ index t = i0).
  { exists k. split; auto. destruct Hk1 as [<-|]; auto. exfalso. apply Hk2. exists u. split; auto.
    eapply nth_error_In; eauto. }
  change (map (find index l) r) with (find_list index l r). destruct b; apply IH; auto.
Qed.

Lemma dealt_perm P l a b : dealt P l a b -> Permutation l (a ++ b).
Proof. induction 1; simpl; auto. apply Permutation_cons_app. auto. Qed.
Lemma dealt_in_only P l a b : dealt P l a b -> (forall x, In x a <-> In x l /\ ~ P x) /\ (forall x, In x b <-> In x l /\ P x).
Proof.
  induction 1 as [|x l a b Hx D [IHa IHb]|x l a b Hx D [IHa IHb]]; simpl.
  - split; intro; tauto.
  - split; intro y; [rewrite IHa|rewrite IHb]; intuition (subst; auto); contradiction.
  - split; intro y; [rewrite IHa|rewrite IHb]; intuition (subst; auto); contradiction.
Qed.

(** ** C58 *)

(** Splitting the edges of a surface. *)
Theorem C58_surface m out conn :
  NoDup (map ed_index (edges m)) -> (length (edges m) <= length out)%nat ->
  (forall i, In i conn -> exists e, In e (edges m) /\ ed_index e = i) ->
  exists ins outs, split_surface_edges m out conn = Ok (ins, outs) /\
    dealt (marked ed_index (edges m) out) conn ins outs /\ Permutation conn (ins ++ outs).
Proof.
  intros H1 H2 H3. destruct (split_loop_ok _ _ out H1 H2 conn [] [] H3) as [a [b [E D]]].
  exists a, b. split; [exact E|]. split; [exact D | eapply dealt_perm; eauto].
Qed.
Print Assumptions C58_surface.

(** Splitting the surfaces of a volume. *)
Theorem C58_volume m out conn :
  NoDup (map su_index (surfs m)) -> (length (surfs m) <= length out)%nat ->
  (forall i, In i conn -> exists s, In s (surfs m) /\ su_index s = i) ->
  exists ins outs, split_volume_surfs m out conn = Ok (ins, outs) /\
    dealt (marked su_index (surfs m) out) conn ins outs /\ Permutation conn (ins ++ outs).
Proof.
  intros H1 H2 H3. destruct (split_loop_ok _ _ out H1 H2 conn [] [] H3) as [a [b [E D]]].
  exists a, b. split; [exact E|]. split; [exact D | eapply dealt_perm; eauto].
Qed.
Print Assumptions C58_volume.

(** A reference to nothing is reported, never dropped. *)
Theorem C58_unknown m out conn : 
  ((length (edges m) <= length out)%nat ->
   (exists i, In i conn /\ ~ exists e, In e (edges m) /\ ed_index e = i) -> split_surface_edges m out conn = Throw) /\
  ((length (surfs m) <= length out)%nat ->
   (exists i, In i conn /\ ~ exists s, In s (surfs m) /\ su_index s = i) -> split_volume_surfs m out conn = Throw).
Proof. split; intros; apply split_loop_throw; auto. Qed.
Print Assumptions C58_unknown.

Definition square : mesh :=
  mkMesh [] [mkSurf 1 false false [0; 0] [1; 2; 3; 4]]
    [mkEdge 1 false [1] [1; 2]; mkEdge 2 false [1] [2; 3]; mkEdge 3 false [1] [3; 4]; mkEdge 4 false [1] [4; 1]]
    [mkVert 1 false [1; 4]; mkVert 2 false [1; 2]; mkVert 3 false [2; 3]; mkVert 4 false [3; 4]] 2.
Example C58_used :
  split_surface_edges square [false; true; true; false] [4; 3; 2; 1] = Ok ([4; 1], [3; 2]) /\
  NoDup (map ed_index (edges square)) /\
  (forall i, In i [4; 3; 2; 1] -> exists e, In e (edges square) /\ ed_index e = i) /\
  split_volume_surfs square [true] [1] = Ok ([], [1]) /\
  split_surface_edges square [false; true; true; false] [4; 5] = Throw.
Proof.
  repeat split; try reflexivity.
  - repeat constructor; simpl; intuition discriminate.
  - intros i [<-|[<-|[<-|[<-|[]]]]]; simpl; eauto 9.
Qed.

(** ** C67: who lies inside *)

Lemma each_in A (get : A -> outcome bool) (mk : A -> bool) (l : list A) : forall acc,
  (forall a, In a l -> get a = Ok (mk a)) ->
  for_each l (fun e acc => do b <- get e; Ok (if b : bool then acc else acc ++ [e])) acc =
  Ok (acc ++ filter (fun a => negb (mk a)) l).
Proof.
  induction l as [|a r IH]; intros acc H; cbn [for_each filter]; [rewrite app_nil_r; reflexivity|].
  rewrite (H a (or_introl eq_refl)). cbn [bind].
  rewrite IH by (intros; apply H; simpl; auto). destruct (mk a); simpl; rewrite <- ?app_assoc; reflexivity.
Qed.

Definition mark_of {T} (index : T -> Z) (l : list T) (out : list bool) (i : Z) : bool :=
  match at_ out (find index l i) with Ok b => b | _ => false end.

Lemma mark_ok T (index : T -> Z) l out i : NoDup (map index l) -> (length l <= length out)%nat ->
  (exists t, In t l /\ index t = i) ->
  at_ out (find index l i) = Ok (mark_of index l out i) /\ (mark_of index l out i = true <-> marked index l out i).
Proof.
  intros Hnd Hlen [t [Ht1 Ht2]]. unfold mark_of.
  destruct (find_spec index l i) as [[Hf Hno]|[j [u [Hf [Hu1 Hu2]]]]]; [exfalso; apply Hno; eauto|].
  rewrite Hf. assert (Hj : (j < length out)%nat).
  { assert (j < length l)%nat by (apply nth_error_Some; congruence). lia. }
  destruct (nth_ex _ Hj) as [b Hb]. rewrite (at_nat _ _ Hb). split; [reflexivity|]. split.
  - intros ->. exists j, u. auto.
  - intros [k [w [W1 [W2 W3]]]]. assert (k = j).
    { apply (proj1 (NoDup_nth_error (map index l)) Hnd).
      - rewrite map_length. apply nth_error_Some. congruence.
      - rewrite (map_nth_error index _ _ W1), (map_nth_error index _ _ Hu1). congruence. }
    subst k. congruence.
Qed.

Lemma filter_dealt (P : Z -> Prop) (mk : Z -> bool) l : (forall x, In x l -> (mk x = true <-> P x)) ->
  dealt P l (filter (fun a => negb (mk a)) l) (filter mk l).
Proof.
  induction l as [|x r IH]; intro H; simpl; [constructor|].
  destruct (mk x) eqn:E; simpl; constructor.
  - apply H; simpl; auto.
  - apply IH. intros; apply H; simpl; auto.
  - rewrite <- (H x) by (simpl; auto). congruence.
  - apply IH. intros; apply H; simpl; auto.
Qed.

(** The edges left on the inside of a list of surfaces, surface by surface. *)
Theorem C67_edges m out sl :
  NoDup (map su_index (surfs m)) -> NoDup (map ed_index (edges m)) -> (length (edges m) <= length out)%nat ->
  (forall s, In s sl -> In s (surfs m)) ->
  (forall s e, In s sl -> In e (su_edgeind s) -> exists x, In x (edges m) /\ ed_index x = e) ->
  exists ins outs, edges_in_of_surfs m out (map su_index sl) = Ok ins /\
    dealt (marked ed_index (edges m) out) (flat_map su_edgeind sl) ins outs.
Proof.
  intros Hs He Hlen Hin Hk. unfold edges_in_of_surfs.
  assert (E : omap_list (fun s => do f <- isearch su_index (surfs m) s; Ok (su_edgeind f)) (map su_index sl) =
              Ok (map su_edgeind sl)).
  { clear Hk. induction sl as [|s r IH]; [reflexivity|]. cbn [map omap_list].
    rewrite (isearch_is su_index _ s Hs (Hin s (or_introl eq_refl))). cbn [bind].
    rewrite IH by (intros; apply Hin; simpl; auto). reflexivity. }
  rewrite E. cbn [bind]. rewrite <- flat_map_concat_map.
  assert (M : forall e, In e (flat_map su_edgeind sl) -> exists x, In x (edges m) /\ ed_index x = e).
  { intros e H. apply in_flat_map in H. destruct H as [s [H1 H2]]. eauto. }
  exists (filter (fun a => negb (mark_of ed_index (edges m) out a)) (flat_map su_edgeind sl)),
         (filter (mark_of ed_index (edges m) out) (flat_map su_edgeind sl)). split.
  - rewrite (@each_in _ _ (mark_of ed_index (edges m) out)); [reflexivity|].
    intros a Ha. apply (mark_ok _ _ out He Hlen (M a Ha)).
  - apply filter_dealt. intros x Hx. apply (mark_ok _ _ out He Hlen (M x Hx)).
Qed.
Print Assumptions C67_edges.

Lemma ends_of m (l : list edge) : NoDup (map ed_index (edges m)) -> (forall e, In e l -> In e (edges m)) ->
  (forall e, In e l -> length (ed_vertind e) = 2%nat) ->
  omap_list (fun e => do x <- isearch ed_index (edges m) e; first_two (ed_vertind x)) (map ed_index l) =
    Ok (map ed_vertind l) /\
  omap_list (fun e => do x <- isearch ed_index (edges m) e; Ok (ed_vertind x)) (map ed_index l) =
    Ok (map ed_vertind l).
Proof.
  intros He. induction l as [|e r IH]; intros Hin H2; [split; reflexivity|].
  destruct IH as [IH1 IH2]; [intros; apply Hin; simpl; auto | intros; apply H2; simpl; auto|].
  pose proof (isearch_is ed_index _ e He (Hin e (or_introl eq_refl))) as Hs.
  specialize (H2 e (or_introl eq_refl)).
  destruct (ed_vertind e) as [|a [|b [|c t]]] eqn:Ee; simpl in H2; try lia.
  split; cbn [map omap_list]; rewrite Hs; cbn [bind]; rewrite Ee; [rewrite IH1 | rewrite IH2]; reflexivity.
Qed.

Lemma length2 l (P : Z -> Prop) : StronglySorted Z.lt l -> (forall x, In x l <-> P x) ->
  (length l = 2%nat <-> exists a b, a < b /\ forall x, P x <-> x = a \/ x = b).
Proof.
  intros Hs HP. split.
  - intro H2. destruct l as [|a [|b [|c t]]]; simpl in H2; try lia. exists a, b.
    inversion Hs as [|? ? _ Hf]; subst. inversion Hf; subst. split; auto.
    intro x. rewrite <- HP. simpl. intuition congruence.
  - intros [a [b [Hab Hx]]]. assert (E : l = [a; b]); [|rewrite E; reflexivity].
    apply strict_ext; auto.
    + repeat constructor; auto.
    + intro z. rewrite HP, Hx. simpl. intuition congruence.
Qed.

(** The inside ends of a list of edges: all of them when there are two, else
    those that are also ends of the edges to check against. *)
Theorem C67_verts m out el check :
  NoDup (map ed_index (edges m)) -> NoDup (map ve_index (verts m)) -> (length (verts m) <= length out)%nat ->
  (forall e, In e el \/ In e check -> In e (edges m) /\ length (ed_vertind e) = 2%nat) ->
  (forall e v, In e el -> In v (ed_vertind e) -> exists x, In x (verts m) /\ ve_index x = v) ->
  let inner v := (exists e, In e el /\ In v (ed_vertind e)) /\ ~ marked ve_index (verts m) out v in
  exists r, verts_in_of_edges m out (map ed_index el) (map ed_index check) = Ok r /\
    StronglySorted Z.lt r /\
    ((exists a b, a < b /\ forall x, inner x <-> x = a \/ x = b) -> forall v, In v r <-> inner v) /\
    (~ (exists a b, a < b /\ forall x, inner x <-> x = a \/ x = b) ->
     forall v, In v r <-> inner v /\ exists e, In e check /\ In v (ed_vertind e)).
Proof.
  intros He Hv Hlen Hin Hk inner. unfold verts_in_of_edges.
  destruct (@ends_of m el He) as [E1 _]; [intros; apply Hin; auto | intros; apply Hin; auto|].
  destruct (@ends_of m check He) as [_ E2]; [intros; apply Hin; auto | intros; apply Hin; auto|].
  rewrite E1. cbn [bind]. rewrite <- flat_map_concat_map.
  assert (M : forall v, In v (flat_map ed_vertind el) -> exists x, In x (verts m) /\ ve_index x = v).
  { intros v H. apply in_flat_map in H. destruct H as [e [H1 H2]]. eauto. }
  rewrite (@each_in _ _ (mark_of ve_index (verts m) out)).
  2:{ intros a Ha. apply (mark_ok _ _ out Hv Hlen (M a Ha)). }
  cbn [bind]. simpl app. rewrite E2. cbn [bind]. rewrite <- flat_map_concat_map.
  set (vl := tighten (filter (fun a => negb (mark_of ve_index (verts m) out a)) (flat_map ed_vertind el))).
  assert (HI : forall v, In v vl <-> inner v).
  { intro v. unfold vl. rewrite tighten_In, filter_In, in_flat_map. unfold inner. split.
    - intros [H1 H2]. split; auto. apply in_flat_map in H1. rewrite <- (proj2 (mark_ok _ _ out Hv Hlen (M v H1))).
      destruct (mark_of ve_index (verts m) out v); [discriminate | congruence].
    - intros [H1 H2]. split; auto. apply in_flat_map in H1. rewrite <- (proj2 (mark_ok _ _ out Hv Hlen (M v H1))) in H2.
      destruct (mark_of ve_index (verts m) out v); [congruence | reflexivity]. }
  assert (L := @length2 vl inner (tighten_strict _) HI).
  destruct (Z.eqb_spec (Z.of_nat (length vl)) 2) as [E|E].
  - assert (H2 : length vl = 2%nat) by lia. apply L in H2.
    exists (tighten vl). split; [reflexivity|]. split; [apply tighten_strict|]. split; [|tauto].
    intros _ v. rewrite tighten_In. apply HI.
  - assert (H2 : length vl <> 2%nat) by lia. rewrite L in H2.
    eexists. split; [reflexivity|]. split; [apply tighten_strict|]. split; [tauto|].
    intros _ v. rewrite tighten_In, filter_In, mem_z_In, HI, in_flat_map. tauto.
Qed.
Print Assumptions C67_verts.

(** The square cut beyond vertices 2 and 3, with vertex 3 outside. *)
Example C67_used :
  verts_in_of_edges square [false; false; true; false] [2; 3] [4; 1] = Ok [2; 4] /\
  edges_in_of_surfs square [false; true; true; false] [1] = Ok [1; 4].
Proof. split; reflexivity. Qed.

(** ** C68: the new vertex *)

Lemma max_minf q : std_max MInf q = match q with Fin x => Fin x | PInf => PInf | _ => MInf end.
Proof. unfold std_max. destruct q; reflexivity. Qed.
Lemma max_fin x y : std_max (Fin x) (Fin y) = Fin (Rmax x y).
Proof.
  unfold std_max, Rmax; simpl. destruct (Rlt_dec x y), (Rle_dec x y); try reflexivity.
  - lra.
  - f_equal. lra.
Qed.

Open Scope R_scope.
Lemma at30 A (a b c : A) : at_ [a; b; c] 0 = Ok a. Proof. reflexivity. Qed.
Lemma at31 A (a b c : A) : at_ [a; b; c] 1 = Ok b. Proof. reflexivity. Qed.
Lemma at32 A (a b c : A) : at_ [a; b; c] 2 = Ok c. Proof. reflexivity. Qed.
Lemma max_skip q l : q = MInf \/ q = Nan -> std_max l q = l.
Proof. intros [-> | ->]; unfold std_max; destruct l; reflexivity. Qed.
(** What one coordinate contributes to the step. *)
Lemma contribution a b o d : a <= o <= b ->
  let q := std_min (quotient (a - o) d) (quotient (b - o) d) in
  (d = 0 /\ (q = MInf \/ q = Nan)) \/
  (d <> 0 /\ exists x, q = Fin x /\ x <= 0 /\ (d * x + o = a \/ d * x + o = b) /\
     (forall y, x <= y <= 0 -> a <= d * y + o <= b) /\
     (forall y, y < x -> ~ a <= d * y + o <= b) /\ ((o - d < a \/ b < o - d) -> -1 < x)).
Proof.
  intros H q. unfold q, quotient. destruct (Req_EM_T d 0) as [E|E].
  - left. split; auto. destruct (Rlt_dec 0 (a - o)); [lra|].
    destruct (Rlt_dec (a - o) 0), (Rlt_dec 0 (b - o)), (Rlt_dec (b - o) 0); try lra; simpl; auto.
  - right. split; auto. destruct (Rlt_dec 0 d) as [P|P].
    + exists ((a - o) / d).
      assert (L : (a - o) / d <= (b - o) / d).
      { unfold Rdiv. apply Rmult_le_compat_r; [left; apply Rinv_0_lt_compat; auto | lra]. }
      assert (M : d * ((a - o) / d) = a - o) by (field; auto).
      unfold std_min; simpl. destruct (Rlt_dec ((b - o) / d) ((a - o) / d)); [lra|].
      split; [reflexivity|]. split; [nra|]. split; [lra|]. split; [intros; nra|]. split; [intros; nra|]. intros; nra.
    + exists ((b - o) / d). assert (N : d < 0) by lra.
      assert (L : (b - o) / d <= (a - o) / d).
      { unfold Rdiv. assert (/ d < 0) by (apply Rinv_lt_0_compat; auto). nra. }
      assert (M : d * ((b - o) / d) = b - o) by (field; auto).
      unfold std_min; simpl. destruct (Rlt_dec ((b - o) / d) ((a - o) / d)).
      * split; [reflexivity|]. split; [nra|]. split; [lra|]. split; [intros; nra|]. split; [intros; nra|]. intros; nra.
      * assert (Eq : (a - o) / d = (b - o) / d) by lra. rewrite Eq.
        split; [reflexivity|]. split; [nra|]. split; [lra|]. split; [intros; nra|]. split; [intros; nra|]. intros; nra.
Qed.

(** From a point of the box towards a point outside it, the new vertex is where
    the segment leaves the box, on the surface of the box. *)
Theorem C68_exit_point i1 i2 i3 o1 o2 o3 l1 l2 l3 u1 u2 u3 :
  in_box l1 l2 l3 u1 u2 u3 i1 i2 i3 -> ~ in_box l1 l2 l3 u1 u2 u3 o1 o2 o3 ->
  exists t, place_border_vertex [i1; i2; i3] [o1; o2; o3] [l1; l2; l3] [u1; u2; u3] =
      Ok [Fin (between i1 o1 t); Fin (between i2 o2 t); Fin (between i3 o3 t)] /\
    0 <= t < 1 /\ leaves_at l1 l2 l3 u1 u2 u3 i1 i2 i3 o1 o2 o3 t /\
    on_box l1 l2 l3 u1 u2 u3 (between i1 o1 t) (between i2 o2 t) (between i3 o3 t).
Proof.
  intros [H1 [H2 H3]] Hout. unfold place_border_vertex.
  repeat (rewrite ?at30, ?at31, ?at32; cbn [bind]). cbn [project_ray].
  change (0 + 1)%Z with 1%Z. change (1 + 1)%Z with 2%Z.
  repeat (rewrite ?at30, ?at31, ?at32; cbn [bind]).
  set (d1 := i1 - o1). set (d2 := i2 - o2). set (d3 := i3 - o3).
  assert (F1 : o1 = i1 - d1) by (unfold d1; lra). assert (F2 : o2 = i2 - d2) by (unfold d2; lra).
  assert (F3 : o3 = i3 - d3) by (unfold d3; lra).
  clearbody d1 d2 d3.
  assert (Hout' : (i1 - d1 < l1 \/ u1 < i1 - d1) \/ (i2 - d2 < l2 \/ u2 < i2 - d2) \/ (i3 - d3 < l3 \/ u3 < i3 - d3)).
  { unfold in_box in Hout. rewrite F1, F2, F3 in Hout. lra. }
  assert (K : exists t, std_min (std_max (std_max (std_max MInf
        (std_min (quotient (l1 - i1) d1) (quotient (u1 - i1) d1)))
        (std_min (quotient (l2 - i2) d2) (quotient (u2 - i2) d2)))
        (std_min (quotient (l3 - i3) d3) (quotient (u3 - i3) d3))) (Fin 0) = Fin t /\
     -1 < t <= 0 /\
     (forall y, y < t -> ~ (l1 <= d1 * y + i1 <= u1 /\ l2 <= d2 * y + i2 <= u2 /\ l3 <= d3 * y + i3 <= u3)) /\
     l1 <= d1 * t + i1 <= u1 /\ l2 <= d2 * t + i2 <= u2 /\ l3 <= d3 * t + i3 <= u3 /\
     (d1 * t + i1 = l1 \/ d1 * t + i1 = u1 \/ d2 * t + i2 = l2 \/ d2 * t + i2 = u2 \/ d3 * t + i3 = l3 \/ d3 * t + i3 = u3)).
  { assert (Mn : forall t, t <= 0 -> std_min (Fin t) (Fin 0) = Fin t).
    { intros t Ht. unfold std_min; simpl. destruct (Rlt_dec 0 t); [lra | reflexivity]. }
    destruct (contribution d1 H1) as [[Z1 Q1]|[N1 [x1 [Q1 [A1 [B1 [C1 [G1 D1]]]]]]]];
    destruct (contribution d2 H2) as [[Z2 Q2]|[N2 [x2 [Q2 [A2 [B2 [C2 [G2 D2]]]]]]]];
    destruct (contribution d3 H3) as [[Z3 Q3]|[N3 [x3 [Q3 [A3 [B3 [C3 [G3 D3]]]]]]]].
    1:{ exfalso. rewrite Z1, Z2, Z3 in Hout'. lra. }
    all: repeat match goal with
      | Q : _ = MInf \/ _ = Nan |- _ => rewrite (max_skip _ Q)
      | Q : std_min _ _ = Fin _ |- _ => rewrite Q
      end.
    all: rewrite ?max_minf, ?max_fin; unfold Rmax; repeat match goal with |- context [Rle_dec ?a ?b] => is_var a; is_var b; destruct (Rle_dec a b) end.
    all: match goal with |- exists t, std_min (Fin ?x) _ = _ /\ _ => exists x; split; [apply Mn; lra|] end.
    all: split; [split; [|lra]; destruct Hout' as [O|[O|O]];
      first [ match goal with D : _ \/ _ -> -1 < _ |- _ => pose proof (D O); lra end
            | match goal with Z : _ = 0 |- _ => rewrite Z in O; lra end ] |].
    all: split; [intros y Hy [Y1 [Y2 Y3]];
      match goal with G : forall y, y < _ -> ~ _ |- _ => apply (G y); [lra | assumption] end |].
    all: repeat match goal with
      | C : forall y, ?x <= y <= 0 -> _ |- _ <= _ * ?t + _ <= _ /\ _ => specialize (C t ltac:(lra))
      | Z : ?d = 0 |- _ => rewrite Z in *; clear Z
      end.
    all: repeat split; lra. }
  destruct K as [t [Et [Ht [Tl [T1 [T2 [T3 Tb]]]]]]]. rewrite Et. cbn [along_ray].
  assert (P : forall a b d s, b = a - d -> between a b s = d * (- s) + a).
  { intros a b d s ->. unfold between. ring. }
  exists (- t). rewrite !(P _ _ _ _ F1), !(P _ _ _ _ F2), !(P _ _ _ _ F3), !Ropp_involutive.
  split; [reflexivity|]. split; [lra|]. split; [|split; [repeat split; lra | exact Tb]].
  split; intros s Hs; rewrite (P _ _ _ _ F1), (P _ _ _ _ F2), (P _ _ _ _ F3).
  - unfold in_box. assert (Q : forall d a lo up, lo <= a <= up -> lo <= d * t + a <= up -> lo <= d * (- s) + a <= up).
    { intros d a lo up Ha Hd. destruct (Rle_dec 0 d); nra. }
    split; [|split]; apply Q; auto.
  - apply Tl. lra.
Qed.
Print Assumptions C68_exit_point.

(** Leaving the unit cube through the face x = 1. *)
Example C68_used :
  in_box 0 0 0 1 1 1 (1/2) (1/2) (1/2) /\ ~ in_box 0 0 0 1 1 1 2 (1/2) (1/4) /\
  exists t, t = 1/3 /\ leaves_at 0 0 0 1 1 1 (1/2) (1/2) (1/2) 2 (1/2) (1/4) t.
Proof.
  split; [unfold in_box; lra|]. split; [unfold in_box; lra|].
  exists (1/3). split; [reflexivity|]. unfold leaves_at, in_box, between. split; intros; lra.
Qed.
