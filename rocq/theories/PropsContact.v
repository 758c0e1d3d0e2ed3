(** C100: merging the snaxels in contact. *)
From Coq Require Import QArith Reals.
From Verif Require Import Base Containers Mesh Edit Num Snake Spawn Contact SpecMesh SpecSnake SpecSpawn SpecContact
  ContainersProofs MeshProofs FloodProofs SwitchProofs ContactProofs MeshCheck PropsSnake.
Import Mesh.
Set Implicit Arguments.
Open Scope Z_scope.

(** Of two snaxels in contact one is taken out and the other takes its place in every edge
    and stops; nothing else changes and the snake stays well connected. *)
Theorem C100_merge : forall N (k : snake N) imp,
  in_step k -> well_connected (k_conn k) ->
  (forall e, In e (edges (k_conn k)) -> exists a b, ed_vertind e = [a; b] /\ a <> b) ->
  (forall v, In v (verts (k_conn k)) -> NoDup (ve_edgeind v)) ->
  paired imp ->
  (forall i t, In (i, t) imp -> 0 < t -> 0 < i /\ has_vert (k_conn k) i /\ has_vert (k_conn k) t) ->
  exists k', merge_contacts k imp = Ok k' /\
    (forall i t, In (i, t) imp -> 0 < t ->
       (~ has_vert (k_conn k') i /\ has_vert (k_conn k') t) \/ (has_vert (k_conn k') i /\ ~ has_vert (k_conn k') t)) /\
    (forall x', In x' (k_snaxs k') <-> exists x, In x (k_snaxs k) /\ (forall b, ~ goes_into imp (sx_index x) b) /\ after_contact imp x x') /\
    (forall v, has_vert (k_conn k') v <-> has_vert (k_conn k) v /\ forall b, ~ goes_into imp v b) /\
    Forall2 (moved_ends imp) (edges (k_conn k)) (edges (k_conn k')) /\
    surfs (k_conn k') = surfs (k_conn k) /\ volus (k_conn k') = volus (k_conn k) /\ meshDim (k_conn k') = meshDim (k_conn k) /\
    k_edges k' = k_edges k /\ k_surfs k' = k_surfs k /\ k_in k' = k_in k /\ k_flipped k' = k_flipped k /\
    well_connected (k_conn k') /\ in_step k'.
Proof.
  intros N k imp St Wc Two Nd P Pos.
  destruct (merge_contacts_ok St Wc Two Nd P Pos) as [k' [R [A1 [A2 A3]]]].
  exists k'. split; auto. split; auto. intros i t Hit Ht. destruct (Pos i t Hit Ht) as [Hi [Vi Vt]].
  rewrite !A2. destruct (@into_one imp i t Hit Hi Ht) as [H|H]; [left|right]; split.
  - intros [_ K]. exact (K _ H).
  - split; auto. intros b Hb. exact (into_ends P Hb H).
  - split; auto. intros b Hb. exact (into_ends P Hb H).
  - intros [_ K]. exact (K _ H).
Qed.
Print Assumptions C100_merge.

(** With at most two snaxels on an edge the contacts the snake reports are such pairs. *)
Theorem C100_detected : forall rng (l : list qsnax) ends out,
  legal_rng l rng -> edges_agree ends l -> NoDup (map (fun s => sx_index s) l) ->
  (forall s, In s l -> 0 < sx_index s) ->
  (forall s, In s l -> (length (siblings l s) <= 2)%nat) ->
  @impact_detection Qn rng l = Ok out ->
  paired out /\ forall i t, In (i, t) out -> 0 < t -> 0 < i /\ In i (map (fun s => sx_index s) l) /\ In t (map (fun s => sx_index s) l).
Proof.
  intros rng l ends out legal Ag Nd Pos Few R.
  destruct (C41_reports_partial legal Ag Nd) as [out' [R' [_ Spec]]]. rewrite R' in R. injection R as ->. clear R'.
  assert (Case : forall i t, In (i, t) out -> 0 < t -> exists s u, In s l /\ In u l /\ s <> u /\ sx_edge s = sx_edge u /\ i = sx_index s /\ t = sx_index u).
  { intros i t H Ht. apply Spec in H.
    destruct H as [[s [_ [_ [_ [[K _]|[K _]]]]]]|[[s [_ [_ [_ [[K _]|[K _]]]]]]|[s [u [Hs [Hu [Ne [He [Hi [Hj _]]]]]]]]]]; try lia.
    exists s, u. auto 8. }
  assert (Inj : forall s u, In s l -> In u l -> sx_index s = sx_index u -> s = u).
  { intros s u Hs Hu E. exact (@NoDup_idx_inj _ (fun s => sx_index s) l s u Nd Hs Hu E). }
  assert (Ndl : NoDup l) by (apply (NoDup_map_inv _ _ Nd)).
  assert (Three : forall s u w, In s l -> In u l -> In w l -> s <> u -> s <> w -> sx_edge s = sx_edge u -> sx_edge s = sx_edge w -> u = w).
  { intros s u w Hs Hu Hw Nu Nw Eu Ew.
    assert (D : forall x y : qsnax, In x l -> In y l -> x = y \/ x <> y).
    { intros x y Hx Hy. destruct (Z.eq_dec (sx_index x) (sx_index y)) as [E|E]; [left; auto|right; congruence]. }
    destruct (D u w Hu Hw) as [E|E]; auto. exfalso.
    assert (L : (3 <= length (siblings l s))%nat).
    { change 3%nat with (length [s; u; w]). apply NoDup_incl_length.
      - repeat constructor; simpl; intuition.
      - intros x Hx. unfold siblings. apply filter_In. simpl in Hx. destruct Hx as [<-|[<-|[<-|[]]]]; split; auto; apply Z.eqb_eq; congruence. }
    specialize (Few s Hs). lia. }
  split.
  - intros i t i' t' H H' Ht Ht'.
    destruct (Case i t H Ht) as [s [u [Hs [Hu [Nsu [Esu [-> ->]]]]]]].
    destruct (Case i' t' H' Ht') as [s' [u' [Hs' [Hu' [Nsu' [Esu' [-> ->]]]]]]].
    split; [intro E; apply Nsu; auto|]. split; [|split]; intro E; f_equal.
    + apply Inj in E; auto. subst s'. apply (Three s); auto.
    + apply Inj in E; auto. subst u'. apply (Three u); auto; congruence.
    + apply Inj in E; auto. subst u'. apply (Three s); auto; congruence.
  - intros i t H Ht. destruct (Case i t H Ht) as [s [u [Hs [Hu [_ [_ [-> ->]]]]]]].
    split; [auto|]. split; apply in_map_iff; eauto.
Qed.
Print Assumptions C100_detected.

(** A ring of four snaxels on two edges, which meet in pairs. *)
Definition ring : snake Qn :=
  mkSnake [q_snax 1 (1 # 2) 1 4 9 7 1; q_snax 2 (1 # 4) 0 5 6 8 1; q_snax 3 (1 # 2) 1 9 4 7 2; q_snax 4 (3 # 4) 1 6 5 8 2]
    [(1, 1); (2, 1); (3, 1); (4, 1)] [(1, 1); (2, 2)]
    (mkMesh [mkVolu 1 false [1; 2]] [mkSurf 1 false false [1; 0] [1; 2; 3; 4]; mkSurf 2 false false [1; 0] [1; 2; 3; 4]]
       [mkEdge 1 false [1; 2] [1; 2]; mkEdge 2 false [1; 2] [2; 3]; mkEdge 3 false [1; 2] [3; 4]; mkEdge 4 false [1; 2] [4; 1]]
       [mkVert 1 false [4; 1]; mkVert 2 false [1; 2]; mkVert 3 false [2; 3]; mkVert 4 false [3; 4]] 3) [] false.
Definition ring_imp : list (Z * Z) := [(1, 3); (3, 1); (2, 4); (4, 2)].
Example C100_used :
  @impact_detection Qn (rng_of (k_snaxs ring)) (k_snaxs ring) = Ok ring_imp /\
  in_step ring /\ well_connected (k_conn ring) /\
  (forall e, In e (edges (k_conn ring)) -> exists a b, ed_vertind e = [a; b] /\ a <> b) /\
  (forall v, In v (verts (k_conn ring)) -> NoDup (ve_edgeind v)) /\
  edges_agree (fun e => if e =? 7 then (4, 9) else (5, 6)) (k_snaxs ring) /\
  (forall s, In s (k_snaxs ring) -> 0 < sx_index s /\ (length (siblings (k_snaxs ring) s) <= 2)%nat) /\
  exists k', merge_contacts ring ring_imp = Ok k' /\ map (fun s => sx_index s) (k_snaxs k') = [3; 4] /\
    map ed_vertind (edges (k_conn k')) = [[3; 4]; [4; 3]; [3; 4]; [4; 3]].
Proof.
  split; [vm_compute; reflexivity|]. split; [repeat split|]. split; [apply well_connectedb_spec; vm_compute; reflexivity|].
  split; [intros e He; simpl in He; decompose [or] He; subst; simpl; try contradiction; do 2 eexists; (split; [reflexivity|lia])|].
  split; [intros v Hv; simpl in Hv; decompose [or] Hv; subst; simpl; try contradiction; repeat constructor; simpl; lia|].
  split; [intros s Hs; cbn in Hs; intuition; subst; cbn; try lia; unfold runs; cbn; auto|].
  split; [intros s Hs; cbn in Hs; intuition; subst; vm_compute; auto|].
  eexists. split; [vm_compute; reflexivity|]. split; reflexivity.
Qed.

(** Three snaxels that meet at one point: the first is merged into the second, and the
    contact of these two with the third is marked as done although nothing was merged. *)
Definition triple : snake Qn :=
  mkSnake [q_snax 1 (1 # 2) 0 4 9 7 1; q_snax 2 (1 # 2) 0 4 9 7 2; q_snax 3 (1 # 2) 0 4 9 7 3]
    [(1, 1); (2, 1); (3, 1)] [(1, 1); (2, 2)]
    (mkMesh [mkVolu 1 false [1; 2]] [mkSurf 1 false false [1; 0] [1; 2; 3]; mkSurf 2 false false [1; 0] [1; 2; 3]]
       [mkEdge 1 false [1; 2] [1; 2]; mkEdge 2 false [1; 2] [2; 3]; mkEdge 3 false [1; 2] [3; 1]]
       [mkVert 1 false [3; 1]; mkVert 2 false [1; 2]; mkVert 3 false [2; 3]] 3) [] false.
Theorem C100_three_refuted : in_step triple /\ well_connected (k_conn triple) /\ exists out k',
  @impact_detection Qn (rng_of (k_snaxs triple)) (k_snaxs triple) = Ok out /\ In (2, 3) out /\
  merge_contacts triple out = Ok k' /\ has_vert (k_conn k') 2 /\ has_vert (k_conn k') 3 /\
  @impact_detection Qn (rng_of (k_snaxs k')) (k_snaxs k') = Ok [(2, 3); (3, 2)].
Proof.
  split; [repeat split|]. split; [apply well_connectedb_spec; vm_compute; reflexivity|].
  do 2 eexists. split; [vm_compute; reflexivity|]. split; [simpl; auto|]. split; [vm_compute; reflexivity|].
  split; [apply has_vert_In; vm_compute; auto|]. split; [apply has_vert_In; vm_compute; auto|]. vm_compute. reflexivity.
Qed.
Print Assumptions C100_three_refuted.
