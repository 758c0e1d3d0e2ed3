(** The mesh made of the output of tetgen. *)
From Verif Require Import Base Containers Mesh Flood Edit Order Tetgen SpecMesh SpecTetgen ContainersProofs MeshProofs CloseProofs CoarsenProofs TetgenProofs.
Import Mesh.
Set Implicit Arguments.
Open Scope Z_scope.

Lemma omap_all A B (f : A -> outcome B) (g : A -> B) l : (forall a, In a l -> f a = Ok (g a)) -> omap_list f l = Ok (map g l).
Proof. induction l as [|a l IH]; intros H; [reflexivity|]. cbn [omap_list map]. rewrite (H a) by (simpl; auto). cbn [bind]. rewrite IH by (intros; apply H; simpl; auto). reflexivity. Qed.

Lemma row_none i l c : forall k, i < k -> filter (fun ij : Z * Z => fst ij =? i) (list_prod (upto c k) l) = [].
Proof.
  induction c as [|c IH]; intros k H; [reflexivity|]. cbn [upto list_prod]. rewrite filter_app, IH by lia. rewrite app_nil_r.
  clear - H. induction l as [|j l IHl]; [reflexivity|]. cbn [map filter fst]. destruct (Z.eqb_spec k i); [lia|exact IHl].
Qed.
Lemma row_one i l c : forall k, k <= i < k + Z.of_nat c -> filter (fun ij : Z * Z => fst ij =? i) (list_prod (upto c k) l) = map (fun j => (i, j)) l.
Proof.
  induction c as [|c IH]; intros k H; [lia|]. cbn [upto list_prod]. rewrite filter_app. destruct (Z.eq_dec k i) as [->|N].
  - rewrite row_none by lia. rewrite app_nil_r. clear. induction l as [|j l IHl]; [reflexivity|]. cbn [map filter fst]. rewrite Z.eqb_refl. f_equal. exact IHl.
  - rewrite IH by lia. replace (filter _ (map _ l)) with (@nil (Z * Z)); [reflexivity|]. symmetry. clear - N. induction l as [|j l IHl]; [reflexivity|].
    cbn [map filter fst]. destruct (Z.eqb_spec k i); [lia|exact IHl].
Qed.
Lemma row_pairs i c : 0 <= i < Z.of_nat c -> filter (fun ij : Z * Z => fst ij =? i) (pairs c 2) = [(i, 0); (i, 1)].
Proof. intros H. unfold pairs. rewrite row_one by lia. reflexivity. Qed.

Section Fresh.
Variables (A B : Type) (getA : A -> list Z) (setA : list Z -> A -> A) (getB : B -> list Z) (setB : list Z -> B -> B).
Hypotheses (ga : forall l a, getA (setA l a) = l) (sa : forall l l' a, setA l (setA l' a) = setA l a) (ia : forall a, setA (getA a) a = a)
  (gb : forall l b, getB (setB l b) = l) (sb : forall l l' b, setB l (setB l' b) = setB l b) (ib : forall b, setB (getB b) b = b).
Variables (first : Z) (l : list Z) (count n max : nat).
Hypotheses (F : first = 0 \/ first = 1) (T : table first l count n max).
Variables (fa : Z -> A) (fb : Z -> B).
Lemma linked : (forall i, getA (fa i) = []) -> (forall i, getB (fb i) = []) ->
  for_each (pairs count n) (connect getA setA getB setB first l (Z.of_nat n)) (map fa (upto count 0), map fb (upto max 0)) =
  Ok (map (fun i => setA (toA first l (Z.of_nat n) (pairs count n) i) (fa i)) (upto count 0),
      map (fun p => setB (toB first l (Z.of_nat n) (pairs count n) p) (fb p)) (upto max 0)).
Proof using All.
  intros Ea Eb.
  destruct (@connect_all A B getA setA getB setB ga sa ia gb sb ib first l (Z.of_nat n) (pairs count n) (map fa (upto count 0)) (map fb (upto max 0)))
    as [la' [lb' [E [L1 [L2 [P1 P2]]]]]].
  { intros ij H. destruct (in_table F T _ H) as [H1 [H2 [H3 H4]]]. rewrite !map_length, !upto_length.
    pose proof H as H'. apply pairs_In in H'. split; [lia|]. split.
    - destruct T as [T1 _]. lia.
    - rewrite (deincr_is F T). lia. }
  rewrite E. rewrite map_length, upto_length in L1, L2. repeat f_equal.
  - apply is_map; auto. intros p Hp. rewrite (P1 p (fa (Z.of_nat p))).
    + rewrite Ea. reflexivity.
    + rewrite nth_error_map, upto_nth by auto. reflexivity.
  - apply is_map; auto. intros p Hp. rewrite (P2 p (fb (Z.of_nat p))).
    + rewrite Eb. reflexivity.
    + rewrite nth_error_map, upto_nth by auto. reflexivity.
Qed.
End Fresh.

Definition point_of REAL (t : tetout REAL) (i : Z) : list (option REAL) := map (fun j => nth_error (pointlist t) (Z.to_nat (i * 3 + j))) (upto 3 0).
Lemma coords_ok' REAL (t : tetout REAL) : (numberofpoints t * 3 <= length (pointlist t))%nat -> exists cs, coords_of t = Ok cs /\ map (map Some) cs = map (point_of t) (upto (numberofpoints t) 0).
Proof.
  intros H. unfold coords_of. set (k := upto (numberofpoints t) 0).
  assert (K : forall i, In i k -> 0 <= i < Z.of_nat (numberofpoints t)) by (intros i Hi; apply upto_In in Hi; lia). clearbody k.
  induction k as [|i k IH]; [exists []; auto|]. destruct IH as [cs [E1 E2]]; [intros; apply K; simpl; auto|].
  pose proof (K i (or_introl eq_refl)) as Hi.
  destruct (@at_in _ (pointlist t) (i * 3 + 0)) as [a0 [N0 A0]]; [lia|]. destruct (@at_in _ (pointlist t) (i * 3 + 1)) as [a1 [N1 A1]]; [lia|].
  destruct (@at_in _ (pointlist t) (i * 3 + 2)) as [a2 [N2 A2]]; [lia|].
  exists ([a0; a1; a2] :: cs). split.
  - assert (Q : omap_list (fun j => at_ (pointlist t) (i * 3 + j)) (upto 3 0) = Ok [a0; a1; a2]).
    { cbn [omap_list upto]. change (0 + 1) with 1. change (1 + 1) with 2. rewrite A0. cbn [bind]. rewrite A1. cbn [bind]. rewrite A2. reflexivity. }
    set (h := fun i0 => omap_list (fun j => at_ (pointlist t) (i0 * 3 + j)) (upto 3 0)) in *.
    assert (Q' : h i = Ok [a0; a1; a2]) by exact Q. clearbody h. cbn [omap_list]. rewrite Q'. cbn [bind]. rewrite E1. reflexivity.
  - cbn [map]. rewrite E2. f_equal. unfold point_of. cbn [map upto]. change (0 + 1) with 1. change (1 + 1) with 2. rewrite N0, N1, N2. reflexivity.
Qed.

Section Mesh.
Variables (REAL : Type) (t : tetout REAL) (t2f : list Z).
Hypothesis L : legal t t2f.
Let first := firstnumber t.
Let eV := toA first (edgelist t) 2 (pairs (numberofedges t) 2).
Let vE := toB first (edgelist t) 2 (pairs (numberofedges t) 2).
Let wS := toA first t2f 4 (pairs (numberoftetrahedra t) 4).
Let sW := toB first t2f 4 (pairs (numberoftetrahedra t) 4).
Let sE := toA first (face2edgelist t) 3 (pairs (numberoftrifaces t) 3).
Let eS := toB first (face2edgelist t) 3 (pairs (numberoftrifaces t) 3).
Definition sides_of (l : list Z) : list Z := if (length l =? 1)%nat then l ++ [0] else l.
Definition built : mesh := mkMesh
  (map (fun i => mkVolu (i + 1) false (tighten (wS i))) (upto (numberoftetrahedra t) 0))
  (map (fun i => mkSurf (i + 1) false false (tighten (sides_of (sW i))) (tighten (sE i))) (upto (numberoftrifaces t) 0))
  (map (fun i => mkEdge (i + 1) false (tighten (eS i)) (eV i)) (upto (numberofedges t) 0))
  (map (fun i => mkVert (i + 1) false (tighten (vE i))) (upto (numberofpoints t) 0)) 0.
Lemma coords_ok : exists cs, coords_of t = Ok cs /\ map (map Some) cs = map (point_of t) (upto (numberofpoints t) 0).
Proof using L. destruct L as [_ [_ [H _]]]. exact (coords_ok' t H). Qed.
Lemma tet2mesh_built : exists cs, tet2mesh t = Ok (built, cs) /\ map (map Some) cs = map (point_of t) (upto (numberofpoints t) 0).
Proof using L.
  destruct coords_ok as [cs [Ec Pc]]. exists cs. split; auto.
  destruct L as [F [E2 [_ [T1 [T2 T3]]]]]. unfold tet2mesh. rewrite E2, Ec. cbn [bind]. unfold link_edges.
  pose proof (@linked edge vert ed_vertind ed_set_vertind ve_edgeind ve_set_edgeind ltac:(reflexivity) ltac:(reflexivity) ltac:(destruct a; reflexivity)
    ltac:(reflexivity) ltac:(reflexivity) ltac:(destruct b; reflexivity) first (edgelist t) (numberofedges t) 2 (numberofpoints t) F T1
    (fun i => mkEdge (i + 1) false [] []) (fun i => mkVert (i + 1) false []) ltac:(reflexivity) ltac:(reflexivity)) as K1.
  change (Z.of_nat 2) with 2 in K1. fold first. rewrite K1. clear K1. cbn [bind].
  pose proof (@linked volu surf vo_surfind vo_set_surfind su_voluind su_set_voluind ltac:(reflexivity) ltac:(reflexivity) ltac:(destruct a; reflexivity)
    ltac:(reflexivity) ltac:(reflexivity) ltac:(destruct b; reflexivity) first t2f (numberoftetrahedra t) 4 (numberoftrifaces t) F T3
    (fun i => mkVolu (i + 1) false []) (fun i => mkSurf (i + 1) false false [] []) ltac:(reflexivity) ltac:(reflexivity)) as K2.
  change (Z.of_nat 4) with 4 in K2. rewrite K2. clear K2. cbn [bind fst snd].
  rewrite map_map.
  pose proof (@linked surf edge su_edgeind su_set_edgeind ed_surfind ed_set_surfind ltac:(reflexivity) ltac:(reflexivity) ltac:(destruct a; reflexivity)
    ltac:(reflexivity) ltac:(reflexivity) ltac:(destruct b; reflexivity) first (face2edgelist t) (numberoftrifaces t) 3 (numberofedges t) F T2
    (fun i => close_side (su_set_voluind (sW i) (mkSurf (i + 1) false false [] []))) (fun i => ed_set_vertind (eV i) (mkEdge (i + 1) false [] []))) as K3.
  change (Z.of_nat 3) with 3 in K3. unfold eV, sW in K3. rewrite K3; clear K3; [|intros i; unfold close_side; simpl; destruct (Nat.eqb _ _); reflexivity|reflexivity].
  cbn [bind fst snd]. fold eV vE wS sW sE eS.
  rewrite tighten_ok.
  - cbn [bind volus surfs edges verts meshDim]. rewrite !map_map. unfold built. do 2 f_equal. f_equal; apply map_ext; intros i; try reflexivity.
    unfold close_side, surf_tighten, sides_of. cbn [su_voluind su_set_voluind]. destruct (Nat.eqb _ _); reflexivity.
  - cbn [edges]. intros e He. apply in_map_iff in He. destruct He as [i [<- Hi]]. cbn [ed_vertind ed_set_vertind ed_set_surfind].
    unfold eV, toA. rewrite map_length. apply upto_In in Hi.
    assert (K : filter (fun ij => fst ij =? i) (pairs (numberofedges t) 2) = [(i, 0); (i, 1)]).
    { apply row_pairs. lia. }
    rewrite K. simpl. lia.
Qed.

Let nt := numberoftetrahedra t. Let nf := numberoftrifaces t. Let ne := numberofedges t. Let np := numberofpoints t.
Lemma built_EV e v : EV built e v <-> 1 <= e <= Z.of_nat ne /\ entry first (edgelist t) 2 e v.
Proof using L.
  destruct L as [F [_ [_ [T1 _]]]]. unfold EV, built. cbn [edges]. rewrite lists_upto by reflexivity. cbn [ed_vertind].
  split; intros [H1 H2]; (split; [exact H1|]); apply (toA_In F T1 v H1); exact H2.
Qed.
Lemma built_VE v e : VE built v e <-> 1 <= v <= Z.of_nat np /\ 1 <= e <= Z.of_nat ne /\ entry first (edgelist t) 2 e v.
Proof using L.
  destruct L as [F [_ [_ [T1 _]]]]. unfold VE, built. cbn [verts]. rewrite lists_upto by reflexivity. cbn [ve_edgeind]. rewrite tighten_In.
  pose proof (toB_In F T1 v e) as K. unfold vE. change (Z.of_nat 2) with 2 in K. unfold first. rewrite K. reflexivity.
Qed.
Lemma built_SE s e : SE built s e <-> 1 <= s <= Z.of_nat nf /\ entry first (face2edgelist t) 3 s e.
Proof using L.
  destruct L as [F [_ [_ [_ [T2 _]]]]]. unfold SE, built. cbn [surfs]. rewrite lists_upto by reflexivity. cbn [su_edgeind]. rewrite tighten_In.
  split; intros [H1 H2]; (split; [exact H1|]); apply (toA_In F T2 e H1); exact H2.
Qed.
Lemma built_ES e s : ES built e s <-> 1 <= e <= Z.of_nat ne /\ 1 <= s <= Z.of_nat nf /\ entry first (face2edgelist t) 3 s e.
Proof using L.
  destruct L as [F [_ [_ [_ [T2 _]]]]]. unfold ES, built. cbn [edges]. rewrite lists_upto by reflexivity. cbn [ed_surfind]. rewrite tighten_In.
  pose proof (toB_In F T2 e s) as K. unfold eS. change (Z.of_nat 3) with 3 in K. unfold first. rewrite K. reflexivity.
Qed.
Lemma built_VS w s : VS built w s <-> 1 <= w <= Z.of_nat nt /\ entry first t2f 4 w s.
Proof using L.
  destruct L as [F [_ [_ [_ [_ T3]]]]]. unfold VS, built. cbn [volus]. rewrite lists_upto by reflexivity. cbn [vo_surfind]. rewrite tighten_In.
  split; intros [H1 H2]; (split; [exact H1|]); apply (toA_In F T3 s H1); exact H2.
Qed.
Lemma built_SV s w : SV built s w <-> 1 <= s <= Z.of_nat nf /\
  ((1 <= w <= Z.of_nat nt /\ entry first t2f 4 w s) \/ (w = 0 /\ once t2f (nt * 4) (s - 1 + first))).
Proof using L.
  destruct L as [F [_ [_ [_ [_ T3]]]]]. unfold SV, built. cbn [surfs]. rewrite lists_upto by reflexivity. cbn [su_voluind]. rewrite tighten_In.
  pose proof (toB_In F T3 s w) as K. pose proof (toB_once F T3 s) as K1. change (Z.of_nat 4) with 4 in K, K1. unfold sW, first, nt.
  rewrite <- K, <- K1. unfold sides_of. destruct (Nat.eqb_spec (length (toB (firstnumber t) t2f 4 (pairs (numberoftetrahedra t) 4) (s - 1))) 1) as [E|E].
  - rewrite in_app_iff. simpl. intuition auto.
  - intuition auto.
Qed.
Lemma in_edges e v : 1 <= e <= Z.of_nat ne -> entry first (edgelist t) 2 e v -> 1 <= v <= Z.of_nat np.
Proof using L. destruct L as [F [_ [_ [T1 _]]]]. apply (entry_bounds F T1). Qed.
Lemma in_faces s e : 1 <= s <= Z.of_nat nf -> entry first (face2edgelist t) 3 s e -> 1 <= e <= Z.of_nat ne.
Proof using L. destruct L as [F [_ [_ [_ [T2 _]]]]]. apply (entry_bounds F T2). Qed.
Lemma in_tets w s : 1 <= w <= Z.of_nat nt -> entry first t2f 4 w s -> 1 <= s <= Z.of_nat nf.
Proof using L. destruct L as [F [_ [_ [_ [_ T3]]]]]. apply (entry_bounds F T3). Qed.
Lemma built_numbered : numbered_from_1 vo_index (volus built) nt /\ numbered_from_1 su_index (surfs built) nf /\
  numbered_from_1 ed_index (edges built) ne /\ numbered_from_1 ve_index (verts built) np.
Proof using All. repeat split; apply numbered_map; reflexivity. Qed.
Lemma built_well : well_connected built.
Proof using L.
  destruct built_numbered as [N1 [N2 [N3 N4]]].
  split; [|split].
  - repeat split; try (eapply numbered_NoDup; eassumption); intros H;
      [apply (numbered_In _ N1) in H|apply (numbered_In _ N2) in H|apply (numbered_In _ N3) in H|apply (numbered_In _ N4) in H]; lia.
  - repeat split.
    + intros v e H _. apply built_VE in H. apply built_EV. tauto.
    + intros v e H _. apply built_EV in H. apply built_VE. destruct H as [H1 H2]. pose proof (in_edges H1 H2). tauto.
    + intros e s H _. apply built_ES in H. apply built_SE. tauto.
    + intros e s H _. apply built_SE in H. apply built_ES. destruct H as [H1 H2]. pose proof (in_faces H1 H2). tauto.
    + intros s w H N. apply built_SV in H. apply built_VS. destruct H as [_ [H|[H _]]]; [exact H|contradiction].
    + intros s w H _. apply built_VS in H. apply built_SV. destruct H as [H1 H2]. pose proof (in_tets H1 H2). tauto.
  - repeat split.
    + intros v H. apply built_VE in H. lia.
    + intros e H. apply built_EV in H. destruct H as [H1 H2]. pose proof (in_edges H1 H2). lia.
    + intros s H. apply built_SE in H. destruct H as [H1 H2]. pose proof (in_faces H1 H2). lia.
    + intros w H. apply built_VS in H. destruct H as [H1 H2]. pose proof (in_tets H1 H2). lia.
    + intros _ e H. apply built_ES in H. lia.
Qed.
End Mesh.
