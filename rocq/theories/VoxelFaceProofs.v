(** Faces of a block grid, distinctness, and the floating-point grid. *)
From Verif Require Import Base Containers Mesh SpecMesh Flood Order SpecOrder OrderProofs OrderMeshProofs Voxel VoxelProofs FloatQuot FloatQuotProofs.
Set Implicit Arguments.
Open Scope Z_scope.

(** ** Four edges around four corners *)
Section Quad.
Variable m : mesh.
Hypothesis uni : NoDup (map ed_index (edges m)).
Lemma edge_is_fun e a b c d : edge_is m e a b -> edge_is m e c d -> a = c /\ b = d.
Proof.
  intros [x [Hx [Ex Vx]]] [y [Hy [Ey Vy]]].
  assert (x = y). { clear Vx Vy. revert Ex Ey. induction (edges m) as [|z l IH]; [destruct Hx|]. simpl in uni. inversion uni; subst.
    intros E1 E2. destruct Hx as [->|Hx], Hy as [->|Hy]; auto.
    - exfalso. apply H1. rewrite E1, <- E2. apply in_map. auto.
    - exfalso. apply H1. rewrite E2, <- E1. apply in_map. auto. }
  subst y. rewrite Vx in Vy. inversion Vy. auto.
Qed.
Lemma edge_joins_fun e a b c d : edge_joins m e a b -> edge_joins m e c d -> (a = c /\ b = d) \/ (a = d /\ b = c).
Proof.
  intros [H|H] [K|K]; destruct (edge_is_fun H K); auto.
Qed.
Lemma edge_touches_end e a b v : edge_joins m e a b -> (edge_touches m e v <-> v = a \/ v = b).
Proof.
  intros H. split.
  - intros [w Hw]. destruct (edge_joins_fun H Hw) as [[-> ->]|[-> ->]]; auto.
  - intros [-> | -> ]; [exists b; auto|]. exists a. destruct H as [H|H]; [right|left]; auto.
Qed.
Variables e0 e1 e2 e3 a b c d : Z.
Hypothesis J0 : edge_joins m e0 a b.
Hypothesis J1 : edge_joins m e1 b c.
Hypothesis J2 : edge_joins m e2 c d.
Hypothesis J3 : edge_joins m e3 d a.
Hypothesis ND : NoDup [a; b; c; d].
Lemma quad_corners : a <> b /\ a <> c /\ a <> d /\ b <> c /\ b <> d /\ c <> d.
Proof.
  inversion ND as [|? ? N1 N2]; subst. inversion N2 as [|? ? N3 N4]; subst. inversion N4 as [|? ? N5 N6]; subst.
  simpl in *. repeat split; intros E; subst; tauto.
Qed.
Lemma quad_edges : e0 <> e1 /\ e0 <> e2 /\ e0 <> e3 /\ e1 <> e2 /\ e1 <> e3 /\ e2 <> e3.
Proof.
  pose proof quad_corners as Q.
  repeat split; intros E; subst;
  match goal with
  | H : edge_joins m ?e _ _, K : edge_joins m ?e _ _ |- _ => destruct (edge_joins_fun H K) as [[]|[]]; subst; tauto
  end.
Qed.
Lemma quad_polygon : polygon (edge_joins m) [e0; e1; e2; e3] [a; b; c; d].
Proof.
  split; auto. intros [|[|[|[|i]]]] e x y; simpl; intros A B C; try (inversion A; inversion B; inversion C; subst; auto; fail).
  destruct i; discriminate.
Qed.
Lemma joins_edge e x y : edge_joins m e x y -> x <> y -> exists x' y', edge_is m e x' y' /\ x' <> y'.
Proof. intros [H|H] N; [exists x, y|exists y, x]; auto. Qed.
Lemma quad_loops : simple_loops m [e0; e1; e2; e3].
Proof.
  pose proof quad_corners as [Qab [Qac [Qad [Qbc [Qbd Qcd]]]]]. pose proof quad_edges as [E01 [E02 [E03 [E12 [E13 E23]]]]].
  pose proof (edge_touches_end) as T.
  split.
  - intros e [<-|[<-|[<-|[<-|[]]]]].
    + apply (joins_edge J0). auto.
    + apply (joins_edge J1). auto.
    + apply (joins_edge J2). auto.
    + apply (joins_edge J3). auto.
  - assert (U : forall v g, In g [e0; e1; e2; e3] -> edge_touches m g v ->
      (g = e0 /\ (v = a \/ v = b)) \/ (g = e1 /\ (v = b \/ v = c)) \/ (g = e2 /\ (v = c \/ v = d)) \/ (g = e3 /\ (v = d \/ v = a))).
    { intros v g [<-|[<-|[<-|[<-|[]]]]] Hg.
      - apply (T _ _ _ v J0) in Hg. tauto.
      - apply (T _ _ _ v J1) in Hg. tauto.
      - apply (T _ _ _ v J2) in Hg. tauto.
      - apply (T _ _ _ v J3) in Hg. tauto. }
    assert (V0 : forall v, (v = a \/ v = b) -> edge_touches m e0 v) by (intros; apply (T _ _ _ v J0); auto).
    assert (V1 : forall v, (v = b \/ v = c) -> edge_touches m e1 v) by (intros; apply (T _ _ _ v J1); auto).
    assert (V2 : forall v, (v = c \/ v = d) -> edge_touches m e2 v) by (intros; apply (T _ _ _ v J2); auto).
    assert (V3 : forall v, (v = d \/ v = a) -> edge_touches m e3 v) by (intros; apply (T _ _ _ v J3); auto).
    intros e v He Hv.
    assert (K : forall v', edge_touches m e v' -> v' = v -> True) by auto.
    destruct (U v e He Hv) as [[Ee Ev]|[[Ee Ev]|[[Ee Ev]|[Ee Ev]]]]; destruct Ev as [Ev|Ev];
      [exists e3|exists e1|exists e0|exists e2|exists e1|exists e3|exists e2|exists e0];
      (split; [simpl; tauto|]); (split; [congruence|]); (split; [auto|]);
      intros g Hg Tg; destruct (U v g Hg Tg) as [[Eg W]|[[Eg W]|[[Eg W]|[Eg W]]]];
      first [left; congruence | right; congruence | exfalso; destruct W; congruence].
Qed.
Lemma quad_reach e f : In e [e0; e1; e2; e3] -> In f [e0; e1; e2; e3] -> reach (edges_meet m [e0; e1; e2; e3]) e f.
Proof.
  pose proof (edge_touches_end) as T.
  assert (M01 : edges_meet m [e0; e1; e2; e3] e0 e1).
  { split; [simpl; auto|]. split; [simpl; auto|]. exists b. split; [apply (T _ _ _ b J0)|apply (T _ _ _ b J1)]; auto. }
  assert (M12 : edges_meet m [e0; e1; e2; e3] e1 e2).
  { split; [simpl; auto|]. split; [simpl; auto|]. exists c. split; [apply (T _ _ _ c J1)|apply (T _ _ _ c J2)]; auto. }
  assert (M23 : edges_meet m [e0; e1; e2; e3] e2 e3).
  { split; [simpl; auto|]. split; [simpl; auto|]. exists d. split; [apply (T _ _ _ d J2)|apply (T _ _ _ d J3)]; auto. }
  assert (S : forall x y, edges_meet m [e0; e1; e2; e3] x y -> edges_meet m [e0; e1; e2; e3] y x).
  { intros x y [A [B [v [C D]]]]. split; auto. split; auto. exists v. auto. }
  assert (R0 : forall g, In g [e0; e1; e2; e3] -> reach (edges_meet m [e0; e1; e2; e3]) e0 g).
  { intros g [<-|[<-|[<-|[<-|[]]]]].
    - apply reach_refl.
    - exact (@reach_step _ _ _ _ _ (reach_refl _ _) M01).
    - exact (@reach_step _ _ _ _ _ (@reach_step _ _ _ _ _ (reach_refl _ _) M01) M12).
    - exact (@reach_step _ _ _ _ _ (@reach_step _ _ _ _ _ (@reach_step _ _ _ _ _ (reach_refl _ _) M01) M12) M23). }
  assert (R1 : forall g, In g [e0; e1; e2; e3] -> reach (edges_meet m [e0; e1; e2; e3]) g e0).
  { intros g [<-|[<-|[<-|[<-|[]]]]].
    - apply reach_refl.
    - exact (@reach_step _ _ _ _ _ (reach_refl _ _) (S _ _ M01)).
    - exact (@reach_step _ _ _ _ _ (@reach_step _ _ _ _ _ (reach_refl _ _) (S _ _ M12)) (S _ _ M01)).
    - exact (@reach_step _ _ _ _ _ (@reach_step _ _ _ _ _ (@reach_step _ _ _ _ _ (reach_refl _ _) (S _ _ M23)) (S _ _ M12)) (S _ _ M01)). }
  assert (TR : forall x y z, reach (edges_meet m [e0; e1; e2; e3]) x y -> reach (edges_meet m [e0; e1; e2; e3]) y z -> reach (edges_meet m [e0; e1; e2; e3]) x z).
  { intros x y z H1 H2. induction H2 as [|u v w H2 IH HM]; auto. apply (@reach_step _ _ _ v); [apply IH; exact H1|exact HM]. }
  intros He Hf. eapply TR; eauto.
Qed.
End Quad.

(** ** Faces of the grid *)
Section Faces.
Variable dim : row.
Hypothesis dim_ok : nonneg dim.
Notation grid := (block_grid Z.div Z.div dim).
Notation dimv := (radd dim (1, 1, 1)).
Ltac planes := repeat match goal with H : plane _ |- _ => destruct H as [-> | [-> | -> ]] end.

Lemma grid_edge j p : plane j -> box (mat_edge dim j) p -> edge_is grid (eid dim j p) (vid dim p) (vid dim (radd p (axis j))).
Proof. intros Hj Hp. exists (edge_at dim j p). split; [apply edges_are; eauto|]. split; reflexivity. Qed.
Lemma vid_inj p q : box dimv p -> box dimv q -> vid dim p = vid dim q -> p = q.
Proof. intros Hp Hq E. apply (@enc_inj dimv); auto. unfold vid in E. lia. Qed.
Lemma cid_inj p q : box dim p -> box dim q -> cid dim p = cid dim q -> p = q.
Proof. intros Hp Hq E. apply (@enc_inj dim); auto. unfold cid in E. lia. Qed.

Definition face_corners (k : Z) (q : row) : list Z :=
  let (c0, c1) := in_plane k in
  [vid dim q; vid dim (radd q (axis c0)); vid dim (radd (radd q (axis c0)) (axis c1)); vid dim (radd q (axis c1))].
Lemma face_quad k q : plane k -> box (mat_surf dim k) q ->
  let l := su_edgeind (surf_at dim k q) in
  length l = 4%nat /\ NoDup l /\ polygon (edge_joins grid) l (face_corners k q) /\ NoDup (face_corners k q) /\
  simple_loops grid l /\ (forall e f, In e l -> In f l -> reach (edges_meet grid l) e f).
Proof.
  intros Hk Hq. cbn zeta. rewrite surf_at_edgeind.
  destruct (grid_unique dim) as [_ [_ [U _]]].
  assert (HB : forall j p, In (j, p) (face_edges k q) -> plane j /\ box (mat_edge dim j) p).
  { intros j p H. destruct (face_edges_ok dim dim_ok _ _ _ Hk Hq H) as [A [B _]]. auto. }
  assert (HC : plane (fst (in_plane k)) /\ plane (snd (in_plane k)) /\ fst (in_plane k) <> snd (in_plane k)).
  { unfold plane. planes; cbn; lia. }
  unfold face_edges, face_corners in *. destruct (in_plane k) as [c0 c1]. cbn [fst snd] in HC. destruct HC as [P0 [P1 P01]].
  cbn [map fst snd].
  destruct (HB c0 q) as [_ B0]; [simpl; auto|]. destruct (HB c1 (radd q (axis c0))) as [_ B1]; [simpl; auto|].
  destruct (HB c0 (radd q (axis c1))) as [_ B2]; [simpl; auto|]. destruct (HB c1 q) as [_ B3]; [simpl; auto|].
  assert (Hcom : radd (radd q (axis c1)) (axis c0) = radd (radd q (axis c0)) (axis c1)).
  { clear. destruct q as [[q0 q1] q2], (axis c0) as [[x0 x1] x2], (axis c1) as [[y0 y1] y2]. simpl. apply row_eq; lia. }
  pose proof (grid_edge _ P0 B0) as G0. pose proof (grid_edge _ P1 B1) as G1. pose proof (grid_edge _ P0 B2) as G2. pose proof (grid_edge _ P1 B3) as G3.
  rewrite Hcom in G2.
  destruct (edge_ends dim dim_ok _ P0 B0) as [X0 X1]. destruct (edge_ends dim dim_ok _ P1 B1) as [_ X2]. destruct (edge_ends dim dim_ok _ P1 B3) as [_ X3].
  assert (ND : NoDup [vid dim q; vid dim (radd q (axis c0)); vid dim (radd (radd q (axis c0)) (axis c1)); vid dim (radd q (axis c1))]).
  { assert (Hd : NoDup [q; radd q (axis c0); radd (radd q (axis c0)) (axis c1); radd q (axis c1)]).
    { clear - P0 P1 P01. destruct q as [[q0 q1] q2].
      planes; try (exfalso; apply P01; reflexivity); simpl;
        repeat (constructor; [simpl; intros H; repeat destruct H as [H|H]; try contradiction; inversion H; lia|]); constructor. }
    assert (Hm : [vid dim q; vid dim (radd q (axis c0)); vid dim (radd (radd q (axis c0)) (axis c1)); vid dim (radd q (axis c1))] =
                 map (vid dim) [q; radd q (axis c0); radd (radd q (axis c0)) (axis c1); radd q (axis c1)]) by reflexivity.
    assert (HBox : forall x, In x [q; radd q (axis c0); radd (radd q (axis c0)) (axis c1); radd q (axis c1)] -> box dimv x).
    { intros x [<-|[<-|[<-|[<-|[]]]]]; auto. }
    rewrite Hm. clear Hm. revert Hd HBox. generalize [q; radd q (axis c0); radd (radd q (axis c0)) (axis c1); radd q (axis c1)].
    intros l Hd HBox. induction Hd as [|x l Hx Hd IH]; simpl; constructor.
    - intros H. apply in_map_iff in H. destruct H as [y [E Hy]]. apply vid_inj in E; [subst; auto|apply HBox; simpl; auto|apply HBox; simpl; auto].
    - apply IH. intros y Hy. apply HBox. simpl. auto. }
  assert (K0 : edge_joins grid (eid dim c0 q) (vid dim q) (vid dim (radd q (axis c0)))) by (left; auto).
  assert (K1 : edge_joins grid (eid dim c1 (radd q (axis c0))) (vid dim (radd q (axis c0))) (vid dim (radd (radd q (axis c0)) (axis c1)))) by (left; auto).
  assert (K2 : edge_joins grid (eid dim c0 (radd q (axis c1))) (vid dim (radd (radd q (axis c0)) (axis c1))) (vid dim (radd q (axis c1)))) by (right; auto).
  assert (K3 : edge_joins grid (eid dim c1 q) (vid dim (radd q (axis c1))) (vid dim q)) by (right; auto).
  split; [reflexivity|]. split.
  { destruct (quad_edges U K0 K1 K2 K3 ND) as [A [B [C [D [E F]]]]].
    repeat (constructor; [simpl; intros H; repeat destruct H as [H|H]; try contradiction; congruence|]). constructor. }
  split; [apply quad_polygon; auto|]. split; [auto|]. split; [apply (quad_loops U K0 K1 K2 K3 ND)|].
  intros e f He Hf. apply (quad_reach U K0 K1 K2 K3); auto.
Qed.
Lemma polygon_length m l vs : polygon (edge_joins m) l vs -> length vs = length l.
Proof. intros [H _]. auto. Qed.
Lemma face_ordered table s : (forall l, is_table l (table l)) -> In s (surfs grid) ->
  exists l, surf_order grid table (su_edgeind s) = Ok (ordered, l) /\ length l = 4%nat /\ Permutation l (su_edgeind s).
Proof.
  intros Ht Hs. apply (surfs_are dim dim_ok) in Hs. destruct Hs as [k [q [Hk [Hq ->]]]].
  destruct (face_quad _ Hk Hq) as [L [N [_ [_ [S R]]]]].
  destruct (grid_unique dim) as [_ [_ [U _]]].
  destruct (@surface_order grid table (su_edgeind (surf_at dim k q)) U Ht) as [c [l [vs [e0 [E [I0 [_ [_ [Nl [_ [Il [_ C]]]]]]]]]]]]; auto.
  { intros E. rewrite E in L. discriminate. }
  assert (HP : Permutation l (su_edgeind (surf_at dim k q))).
  { apply NoDup_Permutation; auto. intros e. rewrite Il. split; [tauto|]. intros He. split; auto. }
  exists l. split; [|split; auto].
  - rewrite E. repeat f_equal. apply C. intros e He. apply R; auto.
  - rewrite (Permutation_length HP). auto.
Qed.

(** ** Sizes and distinctness *)
Lemma NoDup_numbers {A} (f : A -> Z) (P : A -> Prop) l : (forall x y, P x -> P y -> f x = f y -> x = y) ->
  (forall x, In x l -> P x) -> NoDup l -> NoDup (map f l).
Proof.
  intros Hf HP Hd. induction Hd as [|x l Hx Hd IH]; simpl; constructor.
  - intros H. apply in_map_iff in H. destruct H as [y [E Hy]]. apply Hf in E; [subst; auto|apply HP; simpl; auto|apply HP; simpl; auto].
  - apply IH. intros y Hy. apply HP. simpl. auto.
Qed.
Lemma filter_length_le {A} (f : A -> bool) l : (length (filter f l) <= length l)%nat.
Proof. induction l as [|a l IH]; simpl; [lia|]. destruct (f a); simpl; lia. Qed.
Definition s_ok (jp : Z * row) := plane (fst jp) /\ box (mat_surf dim (fst jp)) (snd jp).
Definition e_ok (jp : Z * row) := plane (fst jp) /\ box (mat_edge dim (fst jp)) (snd jp).
Lemma sid_inj x y : s_ok x -> s_ok y -> sid dim (fst x) (snd x) = sid dim (fst y) (snd y) -> x = y.
Proof. intros [A B] [C D] E. apply (fnum_inj _ (surf_mats dim dim_ok)) in E; auto. destruct x, y, E. simpl in *. congruence. Qed.
Lemma eid_inj x y : e_ok x -> e_ok y -> eid dim (fst x) (snd x) = eid dim (fst y) (snd y) -> x = y.
Proof. intros [A B] [C D] E. apply (fnum_inj _ (edge_mats dim dim_ok)) in E; auto. destruct x, y, E. simpl in *. congruence. Qed.
Lemma volu_six v : In v (volus grid) -> length (vo_surfind v) = 6%nat /\ NoDup (vo_surfind v).
Proof.
  intros H. apply (volus_are dim dim_ok) in H. destruct H as [p [Hp ->]]. split; [reflexivity|].
  change (vo_surfind (volu_at dim p)) with (map (fun jp => sid dim (fst jp) (snd jp))
    [(0, p); (1, p); (2, p); (0, radd p (surf_prop 0)); (1, radd p (surf_prop 1)); (2, radd p (surf_prop 2))]).
  apply NoDup_numbers with (P := s_ok); [apply sid_inj| |].
  - intros x Hx. unfold s_ok, plane. 
    destruct Hx as [<-|[<-|[<-|[<-|[<-|[<-|[]]]]]]]; (split; [simpl; auto|]); cbn [fst snd];
    first [apply (cell_faces dim dim_ok); [auto|unfold plane; auto] | eapply (proj2 (cell_faces dim dim_ok _ Hp _))]. Unshelve. all: unfold plane; auto.
  - destruct p as [[p0 p1] p2]. simpl.
    repeat (constructor; [simpl; intros H; repeat destruct H as [H|H]; try contradiction; inversion H; lia|]). constructor.
Qed.
Lemma vert_edges v : In v (verts grid) -> NoDup (ve_edgeind v) /\ (length (ve_edgeind v) <= 6)%nat.
Proof.
  intros H. apply (verts_are dim dim_ok) in H. destruct H as [p [Hp ->]]. split.
  - unfold vert_at. cbn [ve_edgeind]. apply NoDup_numbers with (P := e_ok); [apply eid_inj| |].
    + intros [j q] Hx. apply vert_cands_In in Hx. split; tauto.
    + unfold vert_cands. apply NoDup_filter. destruct p as [[p0 p1] p2]. simpl.
      repeat (constructor; [simpl; intros H; repeat destruct H as [H|H]; try contradiction; inversion H; lia|]). constructor.
  - unfold vert_at. cbn [ve_edgeind]. rewrite map_length. unfold vert_cands. 
    etransitivity; [apply filter_length_le|]. simpl. lia.
Qed.
Lemma edge_cands_small j p : plane j -> NoDup (edge_cands dim j p) /\ (length (edge_cands dim j p) <= 4)%nat.
Proof.
  intros Hj.
  assert (F : exists k l, edge_cands dim j p = filter (fun jp => k jp) l /\ NoDup l /\ length l = 4%nat).
  { unfold edge_cands. destruct p as [[p0 p1] p2]. set (f := fun jp : Z * row => _).
    destruct Hj as [-> | [-> | -> ]].
    - exists f, [(0, (p0, p1, p2)); (1, (p0, p1, p2)); (0, rsub (p0, p1, p2) (edge_mask 0 0)); (1, rsub (p0, p1, p2) (edge_mask 0 1))].
      split; [|split; [|reflexivity]].
      + assert (F2 : forall q, f (2, q) = false) by (intros; unfold f; cbn; rewrite orb_true_r; reflexivity).
        simpl. rewrite !F2. reflexivity.
      + simpl. repeat (constructor; [simpl; intros H; repeat destruct H as [H|H]; try contradiction; inversion H; lia|]). constructor.
    - exists f, [(0, (p0, p1, p2)); (2, (p0, p1, p2)); (0, rsub (p0, p1, p2) (edge_mask 1 0)); (2, rsub (p0, p1, p2) (edge_mask 1 2))].
      split; [|split; [|reflexivity]].
      + assert (F2 : forall q, f (1, q) = false) by (intros; unfold f; cbn; rewrite orb_true_r; reflexivity).
        simpl. rewrite !F2. reflexivity.
      + simpl. repeat (constructor; [simpl; intros H; repeat destruct H as [H|H]; try contradiction; inversion H; lia|]). constructor.
    - exists f, [(1, (p0, p1, p2)); (2, (p0, p1, p2)); (1, rsub (p0, p1, p2) (edge_mask 2 1)); (2, rsub (p0, p1, p2) (edge_mask 2 2))].
      split; [|split; [|reflexivity]].
      + assert (F2 : forall q, f (0, q) = false) by (intros; unfold f; cbn; rewrite orb_true_r; reflexivity).
        simpl. rewrite !F2. reflexivity.
      + simpl. repeat (constructor; [simpl; intros H; repeat destruct H as [H|H]; try contradiction; inversion H; lia|]). constructor. }
  destruct F as [k [l [-> [N L]]]]. split; [apply NoDup_filter; auto|]. etransitivity; [apply filter_length_le|]. lia.
Qed.
Definition has_cells : Prop := let '(d0, d1, d2) := dim in 0 < d0 /\ 0 < d1 /\ 0 < d2.
Lemma edge_faces e : has_cells -> In e (edges grid) -> NoDup (ed_surfind e) /\ (2 <= length (ed_surfind e) <= 4)%nat /\
  length (ed_vertind e) = 2%nat /\ NoDup (ed_vertind e).
Proof.
  intros Hc H. apply (edges_are dim dim_ok) in H. destruct H as [j [p [Hj [Hp ->]]]].
  assert (Hb : box dimv (1, 1, 1)).
  { unfold has_cells in Hc. destruct dim as [[d0 d1] d2]. simpl. lia. }
  pose proof (edge_two_faces dim dim_ok _ Hb Hj Hp) as L2. destruct (edge_cands_small p Hj) as [N L4].
  cbn [edge_at ed_surfind ed_vertind]. rewrite map_length. replace (2 - length (edge_cands dim j p))%nat with 0%nat by lia.
  simpl repeat. rewrite app_nil_r, map_length. split; [|split; [lia|split; [reflexivity|]]].
  - apply NoDup_numbers with (P := s_ok); [apply sid_inj| |auto].
    intros [k q] Hx. apply edge_cands_In in Hx. split; tauto.
  - destruct (edge_ends dim dim_ok _ Hj Hp) as [A B]. constructor; [|constructor; [intros []|constructor]].
    intros [E|[]]. apply vid_inj in E; auto. clear - E Hj. destruct p as [[p0 p1] p2]. planes; inversion E; lia.
Qed.
Lemma surf_sides s : has_cells -> In s (surfs grid) -> length (su_edgeind s) = 4%nat /\ NoDup (su_edgeind s) /\
  length (su_voluind s) = 2%nat /\ NoDup (su_voluind s).
Proof.
  intros Hc H. apply (surfs_are dim dim_ok) in H. destruct H as [k [q [Hk [Hq ->]]]].
  destruct (face_quad _ Hk Hq) as [L [N _]]. split; [auto|]. split; [auto|]. rewrite surf_at_voluind. split; [reflexivity|].
  constructor; [|constructor; [intros []|constructor]]. intros [E|[]].
  assert (G : any_ge q dim = true \/ (any_ge q dim = false /\ box dim q)).
  { destruct (any_ge q dim) eqn:E1; [auto|right]. split; auto. destruct dim as [[d0 d1] d2], q as [[q0 q1] q2].
    unfold any_ge in E1. rewrite !orb_false_iff, !Z.leb_gt in E1. planes; simpl in *; lia. }
  assert (G2 : any_neg (rsub q (surf_prop k)) = true \/ (any_neg (rsub q (surf_prop k)) = false /\ box dim (rsub q (surf_prop k)))).
  { destruct (any_neg _) eqn:E1; [auto|right]. split; auto. destruct dim as [[d0 d1] d2], q as [[q0 q1] q2].
    planes; simpl in *; rewrite !orb_false_iff, !Z.ltb_ge in E1; lia. }
  destruct G as [G|[G G']], G2 as [G2|[G2 G2']]; rewrite G, G2 in E.
  - unfold has_cells in Hc. clear - Hc Hk Hq G G2. destruct dim as [[d0 d1] d2], q as [[q0 q1] q2].
    unfold any_ge in G. rewrite !orb_true_iff, !Z.leb_le in G.
    planes; simpl in *; rewrite !orb_true_iff, !Z.ltb_lt in G2; lia.
  - pose proof (cid_pos dim _ G2'). lia.
  - pose proof (cid_pos dim _ G'). lia.
  - apply cid_inj in E; auto. clear - E Hk. destruct q as [[q0 q1] q2]. planes; inversion E; lia.
Qed.
End Faces.

(** ** The grid with other quotients *)
Lemma position_same qd q d k : nonneg d -> 0 <= k < rprod d ->
  (let '(d0, d1, _) := d in q k d0 = k / d0 /\ qd k (d0 * d1) = k / (d0 * d1)) ->
  position qd q d k = position Z.div Z.div d k.
Proof. destruct d as [[d0 d1] d2]. unfold position. intros _ _ [-> ->]. reflexivity. Qed.
Lemma block_grid_same qf qd dim : nonneg dim ->
  (forall a b, 0 <= a -> 0 < b -> a + b <= 2 ^ 24 -> qf a b = a / b) ->
  (forall a b, 0 <= a -> 0 < b -> a + b <= 2 ^ 53 -> qd a b = a / b) ->
  rprod (radd dim (1, 1, 1)) + rget dim 0 <= 2 ^ 24 ->
  block_grid qf qd dim = block_grid Z.div Z.div dim.
Proof.
  intros Hd Hf Hq Hn. set (B := 2 ^ 24) in *.
  assert (HB : B + B <= 2 ^ 53) by (unfold B; lia).
  assert (POS : forall d k, nonneg d -> 0 <= k < rprod d ->
     let '(d0, d1, d2) := d in 0 < d0 /\ 0 < d0 * d1 /\ d0 <= rprod d /\ d0 * d1 <= rprod d).
  { intros [[d0 d1] d2] k Hd' Hk. clear - Hd' Hk. simpl in *.
    assert (0 < d0) by (destruct (Z.eq_dec d0 0); [subst; simpl in Hk|]; lia).
    assert (0 < d1) by (destruct (Z.eq_dec d1 0); [subst; rewrite Z.mul_0_r in Hk; simpl in Hk|]; lia).
    assert (0 < d2) by (destruct (Z.eq_dec d2 0); [subst; rewrite Z.mul_0_r in Hk|]; lia).
    assert (0 < d0 * d1) by (apply Z.mul_pos_pos; auto). repeat split; nia. }
  assert (MS : forall j, plane j -> nonneg (mat_surf dim j) /\ rprod (mat_surf dim j) <= B).
  { intros j Hj. split; [apply surf_mats; auto|]. clear Hf Hq. destruct dim as [[d0 d1] d2]. simpl in Hd, Hn. 
    destruct Hj as [-> | [-> | -> ]]; simpl; nia. }
  assert (ME : forall j, plane j -> nonneg (mat_edge dim j) /\ rprod (mat_edge dim j) <= B).
  { intros j Hj. split; [apply edge_mats; auto|]. clear Hf Hq. destruct dim as [[d0 d1] d2]. simpl in Hd, Hn. 
    destruct Hj as [-> | [-> | -> ]]; simpl; nia. }
  assert (PD : forall d k, nonneg d -> 0 <= k < rprod d -> rprod d <= B -> position qd qd d k = position Z.div Z.div d k).
  { intros d k Hd' Hk Hle. apply position_same; auto. pose proof (POS d k Hd' Hk) as P. destruct d as [[d0 d1] d2].
    split; apply Hq; lia. }
  assert (PF : forall d k, nonneg d -> 0 <= k < rprod d -> rprod d + rget d 0 <= B + 1 -> rprod d <= B -> position qd qf d k = position Z.div Z.div d k).
  { intros d k Hd' Hk Hle Hle'. apply position_same; auto. pose proof (POS d k Hd' Hk) as P. destruct d as [[d0 d1] d2].
    cbn [rget Z.eqb] in Hle. clearbody B. split; [apply Hf|apply Hq]; lia. }
  assert (EXT : forall T (f g : Z -> T) n, (forall k, 0 <= k < n -> f k = g k) -> map f (upto (Z.to_nat n) 0) = map g (upto (Z.to_nat n) 0)).
  { intros T f g n H. apply map_ext_in. intros k Hk. apply (proj2 (upto_NoDup _ _)) in Hk. apply H. lia. }
  unfold block_grid. f_equal; apply EXT; intros k Hk.
  - unfold block_volu. rewrite PF; auto; clear - Hd Hn; destruct dim as [[d0 d1] d2]; simpl in *; nia.
  - destruct (counts _ (surf_mats dim Hd)) as [C0 [C1 C2]]. destruct (@plane_of_cumsum _ _ _ _ C0 C1 C2 Hk) as [A R].
    unfold block_surf. cbv zeta. fold (n_surf_dim dim) in A, R. rewrite PD; [reflexivity|apply MS; auto| |apply MS; auto].
    pose proof (rget_n (mat_surf dim) A) as X. fold (n_surf_dim dim) in X. lia.
  - destruct (counts _ (edge_mats dim Hd)) as [C0 [C1 C2]]. destruct (@plane_of_cumsum _ _ _ _ C0 C1 C2 Hk) as [A R].
    rewrite <- plane_of_incr in A, R by auto.
    unfold block_edge. cbv zeta. fold (n_edge_dim dim) in A, R. rewrite PD; [reflexivity|apply ME; auto| |apply ME; auto].
    pose proof (rget_n (mat_edge dim) A) as X. fold (n_edge_dim dim) in X. lia.
  - unfold block_vert. rewrite PF; auto; clear - Hd Hn; destruct dim as [[d0 d1] d2]; simpl in *; nia.
Qed.
