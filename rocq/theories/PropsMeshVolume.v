(** The volumes of the cells of a mesh (C90). *)
From Coq Require Import Reals List Lia Lra ZArith Bool Permutation.
From Verif Require Import Base Containers Mesh Order Edit SpecMesh SpecOrder Calc Triangulate SpecTriangulate TriangulateProofs
  RsvsMath SpecRsvs SpecCentre SpecCalc SpecMeshVolume RsvsCentreProofs RsvsObjProofs CalcProofs CalcCentre CalcAllProofs MeshVolumeProofs PropsTriangulate.
Import ListNotations.
Set Implicit Arguments.
Open Scope R_scope.

Lemma surfaces_value st m coord : NoDup (map ed_index (edges m)) -> NoDup (map su_index (surfs m)) -> NoDup (map vo_index (volus m)) ->
  forall ss vss, Forall2 (outlined m) ss vss -> (forall s, In s ss -> In s (surfs m) /\ length (su_voluind s) = 2%nat) ->
  (forall vs, In vs vss -> long_enough coord vs /\ forall v, In v vs -> has v coord) -> forall c, ready m c ->
  exists c', mesh_surfaces st m coord ss c = Ok c' /\ ready m c' /\
    forall k z, nth_error (map vo_index (volus m)) k = Some z -> constr c' k = constr c k + volume_of coord (combine ss vss) z.
Proof.
  intros Ne Ns Nv ss vss F. induction F as [|s vs ss vss O F IH]; intros Hs Hv c R.
  - exists c. split; auto. split; auto. intros k z _. unfold volume_of, total. cbn. ring.
  - destruct (Hs s (or_introl eq_refl)) as [I L]. destruct (Hv vs (or_introl eq_refl)) as [Hl Hh].
    destruct (@surface_value st m coord Ne Ns Nv s vs c I O L Hh Hl R) as (c1 & E1 & R1 & V1).
    destruct (IH (fun x H => Hs x (or_intror H)) (fun x H => Hv x (or_intror H)) c1 R1) as (c' & E & R' & V).
    exists c'. cbn [mesh_surfaces]. rewrite E1. cbn [bind]. split; auto. split; auto. intros k z Hz. rewrite (V k z Hz), (V1 k z Hz). unfold volume_of. cbn [combine].
    rewrite total_cons. cbn [fst snd]. ring.
Qed.
(** C90: CalculateMesh gives each cell the sum of the volumes between the origin and its
    surfaces, with the sign of the side the cell is on. *)
Theorem C90_value st m coord vss c : solid m (outlined m) coord vss -> dvMap c = [] ->
  exists c', calculate_mesh st m coord c = Ok c' /\ nConstr c' = length (volus m) /\
    forall k z, nth_error (map vo_index (volus m)) k = Some z -> constr c' k = volume_of coord (combine (surfs m) vss) z.
Proof.
  intros (Ne & Ns & Nv & F & L & Hv) D. unfold calculate_mesh.
  destruct (@surfaces_value st m coord Ne Ns Nv (surfs m) vss F) with (c := build_constr_map (cell_map m) (constrTarg c) (build_arrays 0 (length (volus m)) c)) as (c' & E & R & V).
  - auto.
  - auto.
  - split; [exact D|]. split; [reflexivity|]. split; reflexivity.
  - exists c'. split; auto. split; [apply R|]. intros k z Hz. rewrite (V k z Hz). cbn [build_constr_map build_arrays constr]. ring.
Qed.
Print Assumptions C90_value.

(** *** The whole mesh *)
Lemma pick_sum (l : list Z) z : NoDup l -> sum_to (length l) (fun k => if Z.eqb z (nth k l (-1)%Z) then 1 else 0) = if existsb (Z.eqb z) l then 1 else 0.
Proof.
  induction l as [|a l IH]; intros N; [reflexivity|]. apply NoDup_cons_iff in N as [Na N]. cbn [length]. rewrite sum_to_shift. cbn [nth]. rewrite IH by auto. cbn [existsb].
  destruct (Z.eqb_spec z a) as [->|E]; cbn [orb]; [|ring].
  assert (existsb (Z.eqb a) l = false) as ->; [|ring]. destruct (existsb (Z.eqb a) l) eqn:X; auto. apply existsb_exists in X as (y & Iy & Ey). apply Z.eqb_eq in Ey as ->. easy.
Qed.
Lemma sum_total n A (f : nat -> A -> R) l : sum_to n (fun k => total (f k) l) = total (fun a => sum_to n (fun k => f k a)) l.
Proof.
  induction l as [|a l IH]; [unfold total; cbn; induction n; [reflexivity|rewrite sum_to_S, IHn; ring]|].
  rewrite total_cons, <- IH, <- sum_to_plus. apply sum_to_ext. intros. rewrite total_cons. auto.
Qed.
(** C90: over the whole mesh a surface between two cells cancels: only the surfaces
    between a cell and the outside count. *)
Theorem C90_whole st m coord vss c c' : solid m (outlined m) coord vss -> dvMap c = [] -> calculate_mesh st m coord c = Ok c' ->
  sum_to (length (volus m)) (constr c') =
  total (fun sv => (is_cell m (nth 1 (su_voluind (fst sv)) (-1)%Z) - is_cell m (nth 0 (su_voluind (fst sv)) (-1)%Z)) * face_volume (at_corners coord (snd sv))) (combine (surfs m) vss).
Proof.
  intros H D E. destruct (C90_value st c H D) as (c2 & E2 & _ & V). assert (c2 = c') as -> by congruence. clear E2. destruct H as (_ & _ & Nv & _).
  transitivity (sum_to (length (volus m)) (fun k => volume_of coord (combine (surfs m) vss) (nth k (map vo_index (volus m)) (-1)%Z))).
  { apply sum_to_ext. intros k Lk. apply V. apply nth_error_nth'. rewrite map_length. auto. }
  unfold volume_of. rewrite sum_total. apply total_ext. intros [s vs] _. cbn [fst snd].
  rewrite <- (map_length vo_index (volus m)). set (l := map vo_index (volus m)) in *.
  transitivity (sum_to (length l) (fun k => face_volume (at_corners coord vs) * ((if Z.eqb (nth 1 (su_voluind s) (-1)%Z) (nth k l (-1)%Z) then 1 else 0) + (-1) * (if Z.eqb (nth 0 (su_voluind s) (-1)%Z) (nth k l (-1)%Z) then 1 else 0)))).
  { apply sum_to_ext. intros. unfold sign_for. ring. }
  rewrite sum_to_scale, sum_to_plus, sum_to_scale, !pick_sum by auto. unfold is_cell. fold l. ring.
Qed.
Print Assumptions C90_whole.

(** *** Translation *)
Section Translate.
Variable t : RsvsMath.vec.
Lemma moved_has coord v : has v coord <-> has v (moved t coord).
Proof. unfold has, moved. rewrite map_map. cbn. tauto. Qed.
Lemma moved_pt coord vs i : (forall v, In v vs -> has v coord) -> (i < length vs)%nat -> forall k, pt (at_corners (moved t coord) vs) i k = translate t (pt (at_corners coord vs) i) k.
Proof.
  intros H L k. destruct (nth_error vs i) as [v|] eqn:E; [|apply nth_error_None in E; lia]. rewrite !(at_corners_pt _ _ _ E). apply nth_error_In in E. specialize (H v E). clear - H.
  unfold assoc, has, moved in *. induction coord as [|[j a] r IH]; cbn in *; [easy|]. destruct (Z.eqb_spec j v); auto. apply IH. tauto.
Qed.
Variables (n : nat) (c c' : nat -> RsvsMath.vec).
Hypothesis Hc : forall i, (i < n)%nat -> forall k, c' i k = translate t (c i) k.
Lemma side_moved i : (i < n)%nat -> side n c' i = side n c i.
Proof using Hc. intros L. pose proof (next_lt L) as L'. unfold side, SpecRsvs.dist, vdot, vsub. rewrite !(Hc L), !(Hc L'). unfold translate. f_equal. ring. Qed.
Lemma outline_moved : outline n c' = outline n c.
Proof using Hc. unfold outline. apply sum_to_ext. intros. apply side_moved; auto. Qed.
Lemma centre_moved k : outline n c <> 0 -> wire_centre n c' k = translate t (wire_centre n c) k.
Proof using Hc.
  intros N. unfold wire_centre, translate. rewrite outline_moved.
  rewrite (@sum_to_ext n _ (fun i => side n c i * middle n c i k + t k * side n c i)).
  2:{ intros i L. pose proof (next_lt L) as L'. rewrite side_moved by auto. unfold middle. rewrite (Hc L), (Hc L'). unfold translate. field. }
  rewrite sum_to_plus, sum_to_scale. fold (outline n c). field. auto.
Qed.
End Translate.

Definition gap (t : RsvsMath.vec) (a b : RsvsMath.vec) : R := - det t a b / 6.
Lemma fan_moved t n (c c' : nat -> RsvsMath.vec) x x' : (forall i, (i < n)%nat -> forall k, c' i k = translate t (c i) k) -> (forall k, x' k = translate t x k) ->
  sum_to n (fun i => signed_volume (c' i) (c' (next n i)) x') = sum_to n (fun i => signed_volume (c i) (c (next n i)) x) + sum_to n (fun i => gap t (c i) (c (next n i))).
Proof.
  intros Hc Hx. rewrite <- sum_to_plus.
  transitivity (sum_to n (fun i => (signed_volume (c i) (c (next n i)) x + gap t (c i) (c (next n i))) + (gap t (c (next n i)) x + (-1) * gap t (c i) x))).
  { apply sum_to_ext. intros i L. pose proof (next_lt L) as L'. unfold signed_volume, gap, det. rewrite !(Hc i L), !(Hc _ L'), !Hx. unfold translate. field. }
  rewrite sum_to_plus. rewrite (sum_to_plus n (fun i => gap t (c (next n i)) x)), sum_to_scale. rewrite (sum_to_next n (fun i => gap t (c i) x)). ring.
Qed.
Lemma rot_length A (l : list A) : length (tl l ++ firstn 1 l) = length l.
Proof. destruct l; auto. cbn. rewrite app_length. cbn. lia. Qed.
Lemma face_moved t coord vs : (3 <= length vs)%nat -> (forall v, In v vs -> has v coord) -> long_enough coord vs ->
  face_volume (at_corners (moved t coord) vs) = face_volume (at_corners coord vs) +
  total (fun e => gap t (assoc origin (fst e) coord) (assoc origin (snd e) coord)) (around vs).
Proof.
  intros L3 Hv Hl. set (n := length vs). set (c := pt (at_corners coord vs)). set (c' := pt (at_corners (moved t coord) vs)).
  assert (Hc : forall i, (i < n)%nat -> forall k, c' i k = translate t (c i) k) by (intros; apply moved_pt; auto).
  assert (S : sum_to n (fun i => gap t (c i) (c (next n i))) = total (fun e => gap t (assoc origin (fst e) coord) (assoc origin (snd e) coord)) (around vs)).
  { rewrite (total_nth _ (0%Z, 0%Z)). assert (La : length (around vs) = n). { unfold around. rewrite combine_length, rot_length. apply Nat.min_id. }
    rewrite La. apply sum_to_ext. intros i Li. unfold around. rewrite combine_nth by (symmetry; apply rot_length). cbn [fst snd].
    assert (E1 : nth_error vs i = Some (nth i vs 0%Z)) by (apply nth_error_nth'; auto).
    assert (E2 : nth_error vs (next n i) = Some (nth i (tl vs ++ firstn 1 vs) 0%Z)).
    { rewrite (nth_error_nth' vs 0%Z) by (apply next_lt; auto). f_equal. unfold next. destruct vs as [|v r]; [cbn in L3; lia|]. cbn [tl firstn].
      unfold n in *. cbn [length] in *. destruct (Nat.eqb_spec (Datatypes.S i) (Datatypes.S (length r))) as [E|E].
      - injection E as ->. rewrite app_nth2, Nat.sub_diag by lia. reflexivity.
      - rewrite app_nth1 by lia. reflexivity. }
    unfold c. rewrite (at_corners_pt _ _ _ E1), (at_corners_pt _ _ _ E2). reflexivity. }
  rewrite <- S. unfold face_volume. assert (Lm : forall co, length (at_corners co vs) = n) by (intros; apply map_length). rewrite !Lm. fold c c'.
  destruct (Nat.eqb_spec n 3) as [E|E].
  - rewrite E in *. unfold sum_to. cbn [seq map fold_right next Nat.eqb]. unfold signed_volume, gap, det. rewrite !(Hc 0%nat), !(Hc 1%nat), !(Hc 2%nat) by lia. unfold translate. field.
  - apply fan_moved; auto. intros k. apply centre_moved; auto. specialize (Hl E). fold n c in Hl. pose proof (Rinv_0_lt_compat 1000000000000000). lra.
Qed.
Lemma swap_swap l : map swap (map swap l) = l.
Proof. rewrite map_map. rewrite <- (map_id l) at 2. apply map_ext. intros []; auto. Qed.
(** C90: the volume of a closed cell does not depend on the origin. *)
Theorem C90_closed t coord l z : closed_cell l z ->
  (forall s vs, In (s, vs) l -> (3 <= length vs)%nat /\ long_enough coord vs /\ forall v, In v vs -> has v coord) ->
  volume_of (moved t coord) l z = volume_of coord l z.
Proof.
  intros C H. set (g := fun e : Z * Z => gap t (assoc origin (fst e) coord) (assoc origin (snd e) coord)).
  assert (Gs : forall a b, g (b, a) = - g (a, b)) by (intros; unfold g, gap, det; cbn [fst snd]; field).
  assert (Z0 : total g (cell_sides l z) = 0) by (apply antisym_zero; auto).
  assert (Sw : forall q, total g (map swap q) = - total g q).
  { intros q. rewrite total_map. induction q as [|[a b] q IH]; [unfold total; cbn; ring|]. rewrite !total_cons, IH. unfold swap at 1. cbn [fst snd]. rewrite Gs. ring. }
  assert (K : volume_of (moved t coord) l z = volume_of coord l z + total g (cell_sides l z)).
  { clear C Z0. induction l as [|[s vs] l IH]; [unfold volume_of, total; cbn; ring|]. unfold volume_of in *. cbn [cell_sides flat_map]. rewrite !total_cons, IH by (intros; eapply H; right; eauto).
    fold (cell_sides l z). cbn [fst snd]. rewrite !total_app. destruct (H s vs (or_introl eq_refl)) as (L & Hl & Hv). rewrite face_moved by auto. fold g. unfold sign_for.
    destruct (Z.eqb (nth 1 (su_voluind s) (-1)%Z) z), (Z.eqb (nth 0 (su_voluind s) (-1)%Z) z); rewrite ?Sw; try change (total g []) with 0; ring. }
  rewrite K, Z0. ring.
Qed.
Print Assumptions C90_closed.
Lemma solid_moved m t coord vss : solid m (outlined m) coord vss -> solid m (outlined m) (moved t coord) vss.
Proof.
  intros (Ne & Ns & Nv & F & L & Hv). split; [auto|]. split; [auto|]. split; [auto|]. split; [auto|]. split; [auto|]. intros vs I. destruct (Hv vs I) as [Hl Hh]. split.
  - intros N3. rewrite (@outline_moved t (length vs) (pt (at_corners coord vs))); [apply Hl; auto|]. intros. apply moved_pt; auto.
  - intros v Iv. apply moved_has. auto.
Qed.
(** C90: moving a mesh as a whole does not change the volumes of its closed cells. *)
Theorem C90_translation st m t coord vss c1 c2 c1' c2' k z : solid m (outlined m) coord vss -> dvMap c1 = [] -> dvMap c2 = [] ->
  calculate_mesh st m coord c1 = Ok c1' -> calculate_mesh st m (moved t coord) c2 = Ok c2' ->
  nth_error (map vo_index (volus m)) k = Some z -> closed_cell (combine (surfs m) vss) z -> constr c2' k = constr c1' k.
Proof.
  intros H D1 D2 E1 E2 Hk C. destruct (C90_value st c1 H D1) as (x1 & X1 & _ & V1). destruct (C90_value st c2 (solid_moved t H) D2) as (x2 & X2 & _ & V2).
  assert (x1 = c1') as -> by congruence. assert (x2 = c2') as -> by congruence. rewrite (V1 _ _ Hk), (V2 _ _ Hk). apply C90_closed; auto.
  destruct H as (_ & _ & _ & F & _ & Hv). intros s vs I. destruct (Hv vs (in_combine_r _ _ _ _ I)) as [Hl Hh]. split; auto.
  clear - F I. induction F as [|a b l r O F IH]; [easy|]. destruct I as [I|I]; [injection I as -> ->; apply O|auto].
Qed.
Print Assumptions C90_translation.

(** ** A case *)
(** The two pyramids of C89: a square of side 1, and tops at height 1 and -2. *)
Definition p3 (x y z : R) : RsvsMath.vec := fun k => match k with 0%nat => x | 1%nat => y | _ => z end.
Definition pyramid_coords : list (Z * RsvsMath.vec) :=
  [(1%Z, p3 0 0 0); (2%Z, p3 1 0 0); (3%Z, p3 1 1 0); (4%Z, p3 0 1 0); (5%Z, p3 0 0 1); (6%Z, p3 0 0 (-2))].
Lemma pyramid_solid : solid pyramids (outlined pyramids) pyramid_coords pyramid_corners.
Proof.
  split; [exact pyramid_edges|]. split; [cbn; repeat constructor; cbn; intuition discriminate|]. split; [cbn; repeat constructor; cbn; intuition discriminate|].
  split; [exact pyramid_outlined|]. split; [intros s I; repeat (destruct I as [<-|I]; [reflexivity|]); destruct I|].
  intros vs I. split.
  - unfold pyramid_corners in I. destruct I as [<-|I].
    + intros _. assert (D : forall i, (i < 4)%nat -> side 4 (pt (at_corners pyramid_coords [1; 2; 3; 4]%Z)) i = 1).
      { intros i L. unfold side, SpecRsvs.dist. replace (vdot _ _) with 1; [apply sqrt_1|]. destruct i as [|[|[|[|i]]]]; try lia; cbv -[Rplus Rminus Rmult IZR R1 Ropp]; ring. }
      change (length [1; 2; 3; 4]%Z) with 4%nat. unfold outline. rewrite (sum_to_ext _ (fun _ => 1)) by auto. unfold sum_to. cbn [seq map fold_right].
      apply Rle_trans with 1; [|lra]. rewrite <- Rinv_1. apply Rinv_le_contravar; lra.
    + intros N. exfalso. apply N. repeat (destruct I as [<-|I]; [reflexivity|]). destruct I.
  - intros v Iv. unfold has. cbn [map fst pyramid_coords]. repeat (destruct I as [<-|I]; [repeat (destruct Iv as [<-|Iv]; [cbn; auto 10|]); destruct Iv|]). destruct I.
Qed.
Lemma pyramid_closed : closed_cell (combine (surfs pyramids) pyramid_corners) 1 /\ closed_cell (combine (surfs pyramids) pyramid_corners) 2.
Proof.
  assert (P : forall l : list (Z * Z), NoDup l -> (forall e, In e l -> In (swap e) l) -> Permutation (map swap l) l).
  { intros l N H. apply NoDup_Permutation_bis; [|rewrite map_length; lia|].
    - apply FinFun.Injective_map_NoDup; auto. intros [a b] [c d] E. injection E as -> ->. auto.
    - intros e I. apply in_map_iff in I as (x & <- & I). auto. }
  split; apply P; try (cbv; repeat constructor; cbn; intuition discriminate);
    intros e I; cbv in I; repeat (destruct I as [<-|I]; [cbv; tauto|]); destruct I.
Qed.
Lemma pyramid_base : face_volume (at_corners pyramid_coords [1; 2; 3; 4]%Z) = 0.
Proof.
  unfold face_volume. change (length (at_corners pyramid_coords [1; 2; 3; 4]%Z)) with 4%nat. cbn [Nat.eqb].
  set (c := pt (at_corners pyramid_coords [1; 2; 3; 4]%Z)).
  assert (F : forall i, (i < 4)%nat -> c i 2%nat = 0) by (intros i L; destruct i as [|[|[|[|i]]]]; try lia; reflexivity).
  assert (W : wire_centre 4 c 2 = 0).
  { unfold wire_centre. rewrite (sum_to_ext _ (fun _ => 0)); [unfold sum_to; cbn; unfold Rdiv; ring|]. intros i L. unfold middle. rewrite !F by (auto; apply next_lt; auto). field. }
  rewrite (sum_to_ext _ (fun _ => 0)); [unfold sum_to; cbn; ring|]. intros i L. unfold signed_volume, det. rewrite !F, W by (auto; apply next_lt; auto). field.
Qed.
Example C90_used st c : dvMap c = [] -> solid pyramids (outlined pyramids) pyramid_coords pyramid_corners /\
  closed_cell (combine (surfs pyramids) pyramid_corners) 1 /\ closed_cell (combine (surfs pyramids) pyramid_corners) 2 /\
  exists c', calculate_mesh st pyramids pyramid_coords c = Ok c' /\ constr c' 0%nat = 1 / 3 /\ constr c' 1%nat = 2 / 3.
Proof.
  intros D. split; [exact pyramid_solid|]. split; [apply pyramid_closed|]. split; [apply pyramid_closed|].
  destruct (C90_value st c pyramid_solid D) as (c' & E & _ & V). exists c'. split; auto.
  rewrite (V 0%nat 1%Z eq_refl), (V 1%nat 2%Z eq_refl). unfold volume_of. cbn [surfs pyramids combine pyramid_corners]. rewrite !total_cons. cbn [fst snd]. rewrite pyramid_base.
  unfold total. cbn [map fold_right]. unfold sign_for. cbn [su_voluind nth Z.eqb Pos.eqb].
  unfold face_volume. cbn [at_corners map length Nat.eqb pt nth]. unfold signed_volume, det. cbn [pt nth]. unfold assoc. cbn [List.find pyramid_coords fst snd Z.eqb Pos.eqb p3]. split; field.
Qed.
