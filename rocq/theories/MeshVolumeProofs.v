(** Proofs about the volumes of the cells of a mesh. *)
From Coq Require Import Reals List Lia Lra ZArith Bool Permutation.
From Verif Require Import Base Containers Mesh Order Edit EditProofs PropsEdit SpecMesh SpecOrder Calc Triangulate SpecTriangulate TriangulateProofs
  RsvsMath SpecRsvs SpecCentre SpecCalc SpecMeshVolume RsvsCentreProofs RsvsObjProofs PropsCentre CalcProofs CalcTriProofs CalcCentre CalcDefProofs CalcAllProofs.
Import ListNotations.
Set Implicit Arguments.
Open Scope R_scope.

(** *** Polygons started at the next corner *)
Lemma rotate_pt (ps : list RsvsMath.vec) i : (i < length ps)%nat -> pt (tl ps ++ firstn 1 ps) i = pt ps (next (length ps) i).
Proof.
  destruct ps as [|p r]; [cbn; lia|]. cbn [tl firstn length]. intros L. unfold pt, next. destruct (Nat.eqb_spec (S i) (S (length r))) as [E|E].
  - injection E as ->. rewrite app_nth2 by lia. rewrite Nat.sub_diag. reflexivity.
  - rewrite app_nth1 by lia. reflexivity.
Qed.
Lemma rotate_centre (ps : list RsvsMath.vec) (k : nat) : (0 < length ps)%nat ->
  outline (length ps) (pt (tl ps ++ firstn 1 ps)) = outline (length ps) (pt ps) /\
  wire_centre (length ps) (pt (tl ps ++ firstn 1 ps)) k = wire_centre (length ps) (pt ps) k.
Proof.
  intros L. set (n := length ps). set (c := pt ps).
  assert (P : forall i, (i < n)%nat -> pt (tl ps ++ firstn 1 ps) i = c (next n i)) by (intros; apply rotate_pt; auto).
  assert (O : outline n (pt (tl ps ++ firstn 1 ps)) = outline n c).
  { unfold outline. rewrite <- (sum_to_next n (side n c)). apply sum_to_ext. intros i Li. unfold side. rewrite !P; auto. apply next_lt; auto. }
  split; auto. unfold wire_centre. rewrite O. f_equal. rewrite <- (sum_to_next n (fun i => side n c i * middle n c i k)). apply sum_to_ext. intros i Li.
  unfold side, middle. rewrite !P; auto. apply next_lt; auto.
Qed.

(** *** The cells *)
Lemma cell_map_in m z k : In (z, k) (cell_map m) <-> exists i, k = Z.of_nat i /\ nth_error (map vo_index (volus m)) i = Some z.
Proof.
  unfold cell_map. rewrite <- (map_length vo_index (volus m)). generalize (map vo_index (volus m)) as l. intros l.
  assert (G : forall s, In (z, k) (combine l (map Z.of_nat (seq s (length l)))) <-> exists i, k = Z.of_nat (s + i) /\ nth_error l i = Some z).
  { induction l as [|a l IH]; intros s; cbn [length seq map combine].
    - split; [easy|]. intros (i & _ & H). destruct i; discriminate.
    - cbn [In]. rewrite IH. split.
      + intros [H|(i & -> & H)]; [injection H as -> <-; exists 0%nat; rewrite Nat.add_0_r; auto|exists (S i); split; auto; f_equal; lia].
      + intros ([|i] & -> & H); [left; injection H as ->; rewrite Nat.add_0_r; auto|right; exists i; split; auto; f_equal; lia]. }
  apply (G 0%nat).
Qed.
Lemma times_cell m z k : NoDup (map vo_index (volus m)) -> times (cell_map m) z k =
  if match nth_error (map vo_index (volus m)) k with Some y => Z.eqb y z | None => false end then 1 else 0.
Proof.
  intros N. unfold cell_map, times. rewrite <- (map_length vo_index (volus m)). revert N. generalize (map vo_index (volus m)) as l. intros l N.
  assert (Z0 : forall l s j, (j < s)%nat -> total (fun p => if ((fst p =? z)%Z && (snd p =? Z.of_nat j)%Z)%bool then 1 else 0) (combine l (map Z.of_nat (seq s (length l)))) = 0).
  { clear. induction l as [|a l IH]; intros s j L; [reflexivity|]. cbn [length seq map combine]. rewrite total_cons, IH by lia. cbn [fst snd].
    destruct (Z.eqb_spec (Z.of_nat s) (Z.of_nat j)); [lia|]. rewrite andb_false_r. ring. }
  assert (G : forall s j, total (fun p => if ((fst p =? z)%Z && (snd p =? Z.of_nat (s + j))%Z)%bool then 1 else 0) (combine l (map Z.of_nat (seq s (length l)))) =
    if match nth_error l j with Some y => Z.eqb y z | None => false end then 1 else 0).
  { clear N. induction l as [|a l IH]; intros s j; [destruct j; reflexivity|]. cbn [length seq map combine]. rewrite total_cons. cbn [fst snd].
    destruct j as [|j].
    - rewrite Nat.add_0_r, Z.eqb_refl, andb_true_r, Z0 by lia. cbn. ring.
    - destruct (Z.eqb_spec (Z.of_nat s) (Z.of_nat (s + S j))); [lia|]. rewrite andb_false_r. replace (s + S j)%nat with (S s + j)%nat by lia. rewrite IH. cbn [nth_error]. ring. }
  apply (G 0%nat k).
Qed.
Lemma mesh_weight m s t k z : NoDup (map vo_index (volus m)) -> length (su_voluind s) = 2%nat -> nth_error (map vo_index (volus m)) k = Some z ->
  celltarg t = su_voluind s -> influence t = [-1; 1] -> weight (cell_map m) t k = sign_for s z.
Proof.
  intros N L Hk Hc Hi. unfold weight, sign_for. rewrite Hc, Hi. destruct (su_voluind s) as [|a [|b [|? ?]]]; try discriminate. cbn [combine nth].
  rewrite !total_cons. unfold total. cbn [map fold_right fst snd]. rewrite !times_cell, Hk by auto. rewrite (Z.eqb_sym z a), (Z.eqb_sym z b). ring.
Qed.

Lemma total_nth A (f : A -> R) (d : A) l : total f l = sum_to (length l) (fun i => f (nth i l d)).
Proof.
  induction l as [|a l IH]; [reflexivity|]. rewrite total_cons, IH. cbn [length]. rewrite sum_to_shift. reflexivity.
Qed.
Lemma volume_same a b c d : (forall k, c k = d k) -> signed_volume a b c = signed_volume a b d.
Proof. intros H. unfold signed_volume, det. rewrite !H. reflexivity. Qed.
Lemma lookup_has A (d : A) k (l : list (Z * A)) : has k l -> lookup k l = Ok (assoc d k l).
Proof.
  unfold has, assoc. induction l as [|[i a] r IH]; cbn; [easy|]. destruct (Z.eqb_spec i k); [auto|]. intros [H|H]; [easy|]. apply IH; auto.
Qed.
Lemma at_corners_pt coord vs i v : nth_error vs i = Some v -> pt (at_corners coord vs) i = assoc origin v coord.
Proof. intros H. unfold pt, at_corners. apply nth_error_nth. rewrite nth_error_map, H. auto. Qed.
Lemma rotate_map A B (f : A -> B) l : map f (tl l ++ firstn 1 l) = tl (map f l) ++ firstn 1 (map f l).
Proof. destruct l; cbn; auto. rewrite map_app. auto. Qed.

Section Surface.
Variables (st : statics) (m : mesh) (coord : list (Z * RsvsMath.vec)).
Hypotheses (Ne : NoDup (map ed_index (edges m))) (Ns : NoDup (map su_index (surfs m))) (Nv : NoDup (map vo_index (volus m))).

Lemma centre_of s vs : In s (surfs m) -> outlined m s vs -> (3 < length vs)%nat -> (forall v, In v vs -> has v coord) -> long_enough coord vs ->
  exists x, centre_position st m coord (su_index s) = Ok x /\ forall k, x k = wire_centre (length vs) (pt (at_corners coord vs)) k.
Proof using Ne Ns.
  intros Is (L & N & P) L4 Hv Hl. assert (Ln : length (su_edgeind s) = length vs) by (destruct P; auto). unfold centre_position.
  rewrite (isearch_is su_index) by auto. cbn [bind]. rewrite (@C22_conn_vert m (su_edgeind s) vs) by (auto; lia). cbn [bind].
  assert (Lr : length (tl vs ++ firstn 1 vs) = length vs) by (destruct vs; cbn in *; [lia|rewrite app_length; cbn; lia]).
  rewrite Ln, firstn_all2 by lia. rewrite (@omap_list_ok _ _ _ (fun v => assoc origin v coord)).
  2:{ intros v I. apply lookup_has, Hv. destruct vs as [|a r]; [easy|]. cbn in I. apply in_app_iff in I as [I|[I|[]]]; cbn; auto. }
  cbn [bind]. destruct (Nat.eqb_spec (length vs) 3); [lia|]. rewrite rotate_map. fold (at_corners coord vs).
  set (ps := at_corners coord vs) in *. assert (Lp : length ps = length vs) by (unfold ps, at_corners; apply map_length).
  assert (Lq : length (tl ps ++ firstn 1 ps) = length ps) by (destruct ps; cbn in *; [lia|rewrite app_length; cbn; lia]).
  destruct (@centre_def st (tl ps ++ firstn 1 ps)) as (c & Ec); [lia|]. rewrite Ec. cbn [bind]. eexists. split; [reflexivity|].
  intros k. destruct (@rotate_centre ps k) as [O W]; [lia|]. fold ps in Hl. unfold long_enough in Hl.
  rewrite (@C75_value st _ _ k Ec) by (cbn [c_pts centroid_new]; rewrite Lq, O, Lp; apply Hl; lia).
  cbn [c_pts centroid_new]. rewrite Lq, W, Lp. reflexivity.
Qed.

Definition ready (c : Calc.calc) : Prop := dvMap c = [] /\ nDv c = 0%nat /\ constrMap c = cell_map m /\ nConstr c = length (volus m).
Lemma ready_frame c c' : ready c -> frame c c' -> ready c'.
Proof. intros (A & B & C & D) F. destruct F as (F1 & F2 & _ & _ & _ & _ & _ & _ & _ & F3 & F4). unfold ready. repeat split; congruence. Qed.

Lemma surface_value s vs c : In s (surfs m) -> outlined m s vs -> length (su_voluind s) = 2%nat -> (forall v, In v vs -> has v coord) ->
  long_enough coord vs -> ready c ->
  exists c', mesh_surface st m coord s c = Ok c' /\ ready c' /\
    forall k z, nth_error (map vo_index (volus m)) k = Some z -> constr c' k = constr c k + sign_for s z * face_volume (at_corners coord vs).
Proof using Ne Ns Nv.
  intros Is O L2 Hv Hl Rc. destruct (@surface_adds m s vs t_mesh 1 cleared cleared Ne O) as (ts & cs & E & (Fp & Fan) & Sg & _ & Ic & _).
  unfold mesh_surface. rewrite E. cbn [bind fst snd]. rewrite !push_all_items. cbn [cleared items app].
  change (cells_for t_mesh s) with (su_voluind s) in Sg. change (signs_for t_mesh) with [-1; 1] in Sg.
  set (ps := at_corners coord vs). assert (Lp : length ps = length vs) by (unfold ps, at_corners; apply map_length).
  assert (exists pl, omap_list (fun q => do x <- centre_position st m coord (cn_parent q); Ok (cn_index q, mkTp x (cn_parent q) (cn_ptype q))) cs = Ok pl /\
    (forall i tp, In (i, tp) pl -> tp_ptype tp = t_mesh) /\
    forall cc, cs = [cc] -> exists x, pl = [(cn_index cc, mkTp x (su_index s) t_mesh)] /\ forall k, x k = wire_centre (length vs) (pt ps) k) as (pl & Epl & Tpl & Xpl).
  { destruct Fan as [(_ & _ & ->)|(L4 & _ & cc & -> & Pc & Tc & _)].
    - exists []. split; auto. split; [easy|discriminate].
    - rewrite map_length in L4. destruct (@centre_of s vs Is O L4 Hv Hl) as (x & Ex & Wx). cbn [omap_list]. rewrite Pc, Ex. cbn [bind]. eexists. split; [reflexivity|].
      split; [intros i tp [H|[]]; injection H as <- <-; auto|]. intros c2 H. injection H as <-. exists x. rewrite Tc. split; auto. }
  rewrite Epl. cbn [bind]. set (tri := map fc_tri ts). set (e := mkEnv [] [] tri [] pl [] coord [] [] []).
  assert (Dom : forall t, In t tri -> good_tri e (cell_map m) (length (volus m)) t).
  { intros t It. unfold tri in It. apply in_map_iff in It as (f & <- & If). destruct (Sg f If) as [C I]. unfold good_tri. rewrite C, I. split; [|split; [|split]].
    - destruct Fan as [(L & Mp & _)|(_ & _ & cc & _ & _ & _ & G)].
      + assert (H : In (tri_pts (fc_tri f)) [map (pair t_mesh) vs]) by (rewrite <- Mp; apply List.in_map with (f := fun f => tri_pts (fc_tri f)); auto). destruct H as [<-|[]]. auto.
      + apply In_nth_error in If as (i & Hi). destruct (G _ _ Hi) as (a & b & _ & _ & ->). reflexivity.
    - assert (Q : forall q, In q (map (pair t_mesh) vs) -> good_point e q).
      { intros q Iq. apply in_map_iff in Iq as (v & <- & Iv). left. left. split; [reflexivity|exact (Hv v Iv)]. }
      destruct Fan as [(L & Mp & _)|(_ & _ & cc & Ecc & _ & _ & G)].
      + assert (H : In (tri_pts (fc_tri f)) [map (pair t_mesh) vs]) by (rewrite <- Mp; apply List.in_map with (f := fun f => tri_pts (fc_tri f)); auto). destruct H as [<-|[]]. auto.
      + apply In_nth_error in If as (i & Hi). destruct (G _ _ Hi) as (a & b & Ha & Hb & ->). destruct (Xpl _ Ecc) as (x & Epx & _).
        intros q [<-|[<-|[<-|[]]]]; [apply Q; eapply nth_error_In; eauto|apply Q; eapply nth_error_In; eauto|]. right. cbn [fst snd].
        assert (T : tripoint_of e (cn_index cc) = mkTp x (su_index s) t_mesh) by (unfold tripoint_of, assoc; cbn [trivert e]; rewrite Epx; cbn; rewrite Z.eqb_refl; auto).
        rewrite T. unfold has. cbn [trivert e]. rewrite Epx. cbn. split; auto. split; auto. repeat split; try discriminate.
    - cbn. auto.
    - intros z k _ Ik. right. apply cell_map_in in Ik as (i & -> & Hi). assert (Li : (i < length (map vo_index (volus m)))%nat) by (apply nth_error_Some; congruence). rewrite map_length in Li. lia. }
  destruct Rc as (R1 & R2 & R3 & R4).
  destruct (@loop_def st e) with (fd := false) (o := true) (dv := false) (m := cell_map m) (n := length (volus m)) (l := tri) (c := c) as (c' & Ec'); [easy|exact Dom|exact R3|exact R4|rewrite R1, R2; auto|].
  exists c'. split; [exact Ec'|]. split; [eapply ready_frame; [split; eauto|exact (loop_frame _ _ _ _ _ _ _ Ec')]|].
  assert (Pl : placed e (fun _ => 0)).
  { split; [easy|]. cbn [trivert e]. intros i tp I k Lk. unfold place. cbn [fst snd]. rewrite Z.eqb_refl.
    destruct cs as [|cc [|? ?]].
    - cbn in Epl. injection Epl as <-. destruct I.
    - destruct (Xpl _ eq_refl) as (x & -> & _). destruct I as [I|[]]. injection I as <- <-. unfold tripoint_of, assoc. cbn [trivert e]. cbn [List.find fst]. rewrite Z.eqb_refl. reflexivity.
    - destruct Fan as [(_ & _ & H)|(_ & _ & ? & H & _)]; discriminate. }
  destruct (@loop_values st e (fun _ => 0) false true false Pl tri c c' Ec') as [V _]. intros k z Hz. rewrite V, R3. f_equal.
  rewrite (@total_ext _ _ (fun t => sign_for s z * tri_volume e (fun _ => 0) t)).
  2:{ intros t It. f_equal. unfold tri in It. apply in_map_iff in It as (f & <- & If). destruct (Sg f If). apply mesh_weight; auto. }
  rewrite total_scale. f_equal. unfold face_volume. rewrite Lp.
  assert (Pm : forall v, place e (fun _ => 0) (t_mesh, v) = assoc origin v coord) by reflexivity.
  destruct Fan as [(L & Mp & _)|(L4 & Lt & cc & Ecc & _ & _ & G)].
  - rewrite map_length in L. rewrite L, Nat.eqb_refl. destruct ts as [|f [|? ?]]; try discriminate. unfold tri. cbn [map] in *. injection Mp as Mp. unfold total. cbn [map fold_right].
    unfold tri_volume, nth_pt. rewrite Mp. destruct vs as [|v0 [|v1 [|v2 [|? ?]]]]; try discriminate. cbn [map nth]. rewrite !Pm. unfold ps, pt. cbn. ring.
  - rewrite map_length in L4, Lt. destruct (Nat.eqb_spec (length vs) 3); [lia|]. unfold tri. rewrite total_map.
    rewrite (total_nth _ (mkFace (mkTri 0 [] [] []) 0)), Lt. apply sum_to_ext. intros i Li.
    destruct (nth_error ts i) as [f|] eqn:Hf; [|apply nth_error_None in Hf; lia]. rewrite (nth_error_nth _ _ _ Hf).
    destruct (G i f Hf) as (a & b & Ha & Hb & Hp). rewrite map_length in Hb. rewrite nth_error_map in Ha, Hb.
    destruct (nth_error vs i) as [va|] eqn:Va; [|discriminate]. cbn in Ha. injection Ha as <-.
    rewrite <- next_mod in Hb by auto. destruct (nth_error vs (next (length vs) i)) as [vb|] eqn:Vb; [|discriminate]. cbn in Hb. injection Hb as <-.
    unfold tri_volume, nth_pt. rewrite Hp. cbn [nth]. rewrite !Pm. unfold ps. rewrite (at_corners_pt _ _ _ Va), (at_corners_pt _ _ _ Vb). fold ps.
    apply volume_same. intros j. destruct (Xpl _ Ecc) as (x & Epx & Wx). unfold place. cbn [fst snd]. rewrite Z.eqb_refl.
    assert (T : tripoint_of e (cn_index cc) = mkTp x (su_index s) t_mesh) by (unfold tripoint_of, assoc; cbn [trivert e]; rewrite Epx; cbn; rewrite Z.eqb_refl; auto).
    rewrite T. cbn. apply Wx.
Qed.
End Surface.
