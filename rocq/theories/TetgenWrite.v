(** The input of tetgen made of two meshes. *)
From Verif Require Import Base Containers Mesh Flood Edit Order Tetgen SpecMesh SpecOrder SpecTetgen ContainersProofs MeshProofs FloodProofs CloseProofs SwitchProofs TetgenProofs TetgenMesh PropsOrder.
Import Mesh.
Set Implicit Arguments.
Open Scope Z_scope.

(** All arrays are filled from the front. *)
Definition filled {A} (d : list A) (n : nat) : list (option A) := map Some d ++ repeat None (n - length d).
Lemma upd_at A (l r : list A) a b : upd (l ++ a :: r) (length l) b = l ++ b :: r.
Proof. induction l as [|x l IH]; simpl; [reflexivity|]. f_equal. exact IH. Qed.
Lemma put_next A (d : list A) n p x : (length d < n)%nat -> p = Z.of_nat (length d) -> put (filled d n) p x = Ok (filled (d ++ [x]) n).
Proof.
  intros H ->. unfold put, modify, filled. destruct (n - length d)%nat as [|k] eqn:E; [lia|]. cbn [repeat].
  assert (K : at_ (map Some d ++ None :: repeat None k) (Z.of_nat (length d)) = Ok None).
  { apply at_Ok. split; [lia|]. rewrite Nat2Z.id. rewrite nth_error_app2 by (rewrite map_length; lia). rewrite map_length, Nat.sub_diag. reflexivity. }
  rewrite K. cbn [bind]. rewrite Nat2Z.id. rewrite <- (map_length Some d) at 1. rewrite upd_at. rewrite app_length, map_app. cbn [length map].
  replace (n - (length d + 1))%nat with k by lia. rewrite <- app_assoc. reflexivity.
Qed.
Lemma filled_all A (d : list A) n : length d = n -> filled d n = map Some d.
Proof. intros H. unfold filled. rewrite H, Nat.sub_diag. apply app_nil_r. Qed.

Lemma Forall2_len A B (R : A -> B -> Prop) l k : Forall2 R l k -> length l = length k.
Proof. induction 1; simpl; auto. Qed.

Section Data.
Variables (REAL : Type) (np nf nc : nat).
Definition st (dp dm : list REAL) (dk : list Z) (df : list (list Z)) (dl : list Z) (dc : list (Z + REAL)) : tetin REAL :=
  mkTetin (Z.of_nat np) (Z.of_nat nf) 1 (filled dp (np * 3)) (filled dm (np * 1)) (filled dk np) (filled df nf) (filled dl nf) (filled dc (nc * 2)).
Lemma points_put (marker : Z) (x : REAL) off : forall (cs : list (list REAL)) k dp dm dk df dl dc,
  (forall c, In c cs -> length c = 3%nat) -> Z.of_nat (length dk) = k + off -> length dp = (3 * length dk)%nat -> length dm = length dk ->
  (length dk + length cs <= np)%nat ->
  for_each (combine (upto (length cs) k) cs) (put_point off marker [x] 1) (st dp dm dk df dl dc) =
  Ok (st (dp ++ concat cs) (dm ++ repeat x (length cs)) (dk ++ repeat marker (length cs)) df dl dc).
Proof.
  induction cs as [|c cs IH]; intros k dp dm dk df dl dc H3 Hk Hp Hm Hn.
  - simpl. rewrite !app_nil_r. reflexivity.
  - cbn [length upto combine for_each]. cbn [length] in Hn.
    assert (E : put_point off marker [x] 1 (k, c) (st dp dm dk df dl dc) = Ok (st (dp ++ c) (dm ++ [x]) (dk ++ [marker]) df dl dc)).
    { unfold put_point, st. cbn [fst snd in_points in_mtrs in_pmarkers in_npoints in_nfacets in_nmtrs in_facets in_fmarkers in_constraints].
      pose proof (H3 c (or_introl eq_refl)) as L. destruct c as [|a [|b [|d [|]]]]; try discriminate.
      cbn [upto for_each]. change (0 + 1) with 1. change (1 + 1) with 2.
      change (at_ [a; b; d] 0) with (Ok a). change (at_ [a; b; d] 1) with (Ok b). change (at_ [a; b; d] 2) with (Ok d). change (at_ [x] 0) with (Ok x).
      cbn [bind]. rewrite put_next by lia. cbn [bind]. rewrite put_next by (rewrite app_length; simpl; lia). cbn [bind].
      rewrite put_next by (rewrite !app_length; simpl; lia). cbn [bind]. rewrite put_next by lia. cbn [bind]. rewrite put_next by lia. cbn [bind].
      rewrite <- !app_assoc. reflexivity. }
    rewrite E. cbn [bind]. rewrite IH.
    + cbn [concat repeat]. rewrite <- !app_assoc. reflexivity.
    + intros; apply H3; simpl; auto.
    + rewrite app_length. simpl. lia.
    + rewrite !app_length. rewrite (H3 c) by (simpl; auto). simpl. lia.
    + rewrite !app_length. simpl. lia.
    + rewrite app_length. simpl. lia.
Qed.
Lemma constraint_put (x : REAL) off dp dm dk df dl dc : Z.of_nat (length dc) = off * 2 -> (length dc + 2 <= nc * 2)%nat ->
  for_each (combine (upto 1 0) [x]) (put_constraint off) (st dp dm dk df dl dc) = Ok (st dp dm dk df dl (dc ++ [inl (off + 1); inr x])).
Proof.
  intros H1 H2. cbn [upto combine for_each]. unfold put_constraint, st.
  cbn [fst snd in_points in_mtrs in_pmarkers in_npoints in_nfacets in_nmtrs in_facets in_fmarkers in_constraints].
  rewrite put_next by lia. cbn [bind]. rewrite put_next by (rewrite ?app_length; simpl; lia). cbn [bind]. rewrite <- app_assoc. rewrite Z.add_0_r. reflexivity.
Qed.
Lemma touched m l vs i v : polygon (edge_joins m) l vs -> nth_error vs i = Some v -> exists e w, edge_joins m e v w.
Proof.
  intros [HL H] Hi. assert (Q : (i < length vs)%nat) by (apply nth_error_Some; congruence).
  destruct (nth_error l i) as [e|] eqn:E; [|apply nth_error_None in E; lia].
  destruct (nth_error (tl vs ++ firstn 1 vs) i) as [b|] eqn:Eb.
  - exists e, b. eapply H; eauto.
  - apply nth_error_None in Eb. destruct vs; simpl in *; [lia|]. rewrite app_length in Eb. simpl in Eb. lia.
Qed.
Lemma corner_in m l vs v : well_connected m -> polygon (edge_joins m) l vs -> In v vs -> has_vert m v.
Proof.
  intros [U [M X]] P Hv. apply In_nth_error in Hv. destruct Hv as [i Hi]. destruct (touched i P Hi) as [e [w J]].
  assert (E : EV m e v).
  { destruct J as [J|J]; destruct J as [a [J1 [J2 J3]]]; exists a; (split; [auto|]); (split; [auto|]); rewrite J3; simpl; auto. }
  assert (N : v <> 0) by (intros ->; apply X in E; auto).
  destruct M as [_ [M _]]. apply M in E; auto. destruct E as [a [H1 [H2 _]]]. exists a. auto.
Qed.
Lemma facets_put m (W : well_connected m) (off poff : nat) coff : forall (ss : list surf) k dp dm dk df dl dc,
  (forall s, In s ss -> (3 <= length (su_edgeind s))%nat /\ exists vs, NoDup vs /\ polygon (edge_joins m) (su_edgeind s) vs) ->
  Z.of_nat (length df) = k + Z.of_nat off -> length dl = length df -> (length df + length ss <= nf)%nat -> 0 <= k ->
  exists fs, for_each (combine (upto (length ss) k) ss) (put_facet m (Z.of_nat off) (Z.of_nat poff) 1 coff) (st dp dm dk df dl dc) =
    Ok (st dp dm dk (df ++ fs) (dl ++ repeat (coff + 1) (length ss)) dc) /\ Forall2 (facet_of m poff) ss fs.
Proof.
  induction ss as [|s ss IH]; intros k dp dm dk df dl dc Ho Hk Hl Hn K0.
  - exists []. split; [|constructor]. simpl. rewrite !app_nil_r. reflexivity.
  - cbn [length] in Hn. destruct (Ho s (or_introl eq_refl)) as [H3 [vs [N P]]].
    assert (E : put_facet m (Z.of_nat off) (Z.of_nat poff) 1 coff (k, s) (st dp dm dk df dl dc) =
      Ok (st dp dm dk (df ++ [map (fun v => find ve_index (verts m) v + Z.of_nat poff) vs]) (dl ++ [coff + 1]) dc)).
    { unfold put_facet. cbn [fst snd]. rewrite (@C22_ordered_verts m (su_edgeind s) vs) by (auto; apply W). cbn [bind].
      unfold st. cbn [in_points in_mtrs in_pmarkers in_npoints in_nfacets in_nmtrs in_facets in_fmarkers in_constraints].
      rewrite put_next by lia. cbn [bind]. rewrite put_next by lia. cbn [bind]. rewrite Z.mod_1_r, Z.add_0_r. reflexivity. }
    destruct (IH (k + 1) dp dm dk (df ++ [map (fun v => find ve_index (verts m) v + Z.of_nat poff) vs]) (dl ++ [coff + 1]) dc) as [fs [E2 F2]].
    + intros; apply Ho; simpl; auto.
    + rewrite app_length. simpl. lia.
    + rewrite !app_length. simpl. lia.
    + rewrite app_length. simpl. lia.
    + lia.
    + exists (map (fun v => find ve_index (verts m) v + Z.of_nat poff) vs :: fs). split.
      * cbn [length upto combine for_each]. rewrite E. cbn [bind]. rewrite E2. cbn [repeat]. rewrite <- !app_assoc. reflexivity.
      * constructor; auto. exists vs. split; auto.
        assert (Q : forall v, In v vs -> has_vert m v) by (intros v Hv; eapply corner_in; eauto). clear - Q W.
        induction vs as [|v vs IH]; [constructor|]. cbn [map]. constructor; [|apply IH; intros; apply Q; simpl; auto].
        destruct (Q v (or_introl eq_refl)) as [a [Ha <-]]. apply In_nth_error in Ha. destruct Ha as [q Hq]. exists q, a. split; auto.
        rewrite (@find_pos _ ve_index (verts m) q a) by (auto; apply W). lia.
Qed.
Lemma mesh_data_put m cs (W : well_connected m) (O : outlined m) (C : with_coords m cs) marker (x y : REAL) off poff coff dp dm dk df dl dc :
  length dk = poff -> length dp = (3 * poff)%nat -> length dm = poff -> length df = off -> length dl = off -> Z.of_nat (length dc) = coff * 2 ->
  (poff + length (verts m) <= np)%nat -> (off + length (surfs m) <= nf)%nat -> (length dc + 2 <= nc * 2)%nat ->
  exists fs, mesh_data m cs (Z.of_nat off) (Z.of_nat poff) marker [x] [y] coff (st dp dm dk df dl dc) =
    Ok (st (dp ++ concat cs) (dm ++ repeat x (length (verts m))) (dk ++ repeat marker (length (verts m))) (df ++ fs)
      (dl ++ repeat (coff + 1) (length (surfs m))) (dc ++ [inl (coff + 1); inr y])) /\ Forall2 (facet_of m poff) (surfs m) fs.
Proof.
  intros H1 H2 H3 H4 H5 H6 B1 B2 B3. destruct C as [C1 C2]. unfold mesh_data.
  change (Z.to_nat (Z.min (Z.of_nat (length [x])) (in_nmtrs (st dp dm dk df dl dc)))) with 1%nat.
  rewrite points_put by (auto; lia). cbn [bind]. rewrite C1. change (length [y]) with 1%nat. rewrite constraint_put by lia. cbn [bind].
  change (Z.max (Z.of_nat 1) 1) with 1. apply facets_put; auto; lia.
Qed.
End Data.

Lemma mesh2tetgen_ok REAL (zero minus1 : REAL) geom domain cg cd :
  well_connected geom -> well_connected domain -> outlined geom -> outlined domain -> with_coords geom cg -> with_coords domain cd ->
  let ng := length (verts geom) in let nd := length (verts domain) in
  exists fg fd, Forall2 (facet_of geom 0) (surfs geom) fg /\ Forall2 (facet_of domain ng) (surfs domain) fd /\
    mesh2tetgen zero minus1 geom domain cg cd = Ok (mkTetin (Z.of_nat (ng + nd)) (Z.of_nat (length (surfs geom) + length (surfs domain))) 1
      (map Some (concat (cg ++ cd))) (map Some (repeat zero ng ++ repeat minus1 nd)) (map Some (repeat 1 ng ++ repeat (-1) nd))
      (map Some (fg ++ fd)) (map Some (repeat 1 (length (surfs geom)) ++ repeat 2 (length (surfs domain))))
      [Some (inl 1); Some (inr zero); Some (inl 2); Some (inr zero)]).
Proof.
  intros W1 W2 O1 O2 C1 C2 ng nd. set (np := (ng + nd)%nat). set (nf := (length (surfs geom) + length (surfs domain))%nat).
  destruct (@mesh_data_put REAL np nf 2 geom cg W1 O1 C1 1 zero zero 0 0 0 [] [] [] [] [] []) as [fg [E1 F1]]; try reflexivity; try (subst np nf ng nd; simpl; lia).
  assert (Lf : length fg = length (surfs geom)) by (symmetry; eapply Forall2_len; eauto).
  assert (Lc : length (concat cg) = (3 * ng)%nat).
  { destruct C1 as [Q1 Q2]. subst ng. rewrite <- Q1. clear - Q2. induction cg as [|c l IH]; [reflexivity|]. cbn [concat length]. rewrite app_length, IH, (Q2 c) by (intros; try apply Q2; simpl; auto). lia. }
  destruct (@mesh_data_put REAL np nf 2 domain cd W2 O2 C2 (-1) minus1 zero (length (surfs geom)) ng 1
    ([] ++ concat cg) ([] ++ repeat zero ng) ([] ++ repeat 1 ng) ([] ++ fg) ([] ++ repeat (0 + 1) (length (surfs geom))) ([] ++ [inl (0 + 1); inr zero]))
    as [fd [E2 F2]]; try (simpl; rewrite ?repeat_length; auto; subst np nf ng nd; lia).
  exists fg, fd. split; auto. split; auto. unfold mesh2tetgen. fold ng nd np nf.
  change (Z.of_nat 0) with 0 in E1.
  assert (A0 : allocated np nf 1 2 = st np nf 2 (@nil REAL) [] [] [] [] []).
  { unfold allocated, st, filled. simpl length. rewrite !Nat.sub_0_r. reflexivity. }
  rewrite A0, E1. cbn [bind]. fold ng. rewrite E2. f_equal. unfold st. cbn [app]. rewrite concat_app. change (0 + 1) with 1. change (1 + 1) with 2.
  assert (Ld : length fd = length (surfs domain)) by (symmetry; eapply Forall2_len; eauto).
  assert (Lcd : length (concat cd) = (3 * nd)%nat).
  { destruct C2 as [Q1 Q2]. subst nd. rewrite <- Q1. clear - Q2. induction cd as [|c l IH]; [reflexivity|]. cbn [concat length]. rewrite app_length, IH, (Q2 c) by (intros; try apply Q2; simpl; auto). lia. }
  rewrite !filled_all by (rewrite ?app_length, ?repeat_length; subst np nf; simpl; lia). reflexivity.
Qed.
