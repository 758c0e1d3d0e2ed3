(** The triangulation of a snake that changes (C95). *)
From Coq Require Import Reals List Lia ZArith Bool.
From Verif Require Import Base FloodProofs MeshProofs MergeProofs Containers Mesh Order Edit Family SpecMesh SpecOrder SpecFamily PropsFamily Calc CalcProofs Triangulate SpecTriangulate TriangulateProofs PropsTriangulate SpecActive PropsActive SpecWalk PropsWalk SpecMaintain MaintainProofs.
Import Mesh.
Set Implicit Arguments.
Open Scope Z_scope.

Lemma concat_select S A (ix : S -> Z) (key : A -> Z) ss ls : NoDup (map ix ss) -> Forall2 (fun s l => forall a, In a l -> key a = ix s) ss ls ->
  (forall i s l, nth_error ss i = Some s -> nth_error ls i = Some l -> filter (fun a => key a =? ix s) (concat ls) = l) /\
  (forall x, ~ In x (map ix ss) -> filter (fun a => key a =? x) (concat ls) = []).
Proof.
  intros N F. revert N. induction F as [|s l ss ls H F IH]; cbn; intros N.
  - split; [intros [|i] s l E; discriminate|auto].
  - inversion N as [|? ? Ns Nss]; subst. destruct (IH Nss) as [IH1 IH2]. split.
    + intros i s' l' E E'. rewrite filter_app. destruct i as [|i].
      * injection E as <-. injection E' as <-. rewrite IH2, app_nil_r by auto. apply filter_all. intros a I. apply Z.eqb_eq. auto.
      * rewrite (IH1 i s' l' E E'), filter_none; auto. intros a I. apply Z.eqb_neq. rewrite (H a I). intros X. apply Ns. rewrite X. apply List.in_map. eapply nth_error_In; eauto.
    + intros x Nx. rewrite filter_app, IH2 by tauto. rewrite app_nil_r. apply filter_none. intros a I. apply Z.eqb_neq. rewrite (H a I). tauto.
Qed.
Lemma filter_map_same A (p : A -> bool) (g : A -> A) l : (forall a, In a l -> p (g a) = p a) -> filter p (map g l) = map g (filter p l).
Proof. induction l as [|a l IH]; intros H; cbn; auto. rewrite H, IH; auto with datatypes. destruct (p a); reflexivity. Qed.
Lemma Forall2_nth A B (R : A -> B -> Prop) l r : length l = length r -> (forall i a b, nth_error l i = Some a -> nth_error r i = Some b -> R a b) -> Forall2 R l r.
Proof.
  revert r. induction l as [|a l IH]; intros [|b r] L H; try discriminate; constructor; [apply (H 0%nat); auto|]. apply IH; auto. intros i x y X Y. apply (H (S i)); auto.
Qed.
Lemma modified_picks (ss : list surf) mo : NoDup (map su_index ss) -> let l := filter (fun s => mem_z (su_index s) mo) ss in
  let sub := find_list su_index ss (map su_index l) in (sub = [] /\ l = []) \/ (sub <> [] /\ picks ss sub l).
Proof.
  intros N l sub. destruct l as [|s l'] eqn:E; [left; auto|right]. assert (H : Forall2 (fun p s => 0 <= p /\ nth_error ss (Z.to_nat p) = Some s) sub l).
  { unfold sub. rewrite <- E. assert (I : forall s, In s l -> In s ss) by (intros x X; unfold l in X; apply filter_In in X; tauto). clear E sub. revert I. generalize l. clear - N.
    induction l as [|s l IH]; cbn; intros I; constructor; [|apply IH; auto]. destruct (In_nth_error ss s (I s (or_introl eq_refl))) as [j Hj].
    rewrite (@find_pos _ su_index ss j s N Hj). split; [lia|]. now rewrite Nat2Z.id. }
  unfold sub in *. cbn [map find_list] in *. split; [discriminate|]. unfold picks. rewrite <- E. exact H.
Qed.

Section Maintain.
Variables (n : nat) (k : snk) (m : mesh) (tr : tree) (t : tris) (parts : list trisf).
Hypothesis O : in_order t.
Hypothesis Us : NoDup (map su_index (surfs (sk_conn k))).
Hypothesis Ue : NoDup (map ed_index (edges (sk_conn k))).
Hypothesis Mod : forall su, In su (surfs (sk_conn k)) -> In (su_index su) (sk_modif k) -> exists vs, outlined (sk_conn k) su vs.
Hypothesis Old : forall su, In su (surfs (sk_conn k)) -> ~ In (su_index su) (sk_modif k) -> covered k t su.
Hypothesis Cells : forall su, In su (surfs (sk_conn k)) -> exists z v r, In (su_index su, z) (sk_surfs k) /\ su_voluind su = v :: r.
Hypothesis B : build_trisurf n k m tr = Ok parts.
Hypothesis Num : numbered 0 (map ts_index parts).
Hypothesis P3 : forall x, In x parts -> (3 <= length (ts_corners x))%nat.
Hypothesis Nv : NoDup (map ve_index (verts m)).
Hypothesis Act : forall f, leads (items (t_stat t)) f -> exists b, decided m (sk_in k) parts f b.
Let gone (s : Z) : Prop := (forall su, In su (surfs (sk_conn k)) -> su_index su <> s) \/ In s (sk_modif k).
Let modif := filter (fun s => mem_z (su_index s) (sk_modif k)) (surfs (sk_conn k)).
Let t1 := clean_dyna k t.
Lemma modif_In su : In su modif <-> In su (surfs (sk_conn k)) /\ In (su_index su) (sk_modif k).
Proof using. unfold modif. rewrite filter_In, mem_z_In. tauto. Qed.
(** The surfaces that were modified. *)
Lemma again_done : exists t2 vss ps,
  (match find_list su_index (surfs (sk_conn k)) (map su_index modif) with [] => Ok t1 | _ :: _ => triangulate_container (sk_conn k) t_snake (find_list su_index (surfs (sk_conn k)) (map su_index modif)) t1 end) = Ok t2 /\
  extended t_snake ps t1 t2 /\ length ps = length modif /\ Forall2 (outlined (sk_conn k)) modif vss /\
  forall i s vs p, nth_error modif i = Some s -> nth_error vss i = Some vs -> nth_error ps i = Some p -> surface_done t_snake s vs p.
Proof using Us Ue Mod.
  destruct (modified_picks (surfs (sk_conn k)) (sk_modif k) Us) as [[E E']|[E Pk]].
  - fold modif in E, E'. rewrite E'. cbn [map find_list]. exists t1, [], []. split; auto. split; [|split; auto; split; [constructor|intros [|i]; discriminate]].
    split; [split; auto|]. cbn. rewrite !app_nil_r. split; auto. split; auto. split; [apply numbered_nil|]. split; [constructor|]. split; [easy|]. auto.
  - fold modif in E, Pk. destruct (@outlines_exist (sk_conn k) modif) as (vss & F); [intros s I; apply modif_In in I as [I X]; auto|].
    destruct (@C89_surfaces (sk_conn k) t_snake _ t1 modif vss Ue (or_intror eq_refl) Pk F) as (t2 & ps & Et & X & L & D). exists t2, vss, ps.
    split; [|auto]. revert Et E. generalize (find_list su_index (surfs (sk_conn k)) (map su_index modif)). intros [|p q]; [easy|auto].
Qed.
Definition filled (f : face) : face := match connect_dyna k f with Ok x => x | _ => f end.
Lemma filled_same f : tri_pts (fc_tri (filled f)) = tri_pts (fc_tri f) /\ fc_parent (filled f) = fc_parent f /\ fc_index (filled f) = fc_index f.
Proof using.
  unfold filled, connect_dyna. destruct (celltarg (fc_tri f)); auto. destruct (lookup _ _) as [z| | |]; auto. cbn [bind]. destruct (isearch _ _ _) as [s| | |]; auto. cbn [bind].
  destruct (at_ _ 0) as [v| | |]; auto.
Qed.
(** C95: after MaintainTriangulateSnake the triangles of the snake are those of its
    present surfaces, provided the surfaces not marked as modified were covered before. *)
Theorem C95_maintained : exists t',
  maintain n k m tr t = Ok (t', mkSnk (sk_conn k) [] (sk_snaxs k) (sk_edges k) (sk_surfs k) (sk_in k)) /\
  in_order t' /\ (forall su, In su (surfs (sk_conn k)) -> covered k t' su) /\ none_gone k t' /\ mesh_part_kept t t' /\ parts_done parts t' /\
  (forall i, In i (t_act t') <-> exists f g, In f (items (t_stat t)) /\ fc_index f = i /\ leads (items (t_stat t)) g /\ fc_parent g = fc_parent f /\ decided m (sk_in k) parts g true).
Proof using All.
  destruct again_done as (t2 & vss & ps & E2 & X2 & Lp & Fo & D).
  destruct X2 as ((K2 & S2 & A2) & Dy2 & Vt2 & Nu2 & Nc2 & Gt2 & Td2 & Tv2).
  assert (St2 : t_stat t2 = t_stat t) by (apply (K2 t_mesh); [cbn; auto|discriminate]).
  assert (In2 : t_inter t2 = cleared) by (apply (K2 t_tri); [cbn; auto|discriminate]).
  change (tri_array t_snake t2) with (t_dyna t2) in *. change (tri_array t_snake t1) with (t_dyna t1) in *.
  assert (O1 : in_order t1) by (apply clean_order; auto).
  assert (Nm : NoDup (map su_index modif)) by (apply NoDup_filter_map; auto).
  assert (Dn : forall i s p, nth_error modif i = Some s -> nth_error ps i = Some p -> exists vs, outlined (sk_conn k) s vs /\ surface_done t_snake s vs p).
  { intros i s p Hs Hp. destruct (nth_error vss i) as [vs|] eqn:Hv.
    - exists vs. split; [|eauto]. clear - Fo Hs Hv. revert i Hs Hv. induction Fo as [|a b l r H F IH]; intros [|i] Hs Hv; try discriminate; [injection Hs as <-; injection Hv as <-; auto|eauto].
    - exfalso. assert (L : length modif = length vss) by (clear - Fo; induction Fo; cbn; auto). apply nth_error_None in Hv. assert (i < length modif)%nat by (apply nth_error_Some; congruence). lia. }
  assert (Ft : Forall2 (fun s l => forall f, In f l -> fc_parent f = su_index s) modif (map fst ps)).
  { apply Forall2_nth; [now rewrite map_length|]. intros i s l Hs Hl. rewrite nth_error_map in Hl. destruct (nth_error ps i) as [p|] eqn:Hp; [|discriminate]. injection Hl as <-.
    destruct (Dn i s p Hs Hp) as (vs & _ & ((P & _) & _)). exact P. }
  assert (Fc' : forall i s p, nth_error modif i = Some s -> nth_error ps i = Some p -> forall c, In c (snd p) -> cn_parent c = su_index s /\ cn_ptype c = t_snake).
  { intros i s p Hs Hp c Ic. destruct (Dn i s p Hs Hp) as (vs & _ & (Fa & _)). destruct (@fan_points _ _ _ _ _ Fa) as [_ H]; [discriminate|]. destruct (H c Ic) as (T & Pc & _). auto. }
  assert (Fc : Forall2 (fun s l => forall c, In c l -> cn_parent c = su_index s) modif (map snd ps)).
  { apply Forall2_nth; [now rewrite map_length|]. intros i s l Hs Hl. rewrite nth_error_map in Hl. destruct (nth_error ps i) as [p|] eqn:Hp; [|discriminate]. injection Hl as <-.
    intros c Ic. eapply Fc'; eauto. }
  destruct (concat_select su_index fc_parent Nm Ft) as [SelT SelT0]. destruct (concat_select su_index cn_parent Nm Fc) as [SelC SelC0].
  assert (Pt : forall c, In c (concat (map snd ps)) -> cn_ptype c = t_snake /\ exists s, In s modif /\ su_index s = cn_parent c).
  { intros c Ic. apply in_concat in Ic as (l & Il & Ic). apply in_map_iff in Il as (p & <- & Ip). apply In_nth_error in Ip as [i Hp].
    destruct (nth_error modif i) as [s|] eqn:Hs; [|apply nth_error_None in Hs; assert (i < length ps)%nat by (apply nth_error_Some; congruence); lia].
    destruct (Fc' i s p Hs Hp c Ic). split; auto. exists s. split; auto. eapply nth_error_In; eauto. }
  assert (T2 : forall s, snake_tris t2 s = snake_tris t1 s ++ filter (fun f => fc_parent f =? s) (concat (map fst ps))) by (intros s; unfold snake_tris; now rewrite Dy2, filter_app).
  assert (C2 : forall s, snake_centres t2 s = snake_centres t1 s ++ filter (fun c => cn_parent c =? s) (concat (map snd ps))).
  { intros s. unfold snake_centres. rewrite Vt2, filter_app. f_equal. apply filter_ext_In. intros c Ic. destruct (Pt c Ic) as [-> _]. reflexivity. }
  (* every surface has its triangles *)
  assert (Cov2 : forall su, In su (surfs (sk_conn k)) -> (exists vs, outlined (sk_conn k) su vs /\ fan_of (map (pair t_snake) vs) (su_index su) t_snake (snake_tris t2 (su_index su)) (snake_centres t2 (su_index su))) /\
    ((In su modif /\ signed [] [] (snake_tris t2 (su_index su))) \/ (~ In su modif /\ snake_tris t2 (su_index su) = snake_tris t (su_index su)))).
  { intros su Isu. destruct (mem_z (su_index su) (sk_modif k)) eqn:Mo.
    - apply mem_z_In in Mo. assert (Im : In su modif) by (apply modif_In; auto). assert (G : gone (su_index su)) by (right; auto).
      apply In_nth_error in Im as [i Hi]. destruct (nth_error ps i) as [p|] eqn:Hp; [|apply nth_error_None in Hp; assert (i < length modif)%nat by (apply nth_error_Some; congruence); lia].
      destruct (Dn i su p Hi Hp) as (vs & Ov & (Fa & _ & Sg)).
      assert (E1 : snake_tris t2 (su_index su) = fst p) by (rewrite T2; unfold t1; rewrite (clean_gone k O G); apply (SelT i); auto; now rewrite nth_error_map, Hp).
      assert (E3 : snake_centres t2 (su_index su) = snd p) by (rewrite C2; unfold t1; rewrite (proj2 (clean_centres k O (su_index su)) G); apply (SelC i); auto; now rewrite nth_error_map, Hp).
      rewrite E1, E3. split; [exists vs; auto|]. left. split; [eapply nth_error_In; eauto|]. auto.
    - apply mem_z_false in Mo. assert (G : ~ gone (su_index su)) by (intros [H|H]; [now apply (H su)|tauto]).
      assert (Nx : ~ In (su_index su) (map su_index modif)).
      { intros X. apply in_map_iff in X as (s & E & X). apply modif_In in X as [_ X]. congruence. }
      destruct (Old su Isu Mo) as [(vs & Ov & Fa) _].
      assert (E1 : snake_tris t2 (su_index su) = snake_tris t (su_index su)) by (rewrite T2, SelT0 by auto; unfold t1; rewrite (clean_alive k O G); apply app_nil_r).
      assert (E3 : snake_centres t2 (su_index su) = snake_centres t (su_index su)) by (rewrite C2, SelC0 by auto; unfold t1; rewrite (proj1 (clean_centres k O (su_index su)) G); apply app_nil_r).
      rewrite E1, E3. split; [exists vs; auto|]. right. split; auto. intros X. apply Nx. now apply List.in_map. }
  assert (None2 : forall f, In f (items (t_dyna t2)) -> exists su, In su (surfs (sk_conn k)) /\ su_index su = fc_parent f).
  { intros f I. rewrite Dy2 in I. apply in_app_or in I as [I|I].
    - assert (G := clean_none k O f I). destruct (find_spec su_index (surfs (sk_conn k)) (fc_parent f)) as [[E N]|(j & su & E & Hj & Es)].
      + exfalso. apply G. left. intros su Is X. apply N. now exists su.
      + exists su. split; auto. eapply nth_error_In; eauto.
    - apply in_concat in I as (l & Il & I). apply in_map_iff in Il as (p & <- & Ip). apply In_nth_error in Ip as [i Hp].
      destruct (nth_error modif i) as [s|] eqn:Hs; [|apply nth_error_None in Hs; assert (i < length ps)%nat by (apply nth_error_Some; congruence); lia].
      exists s. destruct (Dn i s p Hs Hp) as (vs & _ & ((P & _) & _)). split; [apply modif_In; eapply nth_error_In; eauto|]. symmetry. auto. }
  assert (O2 : in_order t2).
  { constructor.
    - apply Td2, O1.
    - apply Tv2, O1.
    - intros f i I X. rewrite Dy2 in I. apply in_app_or in I as [I|I].
      + destruct (ord_used O1 f i I X) as (c & Ic & H). exists c. split; auto. rewrite Vt2. apply in_or_app. auto.
      + apply in_concat in I as (l & Il & I). apply in_map_iff in Il as (p & <- & Ip). assert (Ip' := Ip). apply In_nth_error in Ip as [j Hp].
        destruct (nth_error modif j) as [s|] eqn:Hs; [|apply nth_error_None in Hs; assert (j < length ps)%nat by (apply nth_error_Some; congruence); lia].
        destruct (Dn j s p Hs Hp) as (vs & _ & (Fa & _)). destruct (@fan_points _ _ _ _ _ Fa) as [H _]; [discriminate|]. destruct (H f i I X) as (c & Ic & Hc).
        exists c. split; auto. rewrite Vt2. apply in_or_app. right. apply in_concat. exists (snd p). split; auto. now apply List.in_map.
    - intros c I T. rewrite Vt2 in I. apply in_app_or in I as [I|I].
      + destruct (ord_needed O1 c I T) as (f & If & H). exists f. split; auto. rewrite Dy2. apply in_or_app. auto.
      + apply in_concat in I as (l & Il & I). apply in_map_iff in Il as (p & <- & Ip). assert (Ip' := Ip). apply In_nth_error in Ip as [j Hp].
        destruct (nth_error modif j) as [s|] eqn:Hs; [|apply nth_error_None in Hs; assert (j < length ps)%nat by (apply nth_error_Some; congruence); lia].
        destruct (Dn j s p Hs Hp) as (vs & _ & (Fa & _)). destruct (@fan_points _ _ _ _ _ Fa) as [_ H]; [discriminate|]. destruct (H c I) as (_ & _ & f & If & Hf).
        exists f. split; auto. rewrite Dy2. apply in_or_app. right. apply in_concat. exists (fst p). split; auto. now apply List.in_map.
    - intros f i I X. rewrite St2 in I. destruct (ord_mesh O1 f i I X) as (c & Ic & H). exists c. split; auto. rewrite Vt2. apply in_or_app. auto.
    - intros f I. rewrite St2 in I. now apply (ord_cells O). }
  (* the mixed surfaces *)
  set (t3 := mkTris (t_stat t2) (t_dyna t2) (t_inter t2) (t_vert t2) parts (t_act t2)).
  destruct (@C89_parts (sk_conn k) t_tri [] t3 parts eq_refl eq_refl P3) as (t4 & qs & E4 & ((K4 & S4 & A4) & It4 & Vt4 & Nu4 & Nc4 & Gt4 & _ & Tv4) & Lq & Dq).
  assert (St4 : t_stat t4 = t_stat t) by (rewrite <- St2; apply (K4 t_mesh); [cbn; auto|discriminate]).
  assert (Dy4 : t_dyna t4 = t_dyna t2) by (apply (K4 t_snake); [cbn; auto|discriminate]).
  change (tri_array t_tri t4) with (t_inter t4) in *. change (tri_array t_tri t3) with (t_inter t2) in *. cbn [t3 t_surf t_vert] in S4, Vt4. rewrite In2 in It4, Nu4. cbn [cleared items top app] in It4, Nu4.
  assert (Dq' : forall p, In p qs -> exists s, In s parts /\ fan_of (ts_corners s) (ts_index s) t_tri (fst p) (snd p) /\ signed (ts_volu s) [(-1)%R; 1%R] (fst p)).
  { intros p Ip. apply In_nth_error in Ip as [i Hp]. destruct (nth_error parts i) as [s|] eqn:Hs; [|apply nth_error_None in Hs; assert (i < length qs)%nat by (apply nth_error_Some; congruence); lia].
    exists s. split; [eapply nth_error_In; eauto|]. eapply Dq; eauto. }
  assert (Pq : forall c, In c (concat (map snd qs)) -> cn_ptype c = t_tri).
  { intros c Ic. apply in_concat in Ic as (l & Il & Ic). apply in_map_iff in Il as (p & <- & Ip). destruct (Dq' p Ip) as (s & _ & (_ & [(_ & _ & Ec)|(_ & _ & d & Ec & _ & Td & _)]) & _); rewrite Ec in Ic; [destruct Ic|destruct Ic as [<-|[]]; auto]. }
  (* connectivity *)
  assert (Ea : omap_list (connect_stat m) (items (t_stat t4)) = Ok (items (t_stat t4))).
  { rewrite <- (map_id (items (t_stat t4))) at 2. apply (@TriangulateProofs.omap_list_ok face face). intros f I. rewrite St4 in I. unfold connect_stat. destruct (celltarg (fc_tri f)) eqn:E; auto. now contradiction (ord_cells O f I). }
  assert (Nts : NoDup (map ts_index parts)) by apply (numbered_NoDup Num).
  assert (Eb : omap_list (connect_inter parts) (items (t_inter t4)) = Ok (items (t_inter t4))).
  { rewrite <- (map_id (items (t_inter t4))) at 2. apply (@TriangulateProofs.omap_list_ok face face). intros f I. rewrite It4 in I. apply in_concat in I as (l & Il & I). apply in_map_iff in Il as (p & <- & Ip).
    destruct (Dq' p Ip) as (s & Is & (Pf & _) & Sg). unfold connect_inter. rewrite (Pf f I). unfold isearch. destruct (@find_at _ ts_index parts (ts_index s)) as (y & Hy & Iy & Ey); [exists s; auto|].
    rewrite Hy. cbn [bind]. assert (y = s) as -> by (eapply (@NoDup_idx_inj _ ts_index); eauto). destruct (Sg f I) as [Sc Si]. rewrite <- Sc, <- Si. unfold connect, fc_index. destruct f as [[a b c d] q]. reflexivity. }
  assert (Lk : forall i z, In (i, z) (sk_surfs k) -> exists z', lookup i (sk_surfs k) = Ok z' /\ In (i, z') (sk_surfs k)).
  { clear. intros i z. induction (sk_surfs k) as [|[a b] l IH]; cbn; [easy|]. intros [X|X].
    - injection X as -> ->. rewrite Z.eqb_refl. exists z. auto.
    - destruct (Z.eqb_spec a i) as [->|]; [exists b; auto|]. destruct (IH X) as (z' & E & I). exists z'. auto. }
  assert (Fill : forall f, In f (items (t_dyna t2)) -> connect_dyna k f = Ok (filled f) /\
    (celltarg (fc_tri f) <> [] -> filled f = f) /\ (celltarg (fc_tri f) = [] -> forall su, In su (surfs (sk_conn k)) -> su_index su = fc_parent f ->
       exists z v r, lookup (su_index su) (sk_surfs k) = Ok z /\ In (su_index su, z) (sk_surfs k) /\ su_voluind su = v :: r /\ celltarg (fc_tri (filled f)) = [z] /\ influence (fc_tri (filled f)) = [if v =? 0 then 1%R else (-1)%R])).
  { intros f I. unfold filled, connect_dyna. destruct (celltarg (fc_tri f)) as [|c0 cr] eqn:Ec; [|split; auto; split; auto; discriminate].
    destruct (None2 f I) as (su & Is & Es). destruct (Cells su Is) as (z & v & r & Iz & Ev). destruct (Lk _ _ Iz) as (z' & Ez & Iz'). rewrite <- Es, Ez. cbn [bind].
    unfold isearch. destruct (@find_at _ su_index (surfs (sk_conn k)) (su_index su)) as (y & Hy & Iy & Ey); [exists su; auto|].
    rewrite Hy. cbn [bind]. assert (y = su) as -> by (apply (@NoDup_idx_inj _ su_index (surfs (sk_conn k)) y su); auto). rewrite Ev. change (at_ (v :: r) 0) with (Ok v). cbn [bind]. split; auto. split; [easy|].
    intros _ su' Is' Es'. assert (su' = su) as -> by (apply (@NoDup_idx_inj _ su_index (surfs (sk_conn k)) su' su); auto; congruence). exists z', v, r. auto. }
  assert (Ecd : omap_list (connect_dyna k) (items (t_dyna t4)) = Ok (map filled (items (t_dyna t2)))) by (rewrite Dy4; apply (@TriangulateProofs.omap_list_ok face face); intros f I; apply (Fill f I)).
  set (t5 := mkTris (mkArr (items (t_stat t4)) (top (t_stat t4))) (mkArr (map filled (items (t_dyna t2))) (top (t_dyna t4))) (mkArr (items (t_inter t4)) (top (t_inter t4))) (t_vert t4) (t_surf t4) (t_act t4)).
  assert (E5 : set_connectivity m k t4 = Ok t5) by (unfold set_connectivity; rewrite Ea, S4, Eb, Ecd; cbn [bind]; unfold t5; now rewrite S4).
  assert (St5 : t_stat t5 = t_stat t) by (unfold t5; cbn [t_stat]; rewrite St4; now destruct (t_stat t)).
  destruct (@C91_first m (sk_in k) parts Nv t5) as (t6 & E6 & (St6 & Dy6 & It6 & Vt6 & Sf6) & _ & Ac6); [exact S4|intros f; rewrite St5; apply Act|].
  exists t6. split.
  { unfold maintain. fold modif. fold t1. cbn zeta. rewrite E2. cbn [bind]. rewrite B. cbn [bind]. fold t3. rewrite E4. cbn [bind]. rewrite E5. cbn [bind]. rewrite E6. reflexivity. }
  assert (Tr6 : forall s, snake_tris t6 s = map filled (snake_tris t2 s)).
  { intros s. unfold snake_tris. rewrite Dy6. cbn [t5 t_dyna items]. apply filter_map_same. intros f I. destruct (filled_same f) as (_ & -> & _). auto. }
  assert (Cn6 : forall s, snake_centres t6 s = snake_centres t2 s).
  { intros s. unfold snake_centres. rewrite Vt6. cbn [t5 t_vert]. rewrite Vt4, filter_app. replace (filter _ (concat (map snd qs))) with (@nil centre); [apply app_nil_r|].
    symmetry. apply filter_none. intros c Ic. rewrite (Pq c Ic). reflexivity. }
  assert (Id6 : map fc_index (map filled (items (t_dyna t2))) = map fc_index (items (t_dyna t2))) by (rewrite map_map; apply map_ext; intros f; apply filled_same).
  split; [|split; [|split; [|split; [|split]]]].
  - constructor.
    + rewrite Dy6. cbn [t5 t_dyna]. rewrite Dy4. destruct (ord_dyna O2) as [Q1 Q2]. split; cbn [items top]; [now rewrite Id6|]. intros f I. apply in_map_iff in I as (g & <- & I). destruct (filled_same g) as (_ & _ & ->). auto.
    + rewrite Vt6. cbn [t5 t_vert]. apply Tv4. exact (ord_vert O2).
    + intros f i I X. rewrite Dy6 in I. cbn [t5 t_dyna items] in I. apply in_map_iff in I as (g & <- & I). destruct (filled_same g) as (Eg & Pg & _). rewrite Eg in X. rewrite Pg.
      destruct (ord_used O2 g i I X) as (c & Ic & H). exists c. split; auto. rewrite Vt6. cbn [t5 t_vert]. rewrite Vt4. apply in_or_app. auto.
    + intros c I T. rewrite Vt6 in I. cbn [t5 t_vert] in I. rewrite Vt4 in I. apply in_app_or in I as [I|I]; [|rewrite (Pq c I) in T; discriminate].
      destruct (ord_needed O2 c I T) as (f & If & Pf & X). exists (filled f). destruct (filled_same f) as (Eg & Pg & _). rewrite Dy6, Eg, Pg. cbn [t5 t_dyna items]. split; auto. now apply List.in_map.
    + intros f i I X. rewrite St6, St5, <- St2 in I. destruct (ord_mesh O2 f i I X) as (c & Ic & H). exists c. split; auto. rewrite Vt6. cbn [t5 t_vert]. rewrite Vt4. apply in_or_app. auto.
    + intros f I. rewrite St6, St5 in I. now apply (ord_cells O).
  - intros su Is. destruct (Cov2 su Is) as [(vs & Ov & Fa) Sg]. split.
    + exists vs. split; auto. rewrite Tr6, Cn6. apply fan_of_map; auto. intros f _. destruct (filled_same f) as (? & ? & _). auto.
    + rewrite Tr6. assert (Sub : forall f, In f (snake_tris t2 (su_index su)) -> In f (items (t_dyna t2)) /\ su_index su = fc_parent f).
      { intros f I. unfold snake_tris in I. apply filter_In in I as [I E]. apply Z.eqb_eq in E. auto. }
      destruct Sg as [[Im Sg]|[Im Et]].
      * destruct (Cells su Is) as (z & v & r & Iz & Ev). destruct (Lk _ _ Iz) as (z' & Ez & Iz'). exists z', v, r. split; auto. split; auto.
        intros g I. apply in_map_iff in I as (f & <- & I). destruct (Sub f I) as [If Pf]. destruct (Sg f I) as [Ec _]. destruct (Fill f If) as (_ & _ & H).
        destruct (H Ec su Is Pf) as (z2 & v2 & r2 & L2 & _ & E2' & H1 & H2). rewrite Ez in L2. injection L2 as <-. rewrite Ev in E2'. injection E2' as <- _. auto.
      * assert (Mo : ~ In (su_index su) (sk_modif k)) by (intros X; apply Im; apply modif_In; auto). destruct (Old su Is Mo) as [_ (z & v & r & Iz & Ev & Sg)]. exists z, v, r. split; auto. split; auto.
        intros g I. apply in_map_iff in I as (f & <- & I). destruct (Sub f I) as [If Pf]. rewrite Et in I. destruct (Sg f I) as [Ec Ei]. destruct (Fill f If) as (_ & H & _). rewrite H by (rewrite Ec; discriminate). auto.
  - split.
    + intros f I. rewrite Dy6 in I. cbn [t5 t_dyna items] in I. apply in_map_iff in I as (g & <- & I). destruct (filled_same g) as (_ & -> & _). auto.
    + intros c I T. rewrite Vt6 in I. cbn [t5 t_vert] in I. rewrite Vt4 in I. apply in_app_or in I as [I|I]; [|rewrite (Pq c I) in T; discriminate].
      destruct (ord_needed O2 c I T) as (f & If & Pf & _). rewrite <- Pf. auto.
  - split; [now rewrite St6, St5|]. rewrite Vt6. cbn [t5 t_vert]. rewrite Vt4, filter_app. cbn [t3 t_vert]. rewrite Vt2, filter_app.
    rewrite (filter_none (fun c => cn_ptype c =? t_mesh) (concat (map snd qs))) by (intros c Ic; rewrite (Pq c Ic); reflexivity).
    rewrite (filter_none (fun c => cn_ptype c =? t_mesh) (concat (map snd ps))) by (intros c Ic; destruct (Pt c Ic) as [-> _]; reflexivity).
    rewrite !app_nil_r. apply clean_filter; auto. intros c _ E. apply Z.eqb_eq in E. rewrite E. split; [intros [? _]; discriminate|discriminate].
  - split; [now rewrite Sf6|]. exists qs. rewrite It6, Vt6. cbn [t5 t_inter items t_vert]. split; auto. split; [|split; [now rewrite It4|split; auto]].
    rewrite Vt4, filter_app. cbn [t3 t_vert]. rewrite (filter_all (fun c => cn_ptype c =? t_tri) (concat (map snd qs))) by (intros c Ic; rewrite (Pq c Ic); reflexivity).
    rewrite filter_none; auto. intros c I. rewrite Vt2 in I. apply in_app_or in I as [I|I]; [|destruct (Pt c I) as [-> _]; reflexivity].
    apply clean_verts in I as (_ & _ & N); auto. now apply Z.eqb_neq.
  - intros i. rewrite Ac6, St5. reflexivity.
Qed.
End Maintain.
Print Assumptions C95_maintained.

(** C95 over histories: from the empty snake, or from any snake whose triangles are in
    order, after every change of the snake in which the changed surfaces are marked. *)
Theorem C95_history n m tr : NoDup (map ve_index (verts m)) -> forall ks k0 t,
  in_order t -> (forall su, In su (surfs (sk_conn k0)) -> covered k0 t su) -> all_marked k0 ks ->
  (forall k, In k ks -> exists parts, ready n m tr (items (t_stat t)) k parts) ->
  exists t', maintain_all n m tr ks t = Ok t' /\ in_order t' /\ mesh_part_kept t t' /\
    (forall su, In su (surfs (sk_conn (last ks k0))) -> covered (last ks k0) t' su) /\
    (ks <> [] -> none_gone (last ks k0) t' /\ exists parts, build_trisurf n (last ks k0) m tr = Ok parts /\ parts_done parts t').
Proof.
  intros Nv ks. induction ks as [|k ks IH]; intros k0 t O C M R.
  - exists t. cbn. split; auto. split; auto. split; [split; auto|]. split; auto. easy.
  - destruct M as [M Ms]. destruct (R k (or_introl eq_refl)) as (parts & [R1 R2 R3 R4 R5 R6 R7 R8]).
    assert (Old : forall su, In su (surfs (sk_conn k)) -> ~ In (su_index su) (sk_modif k) -> covered k t su).
    { intros su I N. destruct (M su I N) as (I0 & P & Z). destruct (C su I0) as [(vs & Ov & Fa) (z & v & r & Iz & Ev & Sg)]. split; [exists vs; auto|exists z, v, r; auto]. }
    destruct (@C95_maintained n k m tr t parts O R1 R2 R3 Old R4 R5 R6 R7 Nv R8) as (t1 & E & O1 & C1 & G1 & K1 & P1 & _).
    destruct (IH k t1 O1 C1 Ms) as (t' & E' & O' & K' & C' & H').
    { intros k' I. destruct K1 as [-> _]. apply R. now right. }
    exists t'. cbn [maintain_all]. rewrite E. cbn [bind fst]. split; auto. split; auto.
    split; [destruct K1 as [S1 F1], K' as [S2 F2]; split; congruence|].
    assert (L : last (k :: ks) k0 = last ks k). { clear. revert k0 k. induction ks as [|a ks IH]; auto. intros k0 k. change (last (k :: a :: ks) k0) with (last (a :: ks) k0). rewrite (IH k0 a), (IH k a). reflexivity. }
    rewrite L. split; auto. intros _. destruct ks as [|k' ks]; [|apply H'; discriminate]. cbn in E'. injection E' as <-. split; auto. exists parts. auto.
Qed.
Print Assumptions C95_history.

(** The square and the triangle of PropsWalk with vertices, and a snake with a quadrilateral
    that is marked as modified and a triangle that is not. *)
Definition em : mesh := mkMesh (volus wm) (surfs wm) (edges wm) [mkVert 1 false [1; 4; 5]; mkVert 2 false [1; 2]; mkVert 3 false [2; 3; 5]; mkVert 4 false [3; 4]] 3.
Definition econn : mesh := mkMesh [] [mkSurf 21 false true [1; 0] [11; 14; 15]; mkSurf 22 false true [0; 1] [12; 16; 17; 18]]
    [mkEdge 11 false [21] [1; 2]; mkEdge 14 false [21] [2; 5]; mkEdge 15 false [21] [5; 1]; mkEdge 12 false [22] [3; 4]; mkEdge 16 false [22] [4; 6]; mkEdge 17 false [22] [6; 7]; mkEdge 18 false [22] [7; 3]]
    [mkVert 1 false [11; 15]; mkVert 2 false [11; 14]; mkVert 3 false [12; 18]; mkVert 4 false [12; 16]; mkVert 5 false [14; 15]; mkVert 6 false [16; 17]; mkVert 7 false [17; 18]; mkVert 8 false []] 3.
Definition ek (modif : list Z) (c : mesh) : snk := mkSnk c modif
  [mkSx 1 1 2 1 1; mkSx 2 1 4 4 1; mkSx 3 3 2 2 1; mkSx 4 3 4 3 1] [(11, 1); (14, 2); (15, 2); (12, 1); (16, 2); (17, 2); (18, 2)] [(21, 7); (22, 7)] [true; false; true; false].
(** Its triangulation, with triangles of the outlines of 22 and 30 that are no more. *)
Definition et : tris := mkTris (mkArr [mkFace (mkTri 1 [(t_mesh, 1); (t_mesh, 2); (t_mesh, 3)] [7; 9] [(-1)%R; 1%R]) 2; mkFace (mkTri 2 [(t_mesh, 1); (t_mesh, 2); (t_tri, 1)] [7; 8] [(-1)%R; 1%R]) 1] 2)
  (mkArr [mkFace (mkTri 1 [(t_snake, 1); (t_snake, 2); (t_snake, 5)] [7] [(-1)%R]) 21; mkFace (mkTri 2 [(t_snake, 3); (t_snake, 4); (t_snake, 6)] [7] [1%R]) 22;
          mkFace (mkTri 3 [(t_snake, 8); (t_snake, 9); (t_tri, 2)] [7] [1%R]) 30] 3)
  cleared (mkArr [mkCentre 1 1 t_mesh 4; mkCentre 2 30 t_snake 4] 2) [] [].
Ltac side := let E := fresh in let A := fresh in let B := fresh in intros [|[|[|[|i]]]] e a b E A B; cbn in E, A, B; try discriminate; try (destruct i; discriminate);
  injection E as <-; injection A as <-; injection B as <-.
Ltac an_edge := solve [unfold edge_is; eexists; split; [pick | split; reflexivity]].
Ltac a_join := first [left; an_edge | right; an_edge].
Lemma e21 : outlined econn (mkSurf 21 false true [1; 0] [11; 14; 15]) [1; 2; 5].
Proof. split; [cbn; lia|]. split; [repeat constructor; cbn; intuition lia|]. split; [reflexivity|]. side; a_join. Qed.
Lemma e22 : outlined econn (mkSurf 22 false true [0; 1] [12; 16; 17; 18]) [3; 4; 6; 7].
Proof. split; [cbn; lia|]. split; [repeat constructor; cbn; intuition lia|]. split; [reflexivity|]. side; a_join. Qed.
Ltac members I := cbn in I; repeat (destruct I as [<-|I]; [|]); try contradiction.
Ltac distinct := repeat constructor; cbn; intuition discriminate.
Lemma et_order : in_order et.
Proof.
  constructor.
  - split; [distinct|]. intros f I. members I; cbn; lia.
  - split; [distinct|]. intros f I. members I; cbn; lia.
  - intros f i I X. members I; members X; try discriminate X; repeat (destruct X as [X|X]; try discriminate X); try contradiction. injection X as <-.
    exists (mkCentre 2 30 t_snake 4). split; [pick|auto].
  - intros c I T. members I; [discriminate T|]. exists (mkFace (mkTri 3 [(t_snake, 8); (t_snake, 9); (t_tri, 2)] [7] [1%R]) 30). split; [pick|]. split; [auto|pick].
  - intros f i I X. members I; repeat (destruct X as [X|X]; try discriminate X); try contradiction. injection X as <-.
    exists (mkCentre 1 1 t_mesh 4). split; [pick|auto].
  - intros f I. members I; discriminate.
Qed.
Lemma e21_covered modif : covered (ek modif econn) et (mkSurf 21 false true [1; 0] [11; 14; 15]).
Proof.
  split.
  - exists [1; 2; 5]. split; [apply e21|]. split; [intros f I; members I; reflexivity|]. left. split; [reflexivity|]. split; reflexivity.
  - exists 7, 1, [0]. split; [pick|]. split; [reflexivity|]. intros f I. members I. split; reflexivity.
Qed.
Lemma ek_ready modif : ready 9 em wt (items (t_stat et)) (ek modif econn) [mkTrisf 1 [(t_snake, 1); (t_snake, 2); (t_mesh, 1)] [7; 8] 1; mkTrisf 2 [(t_snake, 3); (t_snake, 4); (t_mesh, 3)] [8; 7] 1].
Proof.
  constructor.
  - distinct.
  - distinct.
  - intros su I _. members I; eexists; [apply e21|apply e22].
  - intros su I. members I; [exists 7, 1, [0]|exists 7, 0, [1]]; (split; [pick|reflexivity]).
  - reflexivity.
  - intros [|[|i]] x H; cbn in H; try (injection H as <-; reflexivity). destruct i; discriminate.
  - intros x I. members I; cbn; lia.
  - intros f (a & b & E & _). assert (I : In f (items (t_stat et))) by (rewrite E; apply in_or_app; right; now left). clear E. members I.
    + exists true. right. split; [intros (s & I & E); members I; discriminate E|]. exists 1. split; [constructor|]. exists 0%nat. eexists. split; [reflexivity|]. split; reflexivity.
    + exists false. left. split; auto. eexists. split; [left; reflexivity|reflexivity].
Qed.
(** The hypotheses of both theorems hold for this snake: surface 22 is marked, 21 is not. *)
Example C95_used : in_order et /\ NoDup (map ve_index (verts em)) /\
  ready 9 em wt (items (t_stat et)) (ek [22] econn) [mkTrisf 1 [(t_snake, 1); (t_snake, 2); (t_mesh, 1)] [7; 8] 1; mkTrisf 2 [(t_snake, 3); (t_snake, 4); (t_mesh, 3)] [8; 7] 1] /\
  (forall su, In su (surfs econn) -> ~ In (su_index su) [22] -> covered (ek [22] econn) et su) /\
  ~ covered (ek [22] econn) et (mkSurf 22 false true [0; 1] [12; 16; 17; 18]) /\
  exists t' k', maintain 9 (ek [22] econn) em wt et = Ok (t', k') /\ length (items (t_dyna t')) = 5%nat /\ map fc_parent (items (t_dyna t')) = [21; 22; 22; 22; 22] /\ t_act t' = [1].
Proof.
  split; [exact et_order|]. split; [distinct|]. split; [apply ek_ready|]. split; [|split].
  - intros su I N. members I; [apply e21_covered|]. destruct N. now left.
  - intros [(vs & (_ & _ & (Lv & _)) & Fa) _]. destruct Fa as (_ & [(L & E & _)|(L & E & _)]).
    + rewrite map_length, Lv in L. discriminate L.
    + rewrite map_length, Lv in E. discriminate E.
  - assert (E : exists a b c d e g k', maintain 9 (ek [22] econn) em wt et = Ok (mkTris a b c d e g, k') /\ length (items b) = 5%nat /\ map fc_parent (items b) = [21; 22; 22; 22; 22] /\ g = [1]).
    { do 7 eexists. split; [cbv -[Ropp R1 IZR]; reflexivity|]. split; [reflexivity|]. split; reflexivity. }
    destruct E as (a & b & c & d & e & g & k' & E & H). exists (mkTris a b c d e g), k'. split; [exact E|exact H].
Qed.
(** Without the marks the claim is false.  SwitchIndex for a vertex, mesh.cpp 2024-2051,
    writes to edges and vertices only, so it marks no surface.  MaintainTriangulateSnake
    asks only for the marks of the surfaces, triangulate.cpp 154. *)
Definition et21 : tris := mkTris (t_stat et) (mkArr [mkFace (mkTri 1 [(t_snake, 1); (t_snake, 2); (t_snake, 5)] [7] [(-1)%R]) 21] 1) cleared (mkArr [mkCentre 1 1 t_mesh 4] 1) [] [].
Definition c21 : mesh := mkMesh [] [mkSurf 21 false true [1; 0] [11; 14; 15]] (edges econn) (verts econn) 3.
Definition c21' : mesh := mkMesh [] [mkSurf 21 false true [1; 0] [11; 14; 15]]
    [mkEdge 11 false [21] [1; 2]; mkEdge 14 false [21] [2; 8]; mkEdge 15 false [21] [8; 1]; mkEdge 12 false [22] [3; 4]; mkEdge 16 false [22] [4; 6]; mkEdge 17 false [22] [6; 7]; mkEdge 18 false [22] [7; 3]]
    [mkVert 1 false [11; 15]; mkVert 2 false [11; 14]; mkVert 3 false [12; 18]; mkVert 4 false [12; 16]; mkVert 5 false []; mkVert 6 false [16; 17]; mkVert 7 false [17; 18]; mkVert 8 false [14; 15]] 3.
Theorem C95_refuted : exists n m tr k t c t' k' su,
  in_order t /\ (forall s, In s (surfs (sk_conn k)) -> covered k t s) /\ sk_modif k = [] /\
  switch_index 1 5 8 [] (sk_conn k) = Ok c /\ maintain n (mkSnk c (sk_modif k) (sk_snaxs k) (sk_edges k) (sk_surfs k) (sk_in k)) m tr t = Ok (t', k') /\
  In su (surfs c) /\ outlined c su [1; 2; 8] /\ exists f, snake_tris t' (su_index su) = [f] /\ In (t_snake, 5) (tri_pts (fc_tri f)).
Proof.
  assert (E : exists a b c d e g k', maintain 9 (ek [] c21') em wt et21 = Ok (mkTris a b c d e g, k') /\ exists f, snake_tris (mkTris a b c d e g) 21 = [f] /\ tri_pts (fc_tri f) = [(t_snake, 1); (t_snake, 2); (t_snake, 5)]).
  { do 7 eexists. split; [cbv -[Ropp R1 IZR]; reflexivity|]. eexists. split; reflexivity. }
  destruct E as (x1 & x2 & x3 & x4 & x5 & x6 & k' & E & f & Ef & Pf).
  exists 9%nat, em, wt, (ek [] c21), et21, c21', (mkTris x1 x2 x3 x4 x5 x6), k', (mkSurf 21 false true [1; 0] [11; 14; 15]).
  split; [|split; [|split; [reflexivity|split; [vm_compute; reflexivity|split; [exact E|split; [now left|split]]]]]].
  - constructor.
    + split; [distinct|]. intros x I. members I; cbn; lia.
    + split; [distinct|]. intros x I. members I; cbn; lia.
    + intros x i I X. members I; repeat (destruct X as [X|X]; try discriminate X); contradiction.
    + intros x I T. members I. discriminate T.
    + intros x i I X. members I; repeat (destruct X as [X|X]; try discriminate X); try contradiction. injection X as <-.
      exists (mkCentre 1 1 t_mesh 4). split; [pick|auto].
    + intros x I. members I; discriminate.
  - intros s I. members I. split.
    + exists [1; 2; 5]. split; [apply e21|]. split; [intros x I; members I; reflexivity|]. left. split; [reflexivity|]. split; reflexivity.
    + exists 7, 1, [0]. split; [pick|]. split; [reflexivity|]. intros x I. members I. split; reflexivity.
  - clear E Ef Pf. split; [cbn; lia|]. split; [distinct|]. split; [reflexivity|]. side; a_join.
  - exists f. split; [exact Ef|]. rewrite Pf. pick.
Qed.
Print Assumptions C95_refuted.
