(** Splitting all the surfaces. *)
From Verif Require Import Base Containers Mesh Flood Edit Order MeshTri SpecMesh SpecOrder SpecMeshTri ContainersProofs MeshProofs TetgenOther MeshTriProofs.
Import Mesh.
Set Implicit Arguments.
Open Scope Z_scope.

Section Whole.
Variables (m : mesh) (ts : list tri).
Hypotheses (W : well_connected m) (P : polygonal m) (L : legal_tris m ts).
Definition whole (w : work) : mesh := concatenate (w_out w) (w_new w).
Record inv (done : list Z) (w : work) (F : list fan) : Prop := {
  i_v : map ve_index (verts (w_out w)) = map ve_index (verts m);
  i_e : map (fun e => (ed_index e, ed_vertind e)) (edges (w_out w)) = map (fun e => (ed_index e, ed_vertind e)) (edges m);
  i_s : map su_index (surfs (w_out w)) = map su_index (surfs m);
  i_c : map vo_index (volus (w_out w)) = map vo_index (volus m);
  i_d : meshDim (w_out w) = meshDim m;
  i_n : volus (w_new w) = [];
  i_left : forall t, In t (surfs m) -> ~ In (su_index t) done -> In t (surfs (w_out w));
  i_bv : forall a, In a (verts (w_new w)) -> max_index ve_index (verts m) < ve_index a <= last_vert m w;
  i_be : forall a, In a (edges (w_new w)) -> max_index ed_index (edges m) < ed_index a <= last_edge m w;
  i_bs : forall a, In a (surfs (w_new w)) -> max_index su_index (surfs m) < su_index a <= last_surf m w;
  i_well : well_connected (whole w);
  i_poly : polygonal (whole w);
  i_nodup : NoDup (map (fun f => su_index (f_surf f)) F);
  i_done : forall i, In i (map (fun f => su_index (f_surf f)) F) <-> In i done;
  i_fan : forall f, In f F -> In (f_surf f) (surfs m) /\ NoDup (f_corners f) /\
     polygon (edge_joins m) (su_edgeind (f_surf f)) (f_corners f) /\ fan_of m (whole w) (f_surf f) (f_corners f) (f_vertex f) (f_tris f);
  i_surfs : forall t, In t (surfs (whole w)) <-> (In t (surfs m) /\ ~ In (su_index t) done) \/ exists f, In f F /\ In t (f_tris f);
  i_verts : map ve_index (verts (whole w)) = map ve_index (verts m) ++ map f_vertex F;
  i_edges : forall e, has_edge (whole w) e -> has_edge m e \/ exists f x, In f F /\ In x (f_corners f) /\ edge_joins (whole w) e (f_vertex f) x;
  i_from : Forall2 (fun f c => exists t, In t ts /\ tr_parent t = su_index (f_surf f) /\ In (centre_type, c) (tr_points t)) F (w_from w) }.
Lemma inv_start : inv [] (mkWork m (mkMesh [] [] [] [] 0) []) [].
Proof using All.
  assert (Q : whole (mkWork m (mkMesh [] [] [] [] 0) []) = m) by (unfold whole, concatenate; destruct m; cbn; rewrite !app_nil_r; reflexivity).
  split; rewrite ?Q; cbn [w_out w_new w_from verts edges surfs volus meshDim map]; auto; try (intros ? []; fail); try tauto.
  - constructor.
  - intros t. split; [tauto|]. intros [[H _]|[f [[] _]]]. exact H.
  - rewrite app_nil_r. reflexivity.
Qed.
Lemma centre_found l : (exists p, In p l /\ fst p = centre_type) -> exists c, centre_point l = Some c /\ In (centre_type, c) l.
Proof using.
  induction l as [|[a b] l IH]; intros [p [H E]]; [destruct H|]. cbn [centre_point fst snd]. destruct (Z.eqb_spec a centre_type) as [->|N].
  - exists b. simpl. auto.
  - destruct H as [<-|H]; [contradiction|]. destruct IH as [c [C1 C2]]; [exists p; auto|]. exists c. simpl. auto.
Qed.
Lemma in_by_max A (idx : A -> Z) l i : In i (map idx l) -> i <= max_index idx l.
Proof using. intros H. apply in_map_idx in H. destruct H as [a [A1 <-]]. apply max_index_ge. auto. Qed.
Lemma split_step t done w F : In t ts -> mixed t = true -> ~ In (tr_parent t) done -> inv done w F ->
  exists w' f, split m t w = Ok w' /\ inv (tr_parent t :: done) w' (F ++ [f]).
Proof using All.
  intros Ht Hm Hd [Iv Ie Is Ic Id In0 Ileft Bv Be Bs Iw Ip Ind Idone Ifan Isurfs Iverts Iedges Ifrom].
  destruct (L t Ht Hm) as [[s [Hs Es]] Hc]. destruct (centre_found _ Hc) as [c [Ec Hc']].
  destruct (P s Hs) as [N3 [vs [ND Pol]]].
  assert (So : In s (surfs (w_out w))) by (apply Ileft; auto; rewrite Es; auto).
  assert (Ie' : map ed_index (edges (w_out w)) = map ed_index (edges m)).
  { pose proof (f_equal (map fst) Ie) as Q. rewrite !map_map in Q. exact Q. }
  pose proof (max_index_nonneg ve_index (verts m)) as Zv. pose proof (max_index_nonneg ed_index (edges m)) as Ze. pose proof (max_index_nonneg su_index (surfs m)) as Zs.
  assert (Lv0 : 0 <= last_vert m w) by (unfold last_vert; lia). assert (Le0 : 0 <= last_edge m w) by (unfold last_edge; lia). assert (Ls0 : 0 <= last_surf m w) by (unfold last_surf; lia).
  assert (Hv : forall i, has_vert m i -> i <= max_index ve_index (verts m)) by (intros i H; apply in_by_max, in_map_idx; exact H).
  assert (He : forall i, has_edge m i -> i <= max_index ed_index (edges m)) by (intros i H; apply in_by_max, in_map_idx; exact H).
  assert (Hsu : forall i, has_surf m i -> i <= max_index su_index (surfs m)) by (intros i H; apply in_by_max, in_map_idx; exact H).
  assert (Wv : forall i, has_vert (whole w) i -> i < last_vert m w + 1).
  { intros i [a [A1 <-]]. unfold whole, concatenate in A1. cbn [verts] in A1. apply in_app_iff in A1. destruct A1 as [A1|A1]; [|specialize (Bv _ A1); lia].
    assert (Q : In (ve_index a) (map ve_index (verts m))) by (rewrite <- Iv; apply in_map; auto). apply in_by_max in Q. unfold last_vert. lia. }
  assert (We : forall i, has_edge (whole w) i -> i <= last_edge m w).
  { intros i [a [A1 <-]]. unfold whole, concatenate in A1. cbn [edges] in A1. apply in_app_iff in A1. destruct A1 as [A1|A1]; [|specialize (Be _ A1); lia].
    assert (Q : In (ed_index a) (map ed_index (edges m))) by (rewrite <- Ie'; apply in_map; auto). apply in_by_max in Q. unfold last_edge. lia. }
  assert (Ws : forall i, has_surf (whole w) i -> i <= last_surf m w).
  { intros i [a [A1 <-]]. unfold whole, concatenate in A1. cbn [surfs] in A1. apply in_app_iff in A1. destruct A1 as [A1|A1]; [|specialize (Bs _ A1); lia].
    assert (Q : In (su_index a) (map su_index (surfs m))) by (rewrite <- Is; apply in_map; auto). apply in_by_max in Q. unfold last_surf. lia. }
  assert (Nv : forall a, In a (verts (w_new w)) -> ~ In (ve_index a) (map ve_index (verts m))) by (intros a A1 Q; apply in_by_max in Q; specialize (Bv _ A1); lia).
  assert (Ne : forall a, In a (edges (w_new w)) -> ~ In (ed_index a) (map ed_index (edges m))) by (intros a A1 Q; apply in_by_max in Q; specialize (Be _ A1); lia).
  assert (Ns : forall a, In a (surfs (w_new w)) -> ~ In (su_index a) (map su_index (surfs m))) by (intros a A1 Q; apply in_by_max in Q; specialize (Bs _ A1); lia).
  assert (Vp : 0 < last_vert m w + 1) by lia.
  assert (Hv1 : forall i, has_vert m i -> i < last_vert m w + 1) by (intros i H; specialize (Hv i H); unfold last_vert; lia).
  assert (He1 : forall i, has_edge m i -> i <= last_edge m w) by (intros i H; specialize (He i H); unfold last_edge; lia).
  assert (Hs1 : forall i, has_surf m i -> i <= last_surf m w) by (intros i H; specialize (Hsu i H); unfold last_surf; lia).
  pose proof (@after_all m s vs W Hs N3 ND Pol (w_out w) (w_new w) (last_vert m w + 1) (last_edge m w) (last_surf m w) Iv Ie' Is Ic Iw So In0 Ie Le0 Ls0 Vp We Ws Wv Nv Ne Ns He1 Hs1 Hv1) as G.
  destruct (@corners_ok m s vs W Hs N3 ND Pol (w_out w) (w_new w) (last_vert m w + 1) (last_edge m w) (last_surf m w) Iv Ie' Is Ic) as [el [E1 E2]].
  destruct (@first_ok m s vs W Hs N3 ND Pol) as [ll [F1 _]].
  set (hb := hub s (last_vert m w + 1) (last_edge m w)).
  set (new1 := mkMesh (volus (w_new w)) (surfs (w_new w)) (edges (w_new w)) (verts (w_new w) ++ [hb]) (meshDim (w_new w))).
  destruct (@split_loop m s vs W Hs N3 ND Pol (w_out w) new1 (last_vert m w + 1) (last_edge m w) (last_surf m w) Iv Ie' Is Ic ll F1) as [l' E3].
  assert (Ea : at_ (surfs m) (find su_index (surfs m) (tr_parent t)) = Ok s).
  { destruct (find_at su_index (surfs m) (ex_intro _ s (conj Hs Es))) as [a [A1 [A2 A3]]]. rewrite A1. f_equal. apply (NoDup_idx_inj su_index (surfs m)); auto; [apply W|congruence]. }
  eexists. exists (mkFan s vs (last_vert m w + 1) (tris s (last_edge m w) (last_surf m w))). split.
  - unfold split. rewrite Ea. cbn [bind]. rewrite E1. cbn [bind]. rewrite Ec, E2. rewrite F1. cbn [bind].
    replace (length (find_list ed_index (edges m) (su_edgeind s))) with (length (su_edgeind s)) by (unfold find_list; rewrite map_length; reflexivity).
    rewrite <- Es. fold (hub s (last_vert m w + 1) (last_edge m w)). fold hb. fold new1. rewrite E3. cbn [bind fst snd]. reflexivity.
  - match goal with |- inv _ ?x _ => set (w' := x) end.
    match type of G with well_connected ?x /\ _ => change x with (whole w') in G end.
    destruct G as [G1 [G2 [G3 [G4 [G5 [G6 [G7 G8]]]]]]]. rewrite <- Es in *.
    assert (Hmono : forall x, has_vert (whole w) x -> has_vert (whole w') x).
    { intros x [a A]. apply in_map_idx. rewrite G7. apply in_app_iff. left. apply in_map_idx. exists a. exact A. }
    split.
    + cbn [w' w_out verts]. rewrite <- Iv, map_map. apply map_ext. intros; apply acc_idx; reflexivity.
    + cbn [w' w_out edges]. rewrite <- Ie, map_map. apply map_ext. intros a. f_equal; [apply acc_idx; reflexivity|].
      unfold edge_acc, acc. generalize (seq 1 (length (su_edgeind s) - 1)). intros ks. revert a. induction ks as [|k ks IH]; intros a; [reflexivity|]. cbn [fold_left]. rewrite IH. destruct (ev s k =? ed_index a); reflexivity.
    + cbn [w' w_out surfs]. rewrite <- Is, map_map. apply map_ext. intros a. unfold cut. destruct (su_index a =? su_index s); reflexivity.
    + cbn [w' w_out volus]. rewrite <- Ic, map_map. apply map_ext. intros; apply acc_idx; reflexivity.
    + exact Id.
    + exact In0.
    + intros u Hu Nu. cbn [w' w_out surfs]. apply in_map_iff. exists u. split; [unfold cut; destruct (Z.eqb_spec (su_index u) (su_index s)) as [Q|Q]; [exfalso; apply Nu; simpl; auto|reflexivity]|].
      apply Ileft; auto. intros Q. apply Nu. simpl. auto.
    + intros a. cbn [w' w_new verts]. unfold last_vert. cbn [w' w_new verts new1]. rewrite app_length. cbn [length]. rewrite in_app_iff. intros [A1|[<-|[]]].
      * specialize (Bv _ A1). unfold last_vert in Bv. lia.
      * unfold hb, hub. cbn [ve_index]. unfold last_vert. lia.
    + intros a. cbn [w' w_new edges]. unfold last_edge. cbn [w' w_new edges new1]. rewrite app_length, map_length, seq_length. rewrite in_app_iff. intros [A1|A1].
      * specialize (Be _ A1). unfold last_edge in Be. lia.
      * apply in_map_iff in A1. destruct A1 as [k [<- K]]. apply in_seq in K. unfold new_edge, Ek. cbn [ed_index]. unfold last_edge. lia.
    + intros a. cbn [w' w_new surfs]. unfold last_surf. cbn [w' w_new surfs new1]. rewrite app_length, map_length, seq_length. rewrite in_app_iff. intros [A1|A1].
      * specialize (Bs _ A1). unfold last_surf in Bs. lia.
      * apply in_map_iff in A1. destruct A1 as [k [<- K]]. apply in_seq in K. unfold new_surf, Sk. cbn [su_index]. unfold last_surf. lia.
    + exact G1.
    + apply G2. exact Ip.
    + rewrite map_app. apply TetgenOther.NoDup_app_one; auto. cbn [f_surf]. intros Q. apply Idone in Q. auto.
    + intros i. rewrite map_app, in_app_iff, Idone. simpl. tauto.
    + intros f Hf. apply in_app_iff in Hf. destruct Hf as [Hf|[<-|[]]]; [|cbn [f_surf f_corners f_vertex f_tris]; auto].
      destruct (Ifan f Hf) as [Q1 [Q2 [Q3 [Q4 [Q5 [Q6 Q7]]]]]]. split; auto. split; auto. split; auto. split; auto. split; auto. split; auto.
      intros k u Hu. destruct (Q7 k u Hu) as [R1 [R2 [R3 [a [b [e [x [y [T1 [T2 [T3 [T4 [T5 [T6 T7]]]]]]]]]]]]]]. split.
      * apply G4. left. split; auto. intros E. destruct (k =? 0)%nat.
        -- apply Hd. apply Idone. rewrite <- E, R3. apply in_map_iff. exists f. auto.
        -- apply R3. exists s. auto.
      * split; auto. split; auto. exists a, b, e, x, y. repeat (split; [assumption|]). destruct T7 as [[T7 T8]|[T7 T8]]; [left|right]; split; apply G8; auto.
    + intros u. rewrite G4, Isurfs. split.
      * intros [[[[H1 H2]|[f [H1 H2]]] D]|H]; [left; split; auto; simpl; intros [Q|Q]; auto|right; exists f; rewrite in_app_iff; auto|].
        right. eexists. split; [apply in_app_iff; right; simpl; auto|exact H].
      * intros [[H1 H2]|[f [H1 H2]]]; [left; split; [left; split; auto; intros Q; apply H2; simpl; auto|intros Q; apply H2; simpl; auto]|].
        apply in_app_iff in H1. destruct H1 as [H1|[<-|[]]]; [left|right; exact H2]. split; [right; exists f; auto|].
        destruct (Ifan f H1) as [_ [_ [_ [_ [_ [_ Q7]]]]]]. destruct (In_nth_error _ _ H2) as [k Hk]. destruct (Q7 k u Hk) as [_ [_ [R3 _]]]. intros E. destruct (k =? 0)%nat.
        -- apply Hd. apply Idone. rewrite <- E, R3. apply in_map_iff. exists f. auto.
        -- apply R3. exists s. auto.
    + rewrite G7. fold (whole w). rewrite Iverts, map_app, <- app_assoc. reflexivity.
    + intros e H. apply G6 in H. destruct H as [H|[x [X1 X2]]].
      * apply Iedges in H. destruct H as [H|[f [x [H1 [H2 H3]]]]]; [auto|]. right. exists f, x. rewrite in_app_iff. auto.
      * right. eexists. exists x. split; [apply in_app_iff; right; simpl; left; reflexivity|]. auto.
    + cbn [w' w_from]. apply Forall2_app; auto. constructor; [|constructor]. exists t. cbn [f_surf]. auto.
Qed.
Lemma split_all_ok l : (forall t, In t l -> In t ts) -> forall done w F, inv done w F ->
  exists w' F' done', split_all m l done w = Ok w' /\ inv done' w' F' /\ (forall i, In i done' <-> In i done \/ to_split l i).
Proof using All.
  induction l as [|t l IH]; intros Hl done w F I.
  - exists w, F, done. split; [reflexivity|]. split; auto. intros i. split; [auto|]. intros [H|[t [[] _]]]. exact H.
  - cbn [split_all]. destruct (mixed t) eqn:Hm; cbn [andb].
    + destruct (mem_z (tr_parent t) done) eqn:Hd; cbn [negb].
      * apply mem_z_In in Hd. destruct (IH (fun x h => Hl x (or_intror h)) done w F I) as [w' [F' [done' [E [I' D]]]]]. exists w', F', done'. split; auto. split; auto.
        intros i. rewrite D. split; [intros [H|[u [U1 U2]]]; [auto|right; exists u; simpl; auto]|]. intros [H|[u [[<-|U1] [U2 U3]]]]; [auto|left; congruence|right; exists u; auto].
      * assert (Nd : ~ In (tr_parent t) done) by (intros Q; apply mem_z_In in Q; congruence).
        destruct (@split_step t done w F) as [w1 [f [E1 I1]]]; auto; [apply Hl; simpl; auto|]. rewrite E1. cbn [bind].
        destruct (IH (fun x h => Hl x (or_intror h)) _ _ _ I1) as [w' [F' [done' [E [I' D]]]]]. exists w', F', done'. split; auto. split; auto.
        intros i. rewrite D. cbn [In]. split.
        -- intros [[H|H]|[u [U1 U2]]]; [right; exists t; simpl; auto|auto|right; exists u; simpl; auto].
        -- intros [H|[u [[<-|U1] [U2 U3]]]]; [auto|auto|right; exists u; auto].
    + destruct (IH (fun x h => Hl x (or_intror h)) done w F I) as [w' [F' [done' [E [I' D]]]]]. exists w', F', done'. split; auto. split; auto.
      intros i. rewrite D. split; [intros [H|[u [U1 U2]]]; [auto|right; exists u; simpl; auto]|]. intros [H|[u [[<-|U1] [U2 U3]]]]; [auto|congruence|right; exists u; auto].
Qed.
Lemma triangulation_ok : exists m' from F, mesh_triangulation m ts = Ok (m', from) /\ well_connected m' /\ polygonal m' /\ kept m m' /\ fans_for m m' ts F from.
Proof using All.
  destruct (@split_all_ok ts (fun _ h => h) [] _ [] inv_start) as [w [F [done [E [I D]]]]].
  exists (whole w), (w_from w), F. unfold mesh_triangulation. rewrite E. split; [reflexivity|]. destruct I.
  assert (D' : forall i, In i done <-> to_split ts i) by (intros i; rewrite D; simpl; tauto).
  split; auto. split; auto. split; [|].
  - split; [rewrite i_verts0; eauto|]. split; [|split; [|exact i_d0]].
    + unfold whole, concatenate. cbn [edges]. rewrite map_app, i_e0. eauto.
    + unfold whole, concatenate. cbn [volus]. rewrite i_n0, app_nil_r. exact i_c0.
  - split; auto. split; [intros i; rewrite i_done0; auto|]. split; auto. split; [|auto]. intros t. rewrite i_surfs0, D'. tauto.
Qed.
End Whole.
